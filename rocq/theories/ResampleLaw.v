(* The law of the resampling schemes when the uniforms are uniformly distributed. *)
From mathcomp Require Import all_ssreflect all_algebra.
From mathcomp Require Import zify ring.
From Verif Require Import Prelude ResampleModel ResampleSpec ResampleProofs.
Set Implicit Arguments.
Unset Strict Implicit.
Unset Printing Implicit Defensive.
Import Order.TTheory GRing.Theory Num.Theory.
Local Open Scope ring_scope.

(* Specification. An expectation E on a class D of integrable functions of the random key. *)
Record is_expectation (R : rcfType) (K : Type) (D : (K -> R) -> Prop) (E : (K -> R) -> R) : Prop := IsExpectation {
  ex_one : D (fun=> 1) /\ E (fun=> 1) = 1;
  ex_comb : forall c f g, D f -> D g -> D (fun k => c * f k + g k) /\ E (fun k => c * f k + g k) = c * E f + E g;
  ex_ext : forall f g, D f -> (forall k, f k = g k) -> D g /\ E f = E g }.

(* u is uniformly distributed on [0, 1) *)
Definition uniform_draw (R : rcfType) (K : Type) (D : (K -> R) -> Prop) (E : (K -> R) -> R) (u : K -> R) : Prop :=
  (forall k, 0 <= u k < 1) /\
  forall b, 0 <= b <= 1 -> D (fun k => (u k <= b)%R%:R) /\ E (fun k => (u k <= b)%R%:R) = b.

(* u and v are independent: their joint distribution function is the product *)
Definition independent_draws (R : rcfType) (K : Type) (D : (K -> R) -> Prop) (E : (K -> R) -> R) (u v : K -> R) : Prop :=
  forall b c, 0 <= b <= 1 -> 0 <= c <= 1 ->
  let f := fun k => (u k <= b)%R%:R * (v k <= c)%R%:R in D f /\ E f = b * c.

(* sum of phi over a list of indices, and mean and variance of phi under the weights *)
Definition sum_at (R : rcfType) (phi : nat -> R) (idx : seq nat) : R := \sum_(i <- idx) phi i.
Definition wmean (R : rcfType) (w : seq R) (phi : nat -> R) : R := \sum_(j < size w) w`_j * phi j.
Definition wvar (R : rcfType) (w : seq R) (phi : nat -> R) : R := wmean w (fun j => (phi j - wmean w phi) ^+ 2).

Section Expect.
Variables (R : rcfType) (K : Type) (D : (K -> R) -> Prop) (E : (K -> R) -> R).
Hypothesis EP : is_expectation D E.

Lemma ex_zero : D (fun=> 0) /\ E (fun=> 0) = 0.
Proof.
have [d1 e1] := ex_one EP; have [d2 e2] := ex_comb EP (-1) d1 d1.
have h : forall k : K, -1 * 1 + 1 = 0 :> R by move=> k; rewrite mulr1 addNr.
by have [d3 e3] := ex_ext EP d2 h; split=> //; rewrite -e3 e2 e1 mulr1 addNr.
Qed.
Lemma ex_scale c f : D f -> D (fun k => c * f k) /\ E (fun k => c * f k) = c * E f.
Proof.
move=> df; have [d0 e0] := ex_zero; have [d1 e1] := ex_comb EP c df d0.
have [d2 e2] := ex_ext EP d1 (fun k => addr0 (c * f k)); split=> //.
by rewrite -e2 e1 e0 addr0.
Qed.
Lemma ex_add f g : D f -> D g -> D (fun k => f k + g k) /\ E (fun k => f k + g k) = E f + E g.
Proof.
move=> df dg; have [d1 e1] := ex_comb EP 1 df dg.
have h k : 1 * f k + g k = f k + g k by rewrite mul1r.
by have [d2 e2] := ex_ext EP d1 h; split=> //; rewrite -e2 e1 mul1r.
Qed.
Lemma ex_const c : D (fun=> c) /\ E (fun=> c) = c.
Proof.
have [d1 e1] := ex_one EP; have [d2 e2] := ex_scale c d1.
by have [d3 e3] := ex_ext EP d2 (fun=> mulr1 c); split=> //; rewrite -e3 e2 e1 mulr1.
Qed.
Lemma ex_sum (I : Type) (r : seq I) (c : I -> R) (f : I -> K -> R) : (forall i, D (f i)) ->
  D (fun k => \sum_(i <- r) c i * f i k) /\ E (fun k => \sum_(i <- r) c i * f i k) = \sum_(i <- r) c i * E (f i).
Proof.
move=> df; elim: r => [|i r [dr er]].
  have [d0 e0] := ex_zero; rewrite big_nil -[X in _ /\ _ = X]e0.
  have h k : 0 = \sum_(i <- [::]) c i * f i k by rewrite big_nil.
  by have [d e] := ex_ext EP d0 h.
have [d e] := ex_comb EP (c i) (df i) dr.
have h k : c i * f i k + \sum_(i <- r) c i * f i k = \sum_(i <- i :: r) c i * f i k by rewrite big_cons.
by have [d2 e2] := ex_ext EP d h; split=> //; rewrite -e2 e er big_cons.
Qed.
End Expect.

Lemma big_iota (R : rcfType) n (F : nat -> R) : \sum_(i <- iota 0 n) F i = \sum_(i < n) F i.
Proof. by rewrite -(big_mkord xpredT F) /index_iota subn0. Qed.

(* the sum of the clamped distances *)
Definition clamp01 (R : rcfType) (x : R) : R := if x <= 0 then 0 else if 1 <= x then 1 else x.
Lemma clamp01_in (R : rcfType) (x : R) : 0 <= clamp01 x <= 1.
Proof.
rewrite /clamp01; case: (lerP x 0) => h0; first by rewrite lexx ler01.
by case: (lerP 1 x) => h1; rewrite ?lexx ?ler01 // ltW //= ltW.
Qed.
Lemma clamp01_sum (R : rcfType) n (x : R) : 0 <= x <= n%:R -> \sum_(i < n) clamp01 (x - i%:R) = x.
Proof.
elim: n x => [|n IH] x /andP [h0 h1]; first by rewrite big_ord0; apply/eqP; rewrite eq_le h0 h1.
rewrite big_ord_recr /=; case: (lerP x n%:R) => hx.
  by rewrite IH ?h0 // /clamp01 subr_le0 hx addr0.
have -> : \sum_(i < n) clamp01 (x - i%:R) = n%:R.
  rewrite -[RHS]mulr_natl -[n in RHS]card_ord -sumr_const mulr1; apply: eq_bigr => i _.
  have hi : i%:R + 1 <= n%:R :> R by rewrite -mulrSr ler_nat.
  have h3 : 1 <= x - i%:R by rewrite ler_subr_addl (le_trans hi (ltW hx)).
  by rewrite /clamp01 h3 leNgt (lt_le_trans ltr01 h3).
rewrite /clamp01 subr_le0 leNgt hx /=; case: (lerP 1 (x - n%:R)) => h2; last by rewrite addrC subrK.
by apply/eqP; rewrite eq_le -mulrSr h1 andbT mulrSr -ler_subr_addl.
Qed.

Section Search.
Variables (R : rcfType) (ss : seq R -> R -> nat).
Hypothesis ssP : ss_left_spec ss.
Variable w : seq R.
Hypothesis hw : weight_vector w.
Local Notation n := (size w).
Local Notation pick v := (clip_index n (ss (cumsum w) v)).

Lemma pick_lt v : (pick v < n)%N.
Proof. by have := w_size hw; rewrite /clip_index; lia. Qed.
Lemma pick_le v j : v <= 1 -> (j < n)%N -> (pick v <= j)%N = (v <= cdf w j.+1).
Proof.
move=> v1 hj; have [wp ws] := hw; have [h1 h2 h3] := ssP v (cumsum_sorted wp).
rewrite size_cumsum in h1 h3; set s := ss _ _ in h1 h2 h3 *; rewrite /clip_index.
have hn : (s < n)%N.
  rewrite ltn_neqAle h1 andbT; apply/eqP => e.
  have := h2 n.-1; rewrite e prednK ?(w_size hw) // leqnn => /(_ isT).
  by rewrite nth_cumsum ?prednK ?(w_size hw) // cdf_size // ws ltNge v1.
have -> : minn s n.-1 = s by lia.
rewrite -nth_cumsum //; apply/idP/idP => h; first by rewrite h3 // h hj.
by rewrite leqNgt; apply/negP => /h2; rewrite ltNge h.
Qed.

Variables (K : Type) (D : (K -> R) -> Prop) (E : (K -> R) -> R).
Hypothesis EP : is_expectation D E.
Variable u : nat -> K -> R.
Hypothesis uP : forall i, (i < n)%N -> uniform_draw D E (u i).
Local Notation v i k := ((i%:R + u i k) / n%:R).

Lemma nn0 : 0 < n%:R :> R. Proof. by rewrite ltr0n w_size. Qed.
Lemma v_in i k : (i < n)%N -> 0 <= v i k <= 1.
Proof.
move=> hi; have /andP [u0 u1] := (uP hi).1 k; apply/andP; split.
  by rewrite divr_ge0 ?ler0n // addr_ge0 ?ler0n.
rewrite ler_pdivr_mulr ?nn0 // mul1r (le_trans (y := i%:R + 1)) ?ler_add2l ?(ltW u1) //.
by rewrite -mulrSr ler_nat.
Qed.
(* the event that the draw i picks an index up to j *)
Definition at_most i j k : R := (pick (v i k) <= j)%N%:R.
Lemma at_mostE i j k : (i < n)%N -> (j < n)%N ->
  at_most i j k = (u i k <= n%:R * cdf w j.+1 - i%:R)%R%:R.
Proof.
move=> hi hj; have /andP [_ v1] := v_in k hi; rewrite /at_most pick_le //.
by rewrite ler_pdivr_mulr ?nn0 // [_ * n%:R]mulrC ler_subr_addl.
Qed.
Lemma draw_law f b : (forall k, 0 <= f k < 1) -> (forall b, 0 <= b <= 1 -> D (fun k => (f k <= b)%R%:R) /\ E (fun k => (f k <= b)%R%:R) = b) ->
  D (fun k => (f k <= b)%R%:R) /\ E (fun k => (f k <= b)%R%:R) = clamp01 b.
Proof.
move=> hf hb; rewrite /clamp01; case: (lerP b 0) => b0.
  have h01 : 0 <= (0 : R) <= 1 by rewrite lexx ler01.
  have [d e] := hb 0 h01.
  case: (eqVneq b 0) => [->|bn]; first by [].
  have [d0 e0] := ex_zero EP.
  have h k : 0 = (f k <= b)%R%:R :> R.
    have /andP [f0 _] := hf k; rewrite leNgt (lt_le_trans _ f0) //; by rewrite lt_neqAle bn b0.
  by have [d1 e1] := ex_ext EP d0 h; split=> //; rewrite -e1.
case: (lerP 1 b) => b1; last by apply: hb; rewrite !ltW.
have [d1 e1] := ex_one EP.
have h k : 1 = (f k <= b)%R%:R :> R by have /andP [_ f1] := hf k; rewrite (le_trans (ltW f1) b1).
by have [d2 e2] := ex_ext EP d1 h; split=> //; rewrite -e2.
Qed.
Lemma at_most_law i j : (i < n)%N -> (j < n)%N ->
  D (at_most i j) /\ E (at_most i j) = clamp01 (n%:R * cdf w j.+1 - i%:R).
Proof.
move=> hi hj; have [h1 h2] := uP hi.
have [d e] := draw_law (n%:R * cdf w j.+1 - i%:R) h1 h2.
by have [d' e'] := ex_ext EP d (fun k => esym (at_mostE k hi hj)); split=> //; rewrite -e'.
Qed.

(* the event that the draw i picks j *)
Definition picks (i j : nat) k : R := (pick (v i k) == j)%:R.
Definition prob i j : R := clamp01 (n%:R * cdf w j.+1 - i%:R) - clamp01 (n%:R * cdf w j - i%:R).
Lemma picks_split i j k : picks i j.+1 k = at_most i j.+1 k - at_most i j k.
Proof.
rewrite /picks /at_most; case: (ltngtP (pick (v i k)) j.+1) => h.
- by rewrite -ltnS h subrr.
- by rewrite leqNgt (ltn_trans (ltnSn j) h) subrr.
- by rewrite h ltnn subr0.
Qed.
Lemma picks_law i j : (i < n)%N -> (j < n)%N -> D (picks i j) /\ E (picks i j) = prob i j.
Proof.
move=> hi; case: j => [|j] hj.
  have [d e] := at_most_law hi hj.
  have h k : at_most i 0%N k = picks i 0%N k by rewrite /at_most /picks leqn0.
  have [d' e'] := ex_ext EP d h; split=> //; rewrite -e' e /prob cdf0 mulr0 sub0r.
  have -> : clamp01 (- i%:R) = 0 :> R by rewrite /clamp01 oppr_le0 ler0n.
  by rewrite subr0.
have [d1 e1] := at_most_law hi hj; have [d2 e2] := at_most_law hi (ltnW hj).
have [d e] := ex_comb EP (-1) d2 d1.
have h k : -1 * at_most i j k + at_most i j.+1 k = picks i j.+1 k by rewrite picks_split mulN1r addrC.
by have [d' e'] := ex_ext EP d h; split=> //; rewrite -e' e e1 e2 /prob mulN1r addrC.
Qed.

Variable phi : nat -> R.
Lemma phi_pick i k : phi (pick (v i k)) = \sum_(j <- iota 0 n) phi j * picks i j k.
Proof.
rewrite (bigD1_seq (pick (v i k))) ?iota_uniq ?mem_iota ?pick_lt //= /picks eqxx mulr1.
by rewrite big1 ?addr0 // => j; rewrite eq_sym => /negPf ->; rewrite mulr0.
Qed.
Definition mean_at i (f : nat -> R) : R := \sum_(j <- iota 0 n) f j * prob i j.
Lemma phi_law i : (i < n)%N -> D (fun k => phi (pick (v i k))) /\ E (fun k => phi (pick (v i k))) = mean_at i phi.
Proof.
move=> hi; have df j : D (fun k => if (j < n)%N then picks i j k else 0).
  by case: ltnP => hj; [exact: (picks_law hi hj).1|exact: (ex_zero EP).1].
have [d e] := ex_sum EP (iota 0 n) phi df.
have h k : \sum_(j <- iota 0 n) phi j * (if (j < n)%N then picks i j k else 0) = phi (pick (v i k)).
  by rewrite phi_pick big_seq [RHS]big_seq; apply: eq_bigr => j; rewrite mem_iota add0n => /andP [_ ->].
have [d' e'] := ex_ext EP d h; split=> //; rewrite -e' e /mean_at big_seq [RHS]big_seq.
apply: eq_bigr => j; rewrite mem_iota add0n => /andP [_ hj]; rewrite hj.
by rewrite (picks_law hi hj).2.
Qed.

(* the expected number of copies of j *)
Lemma prob_sum j : (j < n)%N -> \sum_(i <- iota 0 n) prob i j = n%:R * w`_j.
Proof.
move=> hj; have cin m : 0 <= n%:R * cdf w m <= n%:R.
  have /andP [c0 c1] := cdf_in hw m; rewrite mulr_ge0 ?ler0n //=.
  by rewrite -[X in _ <= X]mulr1 ler_wpmul2l ?ler0n.
rewrite big_iota /prob sumrB !clamp01_sum //.
by rewrite cdfS // mulrDr addrC addKr.
Qed.
Lemma mean_at_sum f : \sum_(i <- iota 0 n) mean_at i f = n%:R * wmean w f.
Proof.
rewrite exchange_big /= /wmean mulr_sumr big_iota; apply: eq_bigr => j _.
by rewrite -mulr_sumr prob_sum // mulrC mulrA.
Qed.

Local Notation S k := (sum_at phi [seq pick (v i k) | i <- iota 0 n]).
Lemma sum_atE k : S k = \sum_(i <- iota 0 n) phi (pick (v i k)).
Proof. by rewrite /sum_at big_map. Qed.
Lemma sum_law : D (fun k => S k) /\ E (fun k => S k) = n%:R * wmean w phi.
Proof.
have df i : D (fun k => if (i < n)%N then phi (pick (v i k)) else 0).
  by case: ltnP => hi; [exact: (phi_law hi).1|exact: (ex_zero EP).1].
have [d e] := ex_sum EP (iota 0 n) (fun=> 1) df.
have h k : \sum_(i <- iota 0 n) 1 * (if (i < n)%N then phi (pick (v i k)) else 0) = S k.
  by rewrite sum_atE big_seq [RHS]big_seq; apply: eq_bigr => i; rewrite mem_iota add0n mul1r => /andP [_ ->].
have [d' e'] := ex_ext EP d h; split=> //; rewrite -e' e -mean_at_sum big_seq [RHS]big_seq.
apply: eq_bigr => i; rewrite mem_iota add0n mul1r => /andP [_ hi]; rewrite hi.
by rewrite (phi_law hi).2.
Qed.
End Search.

Section Variance.
Variables (R : rcfType) (ss : seq R -> R -> nat).
Hypothesis ssP : ss_left_spec ss.
Variable w : seq R.
Hypothesis hw : weight_vector w.
Local Notation n := (size w).
Local Notation pick v := (clip_index n (ss (cumsum w) v)).
Variables (K : Type) (D : (K -> R) -> Prop) (E : (K -> R) -> R).
Hypothesis EP : is_expectation D E.
Variable u : nat -> K -> R.
Hypothesis uP : forall i, (i < n)%N -> uniform_draw D E (u i).
Hypothesis uI : forall i i', (i < n)%N -> (i' < n)%N -> i != i' -> independent_draws D E (u i) (u i').
Local Notation v i k := ((i%:R + u i k) / n%:R).
Variable phi : nat -> R.
Local Notation mean i := (mean_at w i phi).

Lemma joint_law i i' b c : (i < n)%N -> (i' < n)%N -> i != i' ->
  let f := fun k => (u i k <= b)%R%:R * (u i' k <= c)%R%:R in D f /\ E f = clamp01 b * clamp01 c.
Proof.
move=> hi hi' ne /=; have h1 := (uP hi).1; have h2 := (uP hi').1.
have zero f x : (forall k, f k = 0) -> x = 0 -> D f /\ E f = x.
  move=> hf ->; have [d0 e0] := ex_zero EP.
  by have [d e] := ex_ext EP d0 (fun k => esym (hf k)); split=> //; rewrite -e.
case: (ltrP b 0) => b0.
  apply: zero => [k|]; last by rewrite {1}/clamp01 (ltW b0) mul0r.
  by have /andP [k0 _] := h1 k; rewrite leNgt (lt_le_trans b0 k0) mul0r.
case: (ltrP c 0) => c0.
  apply: zero => [k|]; last by rewrite {2}/clamp01 (ltW c0) mulr0.
  by have /andP [k0 _] := h2 k; rewrite [(u i' k <= c)%R]leNgt (lt_le_trans c0 k0) mulr0.
have cl (x b' : R) : 0 <= x < 1 -> 0 <= b' -> (x <= clamp01 b') = (x <= b').
  move=> /andP [x0 x1] hb; rewrite /clamp01; case: (lerP b' 0) => h.
    by have -> : b' = 0 by apply/eqP; rewrite eq_le h hb.
  by case: (lerP 1 b') => h' //; rewrite (ltW x1) (le_trans (ltW x1) h').
have [d e] := uI hi hi' ne (clamp01_in b) (clamp01_in c).
have h k : (u i k <= clamp01 b)%R%:R * (u i' k <= clamp01 c)%R%:R = (u i k <= b)%R%:R * (u i' k <= c)%R%:R :> R.
  by rewrite !cl.
by have [d' e'] := ex_ext EP d h; split=> //; rewrite -e'.
Qed.

(* the event that the draw i picks an index below j *)
Definition below i j k : R := (pick (v i k) < j)%N%:R.
Lemma belowE i j k : (i < n)%N -> (j < n)%N -> below i j.+1 k = (u i k <= n%:R * cdf w j.+1 - i%:R)%R%:R.
Proof. by move=> hi hj; rewrite -(at_mostE ssP hw uP k hi hj). Qed.
Lemma below_joint i i' j j' : (i < n)%N -> (i' < n)%N -> i != i' -> (j <= n)%N -> (j' <= n)%N ->
  D (fun k => below i j k * below i' j' k) /\
  E (fun k => below i j k * below i' j' k) = clamp01 (n%:R * cdf w j - i%:R) * clamp01 (n%:R * cdf w j' - i'%:R).
Proof.
move=> hi hi' ne hj hj'.
have c0 m : clamp01 (n%:R * cdf w 0 - m%:R) = 0 :> R.
  by rewrite /clamp01 cdf0 mulr0 sub0r oppr_le0 ler0n.
have zero f x : (forall k, f k = 0) -> x = 0 -> D f /\ E f = x.
  move=> hf ->; have [d0 e0] := ex_zero EP.
  by have [d e] := ex_ext EP d0 (fun k => esym (hf k)); split=> //; rewrite -e.
case: j hj => [|j] hj; first by apply: zero => [k|]; rewrite ?c0 ?mul0r // /below ltn0 mul0r.
case: j' hj' => [|j'] hj'; first by apply: zero => [k|]; rewrite ?c0 ?mulr0 // /below !ltn0 mulr0.
have [d e] := joint_law (n%:R * cdf w j.+1 - i%:R) (n%:R * cdf w j'.+1 - i'%:R) hi hi' ne.
have h k : (u i k <= n%:R * cdf w j.+1 - i%:R)%R%:R * (u i' k <= n%:R * cdf w j'.+1 - i'%:R)%R%:R
           = below i j.+1 k * below i' j'.+1 k by rewrite !belowE.
by have [d' e'] := ex_ext EP d h; split=> //; rewrite -e'.
Qed.
Local Notation pks := (picks ss w u).
Lemma pks_below i j k : pks i j k = below i j.+1 k - below i j k.
Proof.
rewrite /picks /below ltnS; case: (ltngtP (pick (v i k)) j) => h; rewrite ?subrr ?subr0 //.
Qed.
Lemma picks_joint i i' j j' : (i < n)%N -> (i' < n)%N -> i != i' -> (j < n)%N -> (j' < n)%N ->
  D (fun k => pks i j k * pks i' j' k) /\ E (fun k => pks i j k * pks i' j' k) = prob w i j * prob w i' j'.
Proof.
move=> hi hi' ne hj hj'.
have [d1 e1] := below_joint hi hi' ne hj hj'; have [d2 e2] := below_joint hi hi' ne hj (ltnW hj').
have [d3 e3] := below_joint hi hi' ne (ltnW hj) hj'; have [d4 e4] := below_joint hi hi' ne (ltnW hj) (ltnW hj').
have [d5 e5] := ex_comb EP (-1) d2 d1; have [d6 e6] := ex_comb EP (-1) d3 d4; have [d7 e7] := ex_add EP d5 d6.
set F := fun k => _ in d7 e7.
have h k : F k = pks i j k * pks i' j' k by rewrite /F !pks_below; ring.
have [d e] := ex_ext EP d7 h; split=> //; rewrite -e e7 e5 e6 e1 e2 e3 e4 /prob; ring.
Qed.

Local Notation X i k := (phi (pick (v i k))).
Lemma cross_law i i' : (i < n)%N -> (i' < n)%N -> i != i' ->
  D (fun k => X i k * X i' k) /\ E (fun k => X i k * X i' k) = mean i * mean i'.
Proof.
move=> hi hi' ne; pose F (p : nat * nat) k := if (p.1 < n)%N && (p.2 < n)%N then pks i p.1 k * pks i' p.2 k else 0.
have dF p : D (F p).
  rewrite /F; case: (boolP ((p.1 < n)%N && (p.2 < n)%N)) => [/andP [h1 h2]|_]; last exact: (ex_zero EP).1.
  exact: (picks_joint hi hi' ne h1 h2).1.
pose r := [seq (j, j') | j <- iota 0 n, j' <- iota 0 n].
have [d e] := ex_sum EP r (fun p => phi p.1 * phi p.2) dF.
have h k : \sum_(p <- r) phi p.1 * phi p.2 * F p k = X i k * X i' k.
  rewrite (phi_pick ss hw u phi i k) (phi_pick ss hw u phi i' k) big_distrl /= /r big_allpairs_dep /=.
  rewrite big_seq [RHS]big_seq; apply: eq_bigr => j; rewrite mem_iota add0n => /andP [_ hj].
  rewrite big_distrr /= big_seq [RHS]big_seq; apply: eq_bigr => j'; rewrite mem_iota add0n => /andP [_ hj'].
  by rewrite /F /= hj hj' /=; ring.
have [d' e'] := ex_ext EP d h; split=> //; rewrite -e' e /mean_at big_distrl /= /r big_allpairs_dep /=.
rewrite big_seq [RHS]big_seq; apply: eq_bigr => j; rewrite mem_iota add0n => /andP [_ hj].
rewrite big_distrr /= big_seq [RHS]big_seq; apply: eq_bigr => j'; rewrite mem_iota add0n => /andP [_ hj'].
rewrite /F /= hj hj' /= (picks_joint hi hi' ne hj hj').2; ring.
Qed.

Local Notation S k := (sum_at phi [seq pick (v i k) | i <- iota 0 n]).
Local Notation mu := (wmean w phi).
Lemma square_law : D (fun k => S k ^+ 2) /\
  E (fun k => S k ^+ 2) = (n%:R * mu) ^+ 2 + n%:R * wmean w (fun j => phi j ^+ 2) - \sum_(i < n) mean i ^+ 2.
Proof.
pose F (p : nat * nat) k := if (p.1 < n)%N && (p.2 < n)%N then X p.1 k * X p.2 k else 0.
pose G (p : nat * nat) := if p.1 == p.2 then mean_at w p.1 (fun j => phi j ^+ 2) else mean p.1 * mean p.2.
have FG i i' : (i < n)%N -> (i' < n)%N -> D (fun k => X i k * X i' k) /\ E (fun k => X i k * X i' k) = G (i, i').
  move=> hi hi'; rewrite /G /=; case: (eqVneq i i') => [<-|ne]; last exact: cross_law.
  have [d e] := phi_law ssP hw EP uP (fun j => phi j ^+ 2) hi.
  by have [d' e'] := ex_ext EP d (fun k => expr2 (X i k)); split=> //; rewrite -e'.
have dF p : D (F p).
  rewrite /F; case: (boolP ((p.1 < n)%N && (p.2 < n)%N)) => [/andP [h1 h2]|_]; last exact: (ex_zero EP).1.
  exact: (FG _ _ h1 h2).1.
pose r := [seq (j, j') | j <- iota 0 n, j' <- iota 0 n].
have [d e] := ex_sum EP r (fun=> 1) dF.
have h k : \sum_(p <- r) 1 * F p k = S k ^+ 2.
  rewrite (sum_atE ss w u phi k) expr2 big_distrl /= /r big_allpairs_dep /=.
  rewrite big_seq [RHS]big_seq; apply: eq_bigr => j; rewrite mem_iota add0n => /andP [_ hj].
  rewrite big_distrr /= big_seq [RHS]big_seq; apply: eq_bigr => j'; rewrite mem_iota add0n => /andP [_ hj'].
  by rewrite /F /= hj hj' mul1r.
have [d' e'] := ex_ext EP d h; split=> //; rewrite -e' e.
have -> : \sum_(p <- r) 1 * E (F p) = \sum_(i <- iota 0 n) \sum_(i' <- iota 0 n) G (i, i').
  rewrite /r big_allpairs_dep /=.
  rewrite big_seq [RHS]big_seq; apply: eq_bigr => j; rewrite mem_iota add0n => /andP [_ hj].
  rewrite big_seq [RHS]big_seq; apply: eq_bigr => j'; rewrite mem_iota add0n => /andP [_ hj'].
  by rewrite mul1r -(FG _ _ hj hj').2 /F /= hj hj'.
rewrite -!(mean_at_sum hw) expr2 big_distrl /= -(big_iota _ (fun i => mean i ^+ 2)) -addrA -sumrB -big_split /=.
rewrite big_seq [RHS]big_seq; apply: eq_bigr => i hi.
rewrite (bigD1_seq i) ?iota_uniq //= {1}/G /= eqxx big_distrr /= (bigD1_seq i hi (iota_uniq _ _)) /=.
have -> : \sum_(i' <- iota 0 n | i' != i) G (i, i') = \sum_(i' <- iota 0 n | i' != i) mean i * mean i'.
  by apply: eq_bigr => i' ne; rewrite /G /= eq_sym (negPf ne).
by rewrite [RHS]addrC expr2 -addrA addKr.
Qed.
Lemma wvarE : wvar w phi = wmean w (fun j => phi j ^+ 2) - mu ^+ 2.
Proof.
have ws : \sum_(j < n) w`_j = 1 by have [_ <-] := hw; rewrite (big_nth 0) big_mkord.
have gen c : wmean w (fun j => (phi j - c) ^+ 2) = wmean w (fun j => phi j ^+ 2) - 2%:R * c * mu + c ^+ 2 * \sum_(j < n) w`_j.
  by rewrite /wmean !mulr_sumr -sumrB -big_split /=; apply: eq_bigr => j _; ring.
rewrite /wvar gen ws; ring.
Qed.
Lemma square_dev : D (fun k => (S k - n%:R * mu) ^+ 2) /\
  E (fun k => (S k - n%:R * mu) ^+ 2) = n%:R * wvar w phi - \sum_(i < n) (mean i - mu) ^+ 2.
Proof.
have [d1 e1] := square_law; have [d2 e2] := sum_law ssP hw EP uP phi.
have [d3 e3] := ex_const EP ((n%:R * mu) ^+ 2); have [d4 e4] := ex_comb EP (- (2%:R * (n%:R * mu))) d2 d1.
have [d5 e5] := ex_add EP d4 d3; set F := fun k => _ in d5 e5.
have h k : F k = (S k - n%:R * mu) ^+ 2 by rewrite /F; ring.
have [d e] := ex_ext EP d5 h; split=> //; rewrite -e e5 e4 e3 e2 e1 wvarE.
have -> : \sum_(i < n) (mean i - mu) ^+ 2 = \sum_(i < n) mean i ^+ 2 - 2%:R * mu * (n%:R * mu) + n%:R * mu ^+ 2.
  have -> : n%:R * mu ^+ 2 = \sum_(i < n) mu ^+ 2 by rewrite sumr_const card_ord mulr_natl.
  rewrite -(mean_at_sum hw) big_iota mulr_sumr -sumrB -big_split /=.
  by apply: eq_bigr => j _; ring.
ring.
Qed.
Lemma square_dev_le : E (fun k => (S k - n%:R * mu) ^+ 2) <= n%:R * wvar w phi.
Proof. by rewrite square_dev.2 ger_addl oppr_le0 sumr_ge0 // => i _; exact: sqr_ge0. Qed.
End Variance.
