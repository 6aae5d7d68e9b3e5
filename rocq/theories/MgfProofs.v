(* The moments obtained from the moment generating function satisfy the Gaussian recursion. *)
From mathcomp Require Import all_ssreflect all_algebra.
From mathcomp Require Import zify ring.
From Verif Require Import Prelude MgfModel MomentsNdModel MomentsNdSpec MomentsNdMvn.
Set Implicit Arguments.
Unset Strict Implicit.
Unset Printing Implicit Defensive.
Import Order.TTheory GRing.Theory Num.Theory.
Local Open Scope ring_scope.

Section Words.
Definition wdel (w : seq nat) p := take p w ++ drop p.+1 w.
Lemma size_wdel w p : (p < size w)%N -> size (wdel w p) = (size w).-1.
Proof. by move=> h; rewrite size_cat size_take size_drop h; lia. Qed.

Fixpoint word_from (k : nat) (n : seq nat) : seq nat :=
  match n with [::] => [::] | c :: n' => nseq c k ++ word_from k.+1 n' end.
Definition word n := word_from 0 n.

Lemma count_word_from k n j :
  count_mem j (word_from k n) = if (k <= j)%N then nth 0%N n (j - k) else 0%N.
Proof.
elim: n k => [|c n IH] k /=; first by rewrite nth_nil if_same.
rewrite count_cat count_nseq IH /=.
case: (ltngtP k j) => h; rewrite ?mul0n ?add0n //.
- by have -> : (j - k = (j - k.+1).+1)%N by lia.
- by rewrite h subnn /= mul1n addn0.
Qed.

Lemma count_word n j : count_mem j (word n) = nth 0%N n j.
Proof. by rewrite count_word_from leq0n subn0. Qed.

Lemma all_word_from k n : all (leq k) (word_from k n).
Proof.
elim: n k => [|c n IH] k //=; rewrite all_cat all_nseq leqnn orbT /=.
by apply: sub_all (IH k.+1) => j; exact: ltnW.
Qed.

Lemma sorted_word_from k n : sorted leq (word_from k n).
Proof.
elim: n k => [|c n IH] k //=; elim: c => [|c IHc] //=.
rewrite path_sortedE; last exact: leq_trans.
rewrite IHc andbT all_cat all_nseq leqnn orbT /=.
by apply: sub_all (all_word_from k.+1 n) => j; exact: ltnW.
Qed.

Lemma wdel_word n p : (p < size (word n))%N ->
  wdel (word n) p = word (mdec n (nth 0%N (word n) p)).
Proof.
set w := word n => hp; set j := nth 0%N w p.
apply: (sorted_eq leq_trans anti_leq).
- apply: (subseq_sorted leq_trans) (sorted_word_from 0 n); rewrite -[word_from 0 n]/w.
  rewrite -[X in subseq _ X](cat_take_drop p w); apply: cat_subseq => //.
  by rewrite (drop_nth 0%N hp); exact: subseq_cons.
- exact: sorted_word_from.
have hpw : perm_eq w (j :: wdel w p).
  by rewrite -{1}(cat_take_drop p w) (drop_nth 0%N hp) -cat1s perm_catCA.
apply/allP => i _ /=; apply/eqP; rewrite count_word nth_mdec.
have /permP /(_ (pred1 i)) /= := hpw; rewrite count_word => ->.
by rewrite [i == j]eq_sym; case: (j == i); rewrite ?subn0 // add1n subn1.
Qed.

Lemma sum_word (R : rcfType) d n (F : nat -> R) : size n = d ->
  \sum_(j <- word n) F j = \sum_(j < d) (nth 0%N n j)%:R * F j.
Proof.
rewrite /word => hs.
have h k m : \sum_(j <- word_from k m) F j = \sum_(j < size m) (nth 0%N m j)%:R * F (k + j)%N.
  elim: m k => [|c m IH] k /=; first by rewrite big_nil big_ord0.
  rewrite big_cat big_ord_recl /= IH big_nseq addn0; congr (_ + _).
    by elim: c => [|c IHc] //=; rewrite ?mul0r // IHc -[c.+1]add1n natrD mulrDl mul1r.
  by apply: eq_bigr => j _; rewrite /bump /= add1n addnS addSn.
by rewrite h hs; apply: eq_bigr => j _; rewrite add0n.
Qed.

Lemma word_minc n i : (forall j, (j < i)%N -> nth 0%N n j = 0%N) -> word (minc n i) = i :: word n.
Proof.
move=> h; apply: (sorted_eq leq_trans anti_leq); first exact: sorted_word_from.
  rewrite /= path_sortedE ?sorted_word_from ?andbT; last exact: leq_trans.
  apply/allP => j hj; rewrite leqNgt; apply/negP => /h.
  by rewrite -count_word => /eqP; rewrite -leqn0 leqNgt -has_count has_pred1 hj.
by apply/allP => j _ /=; apply/eqP; rewrite !count_word nth_minc eq_sym addnC.
Qed.

Lemma word_nseq d : word (nseq d 0%N) = [::].
Proof. by have h k : word_from k (nseq d 0%N) = [::]; [elim: d k => //= | exact: h]. Qed.
End Words.

Section Jets.
Variables (R : rcfType) (exp : R -> R).
Implicit Types (e a b : expr R) (w : seq nat).

Definition dword e w := foldl (fun e k => diff k e) e w.
Definition jet e w : R := eval exp (fun=> 0) (dword e w).

Lemma gradient_word k n e : gradient_from k n e = dword e (word_from k n).
Proof.
elim: n k e => [|c n IH] k e //=; rewrite IH /dword foldl_cat; congr (foldl _ _ _).
by elim: c e => [|c IHc] e //=; rewrite -IHc -iterSr.
Qed.

Lemma jet_cons e k w : jet e (k :: w) = jet (diff k e) w. Proof. by []. Qed.

Lemma jet_add a b w : jet (Add a b) w = jet a w + jet b w.
Proof. by elim: w a b => [|k w IH] a b //; rewrite !jet_cons IH. Qed.

Lemma jet_cst c w : jet (Cst c) w = if w is [::] then c else 0.
Proof. by elim: w c => [|k w IH] c //; rewrite jet_cons IH; case: w {IH}. Qed.

Lemma jet_var j w : jet (Var R j) w = if w is [:: l] then (j == l)%:R else 0.
Proof. by case: w => [|k w] //; rewrite jet_cons jet_cst. Qed.

(* b is affine at the origin *)
Lemma jet_mul a b (b0 : R) (b1 : nat -> R) w :
  jet b [::] = b0 -> (forall l, jet b [:: l] = b1 l) -> (forall w, (1 < size w)%N -> jet b w = 0) ->
  jet (Mul a b) w = jet a w * b0 + \sum_(p < size w) jet a (wdel w p) * b1 (nth 0%N w p).
Proof.
elim: w a b b0 b1 => [|l w IH] a b b0 b1 h0 h1 h2.
  by rewrite big_ord0 addr0 -h0.
rewrite jet_cons [diff l (Mul a b)]/= jet_add (IH _ b b0 b1) //.
rewrite (IH a (diff l b) (b1 l) (fun=> 0)); last first.
- by move=> w' hw; rewrite -jet_cons; apply: h2; exact: ltnW.
- by move=> k; rewrite -jet_cons h2.
- by rewrite -jet_cons.
rewrite [X in _ * b1 l + X]big1 => [|p _]; last by rewrite mulr0.
rewrite addr0 [X in _ = _ + X]big_ord_recl -addrA; congr (_ + _).
rewrite addrC; congr (_ + _) => //.
by rewrite /wdel /= drop0.
Qed.

Lemma jet_scale c b w : jet (Mul (Cst c) b) w = c * jet b w.
Proof.
have h0 w' b' : jet (Mul (Cst 0) b') w' = 0.
  elim: w' b' => [|k w' IH] b'; first by rewrite /jet /= mul0r.
  by rewrite jet_cons /= jet_add !IH addr0.
elim: w b => [|k w IH] b //; by rewrite jet_cons /= jet_add h0 IH add0r.
Qed.

(* a linear expression with coefficients c *)
Definition elin e (c : nat -> R) := [/\ jet e [::] = 0, forall l, jet e [:: l] = c l &
  forall w, (1 < size w)%N -> jet e w = 0].

(* a quadratic expression *)
Definition equad e (c : nat -> R) (q : nat -> nat -> R) :=
  [/\ jet e [::] = 0, forall l, jet e [:: l] = c l, forall i l, jet e [:: i; l] = q i l &
  forall w, (2 < size w)%N -> jet e w = 0].

Lemma elin_var j : elin (Var R j) (fun l => (j == l)%:R).
Proof.
split; first by rewrite jet_var.
  by move=> l; rewrite jet_var.
by move=> [|k [|k' w]] //; rewrite jet_var.
Qed.

Lemma elin_mul a b c c' : elin a c -> elin b c' ->
  equad (Mul a b) (fun=> 0) (fun i l => c i * c' l + c l * c' i).
Proof.
move=> [a0 a1 a2] [b0 b1 b2]; have h w := @jet_mul a b 0 c' w b0 b1 b2; split.
- by rewrite h big_ord0 mulr0 addr0.
- by move=> l; rewrite h mulr0 add0r big_ord1 /wdel /= a0 mul0r.
- move=> i l; rewrite h mulr0 add0r !big_ord_recl big_ord0 /wdel /= !a1 addr0.
  by rewrite addrC.
- move=> w hw; rewrite h mulr0 add0r big1 // => p _; rewrite a2 ?mul0r //.
  by rewrite size_wdel //; lia.
Qed.

Lemma elin_ext e c c' : c =1 c' -> elin e c -> elin e c'.
Proof. by move=> hc [h0 h1 h2]; split=> // l; rewrite -hc. Qed.

Lemma equad_ext e c c' q q' : c =1 c' -> q =2 q' -> equad e c q -> equad e c' q'.
Proof. by move=> hc hq [h0 h1 h2 h3]; split=> // [l|i l]; rewrite -?hc -?hq. Qed.

Lemma elin0 : elin (Cst 0) (fun=> 0).
Proof. by split=> [|l|w hw]; rewrite jet_cst //; case: w hw. Qed.
Lemma equad0 : equad (Cst 0) (fun=> 0) (fun _ _ => 0).
Proof. by split=> [|l|i l|w hw]; rewrite jet_cst //; case: w hw. Qed.

Lemma elin_add a b c c' : elin a c -> elin b c' -> elin (Add a b) (fun l => c l + c' l).
Proof.
move=> [a0 a1 a2] [b0 b1 b2]; split=> [|l|w hw]; rewrite jet_add.
- by rewrite a0 b0 addr0.
- by rewrite a1 b1.
- by rewrite a2 // b2 // addr0.
Qed.

Lemma equad_add a b c c' q q' : equad a c q -> equad b c' q' ->
  equad (Add a b) (fun l => c l + c' l) (fun i l => q i l + q' i l).
Proof.
move=> [a0 a1 a2 a3] [b0 b1 b2 b3]; split=> [|l|i l|w hw]; rewrite jet_add.
- by rewrite a0 b0 addr0.
- by rewrite a1 b1.
- by rewrite a2 b2.
- by rewrite a3 // b3 // addr0.
Qed.

Lemma elin_quad e c : elin e c -> equad e c (fun _ _ => 0).
Proof. by move=> [h0 h1 h2]; split=> // [i l|w hw]; rewrite h2 // ltnW. Qed.

Lemma equad_scale k e c q : equad e c q -> equad (Mul (Cst k) e) (fun l => k * c l) (fun i l => k * q i l).
Proof.
move=> [h0 h1 h2 h3]; split=> [|l|i l|w hw]; rewrite jet_scale.
- by rewrite h0 mulr0.
- by rewrite h1.
- by rewrite h2.
- by rewrite h3 // mulr0.
Qed.

Lemma elin_scale k e c : elin e c -> elin (Mul (Cst k) e) (fun l => k * c l).
Proof.
move=> [h0 h1 h3]; split=> [|l|w hw]; rewrite jet_scale.
- by rewrite h0 mulr0.
- by rewrite h1.
- by rewrite h3 // mulr0.
Qed.

Lemma elin_scaler k e c : elin e c -> elin (Mul e (Cst k)) (fun l => c l * k).
Proof.
move=> [h0 h1 h3]; have h w := @jet_mul e (Cst k) k (fun=> 0) w.
have hw w : jet (Mul e (Cst k)) w = jet e w * k.
  rewrite h ?jet_cst //; first by rewrite big1 ?addr0 // => p _; rewrite mulr0.
  by move=> [|l w'] //; rewrite jet_cst.
split=> [|l|w hs]; rewrite hw.
- by rewrite h0 mul0r.
- by rewrite h1.
- by rewrite h3 // mul0r.
Qed.

Lemma elin_edot (us vs : seq (expr R)) (F : nat -> nat -> R) s0 :
  (forall i, (i < minn (size us) (size vs))%N ->
     elin (Mul (nth s0 us i) (nth s0 vs i)) (F i)) ->
  elin (edot us vs) (fun l => \sum_(i < minn (size us) (size vs)) F i l).
Proof.
elim: us vs F => [|u us IH] [|v vs] F h /=; rewrite /edot /=; try by apply: elin_ext elin0 => l; rewrite ?minn0 ?min0n big_ord0.
rewrite minnSS.
apply: elin_ext (elin_add (h 0%N _) (IH vs (fun i => F i.+1) _)) => [l|//|i hi].
- by rewrite big_ord_recl.
- by rewrite /= minnSS.
by apply: (h i.+1); rewrite /= minnSS ltnS.
Qed.

Lemma equad_edot (us vs : seq (expr R)) (F : nat -> nat -> R) (Q : nat -> nat -> nat -> R) s0 :
  (forall i, (i < minn (size us) (size vs))%N ->
     equad (Mul (nth s0 us i) (nth s0 vs i)) (F i) (Q i)) ->
  equad (edot us vs) (fun l => \sum_(i < minn (size us) (size vs)) F i l)
     (fun k l => \sum_(i < minn (size us) (size vs)) Q i k l).
Proof.
elim: us vs F Q => [|u us IH] [|v vs] F Q h /=; rewrite /edot /=;
  try by apply: equad_ext equad0 => [l|i l]; rewrite ?minn0 ?min0n big_ord0.
rewrite minnSS.
apply: equad_ext (equad_add (h 0%N _) (IH vs (fun i => F i.+1) (fun i => Q i.+1) _)) => [l|i l|//|i hi].
- by rewrite big_ord_recl.
- by rewrite big_ord_recl.
- by rewrite /= minnSS.
by apply: (h i.+1); rewrite /= minnSS ltnS.
Qed.

Variables (d : nat) (m : 'cV[R]_d) (P : 'M[R]_d).
Hypothesis exp0 : exp 0 = 1.
Hypothesis hP : P^T = P.

Let lin_e := edot (zvars R d) [seq Cst (m i 0) | i <- enum 'I_d].
Let rows := [seq edot [seq Cst (P i j) | j <- enum 'I_d] (zvars R d) | i <- enum 'I_d].
Let quad_e := edot (zvars R d) rows.
Let q := Add lin_e (Mul (Cst (1 / 2%:R)) quad_e).
Let x0 := Cst (0 : R).

Let size_zvars : size (zvars R d) = d. Proof. by rewrite size_map size_iota. Qed.
Let nth_zvars i : (i < d)%N -> nth x0 (zvars R d) i = Var R i.
Proof. by move=> h; rewrite (nth_map 0%N) ?size_iota // nth_iota. Qed.

Let mget (i : nat) : R := if insub i is Some i' then m i' 0 else 0.
Let Pget (i j : nat) : R := if insub i is Some i' then (if insub j is Some j' then P i' j' else 0) else 0.
Let mgetE (i : 'I_d) : mget i = m i 0. Proof. by rewrite /mget valK. Qed.
Let PgetE (i j : 'I_d) : Pget i j = P i j. Proof. by rewrite /Pget !valK. Qed.

Lemma lin_eP : elin lin_e (fun l => \sum_(i < d) (i == l :> nat)%:R * mget i).
Proof.
have hs : minn (size (zvars R d)) (size [seq Cst (m i 0) | i <- enum 'I_d]) = d.
  by rewrite size_zvars size_map size_enum_ord minnn.
have := @elin_edot (zvars R d) [seq Cst (m i 0) | i <- enum 'I_d]
  (fun i l => (i == l)%:R * mget i) x0; rewrite hs; apply => i hi.
pose i' := Ordinal hi; rewrite nth_zvars // (nth_map i') ?size_enum_ord // (nth_ord_enum i' i') -mgetE.
exact: elin_scaler (elin_var _).
Qed.

Lemma rowP i (hi : (i < d)%N) :
  elin (nth x0 rows i) (fun l => \sum_(j < d) Pget i j * (j == l :> nat)%:R).
Proof.
pose i' := Ordinal hi; rewrite /rows (nth_map i') ?size_enum_ord // (nth_ord_enum i' i').
have hs : minn (size [seq Cst (P i' j) | j <- enum 'I_d]) (size (zvars R d)) = d.
  by rewrite size_zvars size_map size_enum_ord minnn.
have := @elin_edot [seq Cst (P i' j) | j <- enum 'I_d] (zvars R d)
  (fun j l => Pget i j * (j == l)%:R) x0; rewrite hs; apply => j hj.
pose j' := Ordinal hj; rewrite nth_zvars // (nth_map j') ?size_enum_ord // (nth_ord_enum j' j').
rewrite -(PgetE i' j'); exact: elin_scale (elin_var _).
Qed.

Lemma sum_pick (F : nat -> R) (l : 'I_d) : \sum_(i < d) (i == l :> nat)%:R * F i = F l.
Proof.
rewrite (bigD1 l) //= eqxx mul1r big1 ?addr0 // => i hi.
by rewrite -[(i == l :> nat)]/(i == l) (negbTE hi) mul0r.
Qed.

Lemma qP : exists Q1 Q2, [/\ equad q Q1 Q2, forall i : 'I_d, Q1 i = m i 0 & forall i j : 'I_d, Q2 i j = P i j].
Proof.
have hs : minn (size (zvars R d)) (size rows) = d.
  by rewrite size_zvars size_map size_enum_ord minnn.
pose rw (i l : nat) := \sum_(j < d) Pget i j * (j == l :> nat)%:R.
have hrw (i j : 'I_d) : rw i j = P i j.
  rewrite /rw; under eq_bigr do rewrite mulrC.
  by rewrite (sum_pick (fun l => Pget i l)) PgetE.
have hq := @equad_edot (zvars R d) rows (fun _ _ => 0)
  (fun i k l => (i == k)%:R * rw i l + (i == l)%:R * rw i k) x0.
rewrite hs in hq.
have /hq {}hq : forall i, (i < d)%N -> equad (Mul (nth x0 (zvars R d) i) (nth x0 rows i)) (fun=> 0)
    (fun k l => (i == k)%:R * rw i l + (i == l)%:R * rw i k).
  by move=> i hi; rewrite nth_zvars //; apply: elin_mul (elin_var _) (rowP hi).
eexists; eexists; split; first exact: equad_add (elin_quad lin_eP) (equad_scale (1 / 2%:R) hq).
  by move=> i /=; rewrite (sum_pick mget) mgetE big1 // mulr0 addr0.
move=> i j /=; rewrite add0r big_split /= (sum_pick (fun l => rw l j)) (sum_pick (fun l => rw l i)) !hrw.
have -> : P j i = P i j by rewrite -{1}hP mxE.
by field.
Qed.

Lemma mgf_rec (i : 'I_d) w : all (fun l => l < d)%N w ->
  jet (Exp q) (val i :: w) = m i 0 * jet (Exp q) w + \sum_(p < size w) jet (Exp q) (wdel w p) * Pget i (nth 0%N w p).
Proof.
move=> hw; have [Q1 [Q2 [[q0 q1 q2 q3] hQ1 hQ2]]] := qP.
rewrite jet_cons /= (@jet_mul (Exp q) (diff i q) (Q1 i) (Q2 i)); last first.
- by move=> w' hw'; rewrite -jet_cons; apply: q3.
- by move=> l; rewrite -jet_cons q2.
- by rewrite -jet_cons q1.
rewrite hQ1 mulrC; congr (_ + _); apply: eq_bigr => p _; congr (_ * _).
have hp : (nth 0%N w p < d)%N by apply: (all_nthP 0%N hw).
by rewrite -[nth 0%N w p]/(val (Ordinal hp)) hQ2 PgetE.
Qed.

Lemma mgf_one : jet (Exp q) [::] = 1.
Proof. by have [Q1 [Q2 [[q0 _ _ _] _ _]]] := qP; rewrite -exp0 -q0. Qed.

Lemma mgf_kan n : size n = d -> raw_moments_mvn_mgf exp m P n = raw_moments_mvn_kan m P n.
Proof.
move=> hn.
have hg k : raw_moments_mvn_mgf exp m P k = jet (Exp q) (word k).
  by rewrite /raw_moments_mvn_mgf /gradient_wrt_multi_index gradient_word.
have [k0 kr] := kan_moments m hP.
apply: (@mvn_unique_upto R d m P _ _ (sumn n)) => //.
- by rewrite hg word_nseq mgf_one.
- move=> k i hk _ hmin; rewrite !hg word_minc // mgf_rec; last first.
    apply/allP => l hl; rewrite ltnNge; apply/negP => hdl.
    by move: hl; rewrite -has_pred1 has_count count_word nth_default // hk.
  congr (_ + _).
  pose F l := jet (Exp q) (word (mdec k l)) * Pget i l.
  transitivity (\sum_(l <- word k) F l).
    rewrite (big_nth 0%N) big_mkord; apply: eq_bigr => p _.
    by rewrite /F -wdel_word.
  rewrite (sum_word F hk); apply: eq_bigr => j _; rewrite /F hg PgetE.
  by rewrite mulrA mulrC mulrA.
- by move=> k i hk _ _; exact: kr.
Qed.
End Jets.
