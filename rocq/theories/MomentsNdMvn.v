(* raw_moments_mvn_kan satisfies the recursion of the moments of N(mean, cov). *)
From mathcomp Require Import all_ssreflect all_algebra.
From mathcomp Require Import zify ring.
From Verif Require Import Prelude NdIndexModel SigmaSpec MomentsNdModel MomentsNdSpec MomentsNdKan.
Set Implicit Arguments.
Unset Strict Implicit.
Unset Printing Implicit Defensive.
Import Order.TTheory GRing.Theory Num.Theory.
Local Open Scope ring_scope.

Section Functional.
Variables (R : rcfType) (d : nat).
Implicit Types (n : seq nat) (f : 'cV[R]_d -> R).

Definition kan_sum n f : R :=
  \sum_(v <- itertools_product (kan_ranges n)) kan_sign R v * kan_comb R n v * f (kan_h R d n v).

Lemma sum_nth n : size n = d -> sumn n = (\sum_(i < d) nth 0 n i)%N.
Proof. by move=> <-; rewrite sumnE (big_nth 0%N) big_mkord. Qed.

Lemma kan_sum_mono n (e : 'I_d -> nat) : size n = d -> (\sum_i e i <= sumn n)%N ->
  kan_sum n (fun x => \prod_i x i 0 ^+ e i)
  = if [forall i : 'I_d, e i == nth 0%N n i] then \prod_(i < d) ((nth 0%N n i)`!)%:R else 0.
Proof.
move=> hn he.
pose g (i v : nat) : R := (-1) ^+ v * ('C(nth 0%N n i, v))%:R *
   ((nth 0%N n i)%:R / 2%:R - v%:R) ^+ (if insub i is Some i' then e i' else 0%N).
have hg (i : 'I_d) v : g i v = (-1) ^+ v * ('C(nth 0%N n i, v))%:R *
   ((nth 0%N n i)%:R / 2%:R - v%:R) ^+ e i by rewrite /g insubT //= => h; congr (_ * _ ^+ e _); apply/val_inj.
have -> : kan_sum n (fun x => \prod_i x i 0 ^+ e i) =
  \sum_(v <- itertools_product (kan_ranges n)) \prod_(i < d) g i (nth 0%N v i).
  apply: eq_big_seq => v /product_size; rewrite size_map hn => hv.
  rewrite /kan_sign /kan_comb (sum_nth (hv : size v = d)) jprod_iota hn expr_sum.
  rewrite -!big_split /=; apply: eq_bigr => i _; rewrite hg mxE //.
rewrite product_sum; last by rewrite size_map.
have hs (i : 'I_d) : \sum_(x <- nth [::] (kan_ranges n) i) g i x = sdiff (nth 0%N n i) (e i) ((nth 0%N n i)%:R / 2%:R).
  rewrite (nth_map 0%N) ?hn // /sdiff -[X in iota 0 X]subn0 -/(index_iota 0 _) big_mkord.
  by apply: eq_bigr => v _; rewrite hg.
under eq_bigr do rewrite hs.
case: ifP => [/forallP h|/negbT].
  by apply: eq_bigr => i _; rewrite (eqP (h i)) sdiffP // eqxx.
rewrite negb_forall => /existsP [i0 h0].
have [i hi] : exists i : 'I_d, (e i < nth 0%N n i)%N.
  apply/existsP; rewrite -[[exists _, _]]negbK negb_exists; apply/negP => /forallP h.
  move: he; rewrite (sum_nth hn) (bigD1 i0) //= [X in (_ <= X)%N](bigD1 i0) //=.
  have h1 : (\sum_(i < d | i != i0) nth 0 n i <= \sum_(i < d | i != i0) e i)%N.
    by apply: leq_sum => i _; rewrite leqNgt; apply: h.
  move: (\sum_(i < d | i != i0) e i)%N (\sum_(i < d | i != i0) nth 0 n i)%N h1 => a b h1 h2.
  have := h i0; rewrite -leqNgt; move/eqP: h0; lia.
by rewrite (bigD1 i) //= sdiffP ?(ltnW hi) // (ltn_eqF hi) mul0r.
Qed.

Lemma kan_sum_ext n f g : f =1 g -> kan_sum n f = kan_sum n g.
Proof. by move=> h; apply: eq_bigr => v _; rewrite h. Qed.

Lemma kan_sum_lin n (c : R) f : kan_sum n (fun x => c * f x) = c * kan_sum n f.
Proof. by rewrite /kan_sum mulr_sumr; apply: eq_bigr => v _; rewrite mulrCA. Qed.

Lemma kan_sum_add n f g : kan_sum n (fun x => f x + g x) = kan_sum n f + kan_sum n g.
Proof. by rewrite /kan_sum -big_split; apply: eq_bigr => v _; rewrite mulrDr. Qed.

Lemma kan_sum_sum n (I : Type) (r : seq I) (F : I -> 'cV[R]_d -> R) :
  kan_sum n (fun x => \sum_(k <- r) F k x) = \sum_(k <- r) kan_sum n (F k).
Proof.
rewrite /kan_sum exchange_big /=; apply: eq_bigr => v _.
by rewrite mulr_sumr.
Qed.

Lemma nth_minc n (i : nat) (j : nat) : nth 0%N (minc n i) j = (nth 0 n j + (j == i))%N.
Proof. by rewrite nth_set_nth /=; case: eqP => [->|_]; rewrite ?addn1 ?addn0. Qed.

Lemma nth_mdec n (i : nat) (j : nat) : nth 0%N (mdec n i) j = (nth 0 n j - (j == i))%N.
Proof. by rewrite nth_set_nth /=; case: eqP => [->|_]; rewrite ?subn1 ?subn0. Qed.

Lemma size_minc n (i : 'I_d) : size n = d -> size (minc n i) = d.
Proof. by move=> h; rewrite size_set_nth h; apply/maxn_idPr. Qed.

Lemma size_mdec n (i : 'I_d) : size n = d -> size (mdec n i) = d.
Proof. by move=> h; rewrite size_set_nth h; apply/maxn_idPr. Qed.

Lemma sumn_minc n (i : 'I_d) : size n = d -> sumn (minc n i) = (sumn n).+1.
Proof.
move=> h; rewrite !sum_nth ?size_minc //; under eq_bigr do rewrite nth_minc.
exact: sum_inc.
Qed.

Lemma sumn_mdec n (i : 'I_d) : size n = d -> (0 < nth 0 n i)%N -> sumn n = (sumn (mdec n i)).+1.
Proof.
move=> h h0; rewrite -(sumn_minc i) ?size_mdec //; congr sumn.
apply: (@eq_from_nth _ 0%N) => [|j _]; first by rewrite size_minc ?size_mdec.
by rewrite nth_minc nth_mdec; case: eqP => [->|_]; lia.
Qed.

Lemma fact_minc n (i : 'I_d) :
  \prod_(j < d) ((nth 0%N (minc n i) j)`!)%:R = (nth 0%N n i).+1%:R * \prod_(j < d) ((nth 0%N n j)`!)%:R :> R.
Proof.
rewrite (bigD1 i) //= [X in _ = _ * X](bigD1 i) //= nth_minc eqxx addn1 factS natrM -mulrA; congr (_ * (_ * _)).
apply: eq_bigr => j hj; rewrite nth_minc; have -> : (j == i :> nat) = false by apply/negbTE.
by rewrite addn0.
Qed.

(* Differentiating is the same as increasing the multi-index. *)
Lemma kan_sum_der n (i : 'I_d) f df : size n = d -> pol (sumn n).+1 f df ->
  kan_sum (minc n i) f = kan_sum n (df i).
Proof.
move=> hn [ts [hs hf hdf]]; rewrite (kan_sum_ext _ hf) (kan_sum_ext _ (hdf i)) /mpoly_eval.
rewrite !kan_sum_sum big_map; elim: ts hs {hf hdf} => [|t ts IH] /=; first by rewrite !big_nil.
case/andP=> ht /IH {}IH; rewrite !big_cons IH; congr (_ + _) => {IH}.
rewrite /term_eval /= !kan_sum_lin -mulrA; congr (_ * _).
rewrite kan_sum_mono ?size_minc ?sumn_minc //.
case: (posnP (t.2 i)) => [e0|h0].
  rewrite e0 mul0r; case: ifP => // /forallP /(_ i); rewrite nth_minc eqxx e0 addn1 //.
rewrite kan_sum_mono //; last first.
  have := sum_inc (fun j => (t.2 j - (j == i))%N) i.
  have -> : (\sum_j (t.2 j - (j == i) + (j == i)) = \sum_j t.2 j)%N.
    by apply: eq_bigr => j _; case: eqP => [->|_]; lia.
  by move=> e; rewrite -ltnS -e.
have -> : [forall j : 'I_d, (t.2 j - (j == i))%N == nth 0%N n j] = [forall j : 'I_d, t.2 j == nth 0%N (minc n i) j].
  apply: eq_forallb => j; rewrite nth_minc -[(j == i :> nat)]/(j == i).
  by case: (eqVneq j i) => [->|_]; lia.
case: ifP => [/forallP h|_]; last by rewrite mulr0.
by rewrite fact_minc; congr (_ * _); rewrite (eqP (h i)) nth_minc eqxx addn1.
Qed.

(* Multiplying by a coordinate. *)
Lemma kan_sum_mulx n (i : 'I_d) s f df : size n = d -> sumn n = s.+1 -> pol s f df ->
  kan_sum n (fun x => x i 0 * f x) = (nth 0%N n i)%:R * kan_sum (mdec n i) f.
Proof.
move=> hn hsn [ts [hs hf hdf]]; rewrite (kan_sum_ext (mdec n i) hf) /mpoly_eval.
have hxf (x : 'cV[R]_d) : x i 0 * f x = \sum_(t <- ts) t.1 * \prod_j x j 0 ^+ (t.2 j + (j == i)).
  rewrite hf /mpoly_eval mulr_sumr; apply: eq_bigr => t _; rewrite /term_eval prod_inc mulrCA //.
rewrite (kan_sum_ext _ hxf) !kan_sum_sum mulr_sumr.
elim: ts hs {hf hdf hxf} => [|t ts IH] /=; first by rewrite !big_nil.
case/andP=> ht /IH {}IH; rewrite !big_cons IH; congr (_ + _) => {IH}.
rewrite /term_eval !kan_sum_lin mulrCA; congr (_ * _).
rewrite (kan_sum_mono (e := fun j => (t.2 j + (j == i))%N) hn) ?sum_inc ?hsn //.
case: (posnP (nth 0%N n i)) => [e0|h0].
  rewrite e0 mul0r; case: ifP => // /forallP /(_ i); rewrite eqxx e0 addn1 //.
have hd := sumn_mdec hn h0.
rewrite kan_sum_mono ?size_mdec //; last by move: hd; rewrite hsn => -[<-].
have hm : n = minc (mdec n i) i.
  apply: (@eq_from_nth _ 0%N) => [|j _]; first by rewrite size_minc ?size_mdec.
  by rewrite nth_minc nth_mdec; case: eqP => [->|_]; lia.
have -> : [forall j : 'I_d, (t.2 j + (j == i))%N == nth 0%N n j] = [forall j : 'I_d, t.2 j == nth 0%N (mdec n i) j].
  apply: eq_forallb => j; rewrite nth_mdec -[(j == i :> nat)]/(j == i).
  by case: (eqVneq j i) => [->|_]; lia.
case: ifP => [_|_]; last by rewrite mulr0.
by rewrite {1}hm fact_minc nth_mdec eqxx subn1 prednK.
Qed.
End Functional.

(* The homogeneous parts of exp (l + q). *)
Section Exp.
Variable R : rcfType.
Implicit Types (l q : R).
Definition uterm l q (r k : nat) : R := q ^+ r * l ^+ k / ((r`!)%:R * (k`!)%:R).

Lemma utermk l q r k : k.+1%:R * uterm l q r k.+1 = l * uterm l q r k.
Proof.
rewrite /uterm factS natrM exprS.
have h1 : k.+1%:R != 0 :> R by rewrite pnatr_eq0.
have h2 : (r`!)%:R != 0 :> R by rewrite pnatr_eq0 -lt0n fact_gt0.
have h3 : (k`!)%:R != 0 :> R by rewrite pnatr_eq0 -lt0n fact_gt0.
move: (r`!)%:R (k`!)%:R k.+1%:R (q ^+ r) (l ^+ k) h1 h2 h3 => a b c u v h1 h2 h3; field.
by rewrite h1 h2 h3.
Qed.

Lemma utermr l q r k : r.+1%:R * uterm l q r.+1 k = q * uterm l q r k.
Proof.
rewrite /uterm factS natrM exprS.
have h1 : r.+1%:R != 0 :> R by rewrite pnatr_eq0.
have h2 : (r`!)%:R != 0 :> R by rewrite pnatr_eq0 -lt0n fact_gt0.
have h3 : (k`!)%:R != 0 :> R by rewrite pnatr_eq0 -lt0n fact_gt0.
move: (r`!)%:R (k`!)%:R r.+1%:R (q ^+ r) (l ^+ k) h1 h2 h3 => a b c u v h1 h2 h3; field.
by rewrite h1 h2 h3.
Qed.

Definition gsum l q (s : nat) : R := \sum_(r < s./2.+1) uterm l q r (s - 2 * r).
Definition gsum1 l q (s : nat) : R := if s is s'.+1 then gsum l q s' else 0.
Definition gsum2 l q (s : nat) : R := if s is s'.+1 then gsum1 l q s' else 0.

Lemma gsum_wide l q s N : (s./2 < N)%N ->
  gsum l q s = \sum_(r < N) if (2 * r <= s)%N then uterm l q r (s - 2 * r) else 0.
Proof.
move=> h; rewrite /gsum (big_ord_widen_cond N xpredT (fun r => uterm l q r (s - 2 * r))) //.
rewrite big_mkcond; apply: eq_bigr => r _ /=.
by have -> : (r < s./2.+1)%N = (2 * r <= s)%N by rewrite ltnS; lia.
Qed.

Lemma gsum0 l q : gsum l q 0 = 1.
Proof. by rewrite /gsum big_ord1 /uterm !expr0 fact0 !mulr1 divr1. Qed.

Lemma gsum_euler l q s : s%:R * gsum l q s = l * gsum1 l q s + 2%:R * q * gsum2 l q s.
Proof.
case: s => [|[|s]]; first by rewrite !mul0r !mulr0 addr0.
  by rewrite /gsum1 /gsum2 gsum0 mulr0 addr0 mul1r mulr1 /gsum big_ord1 /uterm expr0 expr1 /= !fact0 !mul1r divr1.
rewrite [gsum2 _ _ _]/= [gsum1 _ _ _]/= (@gsum_wide _ _ s.+2 s.+3) ?(@gsum_wide _ _ s.+1 s.+3) ?(@gsum_wide _ _ s s.+2); try lia.
rewrite !mulr_sumr [X in _ = _ + X](_ : _ = \sum_(r < s.+3) if (0 < r)%N && (2 * r <= s.+2)%N then
    2%:R * (q * uterm l q r.-1 (s.+2 - 2 * r)) else 0); last first.
  rewrite [RHS]big_ord_recl /= add0r; apply: eq_bigr => r _; rewrite /bump /= add1n.
  have -> : (2 * r.+1 <= s.+2)%N = (2 * r <= s)%N by lia.
  case: ifP => _; last by rewrite mulr0.
  by rewrite mulrA; congr (_ * uterm _ _ _ _); lia.
rewrite -big_split; apply: eq_bigr => r _ /=.
move: (r : nat) => {}r.
case: ifP => [h|h]; last by rewrite !ifN ?andbF ?mulr0 ?addr0 //; lia.
rewrite andbT.
transitivity ((s.+2 - 2 * r)%:R * uterm l q r (s.+2 - 2 * r) + 2%:R * (r%:R * uterm l q r (s.+2 - 2 * r))).
  by rewrite mulrA -mulrDl -natrM -natrD; congr (_%:R * _); lia.
congr (_ + _).
  case: ifP => h'; last first.
    rewrite (_ : (s.+2 - 2 * r)%N = 0%N); last by lia.
    by rewrite mul0r mulr0.
  rewrite (_ : (s.+2 - 2 * r)%N = (s.+1 - 2 * r).+1); last by lia.
  exact: utermk.
by case: r {h} => [|r] /=; rewrite ?mul0r ?mulr0 // utermr.
Qed.
End Exp.

Section Kan.
Variables (R : rcfType) (d : nat) (m : 'cV[R]_d) (P : 'M[R]_d).
Hypothesis hP : P^T = P.
Implicit Types (n : seq nat) (x : 'cV[R]_d).

Let lf x := \sum_i m i 0 * x i 0.
Let qf x := (\sum_i \sum_j P i j * x i 0 * x j 0) / 2%:R.
Let px (i : 'I_d) x := \sum_j P i j * x j 0.
Let G s x := gsum (lf x) (qf x) s.
Let G1 s x := gsum1 (lf x) (qf x) s.
Let G2 s x := gsum2 (lf x) (qf x) s.
Let dG s (i : 'I_d) x := m i 0 * G1 s x + px i x * G2 s x.

Lemma pol_gsum s : pol s (G s) (dG s).
Proof.
have h0 : pol 0 (G 0) (dG 0).
  by apply: pol_ext (pol_one R d 0) => [x|i x]; rewrite /dG /G /G1 /G2 /= ?gsum0 ?mulr0 ?addr0.
suff [] : pol s (G s) (dG s) /\ pol s.+1 (G s.+1) (dG s.+1) by [].
elim: s => [|s [IH1 IH2]].
  split=> //; apply: pol_ext (pol_lin m (pol_one R d 0)) => [x|i x].
    have := gsum_euler (lf x) (qf x) 1; rewrite mul1r /G => ->.
    by rewrite /= gsum0 mulr0 addr0.
  by rewrite /dG /G1 /G2 /= gsum0 !mulr0 !addr0.
split=> //; have h1 := pol_lin m IH2; have h2 := pol_scale 2%:R (pol_quad hP IH1).
have h3 := pol_scale (s.+2%:R^-1) (pol_add h1 h2).
have hs : s.+2%:R != 0 :> R by rewrite pnatr_eq0.
apply: pol_ext h3 => [x|i x] /=.
  have := gsum_euler (lf x) (qf x) s.+2; rewrite /G => /(congr1 (fun t => s.+2%:R^-1 * t)).
  by rewrite mulKf // => ->; rewrite mulrA.
have e0 := gsum_euler (lf x) (qf x) s.
have e1 := gsum_euler (lf x) (qf x) s.+1.
rewrite /dG /G /G1 /G2 /= -/(lf x) -/(qf x) -/(px i x).
move: e0 e1; rewrite [gsum1 _ _ s.+1]/= [gsum2 _ _ s.+1]/=.
have -> : s.+1%:R = s%:R + 1 :> R by rewrite -addn1 natrD.
have e2 : s.+2%:R = s%:R + 2%:R :> R by rewrite -addn2 natrD.
move: hs; rewrite e2 => hs e0 e1.
move: (m i 0) (px i x) (lf x) (qf x) (gsum _ _ s) (gsum _ _ s.+1) (gsum1 _ _ s) (gsum2 _ _ s) (s%:R) hs e0 e1.
move=> a p l q g g' g1 g2 t ht e0 e1.
transitivity ((t + 2%:R)^-1 * (a * (g' + (l * g + 2%:R * q * g1)) + p * (2%:R * g + (l * g1 + 2%:R * q * g2)))).
  by congr (_ * _); ring.
rewrite -e0 -e1.
by field.
Qed.

Lemma kan_rawE n : size n = d -> raw_moments_mvn_kan m P n = kan_sum n (G (sumn n)).
Proof.
move=> hn; rewrite /raw_moments_mvn_kan jsumE big_map product_rcons; apply: eq_bigr => v _.
rewrite /G /gsum mulr_sumr.
rewrite -[X in iota 0 X]subn0 -/(index_iota 0 _) big_mkord; apply: eq_bigr => r _.
rewrite size_rcons last_rcons /= -cats1 take_size_cat //; congr (_ * _); rewrite /uterm.
congr (_ ^+ _ * _ ^+ _ / _).
  rewrite /kan_quad /qf mxE; congr (_ / _).
  rewrite exchange_big; apply: eq_bigr => i _; rewrite mxE mulr_suml.
  by apply: eq_bigr => j _; rewrite mxE -!mulrA mulrCA.
by rewrite mxE; apply: eq_bigr => i _; rewrite mxE mulrC.
Qed.

Lemma kan_moments : mvn_moments m P (raw_moments_mvn_kan m P).
Proof.
split.
  rewrite kan_rawE ?size_nseq // sumn_nseq mul0n.
  have e0 : G 0 =1 (fun x => \prod_(i < d) x i 0 ^+ 0).
    by move=> x; rewrite /G gsum0 big1 // => i _; rewrite expr0.
  rewrite (kan_sum_ext _ e0) kan_sum_mono ?size_nseq ?sumn_nseq //; last by rewrite sum_nat_const muln0.
  case: ifP => [_|/negbT/negP []].
    by rewrite big1 // => i _; rewrite nth_nseq ltn_ord fact0.
  by apply/forallP => i; rewrite nth_nseq ltn_ord.
move=> n i hn; rewrite kan_rawE ?size_minc // sumn_minc //.
rewrite (kan_sum_der i hn (pol_gsum _)) /dG kan_sum_add kan_sum_lin -kan_rawE //; congr (_ + _).
rewrite /px /G2; case hs : (sumn n) => [|s] /=.
  rewrite big1 => [|j _].
    by rewrite /kan_sum big1 // => v _; rewrite !mulr0.
  suff -> : nth 0%N n j = 0%N by rewrite mulr0 mul0r.
  move: hs; rewrite (sum_nth hn) (bigD1 j) //=; lia.
have e x : (\sum_j P i j * x j 0) * gsum (lf x) (qf x) s = \sum_j P i j * (x j 0 * G s x).
  by rewrite mulr_suml; apply: eq_bigr => j _; rewrite mulrA.
rewrite (kan_sum_ext _ e) kan_sum_sum; apply: eq_bigr => j _.
rewrite kan_sum_lin -mulrA; congr (_ * _).
rewrite (kan_sum_mulx j hn hs (pol_gsum s)).
case: (posnP (nth 0%N n j)) => [->|h0]; first by rewrite !mul0r.
rewrite kan_rawE ?size_mdec //; congr (_ * kan_sum _ (G _)).
by have := sumn_mdec hn h0; rewrite hs => -[].
Qed.
End Kan.

(* The moments are determined by the recursion, up to any order. *)
Section Unique.
Variables (R : rcfType) (d : nat) (m : 'cV[R]_d) (P : 'M[R]_d).

Lemma mvn_unique_upto (M M' : seq nat -> R) D :
  M (nseq d 0%N) = 1 -> M' (nseq d 0%N) = 1 ->
  (forall n (i : 'I_d), size n = d -> (sumn n < D)%N -> (forall j, (j < i)%N -> nth 0%N n j = 0%N) ->
    M (minc n i) = m i 0 * M n + \sum_(j < d) P i j * (nth 0%N n j)%:R * M (mdec n j)) ->
  (forall n (i : 'I_d), size n = d -> (sumn n < D)%N -> (forall j, (j < i)%N -> nth 0%N n j = 0%N) ->
    M' (minc n i) = m i 0 * M' n + \sum_(j < d) P i j * (nth 0%N n j)%:R * M' (mdec n j)) ->
  forall n, size n = d -> (sumn n <= D)%N -> M n = M' n.
Proof.
move=> h0 h0' h h' n; elim: {n}(sumn n) {-2}n (leqnn (sumn n)) => [|s IH] n hs hn hD.
  have -> : n = nseq d 0%N; last by rewrite h0 h0'.
  apply: (@eq_from_nth _ 0%N) => [|i hi]; first by rewrite size_nseq.
  rewrite nth_nseq; move: hs; rewrite (sum_nth hn) => hs; case: ifP => hid; last by rewrite nth_default // hn leqNgt hid.
  by move: hs; rewrite (bigD1 (Ordinal hid)) //=; lia.
have [->|hz] := eqVneq n (nseq d 0%N); first by rewrite h0 h0'.
have [i hi0 hmin] : exists2 i : 'I_d, (0 < nth 0 n i)%N & forall j, (j < i)%N -> nth 0%N n j = 0%N.
  pose k := find (fun j => 0 < j)%N n.
  have hk : has (fun j => 0 < j)%N n.
    apply: contraR hz => /hasPn hh; apply/eqP.
    apply: (@eq_from_nth _ 0%N) => [|i hi]; first by rewrite size_nseq.
    rewrite nth_nseq -hn hi; by have := hh _ (mem_nth 0%N hi); rewrite -eqn0Ngt => /eqP.
  have hkd : (k < d)%N by rewrite -hn -has_find.
  exists (Ordinal hkd); first exact: nth_find.
  by move=> j hj; have := before_find 0%N hj; lia.
have hm : n = minc (mdec n i) i.
  apply: (@eq_from_nth _ 0%N) => [|j _]; first by rewrite size_minc ?size_mdec.
  by rewrite nth_minc nth_mdec; case: eqP => [->|_]; lia.
have hsd := sumn_mdec hn hi0.
have hmin' j : (j < i)%N -> nth 0%N (mdec n i) j = 0%N.
  by move=> hj; rewrite nth_mdec hmin.
rewrite hm h ?h' ?size_mdec //; try lia.
congr (_ * _ + _); first by apply: IH; rewrite ?size_mdec //; lia.
apply: eq_bigr => j _; case: (posnP (nth 0%N (mdec n i) j)) => [->|hj]; first by rewrite mulr0 !mul0r.
have hsj := sumn_mdec (size_mdec i hn) hj.
congr (_ * _); apply: IH; rewrite ?size_mdec //; lia.
Qed.

Lemma mvn_unique (M M' : seq nat -> R) : mvn_moments m P M -> mvn_moments m P M' ->
  forall n, size n = d -> M n = M' n.
Proof.
move=> [h0 h] [h0' h'] n hn; apply: (@mvn_unique_upto M M' (sumn n)) => // k i hk _ _; [exact: h|exact: h'].
Qed.
End Unique.
