(* Conditional moments, uniform moments and Gaussian sums in several dimensions. *)
From mathcomp Require Import all_ssreflect all_algebra.
From mathcomp Require Import zify ring.
From Verif Require Import Prelude NdIndexModel QuadSpec QuadProofs QuadNdSpec QuadNdAffine.
From Verif Require Import SigmaSpec MomentsNdModel MomentsNdSpec MomentsNdKan MomentsNdMvn MomentsNdAffine.
Set Implicit Arguments.
Unset Strict Implicit.
Unset Printing Implicit Defensive.
Import Order.TTheory GRing.Theory Num.Theory.
Local Open Scope ring_scope.

Section Normal.
Variables (R : rcfType) (d : nat).
Implicit Types (m : 'cV[R]_d) (P : 'M[R]_d) (n k : seq nat) (M : seq nat -> R).

Lemma munitE a : (a < d)%N -> munit d a = minc (nseq d 0%N) a.
Proof.
move=> ha; apply: (@eq_from_nth _ 0%N) => [|j].
  by rewrite size_map size_iota size_set_nth size_nseq; apply/esym/maxn_idPr.
rewrite size_map size_iota => hj; rewrite (nth_map 0%N) ?size_iota // nth_iota // nth_minc nth_nseq hj.
by rewrite add0n.
Qed.

Lemma mvn_first m P M (i : 'I_d) : mvn_moments m P M -> M (munit d i) = m i 0.
Proof.
case=> h0 h; rewrite munitE // h ?size_nseq // h0 mulr1 big1 ?addr0 // => j _.
by rewrite nth_nseq ltn_ord mulr0 mul0r.
Qed.

Lemma mvn_second m P M (i j : 'I_d) : mvn_moments m P M ->
  M (minc (munit d j) i) = m i 0 * m j 0 + P i j.
Proof.
move=> hM; have [h0 h] := hM; rewrite h ?size_map ?size_iota // (mvn_first j hM); congr (_ + _).
rewrite (bigD1 j) //= munitE // nth_minc eqxx nth_nseq ltn_ord big1 => [|l hl]; last first.
  rewrite nth_minc nth_nseq ltn_ord; have -> : (l == j :> nat) = false by apply/negbTE.
  by rewrite mulr0 mul0r.
suff -> : mdec (minc (nseq d 0%N) j) j = nseq d 0%N by rewrite h0 !mulr1 addr0.
apply: (@eq_from_nth _ 0%N) => [|l _]; first by rewrite size_mdec ?size_minc ?size_nseq.
by rewrite nth_mdec nth_minc addnK.
Qed.

Lemma mvn_scale m P M (s : 'I_d -> R) : (forall i, s i != 0) -> mvn_moments m P M ->
  mvn_moments (\col_i (m i 0 / s i)) (\matrix_(i, j) (P i j / (s i * s j)))
    (fun n => M n / \prod_(i < d) s i ^+ nth 0%N n i).
Proof.
move=> hs [h0 h]; split.
  by rewrite h0 big1 ?divr1 // => i _; rewrite nth_nseq ltn_ord expr0.
have h1 n (i : 'I_d) : \prod_(j < d) s j ^+ nth 0%N (minc n i) j = s i * \prod_(j < d) s j ^+ nth 0%N n j.
  rewrite (bigD1 i) //= [X in _ = _ * X](bigD1 i) //= nth_minc eqxx addn1 exprS mulrA; congr (_ * _).
  apply: eq_bigr => j hj; rewrite nth_minc; have -> : (j == i :> nat) = false by apply/negbTE.
  by rewrite addn0.
have hp n : \prod_(j < d) s j ^+ nth 0%N n j != 0.
  by rewrite prodf_seq_neq0; apply/allP => i _; rewrite expf_neq0.
move=> n i hn; rewrite h // h1 mulrDl mxE; congr (_ + _).
  by move: (\prod_(j < d) _) (hp n) (s i) (hs i) => p hp0 u hu; field; rewrite hp0 hu.
rewrite mulr_suml; apply: eq_bigr => j _; rewrite mxE.
case: (posnP (nth 0%N n j)) => [->|hj]; first by rewrite !mulr0 !mul0r.
have -> : \prod_(l < d) s l ^+ nth 0%N n l = s j * \prod_(l < d) s l ^+ nth 0%N (mdec n j) l.
  rewrite -h1; apply: eq_bigr => l _; congr (_ ^+ _).
  by rewrite nth_minc nth_mdec; case: eqP => [->|_]; lia.
move: (\prod_(l < d) _) (hp (mdec n j)) (s i) (hs i) (s j) (hs j) (nth 0%N n j)%:R => p hp0 u hu v hv z.
by field; rewrite hp0 hu hv.
Qed.

Lemma kan_affine m P (c s : seq R) k : P^T = P -> size k = d ->
  (forall a, (a < d)%N -> nth 1 s a != 0) ->
  raw_moments_mvn_kan (m - cvec d c) P k / \prod_(i < d) nth 1 s i ^+ nth 0%N k i
  = affine_nd (raw_moments_mvn_kan m P) c s k.
Proof.
move=> hP hk hs; have h1 := affine_mvn (kan_moments m hP) c hs.
have h2 := @mvn_scale _ _ _ (fun i : 'I_d => nth 1 s i) (fun i => hs i (ltn_ord i)) (kan_moments (m - cvec d c) hP).
have em : \col_i ((m - cvec d c) i 0 / nth 1 s i) = \col_i ((m i 0 - nth 0 c i) / nth 1 s i).
  by apply/colP => i; rewrite !mxE.
rewrite em in h2; exact: (mvn_unique h2 h1 hk).
Qed.

Lemma kan_shift m P (c : seq R) k : P^T = P -> size k = d ->
  raw_moments_mvn_kan (m - cvec d c) P k = affine_nd (raw_moments_mvn_kan m P) c [::] k.
Proof.
move=> hP hk; rewrite -kan_affine // => [|a _]; last by rewrite nth_nil oner_neq0.
by rewrite big1 ?divr1 // => i _; rewrite nth_nil expr1n.
Qed.

Lemma kan_central P k : central_moments_mvn_kan P k = raw_moments_mvn_kan 0 P k.
Proof.
rewrite /central_moments_mvn_kan /raw_moments_mvn_kan [in RHS]jsumE [in RHS]big_map [in RHS]product_rcons.
set s := sumn k.
have e v (r : nat) : kan_sign R (take (size (rcons v r)).-1 (rcons v r)) * kan_comb R k (take (size (rcons v r)).-1 (rcons v r)) *
    (kan_quad P (kan_h R d k (take (size (rcons v r)).-1 (rcons v r))) ^+ last 0%N (rcons v r) *
     ((kan_h R d k (take (size (rcons v r)).-1 (rcons v r)))^T *m 0) 0 0 ^+ (s - 2 * last 0%N (rcons v r)) /
     ((last 0%N (rcons v r))`!%:R * (s - 2 * last 0%N (rcons v r))`!%:R)) =
    if (s - 2 * r == 0)%N then kan_sign R v * kan_comb R k v * kan_quad P (kan_h R d k v) ^+ r / (r`!)%:R else 0.
  rewrite size_rcons last_rcons /= -cats1 take_size_cat // mulmx0 mxE expr0n.
  case: eqP => [->|_]; last by rewrite mulr0 mul0r mulr0.
  by rewrite mulr1 fact0 mulr1 mulrA.
under eq_bigr do under eq_bigr do rewrite e.
case: ifP => hs.
  rewrite big1 // => v _; rewrite big1_seq // => r /andP [_]; rewrite mem_iota => hr.
  by rewrite ifN //; move: hr hs; lia.
rewrite jsumE big_map mulr_suml; apply: eq_bigr => v _.
rewrite (bigD1_seq (s./2)) ?iota_uniq ?mem_iota //=.
rewrite ifT ?big1_seq ?addr0 //; last by apply/eqP; lia.
by move=> r /andP [hr]; rewrite -[0%N :: _]/(iota 0 (s./2).+1) mem_iota => hr'; rewrite ifN //; lia.
Qed.

Lemma kan_odd P k : odd (sumn k) -> central_moments_mvn_kan P k = 0.
Proof. by rewrite /central_moments_mvn_kan => ->. Qed.

(* conditional moments *)
Variables (mc : 'cV[R]_d -> 'cV[R]_d * 'M[R]_d) (full : seq (seq nat)).
Hypothesis hsym : forall x, ((mc x).2)^T = (mc x).2.
Hypothesis hfull : all (fun k => size k == d) full.

Definition transition x : seq nat -> R := raw_moments_mvn_kan (mc (cvec d x)).1 (mc (cvec d x)).2.

Lemma transition_mvn x : mvn_moments (mc (cvec d x)).1 (mc (cvec d x)).2 (transition x).
Proof. exact: kan_moments. Qed.

Lemma full_size j : (j < size full)%N -> size (nth [::] full j) = d.
Proof. by move=> h; apply/eqP; apply: (all_nthP [::] hfull). Qed.

Lemma cond_rawE x j : (j < size full)%N -> nd_cond_raw mc full x j = transition x (nth [::] full j).
Proof.
move=> hj; rewrite /nd_cond_raw /transition; case: (mc _) => m P /=.
by rewrite jget_nth ?size_map // (nth_map [::]).
Qed.

Lemma cond_centralE x j c : (j < size full)%N ->
  nd_cond_central mc full x j c = affine_nd (transition x) c [::] (nth [::] full j).
Proof.
move=> hj; rewrite /nd_cond_central /transition; case: (mc _) (hsym (cvec d x)) => m P /= hP.
by rewrite jget_nth ?size_map // (nth_map [::]) // kan_shift ?full_size.
Qed.

Lemma cond_scaledE x j c s : (j < size full)%N -> (forall a, (a < d)%N -> nth 1 s a != 0) ->
  nd_cond_scaled mc full x j c s = affine_nd (transition x) c s (nth [::] full j).
Proof.
move=> hj hs; rewrite /nd_cond_scaled /transition; case: (mc _) (hsym (cvec d x)) => m P /= hP.
rewrite !jget_nth ?size_map // (nth_map [::]) // -kan_affine ?full_size //.
by rewrite jprod_iota.
Qed.

Lemma cond_mean_varE x a : (a < d)%N ->
  nth 0 (nd_cond_mean_var mc x).1 a = transition x (munit d a) /\
  nth 0 (nd_cond_mean_var mc x).2 a
    = affine_nd (transition x) (nd_cond_mean_var mc x).1 [::] (minc (munit d a) a).
Proof.
move=> ha; have hM := transition_mvn x; set i := Ordinal ha.
have e1 : nth 0 (nd_cond_mean_var mc x).1 a = (mc (cvec d x)).1 i 0.
  rewrite /nd_cond_mean_var; case: (mc _) => m P /=.
  by rewrite (nth_map i) ?size_enum_ord // (nth_ord_enum i i).
split; first by rewrite e1 -(mvn_first i hM).
have hs b : (b < d)%N -> nth (1 : R) [::] b != 0 by rewrite nth_nil oner_neq0.
have h2 := affine_mvn hM (nd_cond_mean_var mc x).1 hs.
rewrite -[X in munit d X]/(nat_of_ord i) -[X in minc _ X]/(nat_of_ord i) (mvn_second i i h2) !mxE e1 subrr mul0r mul0r add0r.
rewrite /nd_cond_mean_var; case: (mc _) => m P /=; rewrite !nth_nil mulr1 divr1.
by rewrite (nth_map i) ?size_enum_ord // (nth_ord_enum i i).
Qed.
End Normal.

Section Tme.
Variables (R : rcfType) (d : nat) (E : ('cV[R]_d -> R) -> R).
Hypothesis E_ext : forall f g, f =1 g -> E f = E g.
Hypothesis E_lin : forall a b f g, E (fun u => a * f u + b * g u) = a * E f + b * E g.

Let A (ps : seq {poly R}) := E (fun u => \prod_(i < d) (nth 0 ps i).[u i 0]).

Lemma prod_slot (v : 'I_d -> R) (ps1 ps2 : seq {poly R}) p : (size ps1 + (size ps2).+1)%N = d ->
  forall i0 : 'I_d, i0 = size ps1 :> nat ->
  \prod_(i < d) (nth 0 (ps1 ++ p :: ps2) i).[v i] =
  p.[v i0] * \prod_(i < d | i != i0) (nth 0 (ps1 ++ 0 :: ps2) i).[v i].
Proof.
move=> h i0 e0; rewrite (bigD1 i0) //= nth_cat e0 ltnn subnn /=; congr (_ * _).
apply: eq_bigr => i hi; rewrite !nth_cat; case: ltnP => // hle.
by case e: (i - size ps1)%N => [|j] //=; case/eqP: hi; apply/val_inj; rewrite /= e0; lia.
Qed.

Lemma A_slot : slot_linear d A.
Proof.
move=> ps1 ps2 a b p q h; rewrite /A -E_lin; apply: E_ext => u.
have hd : (size ps1 < d)%N by lia.
rewrite !(@prod_slot (fun i => u i 0) _ _ _ h (Ordinal hd)) // hornerD !hornerZ.
by rewrite mulrDl !mulrA.
Qed.

Lemma E_affine (c s : seq R) k : size k = d ->
  E (fun u => \prod_(i < d) ((u i 0 - nth 0 c i) / nth 1 s i) ^+ nth 0%N k i)
  = affine_nd (fun k => E (fun u => \prod_(i < d) u i 0 ^+ nth 0%N k i)) c s k.
Proof.
move=> hk; rewrite /affine_nd.
rewrite -(@slot_agree R A _ d A_slot (slot_T _ (d := d))).
- apply: E_ext => u; apply: eq_bigr => i _.
  rewrite (nth_map 0%N) ?size_iota ?hk // nth_iota // horner_exp hornerZ hornerXsubC.
  by rewrite mulrC.
- move=> k' hk'; rewrite tens_mono; apply: E_ext => u; apply: eq_bigr => i _.
  by rewrite (nth_map 0%N) ?hk' // hornerXn.
- by rewrite size_map size_iota.
Qed.
End Tme.

Section TmeCond.
Variables (R : rcfType) (d : nat) (tme : ('cV[R]_d -> R) -> 'cV[R]_d -> R) (x : seq R).
Hypothesis E_ext : forall f g, f =1 g -> tme f (cvec d x) = tme g (cvec d x).
Hypothesis E_lin : forall a b f g,
  tme (fun u => a * f u + b * g u) (cvec d x) = a * tme f (cvec d x) + b * tme g (cvec d x).

Let raw_ext k : nd_tme_cond_raw tme x k = tme (fun u => \prod_(i < d) u i 0 ^+ nth 0%N k i) (cvec d x).
Proof. by apply: E_ext => u; rewrite jprodE big_map big_enum. Qed.

Lemma tme_scaledE k (c s : seq R) : size k = d ->
  nd_tme_cond_scaled tme x k c s = affine_nd (nd_tme_cond_raw tme x) c s k.
Proof.
move=> hk; transitivity (tme (fun u => \prod_(i < d) ((u i 0 - nth 0 c i) / nth 1 s i) ^+ nth 0%N k i) (cvec d x)).
  by apply: E_ext => u; rewrite jprodE big_map big_enum.
rewrite (@E_affine R d (fun f => tme f (cvec d x))) //.
by rewrite /affine_nd; apply: tens_ext => t _; rewrite raw_ext.
Qed.

Lemma tme_centralE k (c : seq R) : size k = d ->
  nd_tme_cond_central tme x k c = affine_nd (nd_tme_cond_raw tme x) c [::] k.
Proof.
move=> hk; rewrite -tme_scaledE //; apply: E_ext => u; congr (jprod _).
by apply: eq_map => i; rewrite nth_nil divr1.
Qed.

Lemma tme_meanE a : (a < d)%N -> nth 0 (nd_tme_cond_mean tme x) a = nd_tme_cond_raw tme x (munit d a).
Proof.
move=> ha; pose i := Ordinal ha; rewrite raw_ext.
rewrite /nd_tme_cond_mean (nth_map i) ?size_enum_ord // (nth_ord_enum i i).
apply: E_ext => u; rewrite (bigD1 i) //= big1 => [|j hj].
  by rewrite munitE // nth_minc eqxx nth_nseq ha addn1 expr1 mulr1.
rewrite munitE // nth_minc nth_nseq ltn_ord; have -> : (j == a :> nat) = false by apply/negbTE.
by rewrite expr0.
Qed.
End TmeCond.

Section Uniform.
Variable R : rcfType.

(* Moments of the uniform distribution on [a, b]. *)
Definition umom (a b : R) (k : nat) : R := (b ^+ k.+1 - a ^+ k.+1) / k.+1%:R / (b - a).

Lemma umom_prim a b (p : {poly R}) : mom_functional (umom a b) p^`() = (p.[b] - p.[a]) / (b - a).
Proof.
rewrite {1}(poly_widen (leqnn (size p))) raddf_sum mom_sum !horner_coef -sumrB mulr_suml.
apply: eq_bigr => j _; rewrite /= derivZ derivXn -scaler_nat !momZ momXn.
case: (nat_of_ord j) => [|k]; first by rewrite mul0r mulr0 !expr0 subrr mul0r.
rewrite /umom -[k.+1.-1]/k.
have hk : k.+1%:R != 0 :> R by rewrite pnatr_eq0.
by move: (k.+1%:R) (b ^+ _) (a ^+ _) (p`_ _) (b - a)^-1 hk => z u v w t hz; field.
Qed.

Lemma umom_central a b c k : mom_functional (umom a b) (('X - c%:P) ^+ k)
  = ((b - c) ^+ k.+1 - (a - c) ^+ k.+1) / k.+1%:R / (b - a).
Proof.
have -> : ('X - c%:P) ^+ k = ((k.+1%:R^-1) *: ('X - c%:P) ^+ k.+1)^`().
  rewrite derivZ deriv_exp derivXsubC mul1r /= -scaler_nat scalerA mulVf ?scale1r //.
  by rewrite pnatr_eq0.
rewrite umom_prim !hornerZ !horner_exp !hornerXsubC -mulrBr; congr (_ / _).
by rewrite mulrC.
Qed.

Lemma tens_indep (Ms : seq (nat -> R)) (ps : seq {poly R}) : size Ms = size ps ->
  tens_functional (fun k => \prod_(t <- zip Ms k) t.1 t.2) ps
  = \prod_(t <- zip Ms ps) mom_functional t.1 t.2.
Proof.
elim: Ms ps => [|M Ms IH] [|p ps] //=; first by rewrite !big_nil.
case=> hs; rewrite big_cons -IH // /mom_functional mulr_suml.
apply: eq_bigr => k _; rewrite -mulrA; congr (_ * _).
rewrite -[LHS](tens_ext (M := fun t => \sum_(i <- [:: tt]) M k * \prod_(u <- zip Ms t) u.1 u.2)).
  by rewrite tens_linl big_seq1.
by move=> t _; rewrite big_seq1 big_cons.
Qed.

Lemma uniform_prim (bounds : seq (R * R)) (k : seq nat) (means : seq R) (Ps : seq {poly R}) :
  size bounds = size k -> size means = size k -> size Ps = size k ->
  (forall i, (i < size k)%N -> (nth 0 Ps i)^`() = ('X - (nth 0 means i)%:P) ^+ nth 0%N k i) ->
  moments_nd_uniform bounds k (Some means)
  = \prod_(t <- zip bounds Ps) ((t.2.[t.1.2] - t.2.[t.1.1]) / (t.1.2 - t.1.1)).
Proof.
rewrite /moments_nd_uniform jprodE big_map.
elim: k bounds means Ps => [|k ks IH] [|b bs] [|m ms] [|P Ps] //=; first by rewrite !big_nil.
case=> h1 [h2] [h3] h; rewrite !big_cons (IH bs ms Ps) // => [|i hi]; last exact: (h i.+1).
by congr (_ * _); rewrite -umom_prim (h 0%N) // umom_central.
Qed.

Lemma uniform_affine (bounds : seq (R * R)) (k : seq nat) (means : seq R) :
  size bounds = size k -> size means = size k ->
  moments_nd_uniform bounds k (Some means)
  = affine_nd (fun k' => moments_nd_uniform bounds k' None) means [::] k.
Proof.
move=> hb hm; rewrite /affine_nd.
pose Ms := [seq umom b.1 b.2 | b <- bounds].
have hM k' : size k' = size k -> moments_nd_uniform bounds k' None = \prod_(t <- zip Ms k') t.1 t.2.
  rewrite /moments_nd_uniform jprodE big_map /Ms -hb; elim: k' (bounds) => [|j k' IH] [|b bs] //=.
    by rewrite !big_nil.
  by case=> hs; rewrite !big_cons IH // !subr0.
rewrite (tens_ext (M' := fun k' => \prod_(t <- zip Ms k') t.1 t.2)); last first.
  by move=> t; rewrite size_map size_iota; exact: hM.
rewrite tens_indep ?size_map ?size_iota // /Ms /moments_nd_uniform jprodE big_map.
have -> : [seq ((nth 1 [::] a)^-1 *: ('X - (nth 0 means a)%:P)) ^+ nth 0%N k a | a <- iota 0 (size k)]
  = [seq ('X - (t.1)%:P) ^+ t.2 | t <- zip means k] :> seq {poly R}.
  apply: (@eq_from_nth _ 0) => [|i]; first by rewrite !size_map size_iota size_zip hm minnn.
  rewrite size_map size_iota => hi; rewrite (nth_map 0%N) ?size_iota // nth_iota // (nth_map (0, 0%N)) ?size_zip ?hm ?minnn //.
  by rewrite nth_zip //= add0n nth_nil invr1 scale1r.
elim: k bounds means hb hm {Ms hM} => [|k ks IH] [|b bs] [|m ms] //=; first by rewrite !big_nil.
by case=> h1 [h2]; rewrite !big_cons IH //= umom_central.
Qed.
End Uniform.

Section Sum.
Variables (R : rcfType) (d : nat).
Variables (means : seq 'cV[R]_d) (covs : seq 'M[R]_d) (weights : seq R) (full : seq (seq nat)).
Hypothesis hw : \sum_(w <- weights) w = 1.
Hypothesis hsz : size means = size weights.
Hypothesis hsz' : size covs = size weights.
Hypothesis hsym : all (fun P : 'M[R]_d => P^T == P) covs.
Hypothesis hfull : all (fun k => size k == d) full.
Let g := gaussian_sum_nd_new means covs weights full.
Let comps := zip (zip means covs) weights.

(* Moments of the mixture, from any moment sequences of the components. *)
Variable Ms : seq (seq nat -> R).
Hypothesis hMs : size Ms = size weights.
Hypothesis hMsP : forall i, (i < size weights)%N ->
  mvn_moments (nth 0 means i) (nth 0 covs i) (nth (fun=> 0) Ms i).
Definition mixture (k : seq nat) : R := \sum_(t <- zip weights Ms) t.1 * t.2 k.

Let mixE k : size k = d -> mixture k = \sum_(c <- comps) c.2 * raw_moments_mvn_kan c.1.1 c.1.2 k.
Proof.
move=> hk; rewrite /mixture /comps.
rewrite (big_nth (0, fun=> 0)) size_zip hMs minnn.
rewrite (big_nth (0, 0, 0)) !size_zip hsz hsz' !minnn big_nat [RHS]big_nat; apply: eq_bigr => i /= hi.
rewrite !nth_zip ?size_zip ?hsz ?hsz' ?minnn //=; congr (_ * _).
apply: (mvn_unique (hMsP hi) _ hk); apply: kan_moments.
by apply/eqP; apply: (all_nthP 0 hsym); rewrite hsz'.
Qed.

Lemma gsn_rmsE : gsn_rms g = [seq mixture k | k <- full].
Proof.
apply/eq_in_map => k hk; rewrite mixE ?(eqP (allP hfull _ hk)) // jsumE big_map.
by apply: eq_bigr => c _; rewrite mulrC.
Qed.

Let sym_comp c : c \in comps -> c.1.2^T = c.1.2.
Proof.
move=> /(nthP (0, 0, 0)) [i]; rewrite !size_zip hsz hsz' !minnn => hi <-.
rewrite !nth_zip ?size_zip ?hsz ?hsz' ?minnn //=.
by apply/eqP; apply: (all_nthP 0 hsym); rewrite hsz'.
Qed.

Let mix_affine (c : seq R) k : size k = d ->
  affine_nd mixture c [::] k = \sum_(t <- comps) t.2 * raw_moments_mvn_kan (t.1.1 - cvec d c) t.1.2 k.
Proof.
move=> hk; rewrite /affine_nd.
rewrite (tens_ext (M' := fun k' => \sum_(t <- comps) t.2 * raw_moments_mvn_kan t.1.1 t.1.2 k')); last first.
  by move=> t; rewrite size_map size_iota hk => ht; rewrite mixE.
rewrite tens_linl; apply: eq_big_seq => t ht; congr (_ * _).
by rewrite kan_shift ?sym_comp.
Qed.

Let mean_seq := [seq (gsn_mean g) i 0 | i <- enum 'I_d].
Let mean_seqE : cvec d mean_seq = gsn_mean g.
Proof.
by apply/colP => i; rewrite mxE (nth_map i) ?size_enum_ord // nth_ord_enum.
Qed.

Lemma gsn_cmsE : gsn_cms g = [seq affine_nd mixture mean_seq [::] k | k <- full].
Proof.
apply/eq_in_map => k hk; rewrite mix_affine ?(eqP (allP hfull _ hk)) // jsumE big_map mean_seqE.
by apply: eq_bigr => c _; rewrite mulrC.
Qed.

Lemma gsn_meanE (i : 'I_d) : (gsn_mean g) i 0 = mixture (munit d i).
Proof.
rewrite mixE ?size_map ?size_iota // /gsn_mean /g /= summxE; apply: eq_big_seq => c hc.
by rewrite mxE (mvn_first i (kan_moments _ (sym_comp hc))).
Qed.

Let sum_weights : \sum_(c <- comps) c.2 = 1.
Proof.
rewrite -hw -[in RHS](unzip2_zip (s := zip means covs) (t := weights)) ?size_zip ?hsz ?hsz' ?minnn //.
by rewrite big_map.
Qed.

Lemma gsn_covE (i j : 'I_d) : (gsn_cov g) i j = affine_nd mixture mean_seq [::] (minc (munit d j) i).
Proof.
rewrite mix_affine ?size_minc ?size_map ?size_iota // mean_seqE.
have e c : c \in comps -> c.2 * raw_moments_mvn_kan (c.1.1 - gsn_mean g) c.1.2 (minc (munit d j) i)
   = c.2 * (c.1.2 i j + c.1.1 i 0 * c.1.1 j 0) - (c.2 * c.1.1 i 0) * gsn_mean g j 0
     - gsn_mean g i 0 * (c.2 * c.1.1 j 0) + c.2 * (gsn_mean g i 0 * gsn_mean g j 0).
  move=> hc; rewrite (mvn_second i j (kan_moments _ (sym_comp hc))) !mxE.
  by move: (c.2) (c.1.2 i j) (c.1.1 i 0) (c.1.1 j 0) (gsn_mean g i 0) (gsn_mean g j 0) => *; ring.
have em l : \sum_(c <- comps) c.2 * c.1.1 l 0 = gsn_mean g l 0.
  by rewrite /gsn_mean /g /= summxE; apply: eq_bigr => c _; rewrite mxE.
have -> : gsn_cov g = \sum_(c <- comps) c.2 *: (c.1.2 + c.1.1 *m c.1.1^T) - gsn_mean g *m (gsn_mean g)^T by [].
rewrite (eq_big_seq _ e); move: (gsn_mean g) em {e} => mu em.
rewrite !big_split /= !sumrN -mulr_suml -mulr_sumr -mulr_suml sum_weights mul1r !em subrK.
have -> : (\sum_(c <- comps) c.2 *: (c.1.2 + c.1.1 *m c.1.1^T) - mu *m mu^T) i j =
  (\sum_(c <- comps) c.2 *: (c.1.2 + c.1.1 *m c.1.1^T)) i j - (mu *m mu^T) i j by rewrite !mxE.
rewrite summxE mxE big_ord1 mxE; congr (_ - _).
by apply: eq_bigr => c _; rewrite !mxE big_ord1 mxE.
Qed.
End Sum.
