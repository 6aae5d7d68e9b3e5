(* Main lemmas on the one-dimensional moment quadrature. *)
From mathcomp Require Import all_ssreflect all_algebra.
From mathcomp Require Import ring zify.
From Verif Require Import Prelude LinAlgSpec LinAlgProofs SpectralProofs LdlModel LdlProofs.
From Verif Require Import QuadModel QuadSpec QuadProofs.
Set Implicit Arguments.
Unset Strict Implicit.
Unset Printing Implicit Defensive.
Import Order.TTheory GRing.Theory Num.Theory.
Local Open Scope ring_scope.

Section Main.
Variable R : rcfType.
Variable chol : forall n, 'M[R]_n -> 'M[R]_n.
Variable eigh : forall n, 'M[R]_n -> 'M[R]_n * 'rV[R]_n.
Hypothesis cholP : chol_spec chol.
Hypothesis eighP : eigh_spec eigh.
Implicit Types (ms : seq R) (ldl : bool).

Lemma half_gt0 ms : (1 < size ms)%N -> exists n, (size ms)./2 = n.+1.
Proof. by case: ms => [|a [|b s]] //= _; exists (size s)./2. Qed.

Lemma quadrature_fcalc ms mean scale ldl n : (size ms)./2 = n.+1 -> admissible (nth 0 ms) n.+1 ->
  exists L, exists V, exists lam,
  [/\ is_chol L (hankel_G ms n.+1),
      is_eigh (mult_matrix L (hankel_H ms n.+1)) V lam
    & moment_quadrature chol eigh ms mean scale ldl = Some (nodes_of (V, lam) mean scale)].
Proof.
move=> hn ha.
have pG : posdef (hankel_G ms n.+1) by apply/gram_admissible.
have cL := factorP cholP ldl pG.
pose K := mult_matrix (factor chol (hankel_G ms n.+1) ldl) (hankel_H ms n.+1).
have sK : symmetric K by apply: mult_matrix_sym cL _; exact: hankel_H_sym.
exists (factor chol (hankel_G ms n.+1) ldl), (eigh K).1, (eigh K).2.
by split; [|exact: eighP|rewrite (quadratureE _ _ _ _ _ hn) -surjective_pairing].
Qed.

Lemma quadrature_defined ms mean scale ldl : (1 < size ms)%N ->
  exists ws, exists2 xs, moment_quadrature chol eigh ms mean scale ldl = Some (ws, xs)
    & size ws = (size ms)./2 /\ size xs = (size ms)./2.
Proof.
move=> /half_gt0 [n hn]; rewrite (quadratureE _ _ _ _ _ hn) hn.
by eexists; eexists; first reflexivity; rewrite !size_map -enumT size_enum_ord.
Qed.

Lemma quadrature_undefined ms mean scale ldl : (size ms <= 1)%N ->
  moment_quadrature chol eigh ms mean scale ldl = None.
Proof. by case: ms => [|a [|b s]]. Qed.

Lemma expect_mul (ws xs : seq R) (a : R) f : expect ws xs (fun x => a * f x) = a * expect ws xs f.
Proof.
by rewrite !expect_sumE mulr_sumr; apply: eq_bigr => p _; rewrite mulrCA.
Qed.

Lemma expect_sum (ws xs : seq R) I (r : seq I) (F : I -> R -> R) :
  expect ws xs (fun x => \sum_(i <- r) F i x) = \sum_(i <- r) expect ws xs (F i).
Proof.
rewrite expect_sumE; under [RHS]eq_bigr do rewrite expect_sumE.
by rewrite exchange_big /=; apply: eq_bigr => p _; rewrite mulr_sumr.
Qed.

Lemma expect_horner (ws xs : seq R) (p : {poly R}) (g : R -> R) :
  expect ws xs (fun x => p.[g x]) = \sum_(k < size p) p`_k * expect ws xs (fun x => g x ^+ k).
Proof.
rewrite (@expect_ext _ _ _ _ (fun x => \sum_(k < size p) p`_k * g x ^+ k)); last first.
  by move=> x; rewrite horner_coef.
by rewrite expect_sum; apply: eq_bigr => k _; rewrite expect_mul.
Qed.

(* C08 *)
Lemma quadrature_moments ms mean scale ldl ws xs : scale != 0 ->
  admissible (nth 0 ms) (size ms)./2 ->
  moment_quadrature chol eigh ms mean scale ldl = Some (ws, xs) ->
  forall k, (k < (size ms)./2.*2)%N ->
  expect ws xs (fun x => ((x - mean) / scale) ^+ k) = ms`_k / ms`_0.
Proof.
move=> s0 ha hq k hk.
case: (leqP (size ms) 1) => h1; first by rewrite quadrature_undefined in hq.
have [n hn] := half_gt0 h1; rewrite hn in ha hk.
have [L [V [lam [cL eV]]]] := quadrature_fcalc mean scale ldl hn ha.
rewrite hq => /expect_some ->.
rewrite -(pow_entry hn cL hk) -(fcalc_pow k eV) !fcalc_entry.
by apply: eq_bigr => i _; rewrite addrK [scale * _]mulrC mulfK.
Qed.

Lemma quadrature_poly ms mean scale ldl ws xs : scale != 0 ->
  admissible (nth 0 ms) (size ms)./2 ->
  moment_quadrature chol eigh ms mean scale ldl = Some (ws, xs) ->
  forall p : {poly R}, (size p <= (size ms)./2.*2)%N ->
  expect ws xs (fun x => p.[(x - mean) / scale]) = mom_functional (nth 0 ms) p / ms`_0.
Proof.
move=> s0 ha hq p sp; rewrite (expect_horner _ _ p (fun x => (x - mean) / scale)).
rewrite /mom_functional mulr_suml; apply: eq_bigr => k _.
by rewrite (quadrature_moments s0 ha hq) ?mulrA // (leq_trans _ sp).
Qed.

(* C09 *)
Lemma quadrature_weights ms mean scale ldl ws xs :
  admissible (nth 0 ms) (size ms)./2 ->
  moment_quadrature chol eigh ms mean scale ldl = Some (ws, xs) ->
  [/\ size ws = size xs, all (fun w => 0 <= w) ws & jsum ws = 1].
Proof.
move=> ha hq.
case: (leqP (size ms) 1) => h1; first by rewrite quadrature_undefined in hq.
have [n hn] := half_gt0 h1; rewrite hn in ha.
have [L [V [lam [cL [oV eV]]]]] := quadrature_fcalc mean scale ldl hn ha.
rewrite hq => -[-> ->]; split; [by rewrite !size_map| |].
  exact: (weights_ge0 (V, lam) mean scale).
exact: (weights_sum1 lam mean scale oV).
Qed.

Lemma quadrature_moments_main ms mean scale ldl : (1 < size ms)%N -> scale != 0 ->
  admissible (nth 0 ms) (size ms)./2 ->
  exists ws, exists2 xs, moment_quadrature chol eigh ms mean scale ldl = Some (ws, xs)
   & [/\ size ws = (size ms)./2, size xs = (size ms)./2
       & forall k, (k < (size ms)./2.*2)%N ->
         expect ws xs (fun x => ((x - mean) / scale) ^+ k) = ms`_k / ms`_0].
Proof.
move=> h1 s0 ha; have [ws [xs hq [h2 h3]]] := quadrature_defined mean scale ldl h1.
by exists ws, xs => //; split=> // k; apply: quadrature_moments hq k.
Qed.

Lemma quadrature_raw_main ms ldl : (1 < size ms)%N ->
  admissible (nth 0 ms) (size ms)./2 ->
  exists ws, exists2 xs, moment_quadrature chol eigh ms 0 1 ldl = Some (ws, xs)
   & forall k, (k < (size ms)./2.*2)%N -> expect ws xs (fun x => x ^+ k) = ms`_k / ms`_0.
Proof.
move=> h1 ha; have [ws [xs hq [_ _ h]]] := quadrature_moments_main 0 ldl h1 (oner_neq0 R) ha.
exists ws, xs => // k hk; rewrite -h //; apply: expect_ext => x.
by rewrite subr0 divr1.
Qed.

Lemma quadrature_bounds ms mean scale ldl ws xs : admissible (nth 0 ms) (size ms)./2 ->
  moment_quadrature chol eigh ms mean scale ldl = Some (ws, xs) ->
  forall (f : R -> R) a b, (forall x, a <= f x <= b) -> a <= expect ws xs f <= b.
Proof.
move=> ha hq f a b hf; have [h1 h2 h3] := quadrature_weights ha hq.
by apply: expect_bounds.
Qed.

(* C10 *)
Definition afpoly (mean scale : R) : {poly R} := scale^-1 *: ('X - mean%:P).

Lemma afpoly_size mean scale : scale != 0 -> size (afpoly mean scale) = 2%N.
Proof. by move=> s0; rewrite size_scale ?invr_eq0 // size_XsubC. Qed.

Lemma afpoly_exp_size mean scale k : scale != 0 -> (size (afpoly mean scale ^+ k)) = k.+1.
Proof.
move=> s0; have pn0 : afpoly mean scale != 0 by rewrite -size_poly_eq0 afpoly_size.
have := size_exp (afpoly mean scale) k; rewrite afpoly_size // mul1n => e.
have h : (0 < size (afpoly mean scale ^+ k))%N by rewrite lt0n size_poly_eq0 expf_neq0.
by rewrite -[in RHS]e prednK.
Qed.

Lemma afpoly_exp_lead mean scale k : scale != 0 -> (afpoly mean scale ^+ k)`_k = scale^-1 ^+ k.
Proof.
move=> s0; have e := afpoly_exp_size mean k s0.
have : lead_coef (afpoly mean scale ^+ k) = scale^-1 ^+ k.
  by rewrite lead_coef_exp /afpoly lead_coefZ lead_coefXsubC mulr1.
by rewrite lead_coefE e.
Qed.

Section Congr.
Variables (m : nat -> R) (mean scale : R) (n : nat).
Hypothesis s0 : 0 < scale.

Let T : 'M[R]_n := \matrix_(i, j) (afpoly mean scale ^+ i)`_j.
Let G : 'M[R]_n := \matrix_(i, j) m (i + j)%N.
Let H : 'M[R]_n := \matrix_(i, j) m (i + j).+1.

Lemma congr_trig : is_trig_mx T.
Proof.
apply/is_trig_mxP => i j hij; rewrite mxE nth_default // afpoly_exp_size ?gt_eqF //.
Qed.

Lemma congr_diag i : 0 < T i i.
Proof. by rewrite mxE afpoly_exp_lead ?gt_eqF // exprn_gt0 // invr_gt0. Qed.

Lemma congr_expand (i : 'I_n) : afpoly mean scale ^+ i = \sum_(a < n) T i a *: 'X^a.
Proof.
apply/polyP => k; rewrite coef_sum; case: (ltnP k n) => hk.
  rewrite (bigD1 (Ordinal hk)) //= coefZ coefXn eqxx mulr1 mxE big1 ?addr0 // => j hj.
  by rewrite coefZ coefXn eq_sym -[k]/(nat_of_ord (Ordinal hk)) -[_ == _ :> nat]/(j == _) (negbTE hj) mulr0.
rewrite nth_default ?afpoly_exp_size ?gt_eqF // ?(leq_trans (ltn_ord i)) //.
rewrite big1 // => j _; rewrite coefZ coefXn gtn_eqF ?mulr0 //.
by rewrite (leq_trans (ltn_ord j)).
Qed.

Lemma congr_mx (q : {poly R}) :
  (\matrix_(i < n, j < n) mom_functional m (afpoly mean scale ^+ i * (q * afpoly mean scale ^+ j)))
  = T *m (\matrix_(i, j) mom_functional m ('X^i * (q * 'X^j))) *m T^T.
Proof.
apply/matrixP => i j; rewrite mxE congr_expand (congr_expand j) mulr_suml mom_sum.
rewrite mxE; under [RHS]eq_bigr do rewrite mxE mulr_suml.
rewrite exchange_big /=; apply: eq_bigr => a _.
rewrite mulr_sumr mulr_sumr mom_sum; apply: eq_bigr => b _.
rewrite -scalerAl -!scalerAr !momZ [T^T b j]mxE [(\matrix_(_, _) _) a b]mxE.
by rewrite [RHS]mulrAC -[RHS]mulrA.
Qed.

Lemma congr_G : \matrix_(i, j) affine_moments m mean scale (i + j)%N = T *m G *m T^T.
Proof.
have -> : G = \matrix_(i, j) mom_functional m ('X^i * (1 * 'X^j)).
  by apply/matrixP => i j; rewrite !mxE mul1r -exprD momXn.
rewrite -congr_mx; apply/matrixP => i j; rewrite !mxE /affine_moments -/(afpoly mean scale).
by rewrite mul1r -exprD.
Qed.

Lemma congr_H : \matrix_(i, j) affine_moments m mean scale (i + j).+1 =
  scale^-1 *: (T *m (H - mean *: G) *m T^T).
Proof.
rewrite scalemxAl scalemxAr.
have -> : scale^-1 *: (H - mean *: G) =
          \matrix_(i, j) mom_functional m ('X^i * (afpoly mean scale * 'X^j)).
  apply/matrixP => i j; rewrite !mxE.
  have -> : 'X^i * (afpoly mean scale * 'X^j) = scale^-1 *: ('X^((i + j).+1) - mean *: 'X^(i + j)).
    by rewrite /afpoly -scalerAl -scalerAr mulrBl mulrBr -exprS -exprD addnS mul_polyC -scalerAr -exprD.
  by rewrite momZ momB momZ !momXn.
rewrite -congr_mx; apply/matrixP => i j; rewrite !mxE /affine_moments -/(afpoly mean scale).
by rewrite -exprS -exprD addnS.
Qed.
End Congr.

Lemma mx_affine_fcalc n (K V W : 'M[R]_n.+1) lam mu (mean scale : R) f : scale != 0 ->
  is_eigh K V lam -> is_eigh (scale^-1 *: (K - mean%:M)) W mu ->
  fcalc W mu (fun x => f (scale * x + mean)) = fcalc V lam f.
Proof.
move=> s0 eV eW.
have e2 := is_eigh_affine scale mean eW.
have KE : scale *: (scale^-1 *: (K - mean%:M)) + mean%:M = K.
  by rewrite scalerA divff // scale1r subrK.
rewrite KE in e2; rewrite (fcalc_unique f eV e2).
by rewrite (fcalc_comp W mu f (fun x => scale * x + mean)).
Qed.

Lemma quadrature_repr ms ms' mean scale ldl ldl' ws xs ws' xs' : 0 < scale ->
  size ms' = size ms ->
  (forall k, (k < (size ms)./2.*2)%N -> ms'`_k = affine_moments (nth 0 ms) mean scale k) ->
  admissible (nth 0 ms) (size ms)./2 ->
  moment_quadrature chol eigh ms 0 1 ldl = Some (ws, xs) ->
  moment_quadrature chol eigh ms' mean scale ldl' = Some (ws', xs') ->
  forall f, expect ws' xs' f = expect ws xs f.
Proof.
move=> s0 hs hm ha hq hq' f.
case: (leqP (size ms) 1) => h1; first by rewrite quadrature_undefined in hq.
have [n hn] := half_gt0 h1; rewrite hn in ha hm.
have hn' : (size ms')./2 = n.+1 by rewrite hs.
have [L [V [lam [cL eV hq2]]]] := quadrature_fcalc 0 1 ldl hn ha.
have GE : hankel_G ms n.+1 = \matrix_(i, j) (nth 0 ms) (i + j)%N.
  by apply/matrixP => i j; rewrite hankel_GE // mxE.
have HE : hankel_H ms n.+1 = \matrix_(i, j) (nth 0 ms) (i + j).+1.
  by apply/matrixP => i j; rewrite hankel_HE // mxE.
have lt2 (i j : 'I_n.+1) : ((i + j).+1 < n.+1.*2)%N.
  by have := ltn_ord i; have := ltn_ord j; lia.
have GE' : hankel_G ms' n.+1 = \matrix_(i, j) affine_moments (nth 0 ms) mean scale (i + j)%N.
  by apply/matrixP => i j; rewrite hankel_GE // mxE hm // ltnW // lt2.
have HE' : hankel_H ms' n.+1 = \matrix_(i, j) affine_moments (nth 0 ms) mean scale (i + j).+1.
  by apply/matrixP => i j; rewrite hankel_HE // mxE hm // lt2.
have ha' : admissible (nth 0 ms') n.+1.
  apply/gram_admissible => //; rewrite GE' congr_G // -GE.
  rewrite -{1}[\matrix_(_, _) _]trmxK; apply: posdef_congr; first by apply/gram_admissible.
  rewrite unitmx_tr; apply: trig_unit; first exact: congr_trig.
  by move=> i; exact: congr_diag.
have [L' [W [mu [cL' eW hq2']]]] := quadrature_fcalc mean scale ldl' hn' ha'.
rewrite hq in hq2; rewrite hq' in hq2'.
rewrite (expect_some _ hq2) (expect_some _ hq2').
have KE := mult_matrix_congr (L := L) (G := hankel_G ms n.+1) (H := hankel_H ms n.+1)
   cL (congr_trig mean n.+1 s0) (congr_diag mean s0) _ _ cL'.
move: eW; rewrite (KE (hankel_H ms' n.+1) mean scale^-1); first last.
- by rewrite HE' congr_H // HE GE.
- by rewrite GE' congr_G // GE.
move=> eW; rewrite (mx_affine_fcalc f _ eV eW) ?gt_eqF //.
by rewrite !fcalc_entry; apply: eq_bigr => i _; rewrite mul1r addr0.
Qed.
End Main.

Section Discrete.
Variable R : rcfType.

Lemma mom_discrete (ws xs : seq R) (p : {poly R}) :
  mom_functional (discrete_moment ws xs) p = \sum_(q <- zip ws xs) q.1 * p.[q.2].
Proof.
rewrite /mom_functional; under [RHS]eq_bigr do rewrite horner_coef mulr_sumr.
rewrite exchange_big /=; apply: eq_bigr => k _.
by rewrite mulr_sumr; apply: eq_bigr => q _; rewrite mulrCA.
Qed.

Lemma zip_mem (ws xs : seq R) q : q \in zip ws xs -> q.1 \in ws /\ q.2 \in xs.
Proof.
elim: ws xs => [|w ws IH] [|x xs] //=; rewrite inE => /orP [/eqP ->|/IH [h1 h2]].
  by rewrite !mem_head.
by rewrite !inE h1 h2 !orbT.
Qed.

Lemma zip_mem2 (ws xs : seq R) x : size ws = size xs -> x \in xs ->
  exists2 q, q \in zip ws xs & q.2 = x.
Proof.
elim: ws xs => [|w ws IH] [|y xs] //= [hs]; rewrite inE => /orP [/eqP ->|/(IH _ hs) [q h1 h2]].
  by exists (w, y) => //; rewrite mem_head.
by exists q => //; rewrite inE h1 orbT.
Qed.

Lemma discrete_admissible (ws xs : seq R) :
  size ws = size xs -> uniq xs -> all (fun w => 0 < w) ws ->
  admissible (discrete_moment ws xs) (size xs).
Proof.
move=> hs ux /allP hw p p0 sp; rewrite mom_discrete.
have ge q : q \in zip ws xs -> 0 <= q.1 * (p * p).[q.2].
  by move=> /zip_mem [h _]; rewrite hornerM -expr2 mulr_ge0 ?sqr_ge0 // ltW // hw.
rewrite lt_def big_seq sumr_ge0 // andbT; apply: contraNneq p0 => h0.
move/eqP: h0; rewrite psumr_eq0 // => /allP h0.
have roots : all (root p) xs.
  apply/allP => x hx; have [q hq <-] := zip_mem2 hs hx.
  have := h0 q hq; rewrite hq /= mulf_eq0 gt_eqF /=; last by case: (zip_mem hq) => /hw.
  by rewrite hornerM mulf_eq0 orbb.
apply/eqP; apply: roots_geq_poly_eq0 roots ux sp.
Qed.
End Discrete.
