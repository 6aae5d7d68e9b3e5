(* The scaled mode with the Gaussian moments (args.normal): the predicted law is contracted. *)
From mathcomp Require Import all_ssreflect all_algebra.
From mathcomp Require Import ring zify.
From Verif Require Import Prelude LinAlgSpec LinAlgProofs LdlModel LdlProofs QuadModel QuadSpec QuadProofs QuadMain QuadStrict.
From Verif Require Import Moments1DModel Moments1DSpec Moments1DProofs Moments1DConv.
From Verif Require Import Filter1DModel Filter1DSpec Filter1DProofs Filter1DSim FilterAffine.
Set Implicit Arguments.
Unset Strict Implicit.
Unset Printing Implicit Defensive.
Import Order.TTheory GRing.Theory Num.Theory.
Local Open Scope ring_scope.

Section Shrink.
Variable R : rcfType.
Variable chol : forall n, 'M[R]_n -> 'M[R]_n.
Variable eigh : forall n, 'M[R]_n -> 'M[R]_n * 'rV[R]_n.
Hypotheses (cholP : chol_spec chol) (eighP : eigh_spec eigh).
Local Notation quad := (quad chol eigh).

Lemma chol_scale n (L G : 'M[R]_n) a : 0 < a -> is_chol L G -> is_chol (a *: L) (a ^+ 2 *: G).
Proof.
move=> a0 [h1 h2 h3]; split.
- by apply/is_trig_mxP => i j hij; rewrite mxE (is_trig_mxP h1) ?mulr0.
- by move=> i; rewrite mxE mulr_gt0.
- by rewrite linearZ /= -scalemxAl -scalemxAr scalerA -expr2 h3.
Qed.

(* a constant factor of the moments does not change the rule *)
Lemma quadrature_mass (a : R) ms mean scale st : 0 < a -> adm ms ->
  moment_quadrature chol eigh [seq a * m | m <- ms] mean scale st = moment_quadrature chol eigh ms mean scale st.
Proof.
move=> a0 ha; case: (leqP (size ms) 1) => hs; first by rewrite !quadrature_undefined ?size_map.
have [n hn] := half_gt0 hs.
have hn' : (size [seq a * m | m <- ms])./2 = n.+1 by rewrite size_map.
rewrite (quadratureE _ _ _ _ _ hn) (quadratureE _ _ _ _ _ hn').
have hlt (i j : 'I_n.+1) : ((i + j).+1 < size ms)%N by exact: hankel_lt hn.
have eG : hankel_G [seq a * m | m <- ms] n.+1 = a *: hankel_G ms n.+1.
  apply/matrixP => i j; rewrite [RHS]mxE (hankel_GE _ _ hn) (hankel_GE _ _ hn') (nth_map 0) //.
  by rewrite ltnW.
have eH : hankel_H [seq a * m | m <- ms] n.+1 = a *: hankel_H ms n.+1.
  by apply/matrixP => i j; rewrite [RHS]mxE (hankel_HE _ _ hn) (hankel_HE _ _ hn') (nth_map 0).
have pG : posdef (hankel_G ms n.+1) by apply/gram_admissible => //; rewrite -hn.
have cG := factorP cholP st pG.
have s0 : 0 < Num.sqrt a by rewrite sqrtr_gt0.
have cG' : is_chol (Num.sqrt a *: factor chol (hankel_G ms n.+1) st) (a *: hankel_G ms n.+1).
  by have := chol_scale s0 cG; rewrite sqr_sqrtr // ltW.
have pG' : posdef (a *: hankel_G ms n.+1) by apply: chol_posdef cG'.
rewrite eG eH (chol_unique (factorP cholP st pG') cG').
congr (Some (nodes_of (eigh _) _ _)).
rewrite (mult_matrixE _ cG) (mult_matrixE _ cG').
have uL := chol_unit cG'; have uLT : Num.sqrt a *: (factor chol (hankel_G ms n.+1) st)^T \in unitmx.
  by rewrite -linearZ /= unitmx_tr.
set L := factor _ _ _ in uL uLT *.
have -> : (Num.sqrt a *: L)^T = Num.sqrt a *: L^T by apply/matrixP => i j; rewrite !mxE.
rewrite !invmxZ // -!scalemxAl -!scalemxAr -!scalemxAl !scalerA.
have -> : (Num.sqrt a)^-1 * ((Num.sqrt a)^-1 * a) = 1.
  by rewrite -{3}[a]sqr_sqrtr ?ltW // expr2 mulrA mulrACA !mulVf ?gt_eqF // mulr1.
by rewrite scale1r.
Qed.

Lemma quad_mass (a : R) ms mean scale st : 0 < a -> adm ms ->
  quad [seq a * m | m <- ms] mean scale st = quad ms mean scale st.
Proof. by move=> a0 ha; rewrite /Filter1DModel.quad quadrature_mass. Qed.

(* the scale stretches the nodes about the mean *)
Lemma quad_scale ms mean scale st f :
  ex (quad ms mean scale st) f = ex (quad ms mean 1 st) (fun x => f (mean + scale * (x - mean))).
Proof.
rewrite /ex /Filter1DModel.quad; case: (leqP (size ms) 1) => hs; first by rewrite !quadrature_undefined.
have [n hn] := half_gt0 hs; rewrite !(quadratureE _ _ _ _ _ hn) /=.
rewrite !expect_sumE !zip_map !big_map; apply: eq_bigr => i _ /=.
by rewrite mul1r addrK [mean + _]addrC.
Qed.

(* ---- the scaled filter with the Gaussian moments ---- *)
Section Predict.
Variables (mv : R -> R * R) (N : nat) (st : bool).
Hypothesis hvar : forall x, 0 < (mv x).2.
Local Notation spredict := (scms_predict chol eigh (normal_cond_scaled mv N) mv st).

(* the central moments about c of the predicted law *)
Definition pred_central (wx : seq R * seq R) (c : R) : seq R :=
  [seq ex wx (fun x => central_moment (gauss_moment (mv x).1 (mv x).2) c n) | n <- iota 0 (2 * N)].

Lemma scaled_normal_predict scms mean scale : size scms = (2 * N)%N ->
  let wx := quad scms mean scale st in
  let m := ex wx (fun x => (mv x).1) in
  let r := Num.sqrt (ex wx (fun x => (mv x).2)) in
  spredict (scms, mean, scale) = ([seq a / r ^+ 'C(2 * N, 2) | a <- pred_central wx m], m, r).
Proof.
move=> hs wx m r; rewrite scms_predictE -/wx -/m -/r; congr (_, _, _); rewrite hs.
apply: (@eq_from_nth _ 0); first by rewrite size_moments_of !size_map size_iota.
rewrite size_moments_of => k hk; rewrite nth_moments_of // (nth_map 0) ?size_map ?size_iota //.
rewrite nth_iota_map // -ex_divr; apply: expect_ext => x.
by rewrite normal_cond_scaledE // ltW.
Qed.

Lemma pred_central_adm ms mean scale c : (0 < N)%N -> size ms = (2 * N)%N -> scale != 0 -> adm ms ->
  adm (pred_central (quad ms mean scale st) c).
Proof.
move=> N0 hs s0 ha; have hs1 : (1 < size ms)%N by rewrite hs; lia.
have hF x : admissible (fun n => central_moment (gauss_moment (mv x).1 (mv x).2) c n) (size ms)./2.
  apply: (adm_ext _ (adm_aff (- c) (oner_neq0 R) (gauss_admissible (mv x).1 (hvar x)))) => k _.
  by rewrite central_aff.
by have := mix_admissible (st := st) (mean := mean) cholP eighP hs1 s0 ha hF; rewrite /moments_of hs.
Qed.

Lemma scaled_normal_shrinks scms mean scale f : (0 < N)%N -> size scms = (2 * N)%N -> scale != 0 -> adm scms ->
  let wx := quad scms mean scale st in
  let '(ms, m, r) := spredict (scms, mean, scale) in
  ex (quad ms m r st) f = ex (quad (pred_central wx m) m 1 st) (fun x => f (m + r * (x - m))).
Proof.
move=> N0 hs s0 ha wx; rewrite scaled_normal_predict //= -/wx.
set m := ex wx (fun x => (mv x).1); set r := Num.sqrt _.
have hs1 : (1 < size scms)%N by rewrite hs; lia.
have r0 : 0 < r.
  rewrite sqrtr_gt0; have [h1 h2 h3 h4 _] := quad_strict cholP eighP mean st hs1 s0 ha.
  by apply: expect_gt0 => //; rewrite h2 h3.
have -> : [seq a / r ^+ 'C(2 * N, 2) | a <- pred_central wx m]
        = [seq (r ^+ 'C(2 * N, 2))^-1 * a | a <- pred_central wx m] by apply: eq_map => a; rewrite mulrC.
have hq : adm (pred_central wx m) by apply: pred_central_adm.
have c0 : 0 < (r ^+ 'C(2 * N, 2))^-1 by rewrite invr_gt0 exprn_gt0.
by rewrite (quad_mass _ _ _ c0 hq) quad_scale.
Qed.
End Predict.

(* ---- symmetric laws ---- *)
Definition sym_moms (ms : seq R) := forall k, (k < size ms)%N -> odd k -> ms`_k = 0.

Lemma quad_sym ms st f : (1 < size ms)%N -> ms`_0 = 1 -> adm ms -> sym_moms ms ->
  ex (quad ms 0 1 st) (fun x => f (- x)) = ex (quad ms 0 1 st) f.
Proof.
move=> hs h0 ha hsym.
have e : aff_seq 0 (-1) ms = ms.
  apply: (@eq_from_nth _ 0) => [|k]; rewrite size_aff // => hk; rewrite nth_aff //.
  rewrite /affine_moments subr0 invrN invr1 scaleN1r exprNn -signr_odd.
  case: (boolP (odd k)) => ho; rewrite ?expr1 ?expr0 ?mulN1r ?mul1r.
    by rewrite -scaleN1r momZ momXn hsym // mulr0.
  by rewrite momXn.
have s0 : (-1 : R) != 0 by rewrite oppr_eq0 oner_eq0.
rewrite -{2}e (quad_affine cholP eighP 0 s0 st st hs h0 ha).
by apply: expect_ext => x; rewrite subr0 invrN invr1 mulrN1.
Qed.

Lemma ex_opp wx (f : R -> R) : ex wx (fun x => - f x) = - ex wx f.
Proof. by rewrite -mulN1r -[RHS]expect_mul; apply: expect_ext => x; rewrite mulN1r. Qed.

Lemma ex_add wx (f g : R -> R) : ex wx (fun x => f x + g x) = ex wx f + ex wx g.
Proof. by rewrite /ex !expect_sumE -big_split; apply: eq_bigr => p _; rewrite mulrDr. Qed.

Lemma quad_odd ms st f : (1 < size ms)%N -> ms`_0 = 1 -> adm ms -> sym_moms ms ->
  (forall x, f (- x) = - f x) -> ex (quad ms 0 1 st) f = 0.
Proof.
move=> hs h0 ha hsym hf; have := quad_sym st f hs h0 ha hsym.
rewrite [LHS](expect_ext _ _ hf) -/(ex _ _) ex_opp => /eqP; rewrite -subr_eq0 -opprD oppr_eq0 -mulr2n mulrn_eq0.
by move=> /eqP.
Qed.

(* strict comparison: a rule with at least two nodes cannot put everything at zero *)
Lemma ex_lt ms mean st (f g : R -> R) : (3 < size ms)%N -> adm ms ->
  (forall x, f x <= g x) -> (forall x, x != 0 -> f x < g x) ->
  ex (quad ms mean 1 st) f < ex (quad ms mean 1 st) g.
Proof.
move=> hs ha hle hlt; have hs1 : (1 < size ms)%N by apply: leq_trans hs.
have [h1 h2 h3 h4 h5] := quad_strict cholP eighP mean st hs1 (oner_neq0 R) ha.
move: h1 h2 h3 h4 h5; case: (quad ms mean 1 st) => ws xs /= h1 h2 h3 h4 h5.
have hn : (1 < (size ms)./2)%N by rewrite (@half_leq 4).
case: ws xs h1 h2 h3 h4 h5 => [|w1 [|w2 ws]] [|x1 [|x2 xs]] //= _ h2 h3 h4 h5;
  try by exfalso; move: hn h2 h3; clear; lia.
case/and3P: h4 => p1 p2 p3; case/andP: h5; rewrite inE negb_or => /andP [hx _] _.
rewrite /ex !expect_sumE /= !big_cons /= !addrA.
have hrest : \sum_(p <- zip ws xs) p.1 * f p.2 <= \sum_(p <- zip ws xs) p.1 * g p.2.
  rewrite big_seq [X in _ <= X]big_seq; apply: ler_sum => p /zip_mem [hp _].
  by rewrite ler_wpmul2l // ltW // (allP p3).
apply: ltr_le_add => //.
case: (eqVneq x1 0) => [e1|n1].
  have n2 : x2 != 0 by rewrite -e1 eq_sym.
  by apply: ler_lt_add; [rewrite ler_pmul2l|rewrite ltr_pmul2l // hlt].
by apply: ltr_le_add; [rewrite ltr_pmul2l // hlt|rewrite ler_pmul2l].
Qed.
End Shrink.
