(* Properties C40-C44, C47, C62-C64: Gaussian filters and smoothers. *)
From mathcomp Require Import all_ssreflect all_algebra.
From mathcomp Require Import ring.
From Verif Require Import Prelude LinAlgSpec LinAlgProofs SpectralProofs LdlProofs GfsModel GfsSpec GfsProofs.
From Verif Require Import GfsKf GfsVec GfsRts GfsMap GfsSgp GfsSgpRun GfsRk4 GfsMain GfsCd.
From Verif Require Import SigmaModel SigmaSpec SigmaCub.
Set Implicit Arguments.
Unset Strict Implicit.
Unset Printing Implicit Defensive.
Import Order.TTheory GRing.Theory Num.Theory.
Local Open Scope ring_scope.

Section Kf.
Variable R : rcfType.
Variable chol : forall n, 'M[R]_n -> 'M[R]_n.
Variables (log : R -> R) (pi : R).
Variables (dx : nat) (F Sigma : 'M[R]_dx) (H : 'M[R]_(1, dx)) (Xi : 'M[R]_1).

(* C40, scalar measurements: every step of kf is Bayes' rule and the returned value is the
   accumulated negative log predictive density. *)
Theorem kf_exact_bayes m0 v0 ys :
  possemidef Sigma -> posdef Xi -> posdef v0 ->
  (forall v, posdef v -> posdef (F *m v *m F^T + Sigma)) ->
  exists outs, kf chol log pi F Sigma H Xi m0 v0 ys
    = Some ([seq s.1.1 | s <- outs], [seq s.1.2 | s <- outs], [seq s.2 | s <- outs]) /\
  chain_of (exact_step log pi F 0 Sigma H 0 Xi) (m0, v0, 0) ys outs.
Proof.
move=> sS pX p0 hp; exists (kf_traj log pi F Sigma H Xi m0 v0 ys).
by rewrite (kfE chol log pi F H sS pX m0 ys (posdef_semi p0)); split; last exact: kf_exact_lem.
Qed.

(* C41: the covariances are positive semi-definite and at most the predicted ones; only
   semi-definiteness of the prior and the process noise is needed. *)
Theorem kf_covariances m0 v0 ys :
  possemidef Sigma -> posdef Xi -> possemidef v0 ->
  exists ms vs es, [/\ kf chol log pi F Sigma H Xi m0 v0 ys = Some (ms, vs, es),
    size vs = size ys &
    chain_of (fun v (_ : 'cV[R]_1) v' => possemidef v' /\ loewner v' (F *m v *m F^T + Sigma)) v0 ys vs].
Proof.
move=> sS pX p0; rewrite kfE //; do 3 eexists; split; first reflexivity.
  by rewrite size_map size_traj.
have := kf_cov_lem log pi F H sS pX m0 ys p0; rewrite -/(kf_traj log pi F Sigma H Xi m0 v0 ys).
move: (kf_traj _ _ _ _ _ _ _ _ _) => outs.
have -> : v0 = (m0, v0, 0 : R).1.2 by [].
elim: ys (m0, v0, 0 : R) outs {p0} => [|y ys IH] s [|o outs] //= [h1 h2].
by split => //; apply: IH.
Qed.

(* C41: measurements and the initial mean do not influence the covariances. *)
Theorem kf_covariances_data_free m0 m0' v0 ys ys' :
  possemidef Sigma -> posdef Xi -> possemidef v0 -> size ys = size ys' ->
  exists ms ms' vs es es', kf chol log pi F Sigma H Xi m0 v0 ys = Some (ms, vs, es) /\
                           kf chol log pi F Sigma H Xi m0' v0 ys' = Some (ms', vs, es').
Proof.
move=> sS pX p0 hs; rewrite !kfE // /outputs.
rewrite -(kf_cov_indep log pi F Sigma H Xi m0 m0' v0 hs).
by do 5 eexists.
Qed.

(* C42 after kf: the smoother keeps the last filtering state and never increases a covariance. *)
Theorem kf_rts_covariances m0 v0 y ys :
  chol_spec chol -> posdef Xi -> possemidef Sigma -> posdef v0 ->
  (forall v, posdef v -> posdef (F *m v *m F^T + Sigma)) ->
  exists ms vs es, kf chol log pi F Sigma H Xi m0 v0 (y :: ys) = Some (ms, vs, es) /\
  let r := rts chol F Sigma ms vs in
  [/\ size r.1 = size ms, size r.2 = size vs,
      (last 0 r.1, last 0 r.2) = (last 0 ms, last 0 vs)
    & forall k, (k < size vs)%N -> possemidef (nth 0 r.2 k) /\ loewner (nth 0 r.2 k) (nth 0 vs k)].
Proof. by move=> hc pX sS p0 hp; apply: kf_rts_cov. Qed.

(* C62: kf followed by rts returns the exact posterior marginals and the most probable
   trajectory. *)
Theorem kf_rts_posterior m0 v0 y ys :
  chol_spec chol -> posdef Xi -> posdef Sigma -> possemidef v0 ->
  exists ms vs es, kf chol log pi F Sigma H Xi m0 v0 (y :: ys) = Some (ms, vs, es) /\
  let r := rts chol F Sigma ms vs in
  let J := posterior_cost F Sigma H Xi (F *m m0) (F *m v0 *m F^T + Sigma) (y :: ys) in
  [/\ size r.1 = (size ys).+1, size r.2 = (size ys).+1,
      unique_minimiser J (size ys).+1 r.1
    & forall k, (k <= size ys)%N -> gauss_marginal J (size ys).+1 k (nth 0 r.1 k) (nth 0 r.2 k)].
Proof. by move=> hc pX pS p0; apply: kf_rts_lem. Qed.
End Kf.

Section KfVector.
Variable R : rcfType.
Variable chol : forall n, 'M[R]_n -> 'M[R]_n.
Variables (log : R -> R) (pi : R).

(* C40, vector measurements: with as many measurements as neither one nor the state
   dimension the call raises a shape error as soon as there is one measurement. *)
Theorem kf_vector_shape_error dx dy (F Sigma : 'M[R]_dx) (H : 'M[R]_(dy, dx)) (Xi : 'M[R]_dy)
    m0 v0 y ys : dy <> 1%N -> dy <> dx ->
  kf chol log pi F Sigma H Xi m0 v0 (y :: ys) = None.
Proof. exact: kf_shape_error_lem. Qed.

(* With as many measurements as states and H invertible, the update is Bayes' rule for no
   model whose innovation covariance has determinant other than one. *)
Theorem kf_vector_not_bayes n (F Sigma H Xi : 'M[R]_n) m0 v0 :
  chol_spec chol -> n <> 1%N -> H \in unitmx -> posdef Xi -> posdef (F *m v0 *m F^T + Sigma) ->
  \det (H *m (F *m v0 *m F^T + Sigma) *m H^T + Xi) <> 1 ->
  exists y m' v' e, kf chol log pi F Sigma H Xi m0 v0 [:: y] = Some ([:: m'], [:: v'], [:: e]) /\
    ~ bayes_rule H 0 Xi (F *m m0) (F *m v0 *m F^T + Sigma) y m' v'.
Proof. by move=> hc; exact: (kf_vector_wrong_lem log pi hc). Qed.

(* A concrete instance, for every Cholesky factorisation: two states, two measurements. *)
Theorem kf_vector_bayes_refuted : chol_spec chol ->
  exists (F Sigma H Xi : 'M[R]_2) m0 v0 y m' v' e,
    [/\ posdef Xi, posdef v0, posdef Sigma,
        kf chol log pi F Sigma H Xi m0 v0 [:: y] = Some ([:: m'], [:: v'], [:: e])
      & ~ bayes_rule H 0 Xi (F *m m0) (F *m v0 *m F^T + Sigma) y m' v'].
Proof.
move=> hc; have [e he] := kf_vector_negative log pi hc (0 : 'cV[R]_2).
exists 1%:M, 1%:M, 1%:M, (2%:R)%:M, 0, 1%:M, 0, 0, (- 2%:R)%:M, e; split=> //;
  try by apply: scalar_posdef; rewrite ?ltr01 ?ltr0n.
by case=> /posdef_semi /not_semi_neg.
Qed.

(* C41, vector measurements: a returned covariance need not be positive semi-definite. *)
Theorem kf_vector_covariance_refuted : chol_spec chol ->
  exists (F Sigma H Xi : 'M[R]_2) m0 v0 y m' v' e,
    [/\ posdef Xi, posdef v0, posdef Sigma,
        kf chol log pi F Sigma H Xi m0 v0 [:: y] = Some ([:: m'], [:: v'], [:: e])
      & ~ possemidef v'].
Proof.
move=> hc; have [e he] := kf_vector_negative log pi hc (0 : 'cV[R]_2).
exists 1%:M, 1%:M, 1%:M, (2%:R)%:M, 0, 1%:M, 0, 0, (- 2%:R)%:M, e; split=> //;
  try by apply: scalar_posdef; rewrite ?ltr01 ?ltr0n.
exact: not_semi_neg.
Qed.

(* The multivariate log-density used for vector measurements is right when the Cholesky
   factor is diagonal ... *)
Theorem log_mvn_pdf_uncorrelated n (x mu : 'cV[R]_n) (L S : 'M[R]_n) :
  log_spec log -> 0 < pi -> is_chol L S -> is_diag_mx L ->
  log_mvn_pdf log pi x mu L = log_gauss log pi x mu S.
Proof. by move=> hl pp; apply: log_mvn_diag. Qed.

(* ... and wrong in general. *)
Theorem log_mvn_pdf_refuted : log_spec log -> 0 < pi ->
  exists (x mu : 'cV[R]_2) (L S : 'M[R]_2), is_chol L S /\
    log_mvn_pdf log pi x mu L <> log_gauss log pi x mu S.
Proof.
move=> hl pp; exists (xw R), 0, (Lw R), (Sw R); split; first exact: Lw_chol.
exact: log_mvn_wrong.
Qed.
End KfVector.

(* C42: the smoother on any list of covariances that could come from a filter. *)
Theorem rts_covariances (R : rcfType) (chol : forall n, 'M[R]_n -> 'M[R]_n) d
    (F Sigma : 'M[R]_d) mfs vfs :
  chol_spec chol -> possemidef Sigma -> (0 < size vfs)%N -> size mfs = size vfs ->
  (forall v, v \in vfs -> possemidef v /\ posdef (F *m v *m F^T + Sigma)) ->
  (forall k, (k.+1 < size vfs)%N ->
     loewner (nth 0 vfs k.+1) (F *m (nth 0 vfs k) *m F^T + Sigma)) ->
  let r := rts chol F Sigma mfs vfs in
  [/\ size r.1 = size mfs, size r.2 = size vfs,
      (last 0 r.1, last 0 r.2) = (last 0 mfs, last 0 vfs)
    & forall k, (k < size vfs)%N -> possemidef (nth 0 r.2 k) /\ loewner (nth 0 r.2 k) (nth 0 vfs k)].
Proof. by move=> hc; apply: rts_covariance_lem. Qed.

Section Ekf.
Variable R : rcfType.
Variable chol : forall n, 'M[R]_n -> 'M[R]_n.
Variables (log : R -> R) (pi : R).
Variables jacfwd jacrev : forall n m, ('cV[R]_n -> 'cV[R]_m) -> 'cV[R]_n -> 'M[R]_(m, n).

(* C43: on linear models ekf is kf, for any measurement dimension, history and either
   differentiation mode. *)
Theorem ekf_is_kf dx dy (F Sigma : 'M[R]_dx) (H : 'M[R]_(dy, dx)) (Xi : 'M[R]_dy) dt
    state_cond_m_cov measurement_cond_m_cov m0 v0 ys fw :
  jac_affine_spec jacfwd -> jac_affine_spec jacrev ->
  (forall x, state_cond_m_cov x dt = (F *m x, Sigma)) ->
  (forall x, measurement_cond_m_cov x = (H *m x, Xi)) ->
  ekf chol log pi jacfwd jacrev state_cond_m_cov measurement_cond_m_cov m0 v0 dt ys fw
  = kf chol log pi F Sigma H Xi m0 v0 ys.
Proof.
move=> h1 h2 hs hm.
have hs' x : state_cond_m_cov x dt = (F *m x + 0, Sigma) by rewrite addr0.
have hm' x : measurement_cond_m_cov x = (H *m x + 0, Xi) by rewrite addr0.
rewrite (ekf_runE _ _ _ h1 h2 hs' hm') /kf.
by apply: (run_filter_ext (I := fun=> True)) => // *; rewrite addr0.
Qed.

(* C43: eks is rts. *)
Theorem eks_is_rts dx (F Sigma : 'M[R]_dx) dt state_cond_m_cov mfs vfs :
  jac_affine_spec jacfwd -> (forall x, state_cond_m_cov x dt = (F *m x, Sigma)) ->
  eks chol jacfwd state_cond_m_cov mfs vfs dt = rts chol F Sigma mfs vfs.
Proof.
move=> h1 hs; have hs' x : state_cond_m_cov x dt = (F *m x + 0, Sigma) by rewrite addr0.
exact: (eks_runE _ h1 hs').
Qed.

(* C43: on affine models with scalar measurements ekf is exact filtering. *)
Theorem ekf_affine_exact dx (F : 'M[R]_dx) b Sigma (H : 'M[R]_(1, dx)) c Xi dt
    state_cond_m_cov measurement_cond_m_cov m0 v0 ys fw :
  jac_affine_spec jacfwd -> jac_affine_spec jacrev ->
  (forall x, state_cond_m_cov x dt = (F *m x + b, Sigma)) ->
  (forall x, measurement_cond_m_cov x = (H *m x + c, Xi)) ->
  posdef Xi -> posdef v0 -> (forall v, posdef v -> posdef (F *m v *m F^T + Sigma)) ->
  exists outs,
    ekf chol log pi jacfwd jacrev state_cond_m_cov measurement_cond_m_cov m0 v0 dt ys fw
    = Some ([seq s.1.1 | s <- outs], [seq s.1.2 | s <- outs], [seq s.2 | s <- outs]) /\
    chain_of (exact_step log pi F b Sigma H c Xi) (m0, v0, 0) ys outs.
Proof.
move=> h1 h2 hs hm pX p0 hp; rewrite (ekf_runE _ _ _ h1 h2 hs hm).
exact: affine_exact.
Qed.

Section Sgp.
Variables (dx dy : nat) (sg : sigma_points R dx).
Variables (F Sigma : 'M[R]_dx) (dt : R).
Variable state_cond_m_cov : 'cV[R]_dx -> R -> 'cV[R]_dx * 'M[R]_dx.

(* C44: sgp_filter is kf (scalar measurements), with either treatment of the measurement
   noise. *)
Theorem sgp_filter_is_kf (H : 'M[R]_(1, dx)) (Xi : 'M[R]_1) measurement_cond_m_cov m0 v0 ys const :
  chol_spec chol -> log_spec log -> 0 < pi -> sg_rule (sg_w sg) (sg_xi sg) ->
  (forall x, state_cond_m_cov x dt = (F *m x, Sigma)) ->
  (forall x, measurement_cond_m_cov x = (H *m x, Xi)) ->
  (forall v, posdef v -> posdef (F *m v *m F^T + Sigma)) -> posdef Xi -> posdef v0 ->
  sgp_filter chol log pi state_cond_m_cov measurement_cond_m_cov sg m0 v0 dt ys const
  = kf chol log pi F Sigma H Xi m0 v0 ys.
Proof.
move=> hc hl pp hsg hs hm hp pX p0.
have hs' x : state_cond_m_cov x dt = (F *m x + 0, Sigma) by rewrite addr0.
have hm' x : measurement_cond_m_cov x = (H *m x + 0, Xi) by rewrite addr0.
rewrite (sgp_filter_scalar hc hl pp hsg hs' hm' hp pX) // /kf.
apply: (run_filter_ext (I := fun=> True)) => // *; rewrite /aff_pred ?addr0 //.
Qed.

(* C44: sgp_smoother is rts. *)
Theorem sgp_smoother_is_rts mfs vfs :
  chol_spec chol -> sg_rule (sg_w sg) (sg_xi sg) ->
  (forall x, state_cond_m_cov x dt = (F *m x, Sigma)) ->
  (forall v, posdef v -> posdef (F *m v *m F^T + Sigma)) -> (forall v, v \in vfs -> posdef v) ->
  sgp_smoother chol state_cond_m_cov sg mfs vfs dt = rts chol F Sigma mfs vfs.
Proof.
move=> hc hsg hs hp hv; have hs' x : state_cond_m_cov x dt = (F *m x + 0, Sigma) by rewrite addr0.
exact: (sgp_smootherE hc hsg hs' hp).
Qed.

(* C63: for vector measurements of an affine model sgp_filter, unlike kf, is Bayes' rule at
   every step. *)
Theorem sgp_filter_exact_bayes b (H : 'M[R]_(dy, dx)) c Xi measurement_cond_m_cov m0 v0 ys const :
  chol_spec chol -> sg_rule (sg_w sg) (sg_xi sg) ->
  (forall x, state_cond_m_cov x dt = (F *m x + b, Sigma)) ->
  (forall x, measurement_cond_m_cov x = (H *m x + c, Xi)) ->
  (forall v, posdef v -> posdef (F *m v *m F^T + Sigma)) -> posdef Xi -> posdef v0 ->
  exists ms vs es,
    [/\ sgp_filter chol log pi state_cond_m_cov measurement_cond_m_cov sg m0 v0 dt ys const
        = Some (ms, vs, es), size ms = size ys, size vs = size ys
      & chain_of (fun s y s' =>
          bayes_rule H c Xi (F *m s.1 + b) (F *m s.2 *m F^T + Sigma) y s'.1 s'.2)
        (m0, v0) ys (zip ms vs)].
Proof.
move=> hc hsg hs hm hp pX p0; rewrite (sgp_filter_traj log pi hc hsg hs hm hp pX) //.
do 3 eexists; split; first reflexivity; rewrite ?size_map ?size_traj //.
set o := traj _ _ _; have -> : zip [seq s.1.1 | s <- o] [seq s.1.2 | s <- o] = [seq s.1 | s <- o].
  by elim: (o) => [|[[m v] l] o' IH] //=; rewrite IH.
rewrite /o; elim: ys m0 v0 p0 (0 : R) {o} => [|y ys IH] m0 v0 p0 l //=; split.
  by apply: textbook_bayes => //; apply: hp.
by apply: IH; apply: pc_posdef => //; apply: hp.
Qed.

(* C63: sgp_filter followed by sgp_smoother gives the exact posterior marginals and the most
   probable trajectory, for vector measurements of a linear model. *)
Theorem sgp_posterior (H : 'M[R]_(dy, dx)) Xi measurement_cond_m_cov m0 v0 y ys const :
  chol_spec chol -> sg_rule (sg_w sg) (sg_xi sg) ->
  (forall x, state_cond_m_cov x dt = (F *m x, Sigma)) ->
  (forall x, measurement_cond_m_cov x = (H *m x, Xi)) ->
  posdef Sigma -> posdef Xi -> posdef v0 ->
  exists ms vs es,
    sgp_filter chol log pi state_cond_m_cov measurement_cond_m_cov sg m0 v0 dt (y :: ys) const
      = Some (ms, vs, es) /\
    let r := sgp_smoother chol state_cond_m_cov sg ms vs dt in
    let J := posterior_cost F Sigma H Xi (F *m m0) (F *m v0 *m F^T + Sigma) (y :: ys) in
    [/\ size r.1 = (size ys).+1, size r.2 = (size ys).+1,
        unique_minimiser J (size ys).+1 r.1
      & forall k, (k <= size ys)%N -> gauss_marginal J (size ys).+1 k (nth 0 r.1 k) (nth 0 r.2 k)].
Proof.
move=> hc hsg hs hm pS pX p0.
have hp v : posdef v -> posdef (F *m v *m F^T + Sigma).
  by move=> /posdef_semi; apply: predv_posdef.
have hs' x : state_cond_m_cov x dt = (F *m x + 0, Sigma) by rewrite addr0.
have hm' x : measurement_cond_m_cov x = (H *m x + 0, Xi) by rewrite addr0.
rewrite (sgp_filter_traj log pi hc hsg hs' hm' hp pX) //; do 3 eexists; split; first reflexivity.
have := rts_joint F H hc pS pX y ys (s0 := (m0, v0)) (posdef_semi p0).
have ep : [seq o.1 | o <- traj (fstep (aff_pred F 0 Sigma) (sgp_upd chol log pi H 0 Xi)) (m0, v0, 0) (y :: ys)]
        = traj (tstep F Sigma H Xi) (m0, v0) (y :: ys).
  by apply: (@traj_proj _ _ _ _ _ (m0, v0, 0)) => s z; rewrite /= /tstep /tupd /= !addr0.
cbv zeta; rewrite -ep -!map_comp => hr; rewrite (sgp_smoother_is_rts _ hc hsg hs hp) //.
have hall (z : seq 'cV[R]_dy) (s0 : 'cV[R]_dx * 'M[R]_dx) : posdef s0.2 ->
    forall v, v \in [seq s.2 | s <- traj (tstep F Sigma H Xi) s0 z] -> posdef v.
  elim: z s0 => [|z0 z IH] s0 ps //= v; rewrite inE => /orP[/eqP->|/IH]; last apply.
    by apply: pc_posdef => //; apply: hp.
  by apply: pc_posdef => //; apply: hp.
by move=> v; have := hall (y :: ys) (m0, v0) p0 v; rewrite -ep -map_comp.
Qed.
End Sgp.

(* C64: on affine drifts with constant dispersion the continuous-discrete sigma-point filter
   returns what the extended one returns, provided the Runge-Kutta stages of the covariance
   equation v' = v A^T + A v + B B^T stay positive definite along the run. *)
Theorem cd_filters_agree d dw (sg : sigma_points R d) (A : 'M[R]_d) b (B : 'M[R]_(d, dw)) drift
    (H : 'M[R]_(1, d)) c Xi dt measurement_cond_m_cov m0 v0 ys fw const ms vs es :
  chol_spec chol -> log_spec log -> 0 < pi ->
  jac_affine_spec jacfwd -> jac_affine_spec jacrev -> sg_rule (sg_w sg) (sg_xi sg) ->
  (forall x, drift x = A *m x + b) ->
  (forall x, measurement_cond_m_cov x = (H *m x + c, Xi)) -> posdef Xi ->
  cd_ekf chol log pi jacfwd jacrev drift (fun=> B) measurement_cond_m_cov m0 v0 dt ys fw
    = Some (ms, vs, es) ->
  (forall k, (k < size ys)%N ->
     stages_posdef (fun v => v *m A^T + A *m v + B *m B^T) (nth 0 (v0 :: vs) k) dt) ->
  cd_sgp_filter chol log pi drift B measurement_cond_m_cov sg m0 v0 dt ys const
    = Some (ms, vs, es).
Proof. by move=> hc hl pp h1 h2 hsg hd hm pX; exact: (cd_filters_lem hc hl pp h1 h2 hsg hd hm pX). Qed.

(* C64: likewise the smoothers. *)
Theorem cd_smoothers_agree d dw (sg : sigma_points R d) (A : 'M[R]_d) b (B : 'M[R]_(d, dw)) drift
    dt mfs vfs :
  chol_spec chol -> jac_affine_spec jacfwd -> sg_rule (sg_w sg) (sg_xi sg) ->
  (forall x, drift x = A *m x + b) ->
  (0 < size vfs)%N -> size mfs = size vfs -> (forall v, v \in vfs -> posdef v) ->
  (forall k, (k.+1 < size vfs)%N ->
     stages_posdef (fun v => let G := A + B *m B^T *m invmx (nth 0 vfs k) in
                             G *m v + v *m G^T - B *m B^T)
       (nth 0 (cd_eks chol jacfwd drift (fun=> B) mfs vfs dt).2 k.+1) (- dt)) ->
  cd_sgp_smoother chol drift B sg mfs vfs dt = cd_eks chol jacfwd drift (fun=> B) mfs vfs dt.
Proof. by move=> hc h1 hsg hd; apply: cd_smoothers_lem. Qed.
End Ekf.

Section Rk4.
Variable R : rcfType.

(* C47: on z' = M z + c the step is the fourth-order Taylor step of the solution. *)
Theorem rk4_taylor_step p q k l (M : {linear 'M[R]_(p, q) * 'M[R]_(k, l) -> 'M[R]_(p, q) * 'M[R]_(k, l)}) c
    (ode : 'M[R]_(p, q) -> 'M[R]_(k, l) -> 'M[R]_(p, q) * 'M[R]_(k, l)) m v h :
  (forall m v, ode m v = M (m, v) + c) ->
  rk4_m_cov ode m v h
  = (m, v) + \sum_(j < 4) (h ^+ j.+1 / (j.+1)`!%:R) *: iter j M (ode m v).
Proof. by move=> ho; rewrite rk4_pair (rk4_taylor (A := M) (c := c)) // => -[m1 v1]; exact: ho. Qed.

(* C47: for a linear right-hand side, the exponential series up to order four. *)
Theorem rk4_exponential p q k l (M : {linear 'M[R]_(p, q) * 'M[R]_(k, l) -> 'M[R]_(p, q) * 'M[R]_(k, l)})
    (ode : 'M[R]_(p, q) -> 'M[R]_(k, l) -> 'M[R]_(p, q) * 'M[R]_(k, l)) m v h :
  (forall m v, ode m v = M (m, v)) ->
  rk4_m_cov ode m v h = \sum_(j < 5) (h ^+ j / j`!%:R) *: iter j M (m, v).
Proof.
move=> ho; rewrite rk4_pair -(rk4_exp M (m, v) h).
have e z : ode z.1 z.2 = M z by rewrite ho -surjective_pairing.
by rewrite /rk4_step !e.
Qed.

(* C47: exact for constant right-hand sides. *)
Theorem rk4_constant p q k l (cm : 'M[R]_(p, q)) (cv : 'M[R]_(k, l)) m v h :
  rk4_m_cov (fun _ _ => (cm, cv)) m v h = (m + h *: cm, v + h *: cv).
Proof. by rewrite rk4_pair (rk4_const (cm, cv) (m, v) h). Qed.

(* C47: symmetric covariances stay symmetric. *)
Theorem rk4_symmetric p q n (ode : 'M[R]_(p, q) -> 'M[R]_n -> 'M[R]_(p, q) * 'M[R]_n) m v h :
  (forall m v, v^T = v -> ((ode m v).2)^T = (ode m v).2) -> v^T = v ->
  ((rk4_m_cov ode m v h).2)^T = (rk4_m_cov ode m v h).2.
Proof. exact: rk4_sym. Qed.

(* C47: the backward variant is the same map with the filtering terms frozen. *)
Theorem rk4_backward_frozen p q k l
    (ode : 'M[R]_(p, q) -> 'M[R]_(k, l) -> 'M[R]_(p, q) -> 'M[R]_(k, l) -> 'M[R]_(p, q) * 'M[R]_(k, l))
    m v mf vf h :
  rk4_m_cov_backward ode m v mf vf h = rk4_m_cov (fun m v => ode m v mf vf) m v h.
Proof. exact: rk4_backward. Qed.

(* C47: the prediction of cd_ekf on an affine drift is that Taylor step for the exact moment
   equations m' = A m + b, v' = A v + v A^T + B B^T. *)
Theorem cd_ekf_prediction d dw (jac : forall n m, ('cV[R]_n -> 'cV[R]_m) -> 'cV[R]_n -> 'M[R]_(m, n))
    (A : 'M[R]_d) b (B : 'M[R]_(d, dw)) drift m v h :
  jac_affine_spec jac -> (forall x, drift x = A *m x + b) ->
  rk4_m_cov (cd_ekf_odes jac drift (fun=> B)) m v h
  = (m, v) + \sum_(j < 4) (h ^+ j.+1 / (j.+1)`!%:R) *:
      iter j (fun z => (A *m z.1, z.2 *m A^T + A *m z.2)) (A *m m + b, v *m A^T + A *m v + B *m B^T).
Proof.
move=> hj hd; have e m' v' : cd_ekf_odes jac drift (fun=> B) m' v' = lin_ode A b B m' v'.
  by rewrite (cd_ekf_odesE hj B hd).
rewrite -[X in _ + X]/(\sum_(j < 4) (h ^+ j.+1 / (j.+1)`!%:R) *: iter j (lin_part A) (lin_ode A b B m v)).
by rewrite -rk4_lin_ode !rk4_pair /rk4_step !e.
Qed.
End Rk4.

Print Assumptions kf_exact_bayes.
Print Assumptions kf_covariances.
Print Assumptions kf_covariances_data_free.
Print Assumptions kf_rts_covariances.
Print Assumptions kf_rts_posterior.
Print Assumptions kf_vector_shape_error.
Print Assumptions kf_vector_not_bayes.
Print Assumptions kf_vector_bayes_refuted.
Print Assumptions kf_vector_covariance_refuted.
Print Assumptions log_mvn_pdf_uncorrelated.
Print Assumptions log_mvn_pdf_refuted.
Print Assumptions rts_covariances.
Print Assumptions ekf_is_kf.
Print Assumptions eks_is_rts.
Print Assumptions ekf_affine_exact.
Print Assumptions sgp_filter_is_kf.
Print Assumptions sgp_smoother_is_rts.
Print Assumptions sgp_filter_exact_bayes.
Print Assumptions sgp_posterior.
Print Assumptions cd_filters_agree.
Print Assumptions cd_smoothers_agree.
Print Assumptions rk4_taylor_step.
Print Assumptions rk4_exponential.
Print Assumptions rk4_constant.
Print Assumptions rk4_symmetric.
Print Assumptions rk4_backward_frozen.
Print Assumptions cd_ekf_prediction.

(* Witnesses.  A differentiation oracle that is right on affine maps: unit differences. *)
Definition jac_ref (R : rcfType) n m (f : 'cV[R]_n -> 'cV[R]_m) (x : 'cV[R]_n) : 'M[R]_(m, n) :=
  \matrix_(i, j) (f (x + delta_mx j 0) - f x) i 0.

Example jac_ref_spec (R : rcfType) : jac_affine_spec (@jac_ref R).
Proof.
move=> n m f A b hf x; apply/matrixP=> i j; rewrite mxE !hf mulmxDr.
have -> : A *m x + A *m delta_mx j 0 + b - (A *m x + b) = A *m delta_mx j 0.
  by rewrite [A *m x + A *m delta_mx j 0]addrC -(addrA _ (A *m x)) addrK.
by rewrite -colE mxE.
Qed.

(* A constant-velocity model: two states, position measured, unit noises. *)
Example kf_ex (R : rcfType) :
  let F : 'M[R]_2 := \matrix_(i, j) (i <= j)%N%:R in
  let H : 'M[R]_(1, 2) := \row_j (j == 0)%:R in
  [/\ posdef (1%:M : 'M[R]_2), possemidef (1%:M : 'M[R]_2), posdef (1%:M : 'M[R]_1),
      forall v, posdef v -> posdef (F *m v *m F^T + 1%:M)
    & chol_spec (@chol_ref R)].
Proof.
have p n : posdef (1%:M : 'M[R]_n) by apply: scalar_posdef; rewrite ltr01.
split=> //; first exact: posdef_semi; last exact: chol_ref_spec.
by move=> v /posdef_semi; exact: predv_posdef.
Qed.

(* Its first smoothing problem satisfies the hypotheses of rts_covariances. *)
Example rts_ex (R : rcfType) :
  let F : 'M[R]_2 := \matrix_(i, j) (i <= j)%N%:R in
  let vfs : seq 'M[R]_2 := [:: 1%:M; 1%:M; 1%:M] in
  (forall v, v \in vfs -> possemidef v /\ posdef (F *m v *m F^T + 1%:M)) /\
  (forall k, (k.+1 < size vfs)%N -> loewner (nth 0 vfs k.+1) (F *m (nth 0 vfs k) *m F^T + 1%:M)).
Proof.
move=> F vfs; have p n : posdef (1%:M : 'M[R]_n) by apply: scalar_posdef; rewrite ltr01.
have hv v : v \in vfs -> v = 1%:M by rewrite !inE orbb orbb => /eqP.
split=> [v /hv ->|k hk]; first by split; [exact: posdef_semi|apply: predv_posdef => //; exact: posdef_semi].
rewrite !(hv _ (mem_nth _ _)) ?(ltnW hk) // /loewner addrK.
apply: semi_congr; exact: posdef_semi.
Qed.

(* The cubature rule is an admissible sigma-point rule in every dimension. *)
Example sgp_ex (R : rcfType) d : (0 < d)%N ->
  sg_rule (sg_w (cubature R d)) (sg_xi (cubature R d)) /\ log_spec (fun _ : R => 0).
Proof. by move=> hd; split; [exact: cubature_rule|move=> x y _ _; rewrite addr0]. Qed.

(* Uniform growth A = 1 with step 1: the stages are positive definite along every run. *)
Example cd_filters_ex (R : rcfType) d dw (B : 'M[R]_(d, dw)) (H : 'M[R]_(1, d)) log pi m0 ys fw :
  let drift : 'cV[R]_d -> 'cV[R]_d := fun x => 1%:M *m x + 0 in
  let meas : 'cV[R]_d -> 'cV[R]_1 * 'M[R]_1 := fun x => (H *m x + 0, 1%:M) in
  exists ms vs es,
    cd_ekf (@chol_ref R) log pi (@jac_ref R) (@jac_ref R) drift (fun=> B) meas m0 1%:M 1 ys fw
      = Some (ms, vs, es) /\
    forall k, (k < size ys)%N ->
      stages_posdef (fun v => v *m 1%:M^T + 1%:M *m v + B *m B^T) (nth 0 (1%:M :: vs) k) 1.
Proof.
move=> drift meas.
have pd1 n : posdef (1%:M : 'M[R]_n) by apply: scalar_posdef; rewrite ltr01.
set rhs := fun v : 'M[R]_d => _.
have posdefD (u v : 'M[R]_d) : posdef u -> posdef v -> posdef (u + v).
  by move=> /posdef_semi pu pv; apply: semi_pos_add.
have pB : possemidef (B *m B^T) by rewrite -[X in X *m _]mulmx1; apply: semi_congr; exact: posdef_semi.
have pr v : posdef v -> posdef (rhs v).
  move=> pv; rewrite /rhs trmx1 mulmx1 mul1mx; rewrite addrC; apply: semi_pos_add => //; exact: posdefD.
have pz (a : R) (v : 'M[R]_d) : 0 < a -> posdef v -> posdef (a *: v).
  by move=> pa [sv hv]; split=> [|u hu]; [rewrite /symmetric trZmx sv|rewrite qformZ mulr_gt0 ?hv].
have st v : posdef v -> stages_posdef rhs v 1.
  move=> pv s; rewrite /stages !inE !scale1r.
  have i2 : 0 < (2%:R^-1 : R) by rewrite invr_gt0 ltr0n.
  have i6 : 0 < (6%:R^-1 : R) by rewrite invr_gt0 ltr0n.
  have t2 : 0 < (2%:R : R) by rewrite ltr0n.
  have p1 : posdef (v + 2%:R^-1 *: rhs v) by apply: posdefD => //; apply: pz => //; exact: pr.
  set v1 := v + _ in p1 *; have p2 : posdef (v + 2%:R^-1 *: rhs v1).
    by apply: posdefD => //; apply: pz => //; exact: pr.
  set v2 := v + 2%:R^-1 *: rhs v1 in p2 *; have p3 : posdef (v + rhs v2).
    by apply: posdefD => //; exact: pr.
  set v3 := v + rhs v2 in p3 *.
  have p4 : posdef (v + 6%:R^-1 *: (rhs v + 2%:R *: rhs v1 + 2%:R *: rhs v2 + rhs v3)).
    exact: (posdefD _ _ pv (pz _ _ i6 (posdefD _ _ (posdefD _ _ (posdefD _ _ (pr _ pv) (pz _ _ t2 (pr _ p1))) (pz _ _ t2 (pr _ p2))) (pr _ p3)))).
  by case/or4P=> [/eqP->|/eqP->|/eqP->|/orP[/eqP->|/eqP->]].
have hj := @jac_ref_spec R.
have hd x : drift x = 1%:M *m x + 0 by [].
have hm x : meas x = (H *m x + 0, 1%:M) by [].
suff hstep m v y : posdef v -> exists2 r,
    ekf_update (@chol_ref R) log pi (@jac_ref R) (@jac_ref R) meas
      (rk4_m_cov (cd_ekf_odes (@jac_ref R) drift (fun=> B)) m v 1).1
      (rk4_m_cov (cd_ekf_odes (@jac_ref R) drift (fun=> B)) m v 1).2 y fw = Some r & posdef r.1.2.
  have [ms [vs [es [e sv hi]]]] := run_filter_inv
    (p := fun mf vf => rk4_m_cov (cd_ekf_odes (@jac_ref R) drift (fun=> B)) mf vf 1)
    (u := fun mp vp y => ekf_update (@chol_ref R) log pi (@jac_ref R) (@jac_ref R) meas mp vp y fw)
    m0 ys hstep (pd1 d).
  by exists ms, vs, es; split=> // k hk; apply: st; apply: hi; exact: ltnW.
move=> pv; have ode2 m' v' : (cd_ekf_odes (@jac_ref R) drift (fun=> B) m' v').2 = rhs v'.
  by rewrite (cd_ekf_odesE hj B hd).
have pp : posdef (rk4_m_cov (cd_ekf_odes (@jac_ref R) drift (fun=> B)) m v 1).2.
  by rewrite (rk4_cov _ _ _ ode2); case/stages4: (st _ pv).
case: (rk4_m_cov _ _ _ _) pp => mp vp pp /=.
rewrite (ekf_updateE _ _ _ hj hj hm); eexists.
  by apply: linear_update_scalarE; apply: posdef11; apply: innov_posdef => //; exact: posdef_semi.
by apply: pc_posdef.
Qed.

(* One backward step with A = 0, unit dispersion and covariances, step 1/4. *)
Example cd_smoothers_ex (R : rcfType) d (m1 m2 : 'cV[R]_d) :
  let drift : 'cV[R]_d -> 'cV[R]_d := fun x => 0 *m x + 0 in
  let vfs : seq 'M[R]_d := [:: 1%:M; 1%:M] in
  (forall v, v \in vfs -> posdef v) /\
  forall k, (k.+1 < size vfs)%N ->
    stages_posdef (fun v => let G := 0 + 1%:M *m 1%:M^T *m invmx (nth 0 vfs k) in
                            G *m v + v *m G^T - 1%:M *m 1%:M^T)
      (nth 0 (cd_eks (@chol_ref R) (@jac_ref R) drift (fun=> 1%:M) [:: m1; m2] vfs (4%:R^-1)).2 k.+1)
      (- 4%:R^-1).
Proof.
move=> drift vfs; have pd (a : R) : 0 < a -> posdef (a%:M : 'M[R]_d) by exact: scalar_posdef.
split; first by move=> v; rewrite !inE orbb => /eqP ->; apply: pd; rewrite ltr01.
case=> // _; set rhs := (fun v : 'M[R]_d => _).
have er v : rhs v = v + v - 1%:M.
  by rewrite /rhs -[nth 0 vfs 0]/1%:M invmx1 trmx1 !mulmx1 add0r trmx1 mul1mx mulmx1.
rewrite -[nth 0 _ 1]/(1%:M : 'M[R]_d) => s; rewrite /stages !er !inE.
have e (a : R) : (a%:M + a%:M - 1%:M : 'M[R]_d) = (a + a - 1)%:M by rewrite -!raddfD -raddfB.
have q (a h b : R) : (a%:M + 2%:R^-1 *: (h *: b%:M) : 'M[R]_d) = (a + 2%:R^-1 * (h * b))%:M.
  by rewrite !scale_scalar_mx -raddfD.
have q' (a h b : R) : (a%:M + h *: b%:M : 'M[R]_d) = (a + h * b)%:M.
  by rewrite !scale_scalar_mx -raddfD.
have dS (a b : R) : (a%:M + b%:M : 'M[R]_d) = (a + b)%:M by rewrite -raddfD.
rewrite !(e, q, q', scale_scalar_mx, dS).
have fr (x : R) (a b : nat) : (0 < a)%N -> (0 < b)%N -> x = a%:R / b%:R -> posdef (x%:M : 'M[R]_d).
  by move=> ha hb ->; apply: pd; rewrite divr_gt0 ?ltr0n.
case/or4P=> [/eqP->|/eqP->|/eqP->|/orP[/eqP->|/eqP->]].
- by apply: (fr _ 1%N 1%N); rewrite ?divr1.
- by apply: (fr _ 7%N 8%N) => //; field.
- by apply: (fr _ 29%N 32%N) => //; field.
- by apply: (fr _ 51%N 64%N) => //; field.
- by apply: (fr _ 617%N 768%N) => //; field.
Qed.
