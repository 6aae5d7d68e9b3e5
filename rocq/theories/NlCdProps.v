(* C85, C86: the continuous-discrete smoothers on nonlinear models. *)
From mathcomp Require Import all_ssreflect all_algebra ring.
From Verif Require Import Prelude LinAlgSpec LinAlgProofs LdlProofs SmallMx GfsModel GfsSpec GfsProofs GfsKf GfsVec GfsRts GfsMap GfsSgp GfsSgpRun GfsRk4 SigmaModel SigmaCub EkfLin SgpNl NlProps.
Set Implicit Arguments.
Unset Strict Implicit.
Unset Printing Implicit Defensive.
Import Order.TTheory GRing.Theory Num.Theory.
Local Open Scope ring_scope.

Lemma rk4_ext (R : rcfType) (V : lmodType R) (f g : V -> V) z h :
  (forall x, f x = g x) -> rk4_step f z h = rk4_step g z h.
Proof. by move=> e; rewrite /rk4_step !e. Qed.

Section CdEks.
Variable R : rcfType.
Variable chol : forall n, 'M[R]_n -> 'M[R]_n.
Variables (log : R -> R) (pi : R).
Variables jacfwd jacrev : forall n m, ('cV[R]_n -> 'cV[R]_m) -> 'cV[R]_n -> 'M[R]_(m, n).

(* C85: each state of cd_eks is one classical Runge-Kutta step, of size -dt from the next smoothed
   state, of the smoothing equations linearised at the current (not the filtering) mean:
   m' = f(m) + G Vf^-1 (m - mf) and P' = A P + P A^T - G, A = F(m) + G Vf^-1, G = B(m) B(m)^T. *)
Theorem cd_eks_nonlinear d dw (drift : 'cV[R]_d -> 'cV[R]_d) (dispersion : 'cV[R]_d -> 'M[R]_(d, dw))
    (J : 'cV[R]_d -> 'M[R]_d) dt mfs vfs :
  chol_spec chol -> jac_spec jacfwd -> (forall x, has_jacobian drift x (J x)) ->
  (forall v, v \in vfs -> posdef v) -> (0 < size vfs)%N -> size mfs = size vfs ->
  let r := cd_eks chol jacfwd drift dispersion mfs vfs dt in
  [/\ size r.1 = size mfs, size r.2 = size vfs, last 0 r.1 = last 0 mfs, last 0 r.2 = last 0 vfs
    & forall k, (k.+1 < size vfs)%N ->
      (nth 0 r.1 k, nth 0 r.2 k)
      = rk4_step (fun s : 'cV[R]_d * 'M[R]_d =>
          let G := dispersion s.1 *m (dispersion s.1)^T in
          let A := J s.1 + G *m invmx (nth 0 vfs k) in
          (drift s.1 + G *m invmx (nth 0 vfs k) *m (s.1 - nth 0 mfs k), A *m s.2 + s.2 *m A^T - G))
        (nth 0 r.1 k.+1, nth 0 r.2 k.+1) (- dt)].
Proof.
move=> hc h1 hJ pv n0 e r.
have [r1 r2 r3 r4 r5] := run_smoother_nth (fun mf vf ms vs =>
    rk4_m_cov_backward (cd_eks_odes chol jacfwd drift dispersion) ms vs mf vf (- dt)) n0 e.
split=> // k hk; rewrite [LHS](r5 k hk) rk4_backward rk4_pair.
have pk : posdef (nth 0 vfs k) by apply: pv; rewrite mem_nth // ltnW.
have odeE (s : 'cV[R]_d * 'M[R]_d) : cd_eks_odes chol jacfwd drift dispersion s.1 s.2 (nth 0 mfs k) (nth 0 vfs k)
    = (let G := dispersion s.1 *m (dispersion s.1)^T in
       let A := J s.1 + G *m invmx (nth 0 vfs k) in
       (drift s.1 + G *m invmx (nth 0 vfs k) *m (s.1 - nth 0 mfs k), A *m s.2 + s.2 *m A^T - G)).
  have sinv : (invmx vfs`_k)^T = invmx vfs`_k by rewrite trmx_inv; case: pk => ->.
  by rewrite /cd_eks_odes !(cho_solve_upperE hc) // (h1 _ _ _ _ _ (hJ _)) !trmx_mul !trmxK sinv !mulmxA.
exact: rk4_ext odeE.
Qed.

(* C85: the prediction of cd_ekf is one Runge-Kutta step of m' = f(m), P' = P F(m)^T + F(m) P + B(m) B(m)^T;
   where it keeps the covariance positive definite, the update is exact conditioning in the measurement
   model linearised at the predicted mean, with the log predictive density subtracted. *)
Theorem cd_ekf_nonlinear d dw (drift : 'cV[R]_d -> 'cV[R]_d) (dispersion : 'cV[R]_d -> 'M[R]_(d, dw))
    (J : 'cV[R]_d -> 'M[R]_d) (h : 'cV[R]_d -> 'cV[R]_1 * 'M[R]_1) (JH : 'cV[R]_d -> 'M[R]_(1, d))
    dt m0 v0 ys fw :
  jac_spec jacfwd -> jac_spec jacrev -> (forall x, has_jacobian drift x (J x)) ->
  (forall x, has_jacobian (fun x => (h x).1) x (JH x)) -> (forall x, posdef (h x).2) ->
  exists outs,
    cd_ekf chol log pi jacfwd jacrev drift dispersion h m0 v0 dt ys fw
    = Some ([seq s.1.1 | s <- outs], [seq s.1.2 | s <- outs], [seq s.2 | s <- outs]) /\
    chain_of (fun s y s' =>
        let p := rk4_step (fun s : 'cV[R]_d * 'M[R]_d =>
          (drift s.1, s.2 *m (J s.1)^T + J s.1 *m s.2 + dispersion s.1 *m (dispersion s.1)^T)) s.1 dt in
        let H := JH p.1 in let hp := (h p.1).1 in let Xi := (h p.1).2 in
        posdef p.2 ->
        bayes_rule H (hp - H *m p.1) Xi p.1 p.2 y s'.1.1 s'.1.2 /\
        s'.2 = s.2 - log_gauss log pi y hp (H *m p.2 *m H^T + Xi)) (m0, v0, 0) ys outs.
Proof.
move=> h1 h2 hJ hH pX.
pose upd mp vp y := let S := JH mp *m vp *m (JH mp)^T + (h mp).2 in
  let K := \matrix_(i, j) ((vp *m (JH mp)^T) i j / S 0 0) in
  (mp + K *m (y - (h mp).1), vp - K *m S *m K^T, - log_normal_pdf log pi (y 0 0) ((h mp).1 0 0) (S 0 0)).
pose pr := fun mf vf => rk4_m_cov (cd_ekf_odes jacfwd drift dispersion) mf vf dt.
have prE m v : pr m v = rk4_step (fun s : 'cV[R]_d * 'M[R]_d =>
    (drift s.1, s.2 *m (J s.1)^T + J s.1 *m s.2 + dispersion s.1 *m (dispersion s.1)^T)) (m, v) dt.
  by rewrite /pr rk4_pair; apply: rk4_ext => s; rewrite (cd_odesE h1 dispersion hJ).
exists (traj (fstep pr upd) (m0, v0, 0) ys); split.
  apply: (@run_filterE _ _ _ (fun=> True)) => // m v y _; split=> //.
  by rewrite (lin_updateE chol log pi h1 h2 hH).
apply: (@chain_traj _ _ _ _ (fun=> True)) => // -[[m v] e] y _; split=> //.
rewrite [(m, v, e).1]/= -prE; cbv zeta => pp; rewrite /fstep [(m, v, e).1.1]/= [(m, v, e).1.2]/=.
move: pp; case: (pr m v) => mp vp; rewrite [(mp, vp).1]/= [(mp, vp).2]/= => pp.
have pI := innov_posdef (JH mp) (pX mp) (posdef_semi pp).
have uE : upd mp vp y = (mp + gain (JH mp) vp (h mp).2 *m (y - (h mp).1), postcov (JH mp) vp (h mp).2,
    - log_gauss log pi y (h mp).1 (innov (JH mp) vp (h mp).2)).
  have e1 : Some (upd mp vp y) = linear_update_scalar log pi mp vp (JH mp) (h mp).1 (h mp).2 y by [].
  by apply: (@Some_inj _); rewrite [LHS]e1; exact: linear_update_scalarE (posdef11 pI).
rewrite uE /=; split; last by [].
have e2 : JH mp *m mp + ((h mp).1 - JH mp *m mp) = (h mp).1 by rewrite addrC subrK.
by rewrite -[X in _ *m (y - X)]e2; apply: textbook_bayes.
Qed.
End CdEks.

Section CdSgp.
Variable R : rcfType.
Variable chol : forall n, 'M[R]_n -> 'M[R]_n.
Variables (d : nat) (sg : sigma_points R d).
Local Notation w := (sg_w sg).
Local Notation xi := (sg_xi sg).

(* C86: each state of cd_sgp_smoother is one Runge-Kutta step of size -dt, from the next smoothed state,
   of m' = E f + G Vf^-1 (m - mf) and P' = C + C^T + G Vf^-1 P + P Vf^-1 G - G, where E and
   C = cov(x, f(x)) are taken under the sigma-point law of the current smoothed (m, P). *)
Theorem cd_sgp_smoother_nonlinear dw (drift : 'cV[R]_d -> 'cV[R]_d) (B : 'M[R]_(d, dw)) dt mfs vfs :
  chol_spec chol -> sg_rule w xi ->
  (forall v, v \in vfs -> posdef v) -> (0 < size vfs)%N -> size mfs = size vfs ->
  let r := cd_sgp_smoother chol drift B sg mfs vfs dt in
  [/\ size r.1 = size mfs, size r.2 = size vfs, last 0 r.1 = last 0 mfs, last 0 r.2 = last 0 vfs
    & forall k, (k.+1 < size vfs)%N ->
      (nth 0 r.1 k, nth 0 r.2 k)
      = rk4_step (fun s : 'cV[R]_d * 'M[R]_d =>
          let G := B *m B^T in let V := invmx (nth 0 vfs k) in
          let g := fun z => s.1 + chol s.2 *m z in let f := fun z => drift (s.1 + chol s.2 *m z) in
          (wmean w xi f + G *m V *m (s.1 - nth 0 mfs k),
           wcov w xi g f + wcov w xi f g + G *m V *m s.2 + s.2 *m V *m G - G))
        (nth 0 r.1 k.+1, nth 0 r.2 k.+1) (- dt)].
Proof.
move=> hc hsg pv n0 e r.
have [r1 r2 r3 r4 r5] := run_smoother_nth (fun mf vf ms vs =>
    rk4_m_cov_backward (cd_sgp_smoother_odes chol drift B sg) ms vs mf vf (- dt)) n0 e.
split=> // k hk; rewrite [LHS](r5 k hk) rk4_backward rk4_pair.
have pk : posdef (nth 0 vfs k) by apply: pv; rewrite mem_nth // ltnW.
set F := (X in _ = rk4_step X _ _).
have odeE (s : 'cV[R]_d * 'M[R]_d) :
    cd_sgp_smoother_odes chol drift B sg s.1 s.2 (nth 0 mfs k) (nth 0 vfs k) = F s.
  have sinv : (invmx vfs`_k)^T = invmx vfs`_k by rewrite trmx_inv; case: pk => ->.
  rewrite /cd_sgp_smoother_odes (cd_nl_sharedE _ hsg) /F !(cho_solve_upperE hc) // !trmx_mul !trmxK sinv !mulmxA.
  congr pair; rewrite scaler_nat mulr2n.
  move: (wcov _ _ _ _) (wcov _ _ _ _) => c1 c2; move: (_ *m B^T) (_ *m invmx _ *m s.2) (s.2 *m _ *m _ *m _) => b1 b2 b3.
  by rewrite [_ + b1 + b2]addrAC [_ + b1 + b3]addrAC opprD addrA addrK.
exact: rk4_ext odeE.
Qed.
End CdSgp.

(* The hypotheses on a nonlinear model: drift x^2 in one dimension; from (0, 1) the
   prediction with dispersion 1 and step 1 stays at positive variance. *)
Example cd_nonlinear_ex (R : rcfType) :
  let drift : 'cV[R]_1 -> 'cV[R]_1 := fun x => x *m x in
  let J (x : 'cV[R]_1) : 'M[R]_1 := 2%:R *: x in
  (forall x, has_jacobian drift x (J x)) /\
  posdef (rk4_step (fun s : 'cV[R]_1 * 'M[R]_1 =>
    (drift s.1, s.2 *m (J s.1)^T + J s.1 *m s.2 + 1%:M *m (1%:M)^T)) (0, 1%:M) 1).2.
Proof.
move=> drift J; split; first by have [_ []] := quadratic_model R.
set F := fun s : 'cV[R]_1 * 'M[R]_1 => _.
have FE v : F (0, v) = (0, 1%:M).
  by rewrite /F /J /drift /= mulmx0 !scaler0 trmx0 mul0mx mulmx0 trmx1 mulmx1 !add0r.
have sE (v u : 'M[R]_1) (c : R) : (0, v) + c *: (0, u) = (0 : 'cV[R]_1, v + c *: u).
  by congr pair; rewrite /= scaler0 addr0.
have -> : rk4_step F (0, 1%:M) 1 = rk4_step (fun=> (0, 1%:M)) (0, 1%:M) 1.
  by rewrite /rk4_step; cbv zeta; rewrite !scalerA !(FE, sE).
rewrite rk4_const sE /= scale1r -[_ + _]/(1%:M + 1%:M : 'M[R]_1) -mulr2n -scaler_nat scalemx1.
by apply: scalar_posdef; rewrite ltr0n.
Qed.

Print Assumptions cd_eks_nonlinear.
Print Assumptions cd_ekf_nonlinear.
Print Assumptions cd_sgp_smoother_nonlinear.
