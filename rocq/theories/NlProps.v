(* C85: the extended filters and smoothers on nonlinear models.
   C86: the sigma-point filters and smoothers on nonlinear models. *)
From mathcomp Require Import all_ssreflect all_algebra ring.
From Verif Require Import Prelude LinAlgSpec LinAlgProofs LdlProofs SmallMx GfsModel GfsSpec GfsProofs GfsKf GfsVec GfsRts GfsMap GfsSgp GfsSgpRun SigmaModel SigmaCub EkfLin SgpNl.
Set Implicit Arguments.
Unset Strict Implicit.
Unset Printing Implicit Defensive.
Import Order.TTheory GRing.Theory Num.Theory.
Local Open Scope ring_scope.

Section Ekf.
Variable R : rcfType.
Variable chol : forall n, 'M[R]_n -> 'M[R]_n.
Variables (log : R -> R) (pi : R).
Variables jacfwd jacrev : forall n m, ('cV[R]_n -> 'cV[R]_m) -> 'cV[R]_n -> 'M[R]_(m, n).

(* C85: on a differentiable model with scalar measurements every step of ekf is exact filtering
   in the model linearised at the current mean and at the predicted mean. *)
Theorem ekf_linearised_exact dx dt (state_cond_m_cov : 'cV[R]_dx -> R -> 'cV[R]_dx * 'M[R]_dx)
    (measurement_cond_m_cov : 'cV[R]_dx -> 'cV[R]_1 * 'M[R]_1)
    (JF : 'cV[R]_dx -> 'M[R]_dx) (JH : 'cV[R]_dx -> 'M[R]_(1, dx)) m0 v0 ys fw :
  jac_spec jacfwd -> jac_spec jacrev ->
  (forall x, has_jacobian (fun x => (state_cond_m_cov x dt).1) x (JF x)) ->
  (forall x, has_jacobian (fun x => (measurement_cond_m_cov x).1) x (JH x)) ->
  (forall x, posdef (measurement_cond_m_cov x).2) ->
  (forall m v, posdef v -> posdef (JF m *m v *m (JF m)^T + (state_cond_m_cov m dt).2)) ->
  posdef v0 ->
  exists outs,
    ekf chol log pi jacfwd jacrev state_cond_m_cov measurement_cond_m_cov m0 v0 dt ys fw
    = Some ([seq s.1.1 | s <- outs], [seq s.1.2 | s <- outs], [seq s.2 | s <- outs]) /\
    chain_of (linearised_step log pi (fun x => (state_cond_m_cov x dt).1) JF
                (fun x => (state_cond_m_cov x dt).2) (fun x => (measurement_cond_m_cov x).1) JH
                (fun x => (measurement_cond_m_cov x).2)) (m0, v0, 0) ys outs.
Proof. by move=> h1 h2 hF hH pX hp p0; exact: (lin_exact chol log pi h1 h2 hF hH pX hp). Qed.

(* C85: eks keeps the last state; backwards, it is the Rauch-Tung-Striebel step of the model
   linearised at the filtering mean of that time. *)
Theorem eks_linearised dx dt (state_cond_m_cov : 'cV[R]_dx -> R -> 'cV[R]_dx * 'M[R]_dx)
    (JF : 'cV[R]_dx -> 'M[R]_dx) mfs vfs :
  chol_spec chol -> jac_spec jacfwd ->
  (forall x, has_jacobian (fun x => (state_cond_m_cov x dt).1) x (JF x)) ->
  (0 < size vfs)%N -> size mfs = size vfs ->
  (forall k, (k < size vfs)%N -> let m := nth 0 mfs k in
     posdef (JF m *m nth 0 vfs k *m (JF m)^T + (state_cond_m_cov m dt).2)) ->
  let r := eks chol jacfwd state_cond_m_cov mfs vfs dt in
  [/\ size r.1 = size mfs, size r.2 = size vfs, last 0 r.1 = last 0 mfs, last 0 r.2 = last 0 vfs
    & forall k, (k.+1 < size vfs)%N ->
      let m := nth 0 mfs k in let v := nth 0 vfs k in let F := JF m in
      let vp := F *m v *m F^T + (state_cond_m_cov m dt).2 in
      exists2 G, G *m vp = (F *m v)^T &
        (nth 0 r.1 k, nth 0 r.2 k)
        = (m + G *m (nth 0 r.1 k.+1 - (state_cond_m_cov m dt).1),
           v + G *m (nth 0 r.2 k.+1 - vp) *m G^T)].
Proof.
move=> hc h1 hF n0 e hp r; have [r1 r2 r3 r4 r5] := run_smoother_nth (eks_body chol jacfwd state_cond_m_cov dt) n0 e.
split=> // k hk m v F vp; have pp := hp k (ltnW hk); exists ((F *m v)^T *m invmx vp).
  by rewrite mulmxKV // posdef_unit.
by rewrite [LHS](r5 k hk) (lin_eks_bodyE h1 hF).
Qed.

(* C85: the continuous-discrete equations are the first-order expansion in the step of the
   discrete prediction with Euler-Maruyama moments. *)
Theorem cd_ekf_small_step d dw (drift : 'cV[R]_d -> 'cV[R]_d) (dispersion : 'cV[R]_d -> 'M[R]_(d, dw))
    (J : 'cV[R]_d -> 'M[R]_d) t m v :
  jac_spec jacfwd -> (forall x, has_jacobian drift x (J x)) ->
  let ode := cd_ekf_odes jacfwd drift dispersion m v in
  ode = (drift m, v *m (J m)^T + J m *m v + dispersion m *m (dispersion m)^T) /\
  ekf_predict jacfwd (fun x t => (x + t *: drift x, t *: (dispersion x *m (dispersion x)^T))) t m v
  = (m + t *: ode.1, v + t *: ode.2 + t ^+ 2 *: (J m *m v *m (J m)^T)).
Proof. by move=> h1 hJ; split; [exact: (cd_odesE h1)|exact: (cd_odes_euler h1)]. Qed.
End Ekf.

Section Sgp.
Variable R : rcfType.
Variable chol : forall n, 'M[R]_n -> 'M[R]_n.
Variables (log : R -> R) (pi : R).
Variables (dx : nat) (sg : sigma_points R dx).
Local Notation w := (sg_w sg).
Local Notation xi := (sg_xi sg).

(* C86: for any model with positive definite noise covariances and nonnegative weights,
   sgp_filter never fails, keeps every covariance positive definite, and each step is the best
   linear estimate under the sigma-point law. *)
Theorem sgp_filter_nonlinear dy t (f : 'cV[R]_dx -> R -> 'cV[R]_dx * 'M[R]_dx)
    (h : 'cV[R]_dx -> 'cV[R]_dy * 'M[R]_dy) (const : bool) m0 v0 ys :
  chol_spec chol -> sg_rule w xi -> (forall p, p \in zip w xi -> 0 <= p.1) ->
  (forall x, posdef (f x t).2) -> (forall x, posdef (h x).2) ->
  (const -> forall x x', (h x).2 = (h x').2) -> posdef v0 ->
  exists outs, [/\ size outs = size ys,
    exists es, sgp_filter chol log pi f h sg m0 v0 t ys const
    = Some ([seq s.1 | s <- outs], [seq s.2 | s <- outs], es) &
    chain_of (sigma_step w xi (fun x => (f x t).1) (fun x => (f x t).2) (fun x => (h x).1) (fun x => (h x).2))
      (m0, v0) ys outs].
Proof.
move=> hc hsg w0 pS pX hk p0; rewrite (nl_filterE hc log pi hsg w0 pS pX hk) //.
have := nl_chain hc log pi hsg w0 pS pX (s := (m0, v0, 0)) ys p0.
set o := traj _ _ _ => ch; exists [seq s.1 | s <- o]; split=> //; first by rewrite size_map size_traj.
by exists [seq s.2 | s <- o]; rewrite /outputs -!map_comp.
Qed.

(* C86: the third output for scalar measurements: each step adds the negative log predictive
   density of the measurement under the sigma-point law. *)
Theorem sgp_likelihood_nonlinear t (f : 'cV[R]_dx -> R -> 'cV[R]_dx * 'M[R]_dx)
    (h : 'cV[R]_dx -> 'cV[R]_1 * 'M[R]_1) (const : bool) m0 v0 ys :
  chol_spec chol -> log_spec log -> 0 < pi -> sg_rule w xi -> (forall p, p \in zip w xi -> 0 <= p.1) ->
  (forall x, posdef (f x t).2) -> (forall x, posdef (h x).2) ->
  (const -> forall x x', (h x).2 = (h x').2) -> posdef v0 ->
  exists outs,
    sgp_filter chol log pi f h sg m0 v0 t ys const
    = Some ([seq s.1.1 | s <- outs], [seq s.1.2 | s <- outs], [seq s.2 | s <- outs]) /\
    chain_of (fun s y s' => forall L L',
        let p := sigma_moments w xi (fun x => (f x t).1) (fun x => (f x t).2) s.1.1 L in
        let q := sigma_moments w xi (fun x => (h x).1) (fun x => (h x).2) p.1 L' in
        is_chol L s.1.2 -> is_chol L' p.2 -> s'.2 = s.2 - log_gauss log pi y q.1 q.2)
      (m0, v0, 0) ys outs.
Proof.
move=> hc hl pi0 hsg w0 pS pX hk p0; rewrite (nl_filterE hc log pi hsg w0 pS pX hk) //.
eexists; split; first by [].
apply: (@chain_traj _ _ _ _ (fun s => posdef s.1.2)) => // s y ps.
split; last exact: (nl_fstep_posdef hc log pi hsg w0 pS pX).
move=> L L' p q hL hL'; rewrite /fstep /= -(chol_unique hL (hc _ _ ps)) -/p.
rewrite /nl_upd /=.
have pp : posdef p.2 by apply: (moments_posdef hsg w0).
rewrite -(chol_unique hL' (hc _ _ pp)) -/q.
have pq : posdef q.2 by apply: (moments_posdef hsg w0).
by rewrite (chol11 hl pi0 _ _ (hc _ _ pq)).
Qed.

(* C86: sgp_smoother on any model. *)
Theorem sgp_smoother_nonlinear t (f : 'cV[R]_dx -> R -> 'cV[R]_dx * 'M[R]_dx) mfs vfs :
  chol_spec chol -> sg_rule w xi -> (forall p, p \in zip w xi -> 0 <= p.1) ->
  (forall x, posdef (f x t).2) -> (forall v, v \in vfs -> posdef v) ->
  (0 < size vfs)%N -> size mfs = size vfs ->
  let r := sgp_smoother chol f sg mfs vfs t in
  [/\ size r.1 = size mfs, size r.2 = size vfs, last 0 r.1 = last 0 mfs, last 0 r.2 = last 0 vfs
    & forall k, (k.+1 < size vfs)%N ->
      let m := nth 0 mfs k in let v := nth 0 vfs k in
      exists L, let p := sigma_moments w xi (fun x => (f x t).1) (fun x => (f x t).2) m L in
      is_chol L v /\
      exists2 G, G *m p.2 = wcov w xi (fun z => m + L *m z) (fun z => (f (m + L *m z) t).1) &
        (nth 0 r.1 k, nth 0 r.2 k)
        = (m + G *m (nth 0 r.1 k.+1 - p.1), v + G *m (nth 0 r.2 k.+1 - p.2) *m G^T)].
Proof.
move=> hc hsg w0 pS pv n0 e r; have [r1 r2 r3 r4 r5] := run_smoother_nth (sgp_smoother_body chol f sg t) n0 e.
split=> // k hk m v; exists (chol v); set p := sigma_moments _ _ _ _ _ _.
have pp : posdef p.2 by apply: (moments_posdef hsg w0).
split; first by apply: hc; apply: pv; rewrite mem_nth // ltnW.
exists (wcov w xi (fun z => m + chol v *m z) (fun z => (f (m + chol v *m z) t).1) *m invmx p.2).
  by rewrite mulmxKV // posdef_unit.
by rewrite [LHS](r5 k hk) (nl_smootherE hc hsg).
Qed.

(* C86: the continuous-discrete equations of the mean and covariance are the first-order
   expansion in the step of the discrete prediction with Euler-Maruyama moments. *)
Theorem cd_sgp_small_step dw (drift : 'cV[R]_dx -> 'cV[R]_dx) (B : 'M[R]_(dx, dw)) t m v :
  chol_spec chol -> sg_rule w xi -> posdef v ->
  let g := fun z => m + chol v *m z in let k := fun z => drift (m + chol v *m z) in
  let ode := cd_sgp_shared chol sg drift B m v in
  let r := sgp_prediction chol sg (fun x t => (x + t *: drift x, t *: (B *m B^T))) t m v in
  ode = (wmean w xi k, wcov w xi g k + wcov w xi k g + B *m B^T) /\
  (r.1.1.1, r.1.1.2) = (m + t *: ode.1, v + t *: ode.2 + t ^+ 2 *: wcov w xi k k).
Proof. by move=> hc hsg pv g k; split; [exact: cd_nl_sharedE|exact: cd_nl_euler]. Qed.
End Sgp.

Lemma mem_zip_fst (S T : eqType) (s : seq S) (t : seq T) p : p \in zip s t -> p.1 \in s.
Proof.
by elim: s t => [|x s IH] [|y t] //=; rewrite !inE => /orP[/eqP->|/IH ->]; rewrite ?eqxx ?orbT.
Qed.

Lemma cubature_w0 (R : rcfType) d p :
  p \in zip (sg_w (cubature R d)) (sg_xi (cubature R d)) -> 0 <= p.1.
Proof.
move/mem_zip_fst; rewrite [sg_w _]/=; move: (iota _ _) => s /mapP [k _ ->].
by rewrite divr_ge0 ?ler01 ?ler0n.
Qed.

Lemma gauss_hermite_w0 (R : rcfType) (roots : seq R -> seq R) pi d order p :
  p \in zip (sg_w (gauss_hermite roots pi d order)) (sg_xi (gauss_hermite roots pi d order)) -> 0 <= p.1.
Proof.
move/mem_zip_fst; rewrite [sg_w _]/=; move: (iota _ _) => s /mapP [k _ ->].
rewrite mulr_ge0 ?divr_ge0 ?ler01 ?exprn_ge0 ?sqrtr_ge0 //; apply: prodr_ge0 => r _.
set j := nth 0%N _ _; have [hj|hj] := ltnP j (size (gh_weights_1d pi order
    (gen_hermite_poly_coeff R order) (rev (roots (last [::] (gen_hermite_poly_coeff R order)))))).
  have /mapP [i _ ->] := mem_nth 0 hj.
  apply: divr_ge0; last by rewrite mulr_ge0 ?sqr_ge0.
  by rewrite mulr_ge0 ?sqrtr_ge0 // mulr_ge0 ?exprn_ge0 ?ler0n.
by rewrite nth_default.
Qed.

(* A differentiable nonlinear model: x' = x + x^2 + N(0, 1), y = x^2 + N(0, 1) in one dimension. *)
Example quadratic_model (R : rcfType) :
  let f : 'cV[R]_1 -> 'cV[R]_1 := fun x => x + x *m x in
  let h : 'cV[R]_1 -> 'cV[R]_1 := fun x => x *m x in
  (forall x, has_jacobian f x (1%:M + 2%:R *: x)) /\ (forall x, has_jacobian h x (2%:R *: x)) /\
  forall m v : 'M[R]_1, posdef v -> posdef ((1%:M + 2%:R *: m) *m v *m (1%:M + 2%:R *: m)^T + 1%:M).
Proof.
move=> f h; have hq x (u : 'cV[R]_1) : (x + u) *m (x + u) - x *m x - 2%:R *: x *m u = u *m u.
  rewrite [x]mx11_scalar [u]mx11_scalar; move: (x 0 0) (u 0 0) => a b.
  by apply/matrixP => i j; rewrite !ord1 !(mxE, big_ord1) eqxx !mulr1n; ring.
have bnd (u : 'cV[R]_1) e i : 0 < e -> (forall j, `|u j 0| < e) -> `|(u *m u) i 0| <= e * \sum_j `|u j 0|.
  move=> e0 hu; rewrite ord1 mxE !big_ord1 normrM; apply: ler_wpmul2r; rewrite ?normr_ge0 //.
  exact: ltW.
split; [|split].
- move=> x e e0; exists e => // u hu i; have -> : f (x + u) - f x - (1%:M + 2%:R *: x) *m u = u *m u.
    rewrite -(hq x u) /f mulmxDl mul1mx.
    move: ((x + u) *m (x + u)) (x *m x) (2%:R *: x *m u) => A1 A2 A3.
    by apply/matrixP => k l; rewrite !mxE; move: (x k l) (u k l) (A1 k l) (A2 k l) (A3 k l) => *; ring.
  exact: bnd.
- by move=> x e e0; exists e => // u hu i; rewrite /h hq; exact: bnd.
- move=> m v pv; apply: semi_pos_add; first by apply: semi_congr; exact: posdef_semi.
  by apply: scalar_posdef; rewrite ltr01.
Qed.

(* The cubature rule has nonnegative weights; a model with nonlinear means and a state-dependent
   measurement covariance. *)
Example cubature_nonlinear (R : rcfType) d' : let d := d'.+1 in
  let sg := cubature R d in
  let f := fun (x : 'cV[R]_d) (t : R) => (x + t *: ((x^T *m x) 0 0 *: x), (1%:M : 'M[R]_d)) in
  let h := fun x : 'cV[R]_d => (x^T *m x, (1 + (x 0 0) ^+ 2)%:M : 'M[R]_1) in
  [/\ sg_rule (sg_w sg) (sg_xi sg), forall p, p \in zip (sg_w sg) (sg_xi sg) -> 0 <= p.1,
      forall x t, posdef (f x t).2 & forall x, posdef (h x).2].
Proof.
move=> d sg f h; split.
- exact: cubature_rule.
- by move=> p; exact: cubature_w0.
- by move=> x t; apply: scalar_posdef; rewrite ltr01.
- by move=> x; apply: scalar_posdef; rewrite ltr_paddr ?ltr01 ?sqr_ge0.
Qed.

Print Assumptions ekf_linearised_exact.
Print Assumptions eks_linearised.
Print Assumptions cd_ekf_small_step.
Print Assumptions sgp_filter_nonlinear.
Print Assumptions sgp_likelihood_nonlinear.
Print Assumptions sgp_smoother_nonlinear.
Print Assumptions cd_sgp_small_step.
