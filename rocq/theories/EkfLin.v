(* The extended filters on nonlinear models. *)
From mathcomp Require Import all_ssreflect all_algebra ring.
From Verif Require Import Prelude LinAlgSpec LinAlgProofs LdlProofs SmallMx GfsModel GfsSpec GfsProofs GfsKf GfsVec GfsRts GfsMap GfsSgp.
Set Implicit Arguments.
Unset Strict Implicit.
Unset Printing Implicit Defensive.
Import Order.TTheory GRing.Theory Num.Theory.
Local Open Scope ring_scope.

Section Spec.
Variable R : rcfType.

(* D is the derivative of f at x: f (x + h) = f x + D h + o(h) *)
Definition has_jacobian n m (f : 'cV[R]_n -> 'cV[R]_m) (x : 'cV[R]_n) (D : 'M[R]_(m, n)) : Prop :=
  forall e, 0 < e -> exists2 dl, 0 < dl & forall h : 'cV[R]_n, (forall j, `|h j 0| < dl) ->
    forall i, `|(f (x + h) - f x - D *m h) i 0| <= e * \sum_j `|h j 0|.

(* A differentiation oracle that is right wherever the function is differentiable. *)
Definition jac_spec (jac : forall n m, ('cV[R]_n -> 'cV[R]_m) -> 'cV[R]_n -> 'M[R]_(m, n)) : Prop :=
  forall n m (f : 'cV[R]_n -> 'cV[R]_m) x D, has_jacobian f x D -> jac n m f x = D.

(* One step of exact filtering in the model linearised at the current mean and at the predicted
   mean: x' = f m + F (x - m) + N(0, Sigma), y = h mp + H (x' - mp) + N(0, Xi). *)
Definition linearised_step dx dy (log : R -> R) (pi : R)
    (f : 'cV[R]_dx -> 'cV[R]_dx) (JF Sigma : 'cV[R]_dx -> 'M[R]_dx)
    (h : 'cV[R]_dx -> 'cV[R]_dy) (JH : 'cV[R]_dx -> 'M[R]_(dy, dx)) (Xi : 'cV[R]_dx -> 'M[R]_dy)
    (s : 'cV[R]_dx * 'M[R]_dx * R) (y : 'cV[R]_dy) (s' : 'cV[R]_dx * 'M[R]_dx * R) : Prop :=
  let m := s.1.1 in let mp := f m in
  exact_step log pi (JF m) (f m - JF m *m m) (Sigma m) (JH mp) (h mp - JH mp *m mp) (Xi mp) s y s'.
End Spec.

Section Jac.
Variable R : rcfType.

Lemma affine_jacobian n m (f : 'cV[R]_n -> 'cV[R]_m) A b x :
  (forall x, f x = A *m x + b) -> has_jacobian f x A.
Proof.
move=> hf e e0; exists 1; rewrite ?ltr01 // => h _ i; rewrite !hf mulmxDr.
have -> : A *m x + A *m h + b - (A *m x + b) - A *m h = 0.
  rewrite opprD addrACA -addrA -[A *m x + A *m h - A *m x]addrA [A *m h - A *m x]addrC addNKr.
  by rewrite subrr sub0r subrr.
by rewrite mxE normr0 mulr_ge0 ?(ltW e0) ?sumr_ge0.
Qed.

Lemma jac_spec_affine jac : @jac_spec R jac -> @jac_affine_spec R jac.
Proof. by move=> h n m f A b hf x; apply: h; exact: affine_jacobian hf. Qed.

Lemma jacobian_unique n m (f : 'cV[R]_n -> 'cV[R]_m) x D D' :
  has_jacobian f x D -> has_jacobian f x D' -> D = D'.
Proof.
move=> h1 h2; apply/matrixP => i j; apply/eqP; rewrite -subr_eq0 -normr_eq0; apply: contraT => n0.
have p0 : 0 < `|D i j - D' i j| by rewrite lt_def n0 normr_ge0.
have e0 : 0 < `|D i j - D' i j| / 4%:R by rewrite divr_gt0 ?ltr0n.
have [d1 d10 {}h1] := h1 _ e0; have [d2 d20 {}h2] := h2 _ e0.
pose t := Num.min d1 d2 / 2%:R; have m0 : 0 < Num.min d1 d2 by rewrite lt_minr d10 d20.
have t0 : 0 < t by rewrite divr_gt0 ?ltr0n.
have tm : t < Num.min d1 d2 by rewrite ltr_pdivr_mulr ?ltr0n // mulr_natr mulr2n ltr_addl.
move: tm; rewrite lt_minr => /andP [t1 t2].
pose v : 'cV[R]_n := t *: delta_mx j 0.
have vE k : v k 0 = t * (k == j)%:R by rewrite !mxE andbT.
have vb d : t < d -> forall k, `|v k 0| < d.
  move=> hd k; rewrite vE; case: (k == j); rewrite ?mulr1 ?mulr0 ?normr0 ?gtr0_norm //.
  exact: lt_trans t0 hd.
have vs : \sum_k `|v k 0| = t.
  rewrite (bigD1 j) //= big1 ?addr0 => [|k hk]; first by rewrite vE eqxx mulr1 gtr0_norm.
  by rewrite vE (negbTE hk) mulr0 normr0.
have := h1 v (vb _ t1) i; have := h2 v (vb _ t2) i; rewrite vs.
set u := f (x + v) - f x.
have vD (M : 'M[R]_(m, n)) : (M *m v) i 0 = t * M i j.
  by rewrite /v -scalemxAr mxE -colE mxE.
have sub (a c : 'cV[R]_m) : (a - c) i 0 = a i 0 - c i 0 by rewrite !mxE.
rewrite (sub u (D *m v)) (sub u (D' *m v)) !vD; move: (u i 0) => w b2 b1.
have : t * `|D i j - D' i j| <= `|w - t * D' i j| + `|w - t * D i j|.
  rewrite -(gtr0_norm t0) -normrM (gtr0_norm t0).
  have -> : t * (D i j - D' i j) = (w - t * D' i j) - (w - t * D i j) by ring.
  exact: ler_norm_sub.
move=> hle; have := le_trans hle (ler_add b2 b1).
have -> : `|D i j - D' i j| / 4%:R * t + `|D i j - D' i j| / 4%:R * t = t * (`|D i j - D' i j| / 2%:R) by field.
rewrite ler_pmul2l // => h; have : `|D i j - D' i j| / 2%:R < `|D i j - D' i j|.
  by rewrite ltr_pdivr_mulr ?ltr0n // mulr_natr mulr2n ltr_addl.
by rewrite ltNge h.
Qed.

Lemma jacobian_euler n (f : 'cV[R]_n -> 'cV[R]_n) x J t : has_jacobian f x J ->
  has_jacobian (fun u => u + t *: f u) x (1%:M + t *: J).
Proof.
move=> hJ e e0; have t1 : 0 < 1 + `|t| by rewrite ltr_paddr ?ltr01 ?normr_ge0.
have [d d0 hd] := hJ (e / (1 + `|t|)) (divr_gt0 e0 t1); exists d => // h hh i.
have -> : x + h + t *: f (x + h) - (x + t *: f x) - (1%:M + t *: J) *m h
    = t *: (f (x + h) - f x - J *m h).
  rewrite mulmxDl mul1mx -scalemxAl !scalerBr.
  move: (t *: f (x + h)) (t *: f x) (t *: (J *m h)) => a b c.
  apply/matrixP => k l; rewrite !mxE.
  by move: (x k l) (h k l) (a k l) (b k l) (c k l) => *; ring.
rewrite mxE normrM; apply: le_trans (_ : (1 + `|t|) * `|(f (x + h) - f x - J *m h) i 0| <= _).
  by rewrite ler_wpmul2r ?normr_ge0 // ler_addr ler01.
have := hd h hh i; move: (\sum_j _) => S; rewrite -(ler_pmul2l t1) => h1; apply: le_trans h1 _.
by rewrite mulrA mulrCA divff ?mulr1 // gt_eqF.
Qed.
End Jac.

Section Ekf.
Variable R : rcfType.
Variable chol : forall n, 'M[R]_n -> 'M[R]_n.
Variables (log : R -> R) (pi : R).
Variables jacfwd jacrev : forall n m, ('cV[R]_n -> 'cV[R]_m) -> 'cV[R]_n -> 'M[R]_(m, n).
Hypothesis hfwd : jac_spec jacfwd.
Hypothesis hrev : jac_spec jacrev.
Variables (dx : nat) (dt : R).
Variable state_cond_m_cov : 'cV[R]_dx -> R -> 'cV[R]_dx * 'M[R]_dx.
Variable JF : 'cV[R]_dx -> 'M[R]_dx.
Local Notation f := (fun x => (state_cond_m_cov x dt).1).
Local Notation Sigma := (fun x => (state_cond_m_cov x dt).2).
Hypothesis hF : forall x, has_jacobian f x (JF x).

Lemma lin_predictE m v :
  ekf_predict jacfwd state_cond_m_cov dt m v = (f m, JF m *m v *m (JF m)^T + Sigma m).
Proof. by rewrite /ekf_predict (hfwd (hF m)); case: (state_cond_m_cov m dt). Qed.

Lemma lin_eks_bodyE m v ms vs : chol_spec chol -> posdef (JF m *m v *m (JF m)^T + Sigma m) ->
  eks_body chol jacfwd state_cond_m_cov dt m v ms vs
  = let vp := JF m *m v *m (JF m)^T + Sigma m in
    let G := (JF m *m v)^T *m invmx vp in (m + G *m (ms - f m), v + G *m (vs - vp) *m G^T).
Proof.
move=> hc hp; rewrite /eks_body (hfwd (hF m)); move: hp; case: (state_cond_m_cov m dt) => a S /= hp.
by rewrite (smoother_sharedE hc).
Qed.

Section Update.
Variable dy : nat.
Variable measurement_cond_m_cov : 'cV[R]_dx -> 'cV[R]_dy * 'M[R]_dy.
Variable JH : 'cV[R]_dx -> 'M[R]_(dy, dx).
Local Notation h := (fun x => (measurement_cond_m_cov x).1).
Local Notation Xi := (fun x => (measurement_cond_m_cov x).2).
Hypothesis hH : forall x, has_jacobian h x (JH x).

Lemma lin_updateE m v y fw :
  ekf_update chol log pi jacfwd jacrev measurement_cond_m_cov m v y fw
  = linear_update chol log pi m v (JH m) (h m) (Xi m) y.
Proof.
by rewrite /ekf_update (hfwd (hH m)) (hrev (hH m)); case: fw; case: (measurement_cond_m_cov m).
Qed.
End Update.

Variable measurement_cond_m_cov : 'cV[R]_dx -> 'cV[R]_1 * 'M[R]_1.
Variable JH : 'cV[R]_dx -> 'M[R]_(1, dx).
Local Notation h := (fun x => (measurement_cond_m_cov x).1).
Local Notation Xi := (fun x => (measurement_cond_m_cov x).2).
Hypothesis hH : forall x, has_jacobian h x (JH x).
Hypothesis pXi : forall x, posdef (Xi x).
Hypothesis pS : forall m v, posdef v -> posdef (JF m *m v *m (JF m)^T + Sigma m).

Definition lin_upd (mp : 'cV[R]_dx) (vp : 'M[R]_dx) (y : 'cV[R]_1) :=
  (mp + gain (JH mp) vp (Xi mp) *m (y - h mp), postcov (JH mp) vp (Xi mp),
   - log_gauss log pi y (h mp) (innov (JH mp) vp (Xi mp))).

Lemma lin_exact m0 v0 ys fw : posdef v0 ->
  exists outs,
    ekf chol log pi jacfwd jacrev state_cond_m_cov measurement_cond_m_cov m0 v0 dt ys fw
    = Some (outputs outs) /\
    chain_of (linearised_step log pi f JF Sigma h JH Xi) (m0, v0, 0) ys outs.
Proof.
move=> p0; exists (traj (fstep (ekf_predict jacfwd state_cond_m_cov dt) lin_upd) (m0, v0, 0) ys); split.
  apply: (@run_filterE _ _ _ (@posdef R dx)) => // m v y pv; rewrite lin_predictE /=.
  have pp := pS m pv; have pI := innov_posdef (JH (f m)) (pXi (f m)) (posdef_semi pp).
  split; last exact: pc_posdef.
  by rewrite (lin_updateE hH) /= linear_update_scalarE //; apply: posdef11.
apply: (@chain_traj _ _ _ _ (fun s => posdef s.1.2)) => // -[[m v] e] y /= pv.
have pp := pS m pv; rewrite /fstep lin_predictE /=; split; last exact: pc_posdef.
have e1 : JF m *m m + (f m - JF m *m m) = f m by rewrite addrC subrK.
have e2 : JH (f m) *m f m + (h (f m) - JH (f m) *m f m) = h (f m) by rewrite addrC subrK.
rewrite /linearised_step /exact_step /= e1 e2; split=> //.
by rewrite -[X in gain _ _ _ *m (y - X)]e2; apply: textbook_bayes.
Qed.
End Ekf.

(* The continuous-discrete filter as the small-step form of the discrete one. *)
Section Cd.
Variable R : rcfType.
Variable jacfwd : forall n m, ('cV[R]_n -> 'cV[R]_m) -> 'cV[R]_n -> 'M[R]_(m, n).
Hypothesis hfwd : jac_spec jacfwd.
Variables (d dw : nat) (drift : 'cV[R]_d -> 'cV[R]_d) (dispersion : 'cV[R]_d -> 'M[R]_(d, dw)).
Variable J : 'cV[R]_d -> 'M[R]_d.
Hypothesis hJ : forall x, has_jacobian drift x (J x).

Lemma cd_odesE m v : cd_ekf_odes jacfwd drift dispersion m v
  = (drift m, v *m (J m)^T + J m *m v + dispersion m *m (dispersion m)^T).
Proof. by rewrite /cd_ekf_odes (hfwd (hJ m)). Qed.

Lemma cd_odes_euler t m v :
  let ode := cd_ekf_odes jacfwd drift dispersion m v in
  ekf_predict jacfwd (fun x t => (x + t *: drift x, t *: (dispersion x *m (dispersion x)^T))) t m v
  = (m + t *: ode.1, v + t *: ode.2 + t ^+ 2 *: (J m *m v *m (J m)^T)).
Proof.
rewrite cd_odesE /ekf_predict (hfwd (jacobian_euler t (hJ m))) /=; congr pair.
rewrite [(1%:M + _)^T]linearD /= trmx1 [(t *: J m)^T]linearZ /= !mulmxDl !mulmxDr !mul1mx !mulmx1.
rewrite -!scalemxAl -!scalemxAr scalerA !scalerDr -expr2.
move: (t *: _) (t *: _) (t *: _) (t ^+ 2 *: _) => a b c e.
by apply/matrixP => k l; rewrite !mxE; move: (v k l) (a k l) (b k l) (c k l) (e k l) => *; ring.
Qed.
End Cd.
