(* Sigma-point filters and smoothers coincide with the Kalman ones on affine models. *)
From mathcomp Require Import all_ssreflect all_algebra ring.
From Verif Require Import Prelude LinAlgSpec LinAlgProofs SmallMx LdlProofs GfsModel GfsSpec GfsProofs GfsKf GfsVec GfsRts GfsMap GfsSgp.
Set Implicit Arguments.
Unset Strict Implicit.
Unset Printing Implicit Defensive.
Import Order.TTheory GRing.Theory Num.Theory.
Local Open Scope ring_scope.

Section Sgp.
Variable R : rcfType.
Variable chol : forall n, 'M[R]_n -> 'M[R]_n.
Variables (log : R -> R) (pi : R).
Hypothesis hchol : chol_spec chol.
Variables (dx dy : nat) (sg : sigma_points R dx).
Hypothesis hsg : sg_rule (sg_w sg) (sg_xi sg).
Variables (F : 'M[R]_dx) (b : 'cV[R]_dx) (Sigma : 'M[R]_dx).
Variables (H : 'M[R]_(dy, dx)) (c : 'cV[R]_dy) (Xi : 'M[R]_dy) (dt : R).
Variable state_cond_m_cov : 'cV[R]_dx -> R -> 'cV[R]_dx * 'M[R]_dx.
Variable measurement_cond_m_cov : 'cV[R]_dx -> 'cV[R]_dy * 'M[R]_dy.
Hypothesis hstate : forall x, state_cond_m_cov x dt = (F *m x + b, Sigma).
Hypothesis hmeas : forall x, measurement_cond_m_cov x = (H *m x + c, Xi).
Local Notation xi := (sg_xi sg).
Local Notation E := (sg_expectation sg).

Lemma aff_pt a (A : 'M[R]_(a, dx)) (e : 'cV[R]_a) (m : 'cV[R]_dx) (L : 'M[R]_dx) (x : 'cV[R]_dx) :
  A *m (m + L *m x) + e = (A *m m + e) + (A *m L) *m x.
Proof. by rewrite mulmxDr mulmxA addrAC. Qed.

Lemma sgp_predictionE m v : posdef v ->
  let r := sgp_prediction chol sg state_cond_m_cov dt m v in
  r.1.1 = (F *m m + b, F *m v *m F^T + Sigma) /\
  E (vectorised_outer r.1.2 r.2) - m *m (F *m m + b)^T = v *m F^T.
Proof.
move=> pv; have [_ _ LL] := hchol pv.
rewrite /sgp_prediction /gen_sigma_points; set L := chol v in LL *.
have em : [seq (state_cond_m_cov x dt).1 | x <- [seq m + L *m x | x <- xi]]
        = [seq (F *m m + b) + (F *m L) *m x | x <- xi].
  by rewrite -map_comp; apply: eq_map => x /=; rewrite hstate aff_pt.
have ec : [seq (state_cond_m_cov x dt).2 | x <- [seq m + L *m x | x <- xi]]
        = [seq Sigma | x <- xi].
  by rewrite -map_comp; apply: eq_map => x /=; rewrite hstate.
cbv zeta; rewrite em ec /= E_aff // !outer_map zip_map -map_comp /=; split.
  congr (_, _).
  rewrite (E_add sg (fun x => ((F *m m + b) + (F *m L) *m x) *m ((F *m m + b) + (F *m L) *m x)^T)
              (fun=> Sigma)).
  by rewrite E_outer // E_const // trmx_mul -mulmxA [L *m (_ *m _)]mulmxA LL !mulmxA -(addrA _ _ Sigma) addrC addKr.
rewrite E_outer // trmx_mul mulmxA LL.
by rewrite addrC addKr.
Qed.

Lemma sgp_updateE m v y const : posdef v -> posdef Xi ->
  sgp_update chol log pi sg measurement_cond_m_cov m v y const
  = (m + gain H v Xi *m (y - (H *m m + c)), postcov H v Xi,
     - log_mvn_pdf log pi y (H *m m + c) (chol (innov H v Xi))).
Proof.
move=> pv pX; have [_ _ LL] := hchol pv; have pS := innov_posdef H pX (posdef_semi pv).
rewrite /sgp_update /gen_sigma_points; set L := chol v in LL *.
have em : [seq (measurement_cond_m_cov x).1 | x <- [seq m + L *m x | x <- xi]]
        = [seq (H *m m + c) + (H *m L) *m x | x <- xi].
  by rewrite -map_comp; apply: eq_map => x /=; rewrite hmeas aff_pt.
have ec : [seq (measurement_cond_m_cov x).2 | x <- [seq m + L *m x | x <- xi]]
        = [seq Xi | x <- xi].
  by rewrite -map_comp; apply: eq_map => x /=; rewrite hmeas.
have n0 : nth 0 [seq Xi | x <- xi] 0 = Xi by case: xi (xi_neq0 hsg).
cbv zeta; rewrite em ec n0 E_aff // !outer_map zip_map -map_comp /=.
rewrite (E_add sg (fun x => ((H *m m + c) + (H *m L) *m x) *m ((H *m m + c) + (H *m L) *m x)^T)
              (fun=> Xi)).
rewrite !E_outer // E_const //.
have -> : H *m L *m (H *m L)^T = H *m v *m H^T by rewrite trmx_mul -mulmxA [L *m (_ *m _)]mulmxA LL !mulmxA.
have -> : L *m (H *m L)^T = v *m H^T by rewrite trmx_mul mulmxA LL.
have e1 a1 b1 (A B C : 'M[R]_(a1, b1)) : A + B - A + C = B + C by rewrite [A + B]addrC addrK.
have e2 a1 b1 (A B C : 'M[R]_(a1, b1)) : A + B + C - A = B + C.
  by rewrite -(addrA A) [A + _]addrC addrK.
have e3 a1 b1 (A B : 'M[R]_(a1, b1)) : A + B - A = B by rewrite [A + B]addrC addrK.
rewrite e1 e2 e3 if_same -/(innov H v Xi).
rewrite cho_solve_lowerE //.
have -> // : (invmx (innov H v Xi) *m (v *m H^T)^T)^T = gain H v Xi.
by rewrite trmx_mul trmxK trmx_inv (posdef_sym pS).
Qed.

Lemma sgp_smoother_bodyE m v ms vs : posdef v -> posdef (F *m v *m F^T + Sigma) ->
  sgp_smoother_body chol state_cond_m_cov sg dt m v ms vs
  = gaussian_smoother_shared chol (F *m v) m v (F *m m + b) (F *m v *m F^T + Sigma) ms vs.
Proof.
move=> pv pp; rewrite /sgp_smoother_body; have := @sgp_predictionE m v pv.
case: (sgp_prediction _ _ _ _ _ _) => [[[mp vp] chi] ev] /= [[-> ->] e].
by rewrite e trmx_mul trmxK (posdef_sym pv).
Qed.

Hypothesis hp : forall v, posdef v -> posdef (F *m v *m F^T + Sigma).
Hypothesis pXi : posdef Xi.

Definition sgp_upd (mp : 'cV[R]_dx) (vp : 'M[R]_dx) (y : 'cV[R]_dy) :=
  (mp + gain H vp Xi *m (y - (H *m mp + c)), postcov H vp Xi,
   - log_mvn_pdf log pi y (H *m mp + c) (chol (innov H vp Xi))).
Definition aff_pred (m : 'cV[R]_dx) (v : 'M[R]_dx) := (F *m m + b, F *m v *m F^T + Sigma).

Lemma sgp_filterE m0 v0 ys const : posdef v0 ->
  sgp_filter chol log pi state_cond_m_cov measurement_cond_m_cov sg m0 v0 dt ys const
  = run_filter aff_pred (fun mp vp y => Some (sgp_upd mp vp y)) m0 v0 ys.
Proof.
move=> p0; apply: (@run_filter_ext _ _ _ (@posdef R dx)) => //.
- move=> m v pv; have [e _] := sgp_predictionE m pv.
  by case: (sgp_prediction _ _ _ _ _ _) e => [[[mp vp] chi] ev] /=.
- by move=> m v y pv /=; rewrite sgp_updateE //; apply: hp.
- by move=> m v y r pv /= [<-] /=; apply: pc_posdef => //; apply: hp.
Qed.

Lemma sgp_filter_traj m0 v0 ys const : posdef v0 ->
  sgp_filter chol log pi state_cond_m_cov measurement_cond_m_cov sg m0 v0 dt ys const
  = Some (outputs (traj (fstep aff_pred sgp_upd) (m0, v0, 0) ys)).
Proof.
move=> p0; rewrite sgp_filterE //.
apply: (@run_filterE _ _ _ (@posdef R dx)) => // m v y pv; split=> //.
by apply: pc_posdef => //; apply: hp.
Qed.

Lemma sgp_smootherE mfs vfs : b = 0 -> (forall v, v \in vfs -> posdef v) ->
  sgp_smoother chol state_cond_m_cov sg mfs vfs dt = rts chol F Sigma mfs vfs.
Proof.
move=> b0 hv; apply: (@run_smoother_ext _ _ (@posdef R dx)) => // m v ms vs pv.
by rewrite sgp_smoother_bodyE // ?b0 ?addr0 //; apply: hp.
Qed.
End Sgp.

Section SgpScalar.
Variable R : rcfType.
Variable chol : forall n, 'M[R]_n -> 'M[R]_n.
Variables (log : R -> R) (pi : R).
Hypothesis hchol : chol_spec chol.
Hypothesis hlog : log_spec log.
Hypothesis pi0 : 0 < pi.
Variables (dx : nat) (sg : sigma_points R dx).
Hypothesis hsg : sg_rule (sg_w sg) (sg_xi sg).
Variables (F : 'M[R]_dx) (b : 'cV[R]_dx) (Sigma : 'M[R]_dx).
Variables (H : 'M[R]_(1, dx)) (c : 'cV[R]_1) (Xi : 'M[R]_1) (dt : R).
Variable state_cond_m_cov : 'cV[R]_dx -> R -> 'cV[R]_dx * 'M[R]_dx.
Variable measurement_cond_m_cov : 'cV[R]_dx -> 'cV[R]_1 * 'M[R]_1.
Hypothesis hstate : forall x, state_cond_m_cov x dt = (F *m x + b, Sigma).
Hypothesis hmeas : forall x, measurement_cond_m_cov x = (H *m x + c, Xi).
Hypothesis hp : forall v, posdef v -> posdef (F *m v *m F^T + Sigma).
Hypothesis pXi : posdef Xi.

Lemma sgp_filter_scalar m0 v0 ys const : posdef v0 ->
  sgp_filter chol log pi state_cond_m_cov measurement_cond_m_cov sg m0 v0 dt ys const
  = run_filter (aff_pred F b Sigma)
      (fun mp vp y => linear_update chol log pi mp vp H (H *m mp + c) Xi y) m0 v0 ys.
Proof.
move=> p0; rewrite (sgp_filterE log pi hchol hsg hstate hmeas hp pXi) //.
apply: (@run_filter_ext _ _ _ (@posdef R dx)) => //.
- move=> m v y pv /=; have pp := hp pv; have pS := innov_posdef H pXi (posdef_semi pp).
  rewrite linear_update_scalarE; last exact: posdef11.
  by rewrite /sgp_upd (chol11 hlog pi0 _ _ (hchol pS)).
move=> m v y r pv /=; have pp := hp pv; have pS := innov_posdef H pXi (posdef_semi pp).
by rewrite linear_update_scalarE; [case=> <- /=; apply: pc_posdef | exact: posdef11].
Qed.
End SgpScalar.

(* Continuous-discrete filters: drift A x + b, constant dispersion. *)
Section Cd.
Variable R : rcfType.
Variable chol : forall n, 'M[R]_n -> 'M[R]_n.
Hypothesis hchol : chol_spec chol.
Variables jacfwd : forall n m, ('cV[R]_n -> 'cV[R]_m) -> 'cV[R]_n -> 'M[R]_(m, n).
Hypothesis hfwd : jac_affine_spec jacfwd.
Variables (d dw : nat) (sg : sigma_points R d).
Hypothesis hsg : sg_rule (sg_w sg) (sg_xi sg).
Variables (A : 'M[R]_d) (b : 'cV[R]_d) (B : 'M[R]_(d, dw)).
Variable drift : 'cV[R]_d -> 'cV[R]_d.
Hypothesis hdrift : forall x, drift x = A *m x + b.
Local Notation xi := (sg_xi sg).
Local Notation E := (sg_expectation sg).

Lemma cd_ekf_odesE m v :
  cd_ekf_odes jacfwd drift (fun=> B) m v = (A *m m + b, v *m A^T + A *m v + B *m B^T).
Proof. by rewrite /cd_ekf_odes (hfwd hdrift) hdrift. Qed.

Lemma cd_sgp_sharedE m v : posdef v ->
  cd_sgp_shared chol sg drift B m v = (A *m m + b, v *m A^T + A *m v + B *m B^T).
Proof.
move=> pv; have [_ _ LL] := hchol pv.
rewrite /cd_sgp_shared /gen_sigma_points; set L := chol v in LL *.
have em : [seq drift x | x <- [seq m + L *m x | x <- xi]]
        = [seq (A *m m + b) + (A *m L) *m x | x <- xi].
  by rewrite -map_comp; apply: eq_map => x /=; rewrite hdrift aff_pt.
have ec : [seq x - m | x <- [seq m + L *m x | x <- xi]] = [seq 0 + L *m x | x <- xi].
  by rewrite -map_comp; apply: eq_map => x /=; rewrite addrAC subrr.
cbv zeta; rewrite em ec outer_map E_outer // E_aff // mul0mx add0r trmx_mul mulmxA LL.
by rewrite trmx_mul trmxK (posdef_sym pv).
Qed.

Lemma cd_sgp_smoother_odesE m v mf vf : posdef v -> posdef vf ->
  cd_sgp_smoother_odes chol drift B sg m v mf vf
  = cd_eks_odes chol jacfwd drift (fun=> B) m v mf vf.
Proof.
move=> pv pvf; rewrite /cd_sgp_smoother_odes cd_sgp_sharedE // /cd_eks_odes (hfwd hdrift) hdrift.
rewrite !cho_solve_upperE //.
have sg' : (B *m B^T)^T = B *m B^T by rewrite trmx_mul trmxK.
have si : (invmx vf)^T = invmx vf by rewrite trmx_inv (posdef_sym pvf).
move: (B *m B^T) sg' => g sg'; rewrite sg'.
have e : (invmx vf *m g)^T = g *m invmx vf by rewrite trmx_mul sg' si.
have eA : (A + g *m invmx vf)^T = A^T + invmx vf *m g by rewrite -e linearD /= trmxK.
rewrite e eA -(mulmxA g); congr (_, _).
rewrite mulmxDl mulmxDr.
apply/matrixP => i j; rewrite !mxlin.
move: ((v *m A^T) i j) ((A *m v) i j) (g i j) ((g *m invmx vf *m v) i j) ((v *m (invmx vf *m g)) i j) => *; ring.
Qed.
End Cd.
