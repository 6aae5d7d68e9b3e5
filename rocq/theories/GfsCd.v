(* Continuous-discrete filters and smoothers on affine drifts. *)
From mathcomp Require Import all_ssreflect all_algebra.
From mathcomp Require Import ring.
From Verif Require Import Prelude LinAlgSpec LinAlgProofs GfsModel GfsSpec GfsProofs.
From Verif Require Import GfsKf GfsVec GfsRts GfsMap GfsSgp GfsSgpRun GfsRk4 GfsMain.
Set Implicit Arguments.
Unset Strict Implicit.
Unset Printing Implicit Defensive.
Import Order.TTheory GRing.Theory Num.Theory.
Local Open Scope ring_scope.

Section Along.
Variable R : rcfType.
Variables (dx dy : nat).
Variables p p' : 'cV[R]_dx -> 'M[R]_dx -> 'cV[R]_dx * 'M[R]_dx.
Variables u u' : 'cV[R]_dx -> 'M[R]_dx -> 'cV[R]_dy -> option ('cV[R]_dx * 'M[R]_dx * R).

Lemma oscan_along s ys r outs : oscan (filter_body p u) s ys = Some (r, outs) ->
  (forall k, (k < size ys)%N -> let v := nth 0 (s.1.2 :: [seq o.1.2 | o <- outs]) k in
     forall m, p m v = p' m v /\ forall y, u (p m v).1 (p m v).2 y = u' (p m v).1 (p m v).2 y) ->
  oscan (filter_body p' u') s ys = Some (r, outs).
Proof.
elim: ys s r outs => [|y ys IH] s r outs //=.
case eb: (filter_body p u s y) => [[s1 o]|] //.
case es: (oscan (filter_body p u) s1 ys) => [[s2 os]|] // [<- <-] h.
have eb' : filter_body p' u' s y = Some (s1, o).
  move: eb (h 0%N isT); case: s {h} => [[m v] l] /= eb /(_ m) [ep eu].
  move: eb; rewrite -ep; case: (p m v) eu => mp vp /= eu; by rewrite eu.
have so : s1 = o.
  move: eb; case: s {h eb'} => [[m v] l] /=; case: (p m v) => mp vp.
  by case: (u mp vp y) => [[[m1 v1] l1]|] // [<- <-].
rewrite eb' (IH _ _ _ es) // => k hk; have := h k.+1; rewrite /= ltnS => /(_ hk).
by rewrite -so; case: k hk.
Qed.

Lemma run_filter_along m0 v0 ys ms vs es : run_filter p u m0 v0 ys = Some (ms, vs, es) ->
  (forall k, (k < size ys)%N -> let v := nth 0 (v0 :: vs) k in
     forall m, p m v = p' m v /\ forall y, u (p m v).1 (p m v).2 y = u' (p m v).1 (p m v).2 y) ->
  run_filter p' u' m0 v0 ys = Some (ms, vs, es).
Proof.
rewrite /run_filter; case e: (oscan (filter_body p u) (m0, v0, 0) ys) => [[r outs]|] //.
by move=> [<- <- <-] h; rewrite (oscan_along e).
Qed.
End Along.

Section SmAlong.
Variable R : rcfType.
Variable d : nat.
Variables b b' : 'cV[R]_d -> 'M[R]_d -> 'cV[R]_d -> 'M[R]_d -> 'cV[R]_d * 'M[R]_d.

Lemma smooth_along x hs :
  (forall k, (k < size hs)%N -> forall m ms,
     b m (nth x (x :: hs) k).2 ms (nth x (smooth b x hs) k.+1).2
     = b' m (nth x (x :: hs) k).2 ms (nth x (smooth b x hs) k.+1).2) ->
  smooth b x hs = smooth b' x hs.
Proof.
elim: hs x => [|x' hs IH] x h //; rewrite !smooth_cons.
have e : smooth b x' hs = smooth b' x' hs.
  apply: IH => k hk m ms; have := h k.+1; rewrite smooth_cons /= ltnS => /(_ hk m ms).
  by rewrite !(set_nth_default x' x) ?size_smooth //= ltnS ltnW.
rewrite -e; congr (_ :: _).
have := h 0%N isT x.1 (head x' (smooth b x' hs)).1; rewrite smooth_cons /=.
have -> : nth x (smooth b x' hs) 0 = head x' (smooth b x' hs).
  by have := size_smooth b x' hs; case: (smooth b x' hs).
by [].
Qed.

Lemma run_smoother_along mfs vfs : (0 < size vfs)%N -> size mfs = size vfs ->
  (forall k, (k.+1 < size vfs)%N -> forall m ms,
     b m (nth 0 vfs k) ms (nth 0 (run_smoother b mfs vfs).2 k.+1)
     = b' m (nth 0 vfs k) ms (nth 0 (run_smoother b mfs vfs).2 k.+1)) ->
  run_smoother b mfs vfs = run_smoother b' mfs vfs.
Proof.
case: vfs => // v vs _; case: mfs => // m ms [es].
set hs := zip ms vs; have shs : size hs = size vs by rewrite size_zip es minnn.
have [z1 z2] := zip_split es.
have e1 : m :: ms = [seq s.1 | s <- (m, v) :: hs] by rewrite /= z1.
have e2 : v :: vs = [seq s.2 | s <- (m, v) :: hs] by rewrite /= z2.
rewrite {}e1 {}e2 !run_smootherE => h; rewrite (smooth_along (x := (m, v)) (hs := hs)) // => k hk m1 ms1.
have := h k; rewrite size_map /= ltnS => /(_ hk m1 ms1).
rewrite -[(v :: [seq s.2 | s <- hs])`_k]/(nth 0 [seq s.2 | s <- (m, v) :: hs] k).
rewrite (nth_map (m, v) 0 snd); last by rewrite /= ltnS ltnW.
by rewrite (nth_map (m, v) 0 snd) // size_smooth ltnS.
Qed.
End SmAlong.

Section Cd.
Variable R : rcfType.
Variable chol : forall n, 'M[R]_n -> 'M[R]_n.
Variables (log : R -> R) (pi : R).
Hypothesis hchol : chol_spec chol.
Hypothesis hlog : log_spec log.
Hypothesis pi0 : 0 < pi.
Variables jacfwd jacrev : forall n m, ('cV[R]_n -> 'cV[R]_m) -> 'cV[R]_n -> 'M[R]_(m, n).
Hypothesis hfwd : jac_affine_spec jacfwd.
Hypothesis hrev : jac_affine_spec jacrev.
Variables (d dw : nat) (sg : sigma_points R d).
Hypothesis hsg : sg_rule (sg_w sg) (sg_xi sg).
Variables (A : 'M[R]_d) (b : 'cV[R]_d) (B : 'M[R]_(d, dw)).
Variable drift : 'cV[R]_d -> 'cV[R]_d.
Hypothesis hdrift : forall x, drift x = A *m x + b.
Variables (H : 'M[R]_(1, d)) (c : 'cV[R]_1) (Xi : 'M[R]_1) (dt : R).
Variable measurement_cond_m_cov : 'cV[R]_d -> 'cV[R]_1 * 'M[R]_1.
Hypothesis hmeas : forall x, measurement_cond_m_cov x = (H *m x + c, Xi).
Hypothesis pXi : posdef Xi.

(* Stages of the classical Runge-Kutta step for v' = rhs v. *)
Definition stages (rhs : 'M[R]_d -> 'M[R]_d) (v : 'M[R]_d) (h : R) : seq 'M[R]_d :=
  let k1 := rhs v in
  let v1 := v + 2%:R^-1 *: (h *: k1) in
  let k2 := rhs v1 in
  let v2 := v + 2%:R^-1 *: (h *: k2) in
  let k3 := rhs v2 in
  let v3 := v + h *: k3 in
  let k4 := rhs v3 in
  [:: v; v1; v2; v3; v + 6%:R^-1 *: (h *: (k1 + 2%:R *: k2 + 2%:R *: k3 + k4))].
Definition stages_posdef rhs v h := forall s, s \in stages rhs v h -> posdef s.

Lemma stages4 rhs v h : stages_posdef rhs v h ->
  [/\ posdef v, posdef (nth 0 (stages rhs v h) 1), posdef (nth 0 (stages rhs v h) 2),
      posdef (nth 0 (stages rhs v h) 3) & posdef (nth 0 (stages rhs v h) 4)].
Proof. by move=> hs; split; apply: hs; rewrite ?mem_nth // inE eqxx. Qed.

Lemma rk4_along (o o' : 'cV[R]_d -> 'M[R]_d -> 'cV[R]_d * 'M[R]_d) rhs v h :
  (forall m v, (o' m v).2 = rhs v) ->
  (forall m v, posdef v -> o m v = o' m v) ->
  stages_posdef rhs v h -> forall m, rk4_m_cov o m v h = rk4_m_cov o' m v h.
Proof.
move=> hr hh /stages4 /= [p0 p1 p2 p3 _] m.
by apply: (rk4_agree (I := fun v => posdef v) hh); rewrite ?hr.
Qed.

Lemma rk4_cov o (rhs : 'M[R]_d -> 'M[R]_d) (v : 'M[R]_d) h (m : 'cV[R]_d) :
  (forall m v, (o m v).2 = rhs v) -> (rk4_m_cov o m v h).2 = nth 0 (stages rhs v h) 4.
Proof.
move=> hr; rewrite /rk4_m_cov /=.
case e1: (o m v) => [a1 b1]; have <- : b1 = rhs v by rewrite -(hr m) e1.
case e2: (o _ _) => [a2 b2]; rewrite -(hr (m + 2%:R^-1 *: (h *: a1))) e2 /=.
case e3: (o _ _) => [a3 b3]; rewrite -(hr (m + 2%:R^-1 *: (h *: a2))) e3 /=.
by case e4: (o _ _) => [a4 b4]; rewrite -(hr (m + h *: a3)) e4 /=.
Qed.

Definition cov_rhs (v : 'M[R]_d) := v *m A^T + A *m v + B *m B^T.

Lemma cd_filters_lem m0 v0 ys fw const ms vs es :
  cd_ekf chol log pi jacfwd jacrev drift (fun=> B) measurement_cond_m_cov m0 v0 dt ys fw
    = Some (ms, vs, es) ->
  (forall k, (k < size ys)%N -> stages_posdef cov_rhs (nth 0 (v0 :: vs) k) dt) ->
  cd_sgp_filter chol log pi drift B measurement_cond_m_cov sg m0 v0 dt ys const
    = Some (ms, vs, es).
Proof.
move=> e hs; apply: (run_filter_along e) => k hk v m.
have ode2 m' v' : (cd_ekf_odes jacfwd drift (fun=> B) m' v').2 = cov_rhs v'.
  by rewrite (cd_ekf_odesE hfwd B hdrift).
have ode m' v' : posdef v' -> cd_sgp_shared chol sg drift B m' v'
                  = cd_ekf_odes jacfwd drift (fun=> B) m' v'.
  by move=> p; rewrite (cd_sgp_sharedE hchol hsg B hdrift) // (cd_ekf_odesE hfwd B hdrift).
have st : stages_posdef cov_rhs v dt by exact: hs.
split; first by rewrite (rk4_along ode2 ode st).
have pr : posdef (rk4_m_cov (cd_ekf_odes jacfwd drift (fun=> B)) m v dt).2.
  by rewrite (rk4_cov _ _ _ ode2); case/stages4: st.
move=> y; move: (rk4_m_cov _ _ _ _) pr => [mp vp] pr.
have pi_ : posdef (innov H vp Xi) by apply: innov_posdef => //; apply: posdef_semi.
rewrite (ekf_updateE _ _ _ hfwd hrev hmeas).
rewrite (sgp_updateE _ _ hchol hsg hmeas) //.
rewrite [LHS]linear_update_scalarE; last exact: posdef11.
by rewrite -(chol11 hlog pi0 _ _ (hchol pi_)).
Qed.

(* The smoothers: Gamma = B B^T, frozen filtering covariance vf. *)
Definition cov_rhs_back (vf v : 'M[R]_d) :=
  let G := A + B *m B^T *m invmx vf in G *m v + v *m G^T - B *m B^T.

Lemma cd_smoothers_lem mfs vfs : (0 < size vfs)%N -> size mfs = size vfs ->
  (forall v, v \in vfs -> posdef v) ->
  (forall k, (k.+1 < size vfs)%N -> stages_posdef (cov_rhs_back (nth 0 vfs k))
     (nth 0 (cd_eks chol jacfwd drift (fun=> B) mfs vfs dt).2 k.+1) (- dt)) ->
  cd_sgp_smoother chol drift B sg mfs vfs dt = cd_eks chol jacfwd drift (fun=> B) mfs vfs dt.
Proof.
move=> v0 es hv hs; symmetry; apply: run_smoother_along => // k hk m ms1.
set v := nth 0 _ k.+1; have st := hs _ hk; rewrite -/v in st.
have pv : posdef (nth 0 vfs k) by apply: hv; rewrite mem_nth // ltnW.
rewrite !rk4_backward; symmetry; apply: (rk4_along (rhs := cov_rhs_back (nth 0 vfs k))) => //.
  move=> m' v'; rewrite /cd_eks_odes /= (cho_solve_upperE hchol) // (hfwd hdrift) /cov_rhs_back.
  have sinv : (invmx vfs`_k)^T = invmx vfs`_k by rewrite trmx_inv; case: pv => ->.
  by have -> : (invmx vfs`_k *m (B *m B^T)^T)^T = B *m B^T *m invmx vfs`_k
    by rewrite trmx_mul trmxK sinv.
by move=> m' v' p; rewrite (cd_sgp_smoother_odesE hchol hfwd hsg B hdrift).
Qed.
End Cd.

Lemma run_filter_inv (R : rcfType) dx dy (I : 'M[R]_dx -> Prop)
    (p : 'cV[R]_dx -> 'M[R]_dx -> 'cV[R]_dx * 'M[R]_dx)
    (u : 'cV[R]_dx -> 'M[R]_dx -> 'cV[R]_dy -> option ('cV[R]_dx * 'M[R]_dx * R)) m0 v0 ys :
  (forall m v y, I v -> exists2 r, u (p m v).1 (p m v).2 y = Some r & I r.1.2) -> I v0 ->
  exists ms vs es, [/\ run_filter p u m0 v0 ys = Some (ms, vs, es), size vs = size ys &
    forall k, (k <= size ys)%N -> I (nth 0 (v0 :: vs) k)].
Proof.
move=> h i0; suff [r [outs [e so hi]]] : exists r outs,
    [/\ oscan (filter_body p u) (m0, v0, 0) ys = Some (r, outs), size outs = size ys &
      forall k, (k <= size ys)%N -> I (nth 0 (v0 :: [seq o.1.2 | o <- outs]) k)].
  by rewrite /run_filter e; do 3 eexists; split; [reflexivity|rewrite size_map|].
elim: ys m0 v0 (0 : R) i0 => [|y ys IH] m v l i0 /=.
  by do 2 eexists; split; [reflexivity| |case].
case: (h m v y i0) => [[[m1 v1] l1]] /=; case: (p m v) => mp vp /= -> /= i1.
have [r [outs [-> so hi]]] := IH m1 v1 (l + l1) i1.
by do 2 eexists; split; [reflexivity|rewrite /= so|case].
Qed.
