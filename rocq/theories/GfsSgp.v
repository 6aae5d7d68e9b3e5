(* Extended and sigma-point filters and smoothers on affine models. *)
From mathcomp Require Import all_ssreflect all_algebra ring.
From Verif Require Import Prelude LinAlgSpec LinAlgProofs SmallMx LdlProofs GfsModel GfsSpec GfsProofs GfsKf GfsVec GfsRts GfsMap.
Set Implicit Arguments.
Unset Strict Implicit.
Unset Printing Implicit Defensive.
Import Order.TTheory GRing.Theory Num.Theory.
Local Open Scope ring_scope.

Lemma scan_ext_in (S O : Type) (X : eqType) (b b' : S -> X -> S * O) s (xs : seq X) :
  (forall s x, x \in xs -> b s x = b' s x) -> scan b s xs = scan b' s xs.
Proof.
elim: xs s => //= x xs IH s h; rewrite h ?mem_head //.
case: (b' s x) => s1 o; rewrite IH // => s2 z hz; apply: h.
by rewrite inE hz orbT.
Qed.

Lemma zip_snd_mem (S T : eqType) (s : seq S) (t : seq T) p : p \in zip s t -> p.2 \in t.
Proof.
elim: s t => [|x s IH] [|y t] //=; rewrite !inE => /orP[/eqP->|/IH ->]; rewrite ?eqxx ?orbT //.
Qed.

Lemma run_smoother_ext (R : rcfType) d (I : 'M[R]_d -> Prop)
    (b b' : 'cV[R]_d -> 'M[R]_d -> 'cV[R]_d -> 'M[R]_d -> 'cV[R]_d * 'M[R]_d) mfs vfs :
  (forall m v ms vs, I v -> b m v ms vs = b' m v ms vs) ->
  (forall v, v \in vfs -> I v) ->
  run_smoother b mfs vfs = run_smoother b' mfs vfs.
Proof.
move=> h hI; rewrite /run_smoother /scan_reverse.
rewrite (scan_ext_in (b' := fun carry elem : 'cV[R]_d * 'M[R]_d =>
   (b' elem.1 elem.2 carry.1 carry.2, b' elem.1 elem.2 carry.1 carry.2))) //.
move=> s x; rewrite mem_rev => hx; rewrite h //; apply: hI.
by have := zip_snd_mem hx => /mem_take.
Qed.

Section Ekf.
Variable R : rcfType.
Variable chol : forall n, 'M[R]_n -> 'M[R]_n.
Variables (log : R -> R) (pi : R).
Variables jacfwd jacrev : forall n m, ('cV[R]_n -> 'cV[R]_m) -> 'cV[R]_n -> 'M[R]_(m, n).
Hypothesis hfwd : jac_affine_spec jacfwd.
Hypothesis hrev : jac_affine_spec jacrev.
Variables (dx dy : nat) (F : 'M[R]_dx) (b : 'cV[R]_dx) (Sigma : 'M[R]_dx).
Variables (H : 'M[R]_(dy, dx)) (c : 'cV[R]_dy) (Xi : 'M[R]_dy) (dt : R).
Variable state_cond_m_cov : 'cV[R]_dx -> R -> 'cV[R]_dx * 'M[R]_dx.
Variable measurement_cond_m_cov : 'cV[R]_dx -> 'cV[R]_dy * 'M[R]_dy.
Hypothesis hstate : forall x, state_cond_m_cov x dt = (F *m x + b, Sigma).
Hypothesis hmeas : forall x, measurement_cond_m_cov x = (H *m x + c, Xi).

Lemma ekf_predictE m v :
  ekf_predict jacfwd state_cond_m_cov dt m v = (F *m m + b, F *m v *m F^T + Sigma).
Proof.
rewrite /ekf_predict hstate (hfwd (A := F) (b := b)) // => x; by rewrite hstate.
Qed.

Lemma ekf_updateE m v y fw :
  ekf_update chol log pi jacfwd jacrev measurement_cond_m_cov m v y fw
  = linear_update chol log pi m v H (H *m m + c) Xi y.
Proof.
rewrite /ekf_update hmeas; case: fw.
  by rewrite (hfwd (A := H) (b := c)) // => x; rewrite hmeas.
by rewrite (hrev (A := H) (b := c)) // => x; rewrite hmeas.
Qed.

Lemma ekf_runE m0 v0 ys fw :
  ekf chol log pi jacfwd jacrev state_cond_m_cov measurement_cond_m_cov m0 v0 dt ys fw
  = run_filter (fun m v => (F *m m + b, F *m v *m F^T + Sigma))
      (fun mp vp y => linear_update chol log pi mp vp H (H *m mp + c) Xi y) m0 v0 ys.
Proof.
apply: (@run_filter_ext _ _ _ (fun _ => True)) => //.
  by move=> m v _; rewrite ekf_predictE.
by move=> m v y _ /=; rewrite ekf_updateE.
Qed.

Lemma eks_bodyE m v ms vs :
  eks_body chol jacfwd state_cond_m_cov dt m v ms vs
  = gaussian_smoother_shared chol (F *m v) m v (F *m m + b) (F *m v *m F^T + Sigma) ms vs.
Proof.
rewrite /eks_body hstate (hfwd (A := F) (b := b)) // => x; by rewrite hstate.
Qed.

Lemma eks_runE mfs vfs : b = 0 ->
  eks chol jacfwd state_cond_m_cov mfs vfs dt = rts chol F Sigma mfs vfs.
Proof.
move=> b0; apply: (@run_smoother_ext _ _ (fun _ => True)) => // m v ms vs _.
by rewrite eks_bodyE b0 addr0.
Qed.
End Ekf.

Section EkfExact.
Variable R : rcfType.
Variable chol : forall n, 'M[R]_n -> 'M[R]_n.
Variables (log : R -> R) (pi : R).
Variables (dx : nat) (F : 'M[R]_dx) (b : 'cV[R]_dx) (Sigma : 'M[R]_dx).
Variables (H : 'M[R]_(1, dx)) (c : 'cV[R]_1) (Xi : 'M[R]_1).
Hypothesis pXi : posdef Xi.
Hypothesis hp : forall v, posdef v -> posdef (F *m v *m F^T + Sigma).

Definition aff_upd (mp : 'cV[R]_dx) (vp : 'M[R]_dx) (y : 'cV[R]_1) :=
  (mp + gain H vp Xi *m (y - (H *m mp + c)), postcov H vp Xi,
   - log_gauss log pi y (H *m mp + c) (innov H vp Xi)).

Lemma affine_exact m0 v0 ys : posdef v0 ->
  exists outs,
    run_filter (fun m v => (F *m m + b, F *m v *m F^T + Sigma))
      (fun mp vp y => linear_update chol log pi mp vp H (H *m mp + c) Xi y) m0 v0 ys
    = Some (outputs outs) /\
    chain_of (exact_step log pi F b Sigma H c Xi) (m0, v0, 0) ys outs.
Proof.
move=> p0; pose pr := fun (m : 'cV[R]_dx) (v : 'M[R]_dx) => (F *m m + b, F *m v *m F^T + Sigma).
exists (traj (fstep pr aff_upd) (m0, v0, 0) ys); split.
  apply: (@run_filterE _ _ _ (@posdef R dx)) => // m v y pv.
  have pp := hp pv; have pS := innov_posdef H pXi (posdef_semi pp).
  split; first by rewrite /= linear_update_scalarE //; apply: posdef11.
  exact: pc_posdef.
apply: (@chain_traj _ _ _ _ (fun s => posdef s.1.2)) => // -[[m v] e] y /= pv.
have pp := hp pv; split; last exact: pc_posdef.
by split=> //; apply: textbook_bayes.
Qed.
End EkfExact.

Section Sgp.
Variable R : rcfType.
Variables (d : nat) (sg : sigma_points R d).
Hypothesis hsg : sg_rule (sg_w sg) (sg_xi sg).
Local Notation xi := (sg_xi sg).
Local Notation E := (sg_expectation sg).

Lemma sg_expectationE a b (f : 'cV[R]_d -> 'M[R]_(a, b)) :
  E [seq f x | x <- xi] = \sum_(p <- zip (sg_w sg) xi) p.1 *: f p.2.
Proof.
rewrite /sg_expectation; elim: (sg_w sg) xi => [|w ws IH] [|x xs] //=; rewrite ?big_nil //.
by rewrite big_cons IH.
Qed.

Lemma E_const a b (A : 'M[R]_(a, b)) : E [seq A | x <- xi] = A.
Proof. by case: hsg => _ h _ _; rewrite sg_expectationE -scaler_suml h scale1r. Qed.

Lemma E_add a b (f g : 'cV[R]_d -> 'M[R]_(a, b)) :
  E [seq f x + g x | x <- xi] = E [seq f x | x <- xi] + E [seq g x | x <- xi].
Proof. by rewrite !sg_expectationE -big_split /=; apply: eq_bigr => p _; rewrite scalerDr. Qed.

Lemma E_lin a (A : 'M[R]_(a, d)) : E [seq A *m x | x <- xi] = 0.
Proof.
case: hsg => _ _ h _; rewrite sg_expectationE.
transitivity (A *m \sum_(p <- zip (sg_w sg) xi) p.1 *: p.2); last by rewrite h mulmx0.
by rewrite mulmx_sumr; apply: eq_bigr => p _; rewrite scalemxAr.
Qed.

Lemma E_quad a b (A : 'M[R]_(a, d)) (B : 'M[R]_(b, d)) :
  E [seq (A *m x) *m (B *m x)^T | x <- xi] = A *m B^T.
Proof.
case: hsg => _ _ _ h; rewrite sg_expectationE.
transitivity (A *m (\sum_(p <- zip (sg_w sg) xi) p.1 *: (p.2 *m p.2^T)) *m B^T); last by rewrite h mulmx1.
rewrite mulmx_sumr mulmx_suml; apply: eq_bigr => p _.
by rewrite -scalemxAr -scalemxAl trmx_mul !mulmxA.
Qed.

Lemma E_aff a (A : 'M[R]_(a, d)) (c : 'cV[R]_a) : E [seq c + A *m x | x <- xi] = c.
Proof. by rewrite E_add E_const E_lin addr0. Qed.

Lemma E_outer a b (A : 'M[R]_(a, d)) (B : 'M[R]_(b, d)) (c : 'cV[R]_a) (e : 'cV[R]_b) :
  E [seq (c + A *m x) *m (e + B *m x)^T | x <- xi] = c *m e^T + A *m B^T.
Proof.
have -> : [seq (c + A *m x) *m (e + B *m x)^T | x <- xi]
        = [seq (c *m e^T + c *m (B *m x)^T) + ((A *m x) *m e^T + (A *m x) *m (B *m x)^T) | x <- xi].
  by apply: eq_map => x; rewrite linearD /= mulmxDl !mulmxDr.
rewrite (E_add (fun x => c *m e^T + c *m (B *m x)^T)).
rewrite (E_add (fun x => c *m e^T)) (E_add (fun x => (A *m x) *m e^T)) E_const E_quad.
have -> : E [seq c *m (B *m x)^T | x <- xi] = 0.
  rewrite sg_expectationE.
  transitivity (c *m (\sum_(p <- zip (sg_w sg) xi) p.1 *: p.2)^T *m B^T).
    rewrite linear_sum /= mulmx_sumr mulmx_suml; apply: eq_bigr => p _.
    by rewrite linearZ /= -scalemxAr -scalemxAl trmx_mul mulmxA.
  by case: hsg => _ _ -> _; rewrite trmx0 mulmx0 mul0mx.
have -> : E [seq (A *m x) *m e^T | x <- xi] = 0.
  rewrite sg_expectationE.
  transitivity (A *m (\sum_(p <- zip (sg_w sg) xi) p.1 *: p.2) *m e^T).
    rewrite mulmx_sumr mulmx_suml; apply: eq_bigr => p _.
    by rewrite -scalemxAr -scalemxAl.
  by case: hsg => _ _ -> _; rewrite mulmx0 mul0mx.
by rewrite addr0 add0r.
Qed.

Lemma xi_neq0 : xi != [::].
Proof.
case: hsg => _ h _ _; apply/eqP => e; move: h; rewrite e.
by case: (sg_w sg) => [|? ?]; rewrite /= big_nil => /eqP; rewrite eq_sym oner_eq0.
Qed.

Lemma outer_map a b (f : 'cV[R]_d -> 'cV[R]_a) (g : 'cV[R]_d -> 'cV[R]_b) (s : seq 'cV[R]_d) :
  vectorised_outer [seq f x | x <- s] [seq g x | x <- s] = [seq f x *m (g x)^T | x <- s].
Proof. by rewrite /vectorised_outer zip_map -map_comp. Qed.
End Sgp.
