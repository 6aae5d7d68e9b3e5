(* C73-C75: the discretisation of linear stochastic differential equations (discretise_lti_sde),
   the simulation of trajectories (simulate_sde) and vmap_list_of_funcs, mfs/utils.py. *)
From mathcomp Require Import all_ssreflect all_algebra.
From mathcomp Require Import ring.
From Verif Require Import Prelude LinAlgSpec LinAlgProofs LdlProofs SmallMx SpectralProofs.
From Verif Require Import SdeModel SdeSpec SdeLti SdeDeriv SdeNil SdeSim.
Set Implicit Arguments.
Unset Strict Implicit.
Unset Printing Implicit Defensive.
Import Order.TTheory GRing.Theory Num.Theory.
Local Open Scope ring_scope.

Section Props.
Variable R : rcfType.
Implicit Types (C : forall n, 'M[R]_n -> Prop) (expm chol : forall n, 'M[R]_n -> 'M[R]_n).

(* two steps s and t compose to one step s + t: the transition matrices multiply and the
   covariance is propagated by x -> F(s) x F(s)^T + Q(s) *)
Theorem C73_lti_chapman_kolmogorov C expm d w (A : 'M[R]_d) (B : 'M[R]_(d, w)) s t :
  expm_group C expm -> lti_class C A B ->
  let Fs := (discretise_lti_sde expm A B s).1 in let Qs := (discretise_lti_sde expm A B s).2 in
  let Ft := (discretise_lti_sde expm A B t).1 in let Qt := (discretise_lti_sde expm A B t).2 in
  discretise_lti_sde expm A B (s + t) = (Fs *m Ft, Fs *m Qt *m Fs^T + Qs).
Proof. by move=> eP cP; rewrite !(ltiE eP cP); congr pair; [exact: (FD eP cP)|exact: (covD eP cP)]. Qed.

(* a step of length zero is the identity without noise *)
Theorem C73_lti_zero C expm d w (A : 'M[R]_d) (B : 'M[R]_(d, w)) :
  expm_group C expm -> lti_class C A B -> discretise_lti_sde expm A B 0 = (1%:M, 0).
Proof. by move=> eP cP; rewrite (ltiE eP cP) (F0 eP cP) (G0 eP cP) mul0mx. Qed.

Theorem C73_lti_cov_symmetric C expm d w (A : 'M[R]_d) (B : 'M[R]_(d, w)) t :
  expm_group C expm -> lti_class C A B -> symmetric (discretise_lti_sde expm A B t).2.
Proof. by move=> eP cP; rewrite (ltiE eP cP); exact: (cov_sym eP cP). Qed.

(* the moment equations of dX = A X dt + B dW: dF/dt = A F and dQ/dt = A Q + Q A^T + B B^T *)
Theorem C73_lti_moment_equations C expm d w (A : 'M[R]_d) (B : 'M[R]_(d, w)) :
  expm_group C expm -> expm_deriv C expm -> lti_class C A B ->
  mx_derivative (fun t => (discretise_lti_sde expm A B t).1)
                (fun t => A *m (discretise_lti_sde expm A B t).1) /\
  mx_derivative (fun t => (discretise_lti_sde expm A B t).2)
                (fun t => A *m (discretise_lti_sde expm A B t).2
                          + (discretise_lti_sde expm A B t).2 *m A^T + B *m B^T).
Proof. by move=> eP dP cP; split; [exact: (lti_F_deriv dP cP)|exact: (lti_lyapunov eP dP cP)]. Qed.

(* nilpotent drifts (integrated Wiener processes and their relatives), where the exponential
   is a finite sum: nothing else is assumed of expm, and the covariance is positive
   semidefinite for every step of nonnegative length *)
Theorem C73_lti_nilpotent expm d w (A : 'M[R]_d) (B : 'M[R]_(d, w)) :
  (forall n (M : 'M[R]_n), mxpow M n = 0 -> expm n M = \sum_(k < n) (k`!)%:R^-1 *: mxpow M k) ->
  mxpow A d = 0 ->
  [/\ forall s t, (discretise_lti_sde expm A B (s + t)).2
        = (discretise_lti_sde expm A B s).1 *m (discretise_lti_sde expm A B t).2
            *m (discretise_lti_sde expm A B s).1^T + (discretise_lti_sde expm A B s).2,
      mx_derivative (fun t => (discretise_lti_sde expm A B t).2)
                (fun t => A *m (discretise_lti_sde expm A B t).2
                          + (discretise_lti_sde expm A B t).2 *m A^T + B *m B^T)
    & forall t, 0 <= t -> possemidef (discretise_lti_sde expm A B t).2].
Proof.
move=> hE hA; have eP := nil_group hE; have cP := nil_lti B hA; split.
- by move=> s t; rewrite (C73_lti_chapman_kolmogorov _ _ eP cP).
- by case: (C73_lti_moment_equations eP (nil_deriv hE) cP).
- by move=> t t0; apply: nil_cov_psd.
Qed.

Section Sim.
Variables (chol : forall n, 'M[R]_n -> 'M[R]_n) (Key : Type) (split : Key -> Key * Key).
Variable normal : Key -> nat -> nat -> forall d, seq (seq 'cV[R]_d).

(* the trajectory has T states, and the state reported at time t is the one reached by the
   recursion x <- m(x) + L(x) eps with step dt / k after (t + 1) k increments, taken in row-major order *)
Theorem C74_simulate_path d (mc : 'cV[R]_d -> R -> 'cV[R]_d * 'M[R]_d) x0 dt T key k (path : nat -> 'cV[R]_d) :
  normal_shape normal -> path 0%N = x0 ->
  (forall i, (i < T * k)%N ->
    path i.+1 = (mc (path i) (dt / k%:R)).1 + chol (mc (path i) (dt / k%:R)).2
                  *m nth 0 (nth [::] (normal (split key).1 T k d) (i %/ k)) (i %% k)) ->
  let traj := simulate_sde chol split normal mc x0 dt T key false k in
  size traj = T /\ forall t, (t < T)%N -> nth 0 traj t = path (t.+1 * k)%N.
Proof.
move=> hn h0 h; split; first exact: sim_size.
apply: (@sim_path _ _ _ _ _ _ _ _ _ _ _ _ _ path) => // t j ht hj.
rewrite h; last first.
  by apply: (@leq_trans (t * k + k)%N); [rewrite ltn_add2l|rewrite -mulSnr leq_mul2r ht orbT].
rewrite divnMDl ?(leq_ltn_trans _ hj) // divn_small // addn0 modnMDl modn_small //.
by rewrite /integration_body; case: (mc _ _).
Qed.

(* diagonal_cov=True changes nothing for diagonal positive definite covariances *)
Theorem C74_simulate_diagonal d (mc : 'cV[R]_d -> R -> 'cV[R]_d * 'M[R]_d) x0 dt T key k :
  chol_spec chol ->
  (forall x, exists2 D : 'rV[R]_d, (forall i, 0 < D 0 i) & (mc x (dt / k%:R)).2 = diag_mx D) ->
  simulate_sde chol split normal mc x0 dt T key true k =
  simulate_sde chol split normal mc x0 dt T key false k.
Proof. exact: sim_diag. Qed.

End Sim.

(* linear models are simulated exactly whatever the number of integration steps: the state at
   (t + 1) dt is F x0 + sum C_i eps_i, the C_i not depending on the noise, with F and sum C_i C_i^T the transition matrix and the covariance
   of one step of length (t + 1) dt *)
Theorem C74_simulate_lti_exact C expm chol d w (A : 'M[R]_d) (B : 'M[R]_(d, w)) dt k t :
  expm_group C expm -> lti_class C A B -> chol_spec chol -> (0 < k)%N ->
  posdef (discretise_lti_sde expm A B (dt / k%:R)).2 ->
  exists2 Cs : nat -> 'M[R]_d,
    \sum_(i < t.+1 * k) Cs i *m (Cs i)^T = (discretise_lti_sde expm A B (t.+1%:R * dt)).2
    & forall (Key : Type) (split : Key -> Key * Key) normal x0 T key,
      normal_shape normal -> (t < T)%N ->
      nth 0 (simulate_sde chol split normal
               (fun x h => let (F, cov) := discretise_lti_sde expm A B h in (F *m x, cov))
               x0 dt T key false k) t
      = (discretise_lti_sde expm A B (t.+1%:R * dt)).1 *m x0
        + \sum_(i < t.+1 * k) Cs i *m
            nth 0 (nth [::] (normal (split key).1 T k d) (i %/ k)) (i %% k).
Proof. by move=> eP cP lP k0 pd; exact: (sim_lti eP cP lP t k0 pd). Qed.

Theorem C75_vmap_list_of_funcs (X Y : Type) (dflt : X -> Y) funcs x :
  vmap_list_of_funcs dflt funcs x = [seq f x | f <- funcs].
Proof. exact: vmapE. Qed.
End Props.

Print Assumptions C73_lti_chapman_kolmogorov.
Print Assumptions C73_lti_zero.
Print Assumptions C73_lti_cov_symmetric.
Print Assumptions C73_lti_moment_equations.
Print Assumptions C73_lti_nilpotent.
Print Assumptions C74_simulate_path.
Print Assumptions C74_simulate_diagonal.
Print Assumptions C74_simulate_lti_exact.
Print Assumptions C75_vmap_list_of_funcs.

Section Witness.
Variable R : rcfType.

Lemma mx2_mul (a b c d a' b' c' d' : R) : mx2 a b c d *m mx2 a' b' c' d'
  = mx2 (a * a' + b * c') (a * b' + b * d') (c * a' + d * c') (c * b' + d * d').
Proof.
apply/matrixP => i j; rewrite mxE !big_ord_recl big_ord0 addr0 !mxE /=.
by case: i => [[|[|i]]] hi //; case: j => [[|[|j]]] hj.
Qed.
Lemma mx2_add (a b c d a' b' c' d' : R) : mx2 a b c d + mx2 a' b' c' d'
  = mx2 (a + a') (b + b') (c + c') (d + d').
Proof.
by apply/matrixP => i j; rewrite mxaddE !mxE; case: (i == 0); case: (j == 0).
Qed.
Lemma mx2_scale x (a b c d : R) : x *: mx2 a b c d = mx2 (x * a) (x * b) (x * c) (x * d).
Proof. by apply/matrixP => i j; rewrite mxscaleE !mxE; case: (i == 0); case: (j == 0). Qed.
Lemma mx2_tr (a b c d : R) : (mx2 a b c d)^T = mx2 a c b d.
Proof. by apply/matrixP => i j; rewrite !mxE; case: (i == 0); case: (j == 0). Qed.
Lemma mx2_opp (a b c d : R) : - mx2 a b c d = mx2 (- a) (- b) (- c) (- d).
Proof. by apply/matrixP => i j; rewrite mxoppE !mxE; case: (i == 0); case: (j == 0). Qed.
Lemma mx2_0 : (0 : 'M[R]_2) = mx2 0 0 0 0.
Proof. by apply/matrixP => i j; rewrite !mxE; case: (i == 0); case: (j == 0). Qed.
Lemma mx2_1 : (1%:M : 'M[R]_2) = mx2 1 0 0 1.
Proof.
apply/matrixP => i j; rewrite !mxE.
by case: i => [[|[|i]]] hi //; case: j => [[|[|j]]] hj.
Qed.

(* the integrated Wiener process: A = [0 1; 0 0], B B^T = [0 0; 0 1] *)
Definition Aiw : 'M[R]_2 := mx2 0 1 0 0.
Definition Biw : 'M[R]_2 := mx2 0 0 0 1.

Example iwp_nil : mxpow Aiw 2 = 0.
Proof. by rewrite /= mulmx1 mx2_mul mx2_0 !(mulr0, mul0r, addr0, mulr1). Qed.

Example expm_nil_ex : expm_group (@nilpotent R) (@expm_nil R) /\ expm_deriv (@nilpotent R) (@expm_nil R)
  /\ lti_class (@nilpotent R) Aiw Biw.
Proof.
split; first exact: expm_nil_group; split; first by move=> n M; exact: expm_nil_deriv.
exact: nil_lti iwp_nil.
Qed.

(* ... whose discretisation is the textbook one *)
Example iwp_discretised t : discretise_lti_sde (@expm_nil R) Aiw Biw t
  = (mx2 1 t 0 1, mx2 (t ^+ 3 / 3%:R) (t ^+ 2 / 2%:R) (t ^+ 2 / 2%:R) t).
Proof.
have hA := iwp_nil; have cP := nil_lti Biw hA.
have hF : Fm (@expm_nil R) Aiw t = mx2 1 t 0 1.
  rewrite /Fm (@expm_nilE _ _ _ _ 2) // !big_ord_recl big_ord0 /= mulmx1 mx2_1 !mx2_scale addr0 mx2_add.
  have -> : (bump 0 0)`!%:R = 1 :> R by [].
  have -> : t ^+ bump 0 0 = t by rewrite /bump /= expr1.
  by rewrite expr0; congr mx2; field.
rewrite (ltiE (@expm_nil_group R) cP) hF; congr pair.
have -> : Gm (@expm_nil R) Aiw Biw t = mx2 (- (t ^+ 3 / 6%:R)) (t ^+ 2 / 2%:R) (- (t ^+ 2 / 2%:R)) t.
  rewrite /Gm /Em (@expm_nilE _ _ _ _ 4) //; last by case: cP.
  have -> (M : 'M[R]_(2 + 2)) : \sum_(k < 4) (t ^+ k / (k`!)%:R) *: mxpow M k =
     1%:M + t *: M + (t ^+ 2 / 2%:R) *: (M *m M) + (t ^+ 3 / 6%:R) *: (M *m (M *m M)).
    rewrite !big_ord_recl big_ord0 /= mulmx1 addr0 !addrA; congr (_ + _ + _ + _).
    - by rewrite expr0 /= divr1 scale1r.
    - by rewrite expr1 /= divr1.
  rewrite /phi !mulmx_block (scalar_mx_block 2 2 1) !scale_block_mx !add_block_mx block_mxKur.
  rewrite /Aiw /Biw !mx2_tr !mx2_opp !mx2_0 !(mx2_mul, mx2_scale, mx2_add).
  by congr mx2; field.
by rewrite mx2_tr mx2_mul; congr mx2; field.
Qed.

(* the hypotheses of the exact simulation hold for the integrated Wiener process *)
Definition normal0 (Key : Type) (key : Key) (T k d : nat) : seq (seq 'cV[R]_d) :=
  nseq T [seq const_mx i%:R | i <- iota 0 k].

Example simulate_ex (dt : R) k : 0 < dt -> (0 < k)%N ->
  [/\ posdef (discretise_lti_sde (@expm_nil R) Aiw Biw (dt / k%:R)).2, chol_spec (@chol_ref R)
    & normal_shape (@normal0 nat)].
Proof.
move=> t0 k0; rewrite iwp_discretised /=; set h := dt / k%:R.
have h0 : 0 < h by rewrite divr_gt0 ?ltr0n.
split; last first.
- move=> key T k' d; split=> [|t ht]; first by rewrite size_nseq.
  by rewrite nth_nseq ht size_map size_iota.
- exact: chol_ref_spec.
apply: mx2_posdef; first by rewrite divr_gt0 ?exprn_gt0 ?ltr0n.
have -> : h ^+ 3 / 3%:R * h - (h ^+ 2 / 2%:R) ^+ 2 = h ^+ 4 / 12%:R by field.
by rewrite divr_gt0 ?exprn_gt0 ?ltr0n.
Qed.

(* ... and those of the diagonal branch for independent Brownian motions *)
Example diagonal_ex d (h : R) : 0 < h -> forall x : 'cV[R]_d,
  exists2 D : 'rV[R]_d, (forall i, 0 < D 0 i) & (x, h%:M : 'M[R]_d).2 = diag_mx D.
Proof.
move=> h0 x; exists (const_mx h); first by move=> i; rewrite mxE.
by rewrite /= diag_const_mx.
Qed.
End Witness.
