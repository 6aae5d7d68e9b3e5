(* The theorems that ask something of exp, log, sin, the complex exponential or the matrix
   exponential, at the real numbers of the standard library and with its functions: nothing is
   left to assume. Property C84 is the discretisation of linear SDEs over the reals. *)
From Coq Require Import Reals Lra.
From mathcomp Require Import all_ssreflect all_algebra complex ring.
From Verif Require Import Prelude LinAlgSpec LinAlgProofs SpectralProofs LdlProofs SmallMx QuadModel QuadSpec QuadProofs QuadMain.
From Verif Require Import FourierModel FourierProofs FourierProps SdeModel SdeSpec SdeLti SdeDeriv SdeSim SdeProps.
From Verif Require Import Moments1DModel Moments1DSpec Filter1DModel FilterAffine FilterAffineProps.
From Verif Require Import SsModel SsProofs SsProps RealField RealWitness RealSeries RealExpm RealLti RealPoisson.
Set Implicit Arguments.
Unset Strict Implicit.
Unset Printing Implicit Defensive.
Import Order.TTheory GRing.Theory Num.Theory.
Local Open Scope ring_scope.
Local Notation K := R_rcfType.
Local Notation rexp := (Rtrigo_def.exp : K -> K).
Local Notation rln := (ln : K -> K).

Section Lti.
Variables (d w : nat) (A : 'M[K]_d) (B : 'M[K]_(d, w)).
Local Notation lti := (discretise_lti_sde real_expm A B).

(* C84: real_expm is the sum of the exponential series *)
Theorem real_expm_series n (M : 'M[K]_n) i j :
  infinite_sum (fun k => (mxpow M k i j / (k`!)%:R)%R) (real_expm M i j).
Proof.
have := expmP M 1 i j; rewrite scale1r; apply: series_ext => k.
by rewrite /term expr1n mulr1.
Qed.

(* C84: F(t) and Q(t) solve dX = A X dt + B dW in mean and covariance, and nothing else does. *)
Theorem lti_real_exact :
  [/\ lti 0 = (1%:M, 0),
      forall s t, lti (s + t) = ((lti s).1 *m (lti t).1, (lti s).1 *m (lti t).2 *m (lti s).1^T + (lti s).2),
      mx_derivative (fun t => (lti t).1) (fun t => A *m (lti t).1) /\
      mx_derivative (fun t => (lti t).2) (fun t => A *m (lti t).2 + (lti t).2 *m A^T + B *m B^T),
      forall m (X : K -> 'M[K]_(d, m)) t, mx_derivative X (fun t => A *m X t) -> X t = (lti t).1 *m X 0
    & forall (P : K -> 'M[K]_d) t, mx_derivative P (fun t => A *m P t + P t *m A^T + B *m B^T) ->
        P t = (lti t).1 *m P 0 *m (lti t).1^T + (lti t).2].
Proof.
have eP := real_expm_group; have dP := real_expm_deriv; have cP := real_class A B; split.
- exact: (C73_lti_zero eP cP).
- by move=> s t; exact: (C73_lti_chapman_kolmogorov s t eP cP).
- exact: (C73_lti_moment_equations eP dP cP).
- by move=> m X t hX; exact: (mean_unique eP dP reals_mono cP t hX).
- by move=> P t hP; exact: (cov_unique eP dP reals_mono cP t hP).
Qed.

(* C84: the covariance is positive semidefinite for every nonnegative step, and positive definite
   for a positive step exactly when every direction is reached by the noise (Kalman's condition),
   so that the Cholesky factor taken of it exists exactly then. *)
Theorem lti_real_covariance :
  (forall t, 0 <= t -> possemidef (lti t).2) /\
  (forall t, 0 < t -> posdef (lti t).2 <->
     forall u : 'cV[K]_d, (forall k, B^T *m (mxpow A^T k *m u) = 0) -> u = 0).
Proof.
split=> t t0; last exact: real_cov_pd.
exact: (gen_cov_psd real_expm_group real_expm_deriv reals_mono (real_class A B) t0).
Qed.

(* C84: simulate_sde with these moments draws from the exact law for every number of substeps. *)
Theorem simulate_lti_real chol dt k t : chol_spec chol -> (0 < k)%N -> 0 < dt ->
  (forall u : 'cV[K]_d, (forall k, B^T *m (mxpow A^T k *m u) = 0) -> u = 0) ->
  exists2 Cs : nat -> 'M[K]_d,
    \sum_(i < t.+1 * k) Cs i *m (Cs i)^T = (lti (t.+1%:R * dt)).2
    & forall (Key : Type) (split : Key -> Key * Key) normal x0 T key,
      normal_shape normal -> (t < T)%N ->
      nth 0 (simulate_sde chol split normal (fun x h => let (F, cov) := lti h in (F *m x, cov))
               x0 dt T key false k) t
      = (lti (t.+1%:R * dt)).1 *m x0
        + \sum_(i < t.+1 * k) Cs i *m
            nth 0 (nth [::] (normal (split key).1 T k d) (i %/ k)) (i %% k).
Proof.
move=> hc k0 t0 hctr; apply: (C74_simulate_lti_exact _ real_expm_group) => //.
by apply/real_cov_pd => //; rewrite divr_gt0 // ltr0n.
Qed.
End Lti.
Print Assumptions real_expm_series.
Print Assumptions lti_real_exact.
Print Assumptions lti_real_covariance.
Print Assumptions simulate_lti_real.

(* a noisy damped oscillator, x'' = - x - x' + noise: driven in the velocity only, and controllable *)
Example controllable_oscillator_ex :
  let A : 'M[K]_2 := \matrix_(i, j) (if (i == 0) && (j == 0) then 0 else if i == 0 then 1 else - 1) in
  let B : 'M[K]_(2, 1) := \matrix_(i, j) (if i == 0 then 0 else 1) in
  forall u : 'cV[K]_2, (forall k, B^T *m (mxpow A^T k *m u) = 0) -> u = 0.
Proof.
move=> A B u h.
have h0 := congr1 (fun M : 'M[K]_1 => M 0 0) (h 0%N).
have h1 := congr1 (fun M : 'M[K]_1 => M 0 0) (h 1%N).
have e1 : u 1 0 = 0.
  move: h0; rewrite /= mul1mx !mxE !big_ord_recl big_ord0 !mxE /= mul0r mul1r add0r addr0.
  by rewrite (_ : lift ord0 ord0 = 1) //; apply/val_inj.
have e0 : u 0 0 = 0.
  move: h1; rewrite /= mulmx1 !mxE !big_ord_recl big_ord0 !mxE /= mul0r mul1r add0r addr0.
  rewrite !big_ord_recl big_ord0 !mxE /= (_ : lift ord0 ord0 = 1) ?e1; last exact/val_inj.
  by rewrite mulr0 !addr0 mul1r.
by apply/colP => i; rewrite mxE; case: (ord2 i) => ->.
Qed.

(* ---- C55 and C72 with the complex exponential of the real numbers ---- *)
Section Cf.
Variable chol : forall n, 'M[K]_n -> 'M[K]_n.
Variable eigh : forall n, 'M[K]_n -> 'M[K]_n * 'rV[K]_n.
Hypothesis cholP : chol_spec chol.
Hypothesis eighP : eigh_spec eigh.
Local Notation cx x := (real_complex K x).
Local Notation cf := (characteristic_fn chol eigh real_cexp).

Theorem characteristic_fn_reals (ms : seq K) mean scale (phi : K -> K[i]) :
  admissible (nth 0 ms) (size ms)./2 ->
  (forall t, cf t ms mean scale = Some (phi t)) ->
  [/\ phi 0 = 1, forall z, `|phi z| <= 1, forall z, phi (- z) = conjc (phi z)
    & forall n (c : 'I_n -> K[i]) (z : 'I_n -> K), 0 <= \sum_j \sum_k c j * conjc (c k) * phi (z j - z k)].
Proof.
move=> ha hp; have hu := morph_unit real_cexp_morph.
have hl z := characteristic_fn_laws cholP eighP hu ha (hp z).
split=> [|z|z|n c z].
- by have [_ _ h] := hl 0; rewrite h.
- by have [h _ _] := hl z.
- by have [_ h _] := hl z; move: h; rewrite hp => -[].
- exact: (characteristic_fn_positive_definite cholP eighP c z real_cexp_morph ha hp).
Qed.

(* the error bound: the quadrature cf of a law with these moments is within 2 |z|^2N m_2N / (2N)! *)
Theorem characteristic_fn_error_reals z (ms as_ zs : seq K) c :
  size as_ = size zs -> all (fun w => 0 <= w) as_ ->
  (forall k, (k < (size ms)./2.*2)%N -> ms`_k = discrete_moment as_ zs k) -> jsum as_ = 1 ->
  admissible (nth 0 ms) (size ms)./2 ->
  cf z ms 0 1 = Some c ->
  `|c - \sum_(p <- zip as_ zs) cx p.1 * real_cexp ('i%C * cx (z * p.2))|
  <= cx (2%:R * z ^+ (size ms)./2.*2 / ((size ms)./2.*2)`!%:R * discrete_moment as_ zs (size ms)./2.*2).
Proof.
move=> h1 h2 hm hs ha; apply: (characteristic_fn_error cholP eighP h1 h2 hm hs ha).
exact: real_cexp_taylor.
Qed.

Theorem characteristic_from_pdf_reals z a (ps xs : seq K) : size ps = size xs ->
  [/\ characteristic_from_pdf real_cexp 0 ps xs = cx (trapz ps xs),
      characteristic_from_pdf real_cexp (- z) ps xs = conjc (characteristic_from_pdf real_cexp z ps xs),
      all (fun p => 0 <= p) ps -> sorted <=%R xs -> `|characteristic_from_pdf real_cexp z ps xs| <= cx (trapz ps xs)
    & characteristic_from_pdf real_cexp z ps [seq x + a | x <- xs]
      = real_cexp ('i%C * cx (z * a)) * characteristic_from_pdf real_cexp z ps xs].
Proof.
move=> hs; have hu := morph_unit real_cexp_morph.
have [h1 h2] := characteristic_from_pdf_laws z hu hs; split=> //.
- exact: characteristic_from_pdf_bound.
- exact: (characteristic_from_pdf_shift z a real_cexp_morph hs).
Qed.
End Cf.
Print Assumptions characteristic_fn_reals.
Print Assumptions characteristic_fn_error_reals.
Print Assumptions characteristic_from_pdf_reals.

(* ---- the test models with exp, ln and sin ---- *)
(* C79: the Poisson observation model of well_poisson is a distribution on the naturals, and both
   its mean and its variance are the emission. *)
Theorem well_poisson_distribution (x p : K) :
  [/\ infinite_sum (fun y => wp_pmf rexp rln y x p) 1%R,
      infinite_sum (fun y => y%:R * wp_pmf rexp rln y x p)%R (wp_emission rexp rln x p)
    & infinite_sum (fun y => (y%:R - wp_emission rexp rln x p) ^+ 2 * wp_pmf rexp rln y x p)%R
        (wp_emission rexp rln x p)].
Proof. by split; [exact: poisson_sum|exact: poisson_mean|exact: poisson_variance]. Qed.

(* C77-C82 with exp, ln and sin *)
Theorem benes_bernoulli_reals :
  [/\ forall x, 0 < bb_logistic rexp x < 1,
      forall x y, x < y -> bb_logistic rexp x < bb_logistic rexp y,
      forall x, bb_pmf rexp 0 x + bb_pmf rexp 1 x = 1,
      forall x, `|bb_drift rexp x| < 1
    & forall (N : nat) chol eigh st (ys : seq bool), chol_spec chol -> eigh_spec eigh ->
      let run ys := moment_filter_rms chol eigh rln (euler_cond_raw (bb_drift rexp) (@ss_dispersion K) (ss_dt K) N)
        (fun (y : bool) x => bb_pmf rexp (Posz y) x) st (gs_rms (ss_init_cond K N)) ys in
      run [seq ~~ y | y <- ys] = omap (fun o => ([seq reflected r | r <- o.1], o.2)) (run ys)].
Proof.
have he := real_exp_spec.
have [h1 h2 _ _] := benes_bernoulli_logistic he; have [_ h3 _ _] := benes_bernoulli_pmf he.
have [_ h4 _] := benes_bernoulli_drift he; split=> // N chol eigh st ys hc hg.
exact: benes_bernoulli_reflection.
Qed.

Theorem parameter_estimation_reals chol eigh : chol_spec chol -> eigh_spec eigh ->
  [/\ forall (N : nat) (p1 p2 : K) ys,
        wp_nell rexp rln chol eigh N p1 (- p2) ys = wp_nell rexp rln chol eigh N p1 p2 ys,
      forall q, 0 < positive_params rexp rln q,
      forall p, 0 < p -> positive_params rexp rln (initial_params rexp rln p) = p
    & forall q, initial_params rexp rln (positive_params rexp rln q) = q].
Proof.
move=> hc he; have [h1 h2 h3 _] := parameter_transforms real_exp_spec real_log_spec; split=> //.
by move=> N p1 p2 ys; apply: parameter_estimation_likelihood_even => //; [exact: real_exp_spec|exact: real_log_spec].
Qed.

Theorem satellite_reals (a b c : K) (x : 'cV[K]_2) :
  [/\ sat_drift sin b c (- x) = - sat_drift sin b c x,
      sat_dispersion sin a b (- x) = - sat_dispersion sin a b x
    & x 1 0 * sat_drift sin b c x 1 0 + ((sin (x 0 0) : K) + c * sin (2%:R * x 0 0)%R) * sat_drift sin b c x 0 0
        = - b * x 1 0 ^+ 2].
Proof. by have [h1 h2 _ h3 _] := @satellite_model K sin a b c x real_sin_odd. Qed.
Print Assumptions well_poisson_distribution.
Print Assumptions benes_bernoulli_reals.
Print Assumptions parameter_estimation_reals.
Print Assumptions satellite_reals.

(* the specifications left in these theorems have witnesses over the reals *)
Example reals_oracles_ex : chol_spec (@chol_ref K) /\ eigh_spec (@eigh_ref K).
Proof. by split; [exact: chol_ref_spec|exact: eigh_ref_spec]. Qed.
