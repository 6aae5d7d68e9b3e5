(* Model of the test models of mfs/one_dim/ss_models.py and mfs/multi_dims/ss_models.py, and of the
   objective function of dardel/parameter_estimation/mf.py. *)
From mathcomp Require Import all_ssreflect all_algebra.
From Verif Require Import Prelude QuadModel Moments1DModel Filter1DModel MomentsNdModel.
Set Implicit Arguments.
Unset Strict Implicit.
Unset Printing Implicit Defensive.
Import Order.TTheory GRing.Theory Num.Theory.
Local Open Scope ring_scope.

Section Ss.
Variable R : rcfType.
(* jnp.exp, jnp.log, jnp.sin *)
Variables (exp log sin : R -> R).

(* jnp.linspace(start, stop, num) for num >= 2 *)
Definition linspace (start stop : R) (num : nat) : seq R :=
  [seq start + i%:R * ((stop - start) / num.-1%:R) | i <- iota 0 num].

(* jnp.tanh *)
Definition tanh (x : R) : R := (exp x - exp (- x)) / (exp x + exp (- x)).

(* jax.scipy.stats.bernoulli.pmf(k, p) for an integer k *)
Definition bernoulli_pmf (k : int) (p : R) : R :=
  if k == 0 then 1 - p else if k == 1 then p else 0.

(* jax.scipy.stats.poisson.pmf(k, mu), exp(k log(mu) - mu - gammaln(k + 1)), for an integer k >= 0 *)
Definition poisson_pmf (k : nat) (mu : R) : R := mu ^+ k * exp (- mu) / (k`!)%:R.

(* ---- benes_bernoulli, one_dim/ss_models.py lines 25-56; well_poisson lines 59-93 has the same dt,
   dispersion and init_cond ---- *)
(* lines 28-30 and 62-64 *)
Definition ss_dt : R := 1 / 100%:R.
Definition bb_T : nat := 100.
Definition wp_T : nat := 1000.
Definition bb_ts : seq R := linspace ss_dt (ss_dt * bb_T%:R) bb_T.
Definition wp_ts : seq R := linspace ss_dt (ss_dt * wp_T%:R) wp_T.

(* lines 32-35 and 66-69 *)
Definition ss_init_cond (N : nat) : gaussian_sum1d R :=
  gaussian_sum1d_new [:: - (1 / 2%:R); 1 / 2%:R] [:: 1 / 20%:R; 1 / 20%:R] [:: 1 / 2%:R; 1 / 2%:R] N.

(* lines 37-47 *)
Definition bb_drift (x : R) : R := tanh x.
Definition ss_dispersion (_ : R) : R := 1.
Definition bb_logistic (x : R) : R := 1 / (1 + exp (- x ^+ 3 / 5%:R)).
Definition bb_pmf (y : int) (x : R) : R := bernoulli_pmf y (bb_logistic x).

(* ---- well_poisson, lines 71-84 ---- *)
Definition wp_drift (x p : R) : R := x * (1 - p * x ^+ 2).
Definition wp_emission (x p : R) : R := log (1 + exp (p * x)).
Definition wp_pmf (y : nat) (x p : R) : R := poisson_pmf y (wp_emission x p).

(* ---- dardel/parameter_estimation/mf.py, lines 38-54, 70 and 73: the objective function with the
   Euler moments, and the two parameter transforms ---- *)
Definition positive_params (q : R) : R := log (exp q + 1).
Definition initial_params (p : R) : R := log (exp p - 1).
Definition wp_nell (chol : forall n, 'M[R]_n -> 'M[R]_n) (eigh : forall n, 'M[R]_n -> 'M[R]_n * 'rV[R]_n)
    (N : nat) (p1 p2 : R) (ys : seq nat) : option R :=
  let drift x := wp_drift x p1 in
  let pmf y x := wp_pmf y x p2 in
  omap snd (moment_filter_cms chol eigh log (euler_cond_central drift ss_dispersion ss_dt N)
    (euler_cond_mean drift ss_dispersion ss_dt) pmf false
    (gs_cms (ss_init_cond N)) (gs_mean (ss_init_cond N)) ys).

(* the objective at the unconstrained parameters, line 39 *)
Definition wp_objective chol eigh (N : nat) (q1 q2 : R) (ys : seq nat) : option R :=
  wp_nell chol eigh N (positive_params q1) (positive_params q2) ys.

(* ---- satellite_orbital_stability, multi_dims/ss_models.py lines 28-37 ---- *)
Definition sat_drift (b c : R) (x : 'cV[R]_2) : 'cV[R]_2 :=
  \col_i (if i == 0 then x 1 0 else - b * x 1 0 - sin (x 0 0) - c * sin (2%:R * x 0 0)).
Definition sat_dispersion (a b : R) (x : 'cV[R]_2) : 'M[R]_2 :=
  \matrix_(i, j) (if (i == 1) && (j == 1) then - a * b * x 1 0 - b * sin (x 0 0) else 0).

(* ---- prey_predator, lines 40-95 ---- *)
(* lines 41-45 *)
Definition pp_dt : R := 1 / 1000%:R.
Definition pp_T : nat := 2000.
Definition pp_ts : seq R := linspace pp_dt (pp_dt * pp_T%:R) pp_T.
Definition pp_sigma : R := 1 / 10%:R.

(* lines 47-55 *)
Definition pp_gs (multi_indices : seq (seq nat)) : gaussian_sum_nd R 2 :=
  gaussian_sum_nd_new [:: const_mx 1; const_mx 1] [:: (1 / 1000%:R)%:M; (2%:R / 1000%:R)%:M]
    [:: 1 / 2%:R; 1 / 2%:R] multi_indices.

(* lines 57-61 with alp, beta, delta, gamma left as arguments; x[::-1] swaps the two entries *)
Section PreyPredator.
Variables (alp beta delta gamma sigma : R).
Definition pp_drift_of (x : 'cV[R]_2) : 'cV[R]_2 :=
  \col_i (x i 0 * (x (rev_ord i) 0 * (if i == 0 then - beta else delta) + (if i == 0 then alp else - gamma))).
Definition pp_dispersion_of (x : 'cV[R]_2) : 'M[R]_2 := diag_mx (sigma *: x^T).

(* lines 76-81; ddw is the increment sqrt(ddt) * normal *)
Definition milstein_of (ddt : R) (x ddw : 'cV[R]_2) : 'cV[R]_2 :=
  \col_i (x i 0 + pp_drift_of x i 0 * ddt + sigma * x i 0 * ddw i 0
          + 1 / 2%:R * sigma ^+ 2 * x i 0 * (ddw i 0 ^+ 2 - ddt)).

(* lines 83-91: every state of the path, the increments given as T lists *)
Definition pp_path_of (ddt : R) (x0 : 'cV[R]_2) (ddws : seq (seq 'cV[R]_2)) : seq 'cV[R]_2 :=
  (scan (fun x dws => let x := foldl (milstein_of ddt) x dws in (x, x)) x0 ddws).2.
End PreyPredator.

(* the parameters of line 45 and the step of line 73 *)
Definition pp_drift := pp_drift_of 4%:R 4%:R 4%:R 4%:R.
Definition pp_dispersion := pp_dispersion_of pp_sigma.
Definition pp_ddt (integration_steps : nat) : R := pp_dt / integration_steps%:R.
Definition pp_path (integration_steps : nat) :=
  pp_path_of 4%:R 4%:R 4%:R 4%:R pp_sigma (pp_ddt integration_steps).

(* lines 63-67 *)
Definition pp_emission (x : R) : R := 1 / (1 + exp (- x ^+ 3 + 1)).
Definition pp_pmf (y : int) (x : 'cV[R]_2) : R := bernoulli_pmf y (pp_emission (x 0 0)).
End Ss.
