(* Model of the experiment scripts of dardel/: benes_bernoulli (pf.py, ghf.py, brute_force.py,
   post_processing_brute_force.py, compute_errs.py), parameter_estimation/ghf_ekf.py and
   prey_predator (mf.py, ghf_ekf.py).  The filters they call are modelled elsewhere; here are the
   functions and formulas of the scripts themselves. *)
From mathcomp Require Import all_ssreflect all_algebra.
From mathcomp Require Import complex.
From Verif Require Import Prelude QuadModel Moments1DModel SsModel GfsModel SigmaModel.
Set Implicit Arguments.
Unset Strict Implicit.
Unset Printing Implicit Defensive.
Import Order.TTheory GRing.Theory Num.Theory.
Local Open Scope ring_scope.

Section Numpy.
Variable R : rcfType.
(* np.max and np.min of a nonempty array *)
Definition npmax (s : seq R) : R := foldl Num.max (head 0 s) (behead s).
Definition npmin (s : seq R) : R := foldl Num.min (head 0 s) (behead s).
(* np.mean; T is R or R[i] *)
Definition npmean (T : fieldType) (s : seq T) : T := jsum s / (size s)%:R.
(* np.abs of a complex number *)
Definition cabs (z : R[i]) : R := Num.sqrt (complex.Re z ^+ 2 + complex.Im z ^+ 2).
End Numpy.

(* ---- benes_bernoulli/compute_errs.py ---- *)
Section Errs.
Variable R : rcfType.
Variable cexp : R[i] -> R[i].   (* np.exp on complex numbers *)
Local Notation cx x := (real_complex R x).

(* line 36 *)
Definition cf_grid (b : R) (m : nat) : seq R := linspace (- b) b m.
(* lines 54-55: one entry of ghf_filtering_cfs *)
Definition ghf_cf (z m v : R) : R[i] :=
  cexp ('i%C * cx z * cx m - cx (1 / 2%:R) * cx z ^+ 2 * cx v).
(* lines 94-101 *)
Definition abs_errs (a b : seq R) : seq R := [seq `|t.1 - t.2| | t <- zip a b].
(* lines 103-113: the three distances of one time step of one run *)
Definition cf_diff (a b : seq R[i]) : seq R := [seq cabs (t.1 - t.2) | t <- zip a b].
Definition cf_l1 (zs : seq R) (a b : seq R[i]) : R := trapz (cf_diff a b) zs.
Definition cf_l2 (zs : seq R) (a b : seq R[i]) : R := Num.sqrt (trapz [seq e ^+ 2 | e <- cf_diff a b] zs).
Definition cf_sup (a b : seq R[i]) : R := npmax (cf_diff a b).

(* ---- benes_bernoulli/pf.py, lines 65-71: the statistics of one time step ---- *)
Definition pf_mean (samples : seq R) : R := npmean samples.
Definition pf_cf (samples : seq R) (z : R) : R[i] :=
  npmean [seq cexp ('i%C * cx z * cx x) | x <- samples].
(* lines 37-39: the proposal; tme_mean_and_cov is tme.mean_and_cov at dt, squeezed *)
Definition bb_proposal (K : Type) (normal : K -> nat -> seq R) (tme_mean_and_cov : R -> R * R)
    (xs : seq R) (key : K) : seq R :=
  [seq (tme_mean_and_cov t.1).1 + Num.sqrt (tme_mean_and_cov t.1).2 * t.2
  | t <- zip xs (normal key (size xs))].

(* ---- benes_bernoulli/brute_force.py, lines 73-75 ---- *)
Definition spatial_lb (rule : R) (means : seq R) (cmss : seq (seq R)) : R :=
  npmin [seq t.1 - rule * Num.sqrt (jget 0 t.2 2) | t <- zip means cmss].
Definition spatial_ub (rule : R) (means : seq R) (cmss : seq (seq R)) : R :=
  npmax [seq t.1 + rule * Num.sqrt (jget 0 t.2 2) | t <- zip means cmss].
Definition spatial_grids (rule : R) (ngrids : nat) (means : seq R) (cmss : seq (seq R)) : seq R :=
  linspace (spatial_lb rule means cmss) (spatial_ub rule means cmss) ngrids.

(* ---- benes_bernoulli/post_processing_brute_force.py, line 49 ---- *)
Definition true_mean (grids ps : seq R) : R := trapz [seq t.1 * t.2 | t <- zip grids ps] grids.
End Errs.

(* ---- the measurement models of the Gaussian filters ---- *)
Section Gauss.
Variable R : rcfType.
Variables (exp log : R -> R) (pi : R).
Variable chol : forall n, 'M[R]_n -> 'M[R]_n.
Variables jacfwd jacrev : forall n m, ('cV[R]_n -> 'cV[R]_m) -> 'cV[R]_n -> 'M[R]_(m, n).

(* jnp.atleast_1d and jnp.atleast_2d of a scalar *)
Definition vec1 (x : R) : 'cV[R]_1 := x%:M.
Definition mat1 (x : R) : 'M[R]_1 := x%:M.

(* benes_bernoulli/ghf.py, lines 35-37; x has shape (1,) *)
Definition bb_meas (x : 'cV[R]_1) : 'cV[R]_1 * 'M[R]_1 :=
  let p := bb_logistic exp (x 0 0) in (vec1 p, mat1 (p * (1 - p))).
(* prey_predator/ghf_ekf.py, lines 43-45 *)
Definition pp_meas (x : 'cV[R]_2) : 'cV[R]_1 * 'M[R]_1 :=
  let p := pp_emission exp (x 0 0) in (vec1 p, mat1 (p * (1 - p))).
(* prey_predator/ghf_ekf.py, lines 35-36, and pf.py, lines 36-37 *)
Definition pp_euler (x : 'cV[R]_2) (dt : R) : 'cV[R]_2 * 'M[R]_2 :=
  (x + dt *: pp_drift x, dt *: (pp_dispersion x *m (pp_dispersion x)^T)).
(* benes_bernoulli/ghf.py, lines 44-48; state_cond_m_cov is tme.mean_and_cov *)
Definition bb_ghf (sgps : sigma_points R 1) state_cond_m_cov (ys : seq 'cV[R]_1) :=
  let init := ss_init_cond R 2 in
  sgp_filter chol log pi state_cond_m_cov bb_meas sgps (vec1 (gs_mean init)) (mat1 (gs_variance init))
    (ss_dt R) ys false.

(* ---- parameter_estimation/ghf_ekf.py ---- *)
(* lines 46-48 *)
Definition wp_meas (p2 : R) (x : 'cV[R]_1) : 'cV[R]_1 * 'M[R]_1 :=
  let lam := wp_emission exp log (x 0 0) p2 in (vec1 lam, mat1 lam).
(* lines 50-52: args.euler; the covariance uses the global dt *)
Definition wp_euler (p1 : R) (x : 'cV[R]_1) (dt : R) : 'cV[R]_1 * 'M[R]_1 :=
  (vec1 (x 0 0 + wp_drift (x 0 0) p1 * dt), mat1 (ss_dispersion (x 0 0) ^+ 2 * ss_dt R)).

Inductive gf_method := Ghf | Ekf.
(* lines 39-65 with args.euler; None stands for an exception inside the filters; nells[-1] *)
Definition gf_objective (sgps : sigma_points R 1) (method : gf_method) (q1 q2 : R) (ys : seq 'cV[R]_1)
  : option R :=
  let p1 := positive_params exp log q1 in
  let p2 := positive_params exp log q2 in
  let init := ss_init_cond R 2 in
  let m0 := vec1 (gs_mean init) in let v0 := mat1 (gs_variance init) in
  omap (fun r : seq 'cV[R]_1 * seq 'M[R]_1 * seq R => last 0 r.2)
    (match method with
     | Ghf => sgp_filter chol log pi (wp_euler p1) (wp_meas p2) sgps m0 v0 (ss_dt R) ys false
     | Ekf => ekf chol log pi jacfwd jacrev (wp_euler p1) (wp_meas p2) m0 v0 (ss_dt R) ys false
     end).

(* lines 90-107: the two optimisation runs and the files they are saved in; minimise is
   jaxopt.ScipyMinimize(fun=...).run(init_params, ys) *)
Definition gf_estimate (sgps : sigma_points R 1)
    (minimise : (R -> R -> seq 'cV[R]_1 -> option R) -> R * R -> seq 'cV[R]_1 -> R * R)
    (p1_init p2_init : R) (ys : seq 'cV[R]_1) : (R * R) * (R * R) :=
  let init_params := (initial_params exp log p1_init, initial_params exp log p2_init) in
  let run obj :=
    let r := minimise (gf_objective sgps obj) init_params ys in
    (positive_params exp log r.1, positive_params exp log r.2) in
  let gh_file := run Ekf in     (* line 92: fun=obj_func_ekf, file gh_... *)
  let ekf_file := run Ekf in    (* line 101: fun=obj_func_ekf, file ekf... *)
  (gh_file, ekf_file).
End Gauss.

(* ---- prey_predator/mf.py, lines 84-86: the means in the mode 'raw' ---- *)
Definition pp_raw_means (R : rcfType) (rms : seq R) : 'cV[R]_2 :=
  \col_i (if i == 0 then jget 0 rms 2 else jget 0 rms 1).
