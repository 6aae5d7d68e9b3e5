(* Model of the transitions of the notebooks examples/benes_bernoulli.ipynb and examples/2d_bearing_only.ipynb (line numbers of the
   files).  The filters they call are modelled elsewhere; the drawing is not modelled. *)
From mathcomp Require Import all_ssreflect all_algebra.
From Verif Require Import Prelude SmallMx Moments1DModel MomentsNdModel SdeModel.
Set Implicit Arguments.
Unset Strict Implicit.
Unset Printing Implicit Defensive.
Import Order.TTheory GRing.Theory Num.Theory.
Local Open Scope ring_scope.

Section Nb.
Variable R : rcfType.

(* benes_bernoulli.ipynb lines 152-159: state_cond_raw_moments_euler_maruyama *)
Definition nb_euler_raw (drift dispersion : R -> R) (dt : R) (N : nat) (x : R) (n : nat) : R :=
  let cond_mean := x + drift x * dt in
  let cond_var := dispersion x ^+ 2 in
  jget 0 [seq raw_moment_of_normal cond_mean cond_var p | p <- iota 0 (2 * N)] n.

Variable expm : forall n, 'M[R]_n -> 'M[R]_n.
Variable chol : forall n, 'M[R]_n -> 'M[R]_n.

(* 2d_bearing_only.ipynb lines 112-115 *)
Definition nb_A : 'M[R]_2 := mx2 0 1 0 0.
Definition nb_B : 'M[R]_2 := mx2 0 0 0 1.
(* line 118 *)
Definition nb_FQ (dt : R) : 'M[R]_2 * 'M[R]_2 := discretise_lti_sde expm nb_A nb_B dt.
(* lines 119 and 141 *)
Definition nb_step (dt : R) (x rnd : 'cV[R]_2) : 'cV[R]_2 := (nb_FQ dt).1 *m x + chol (nb_FQ dt).2 *m rnd.
(* lines 174-180 *)
Definition nb_cond_central (dt : R) (mis : seq (seq nat)) (x : seq R) (index : nat) (mean : seq R) : R :=
  jget 0 [seq raw_moments_mvn_kan ((nb_FQ dt).1 *m cvec 2 x - cvec 2 mean) (nb_FQ dt).2 k | k <- mis] index.
(* lines 184-187 *)
Definition nb_cond_mean (dt : R) (x : seq R) : seq R := [seq ((nb_FQ dt).1 *m cvec 2 x) i 0 | i <- enum 'I_2].
End Nb.
