(* Model of dardel/prey_predator/cramer_rao.py, lines 23-54: how the simulated runs are arranged, the initial information and
   the bounds.  The derivative operators are those of PcrlbModel.v; the log densities are arguments.  The script's m_and_cov
   ignores its second argument and uses dt, with which it is called.  The loading of the keys and the saving are not modelled. *)
From mathcomp Require Import all_ssreflect all_algebra.
From Verif Require Import Prelude SsModel PcrlbModel.
Set Implicit Arguments.
Unset Strict Implicit.
Unset Printing Implicit Defensive.
Import GRing.Theory.
Local Open Scope ring_scope.

(* jnp.transpose(a, [1, 0, ...]) of an array of shape (runs, n, ...) *)
Definition transpose_runs (A : Type) (a0 : A) (n : nat) (runs : seq (seq A)) : seq (seq A) :=
  [seq [seq nth a0 run k | run <- runs] | k <- iota 0 n].

(* line 39: jnp.concatenate([x0s[:, None, :], xss], axis=1) *)
Definition with_initial (A : Type) (x0s : seq A) (xss : seq (seq A)) : seq (seq A) :=
  [seq p.1 :: p.2 | p <- zip x0s xss].

Section Cr.
Variable R : rcfType.
Variable hessian0 : forall p q, ('cV[R]_p -> 'cV[R]_q -> R) -> 'cV[R]_p -> 'cV[R]_q -> 'M[R]_p.
Variable hessian1 : forall p q, ('cV[R]_p -> 'cV[R]_q -> R) -> 'cV[R]_p -> 'cV[R]_q -> 'M[R]_q.
Variable jacobian10 : forall p q, ('cV[R]_p -> 'cV[R]_q -> R) -> 'cV[R]_p -> 'cV[R]_q -> 'M[R]_(q, p).
Variables (dx dy : nat).
Variable init_logpdf : 'cV[R]_dx -> R.
Variable logpdf_transition : 'cV[R]_dx -> 'cV[R]_dx -> R.
Variable logpdf_likelihood : 'cV[R]_dy -> 'cV[R]_dx -> R.

(* lines 45-50; jax.hessian of a function of one argument is hessian0 with an empty second argument *)
Definition init_fisher (x : 'cV[R]_dx) : 'M[R]_dx :=
  @hessian0 dx 0 (fun u _ => init_logpdf u) x 0.
Definition cr_j0 (x0s : seq 'cV[R]_dx) : 'M[R]_dx := - mx_mean [seq init_fisher x | x <- x0s].

(* lines 38-41 and 51: x0s (runs), xss (runs, T), yss (runs, T) *)
Definition cr_js (T : nat) (x0s : seq 'cV[R]_dx) (xss : seq (seq 'cV[R]_dx)) (yss : seq (seq 'cV[R]_dy)) : seq 'M[R]_dx :=
  posterior_cramer_rao hessian0 hessian1 jacobian10 logpdf_transition logpdf_likelihood
    (transpose_runs 0 T.+1 (with_initial x0s xss)) (transpose_runs 0 T yss) (cr_j0 x0s).
(* line 52 *)
Definition crlbs (T : nat) x0s xss yss : seq 'M[R]_dx := [seq invmx j | j <- cr_js T x0s xss yss].
End Cr.

(* lines 33-34: bernoulli.logpmf is xlogy(y, p) + xlog1py(1 - y, -p) for y in {0, 1}; log1p(-p) is log(1 - p) *)
Definition cr_loglik (R : rcfType) (exp log : R -> R) (y : int) (x : 'cV[R]_2) : R :=
  let p := pp_emission exp (x 0 0) in y%:~R * log p + (1 - y%:~R) * log (1 - p).
