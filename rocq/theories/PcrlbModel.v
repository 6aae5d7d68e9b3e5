(* Model of posterior_cramer_rao, mfs/utils.py lines 431-492. *)
From mathcomp Require Import all_ssreflect all_algebra.
From Verif Require Import Prelude.
Set Implicit Arguments.
Unset Strict Implicit.
Unset Printing Implicit Defensive.
Import Order.TTheory GRing.Theory Num.Theory.
Local Open Scope ring_scope.

Section Pcrlb.
Variable R : rcfType.
(* jax.hessian(f, argnums=0), jax.hessian(f, argnums=1) and
   jax.jacfwd(jax.jacrev(f, argnums=1), argnums=0), whose rows belong to argument 1 *)
Variable hessian0 : forall p q, ('cV[R]_p -> 'cV[R]_q -> R) -> 'cV[R]_p -> 'cV[R]_q -> 'M[R]_p.
Variable hessian1 : forall p q, ('cV[R]_p -> 'cV[R]_q -> R) -> 'cV[R]_p -> 'cV[R]_q -> 'M[R]_q.
Variable jacobian10 : forall p q, ('cV[R]_p -> 'cV[R]_q -> R) -> 'cV[R]_p -> 'cV[R]_q -> 'M[R]_(q, p).

(* jnp.mean(_, axis=0) *)
Definition mx_mean m n (s : seq 'M[R]_(m, n)) : 'M[R]_(m, n) :=
  (size s)%:R^-1 *: foldr (fun x y => x + y) 0 s.

Variables (dx dy : nat).
Variable logpdf_transition : 'cV[R]_dx -> 'cV[R]_dx -> R.
Variable logpdf_likelihood : 'cV[R]_dy -> 'cV[R]_dx -> R.

(* lines 479-489; the vectorised derivatives of lines 474-477 are inlined *)
Definition pcrlb_body (j : 'M[R]_dx) (elem : seq 'cV[R]_dy * (seq 'cV[R]_dx * seq 'cV[R]_dx)) :
    'M[R]_dx * 'M[R]_dx :=
  let: (yt_mcs, (xt_mcs, xs_mcs)) := elem in
  let d11 := - mx_mean [seq hessian1 logpdf_transition p.1 p.2 | p <- zip xt_mcs xs_mcs] in
  let d12 := - mx_mean [seq jacobian10 logpdf_transition p.1 p.2 | p <- zip xt_mcs xs_mcs] in
  let d22 := - mx_mean [seq q.1 + q.2 | q <-
    zip [seq hessian0 logpdf_transition p.1 p.2 | p <- zip xt_mcs xs_mcs]
        [seq hessian1 logpdf_likelihood p.1 p.2 | p <- zip yt_mcs xt_mcs]] in
  let j := d22 - d12^T *m (invmx (j + d11) *m d12) in
  (j, j).

(* lines 491-492: scan over measurements, state_trajectories[1:] and state_trajectories[:-1] *)
Definition posterior_cramer_rao (state_trajectories : seq (seq 'cV[R]_dx))
    (measurements : seq (seq 'cV[R]_dy)) (j0 : 'M[R]_dx) : seq 'M[R]_dx :=
  (scan pcrlb_body j0
    (zip measurements (zip (behead state_trajectories) (take (size state_trajectories).-1 state_trajectories)))).2.
End Pcrlb.
