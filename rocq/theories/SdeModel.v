(* Model of discretise_lti_sde, vmap_list_of_funcs and simulate_sde, mfs/utils.py lines 128-249. *)
From mathcomp Require Import all_ssreflect all_algebra.
From Verif Require Import Prelude.
Set Implicit Arguments.
Unset Strict Implicit.
Unset Printing Implicit Defensive.
Import Order.TTheory GRing.Theory Num.Theory.
Local Open Scope ring_scope.

Section Sde.
Variable R : rcfType.
(* jax.scipy.linalg.expm and jax.lax.linalg.cholesky *)
Variable expm : forall n, 'M[R]_n -> 'M[R]_n.
Variable chol : forall n, 'M[R]_n -> 'M[R]_n.

(* lines 160-167 *)
Definition discretise_lti_sde d w (A : 'M[R]_d) (B : 'M[R]_(d, w)) (dt : R) : 'M[R]_d * 'M[R]_d :=
  let F := expm (dt *: A) in
  let phi : 'M[R]_(d + d) := col_mx (row_mx A (B *m B^T)) (row_mx 0 (- A^T)) in
  let AB : 'M[R]_(d + d, d) := expm (dt *: phi) *m col_mx 0 1%:M in
  let cov := usubmx AB *m F^T in
  (F, cov).

(* jax.lax.switch clamps the index *)
Definition switch (X Y : Type) (dflt : X -> Y) (ind : nat) (funcs : seq (X -> Y)) (x : X) : Y :=
  nth dflt funcs (minn ind (size funcs).-1) x.

(* lines 181-187; [dflt] is never used when the list is not empty *)
Definition vmap_list_of_funcs (X Y : Type) (dflt : X -> Y) (funcs : seq (X -> Y)) (x : X) : seq Y :=
  [seq switch dflt ind funcs x | ind <- iota 0 (size funcs)].

(* jax.random.split and jax.random.normal(key, (T, integration_steps, d)) *)
Variable Key : Type.
Variable split : Key -> Key * Key.
Variable normal : Key -> nat -> nat -> forall d, seq (seq 'cV[R]_d).

Section Simulate.
Variable d : nat.
Variable m_and_cov : 'cV[R]_d -> R -> 'cV[R]_d * 'M[R]_d.

(* lines 230-239 *)
Definition integration_body (diagonal_cov : bool) (ddt : R) (x normal_inc : 'cV[R]_d) : 'cV[R]_d :=
  let (m, cov) := m_and_cov x ddt in
  if diagonal_cov then m + map_mx Num.sqrt cov *m normal_inc else m + chol cov *m normal_inc.

(* lines 241-249; jnp.atleast_1d makes x0 a vector *)
Definition simulate_sde (x0 : 'cV[R]_d) (dt : R) (T : nat) (key : Key) (diagonal_cov : bool)
    (integration_steps : nat) : seq 'cV[R]_d :=
  let ddt := dt / integration_steps%:R in
  let key := (split key).1 in
  let normal_increments := normal key T integration_steps d in
  let scan_body := fun x normal_inc =>
    let x := foldl (integration_body diagonal_cov ddt) x normal_inc in (x, x) in
  (scan scan_body x0 normal_increments).2.
End Simulate.
End Sde.
