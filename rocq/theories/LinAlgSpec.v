(* Matrix notions and the specifications of the linear-algebra library calls used by
   the code: Cholesky factorisation, symmetric eigendecomposition, triangular solves. *)
From mathcomp Require Import all_ssreflect all_algebra.
Set Implicit Arguments.
Unset Strict Implicit.
Unset Printing Implicit Defensive.
Import Order.TTheory GRing.Theory Num.Theory.
Local Open Scope ring_scope.

Section Spec.
Variable R : rcfType.

Definition symmetric n (A : 'M[R]_n) : Prop := A^T = A.

(* Quadratic form u^T A u. *)
Definition qform n (A : 'M[R]_n) (u : 'cV[R]_n) : R := (u^T *m A *m u) 0 0.

Definition posdef n (A : 'M[R]_n) : Prop :=
  symmetric A /\ forall u : 'cV_n, u != 0 -> 0 < qform A u.

Definition possemidef n (A : 'M[R]_n) : Prop :=
  symmetric A /\ forall u : 'cV_n, 0 <= qform A u.

(* A <= B in the Loewner order. *)
Definition loewner n (A B : 'M[R]_n) : Prop := possemidef (B - A).

(* jax.lax.linalg.cholesky: the lower factor with positive diagonal. *)
Definition is_chol n (L A : 'M[R]_n) : Prop :=
  [/\ is_trig_mx L, forall i, 0 < L i i & L *m L^T = A].

(* jax.lax.linalg.eigh: orthogonal eigenvectors (columns) and eigenvalues. *)
Definition is_eigh n (A V : 'M[R]_n) (lam : 'rV[R]_n) : Prop :=
  V^T *m V = 1%:M /\ A = V *m diag_mx lam *m V^T.

(* A library Cholesky: correct on every positive definite matrix. *)
Definition chol_spec (chol : forall n, 'M[R]_n -> 'M[R]_n) : Prop :=
  forall n (A : 'M[R]_n), posdef A -> is_chol (chol n A) A.

(* A library eigh: correct on every symmetric matrix (whatever the order of the
   eigenvalues or the choice of eigenvectors). *)
Definition eigh_spec (eigh : forall n, 'M[R]_n -> 'M[R]_n * 'rV[R]_n) : Prop :=
  forall n (A : 'M[R]_n), symmetric A -> is_eigh A (eigh n A).1 (eigh n A).2.

(* The part of a matrix read by a lower-triangular solver. *)
Definition tril n (A : 'M[R]_n) : 'M[R]_n := \matrix_(i, j) (if (j <= i)%N then A i j else 0).
(* The part of a matrix read by an upper-triangular solver. *)
Definition triu n (A : 'M[R]_n) : 'M[R]_n := \matrix_(i, j) (if (i <= j)%N then A i j else 0).

(* triangular_solve(a, b, left_side=True, lower=True): solves tril(a) x = b. *)
Definition tsolve_left_lower n m (a : 'M[R]_n) (b : 'M[R]_(n, m)) : 'M[R]_(n, m) :=
  invmx (tril a) *m b.
(* triangular_solve(a, b, left_side=False, lower=True, transpose_a=True):
   solves x tril(a)^T = b. *)
Definition tsolve_right_lower_t n m (a : 'M[R]_n) (b : 'M[R]_(m, n)) : 'M[R]_(m, n) :=
  b *m invmx (tril a)^T.
(* triangular_solve(a, b) with all defaults (left_side=False, lower=False):
   solves x triu(a) = b. *)
Definition tsolve_default n m (a : 'M[R]_n) (b : 'M[R]_(m, n)) : 'M[R]_(m, n) :=
  b *m invmx (triu a).
End Spec.
