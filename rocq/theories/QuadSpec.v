(* Specification of one-dimensional moment sequences and moment quadratures. *)
From mathcomp Require Import all_ssreflect all_algebra.
From Verif Require Import LinAlgSpec.
Set Implicit Arguments.
Unset Strict Implicit.
Unset Printing Implicit Defensive.
Import Order.TTheory GRing.Theory Num.Theory.
Local Open Scope ring_scope.

Section Spec.
Variable R : rcfType.

(* The linear functional on polynomials with the moments m_0, m_1, ... . *)
Definition mom_functional (m : nat -> R) (p : {poly R}) : R :=
  \sum_(k < size p) p`_k * m k.

(* A sequence of at least 2n-1 numbers is admissible if the quadratic form
   E[p(X)^2] of polynomials p <> 0 of degree < n is positive. *)
Definition admissible (m : nat -> R) (n : nat) : Prop :=
  forall p : {poly R}, p != 0 -> (size p <= n)%N -> 0 < mom_functional m (p * p).

(* The moments of the affinely transformed variable (X - mean) / scale. *)
Definition affine_moments (m : nat -> R) (mean scale : R) (k : nat) : R :=
  mom_functional m ((scale^-1 *: ('X - mean%:P)) ^+ k).

(* Moments of the discrete measure with the given weights and points. *)
Definition discrete_moment (ws xs : seq R) (k : nat) : R :=
  \sum_(p <- zip ws xs) p.1 * p.2 ^+ k.
End Spec.
