(* Specification of the moments of multivariate normal and uniform distributions. *)
From mathcomp Require Import all_ssreflect all_algebra.
Set Implicit Arguments.
Unset Strict Implicit.
Unset Printing Implicit Defensive.
Import Order.TTheory GRing.Theory Num.Theory.
Local Open Scope ring_scope.

(* Multi-indices with one entry increased, decreased. *)
Definition minc (n : seq nat) (i : nat) : seq nat := set_nth 0%N n i (nth 0%N n i).+1.
Definition mdec (n : seq nat) (i : nat) : seq nat := set_nth 0%N n i (nth 0%N n i).-1.

Section Spec.
Variables (R : rcfType) (d : nat).

(* M is the moment sequence E[X^n] of N(m, P): integration by parts gives
   E[X_i f(X)] = m_i E[f(X)] + sum_j P_ij E[(d f / d x_j)(X)]. *)
Definition mvn_moments (m : 'cV[R]_d) (P : 'M[R]_d) (M : seq nat -> R) : Prop :=
  M (nseq d 0%N) = 1 /\
  forall (n : seq nat) (i : 'I_d), size n = d ->
    M (minc n i) = m i 0 * M n + \sum_(j < d) P i j * (nth 0%N n j)%:R * M (mdec n j).
End Spec.
