(* Specifications for the one-dimensional moment functions. *)
From mathcomp Require Import all_ssreflect all_algebra.
From Verif Require Import QuadSpec.
Set Implicit Arguments.
Unset Strict Implicit.
Unset Printing Implicit Defensive.
Import Order.TTheory GRing.Theory Num.Theory.
Local Open Scope ring_scope.

Section Spec.
Variable R : rcfType.

(* The recursion that characterises the moments of N(m, v). *)
Definition gaussian_recursion (M : nat -> R) (m v : R) : Prop :=
  [/\ M 0%N = 1, M 1%N = m
    & forall p, M p.+2 = m * M p.+1 + p.+1%:R * v * M p].

(* Its solution, computed directly. *)
Fixpoint gauss_pair (m v : R) (p : nat) : R * R :=
  match p with
  | 0%N => (1, m)
  | p'.+1 => let (a, b) := gauss_pair m v p' in (b, m * b + p'.+1%:R * v * a)
  end.
Definition gauss_moment (m v : R) (p : nat) : R := (gauss_pair m v p).1.

(* E[(X - c)^n] and E[((X - c) / s)^n] for the functional with raw moments m. *)
Definition central_moment (m : nat -> R) (c : R) (n : nat) : R :=
  mom_functional m (('X - c%:P) ^+ n).
Definition scaled_moment (m : nat -> R) (c s : R) (n : nat) : R :=
  mom_functional m ((s^-1 *: ('X - c%:P)) ^+ n).

(* k_1, k_2, ... are the cumulants of the raw moments m_0 = 1, m_1, ... up to order N:
   m_{n+1} = sum_j C(n, j) k_{j+1} m_{n-j}, i.e. K' M = M' for the generating functions. *)
Definition is_cumulants (m k : nat -> R) (N : nat) : Prop :=
  forall n, (n < N)%N -> m n.+1 = \sum_(j < n.+1) 'C(n, j)%:R * k j.+1 * m (n - j)%N.

(* The exponential series sum_{j = 1}^{N} x_j t^j / j!. *)
Definition bell_series (x : nat -> R) (N : nat) : {poly R} :=
  \poly_(j < N.+1) (if j == 0%N then 0 else x j / (j`!)%:R).
End Spec.
