(* Specifications for the multi-dimensional moment filters. *)
From mathcomp Require Import all_ssreflect all_algebra.
From Verif Require Import LinAlgSpec QuadSpec QuadNdSpec Filter1DSpec.
Set Implicit Arguments.
Unset Strict Implicit.
Unset Printing Implicit Defensive.
Import Order.TTheory GRing.Theory Num.Theory.
Local Open Scope ring_scope.

Section Spec.
Variable R : rcfType.
Variables (d : nat) (full : seq (seq nat)).

(* The moment with multi-index k in a vector laid out as in full. *)
Definition look (ms : seq R) (k : seq nat) : R := nth 0 ms (index k full).

(* The mean vector, and the moments of (X_a - mean_a) / scale_a, read off raw moments. *)
Definition mean_nd (ms : seq R) : seq R := [seq look ms (munit d a) | a <- iota 0 d].
Definition shift_nd (ms mean scale : seq R) : seq R :=
  [seq affine_nd (look ms) mean scale k | k <- full].
Definition std_nd (ms : seq R) : seq R :=
  [seq Num.sqrt (affine_nd (look ms) (mean_nd ms) [::] [seq (2 * n)%N | n <- munit d a])
  | a <- iota 0 d].

(* Raw moments -> (central moments, mean), (scaled central moments, mean, scale). *)
Definition central_nd (ms : seq R) : seq R * seq R := (shift_nd ms (mean_nd ms) [::], mean_nd ms).
Definition scaled_nd (ms : seq R) : seq R * seq R * seq R :=
  (shift_nd ms (mean_nd ms) (std_nd ms), mean_nd ms, std_nd ms).

(* Moments of a distribution on points. *)
Definition hmm_moments_nd (zs : seq (seq R)) (alpha : seq R) : seq R :=
  [seq discrete_nd alpha zs k | k <- full].
End Spec.
