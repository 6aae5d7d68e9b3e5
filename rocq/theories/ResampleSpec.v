(* Specifications for resampling. *)
From mathcomp Require Import all_ssreflect all_algebra.
Set Implicit Arguments.
Unset Strict Implicit.
Unset Printing Implicit Defensive.
Import Order.TTheory GRing.Theory Num.Theory.
Local Open Scope ring_scope.

Section Spec.
Variable R : rcfType.

(* Insertion points in sorted arrays. *)
Definition ss_left_spec (ss : seq R -> R -> nat) : Prop :=
  forall a v, sorted <=%R a ->
  [/\ (ss a v <= size a)%N, forall i, (i < ss a v)%N -> nth 0 a i < v
    & forall i, (ss a v <= i < size a)%N -> v <= nth 0 a i].
Definition ss_right_spec (ss : seq R -> R -> nat) : Prop :=
  forall a v, sorted <=%R a ->
  [/\ (ss a v <= size a)%N, forall i, (i < ss a v)%N -> nth 0 a i <= v
    & forall i, (ss a v <= i < size a)%N -> v < nth 0 a i].

(* A weight vector. *)
Definition weight_vector (w : seq R) : Prop :=
  all (fun x => 0 <= x) w /\ \sum_(x <- w) x = 1.

(* The cumulative distribution: mass of the particles before i. *)
Definition cdf (w : seq R) (i : nat) : R := \sum_(x <- take i w) x.

(* j is the generalised inverse of the distribution function at v. *)
Definition inverse_cdf (w : seq R) (v : R) (j : nat) : Prop :=
  [/\ (j < size w)%N, cdf w j < v & v <= cdf w j.+1].

(* Piecewise linear quantile function through the points (x_k, M_k), where M_k is the mass of
   the smaller particles and half of that of particle k; constant outside the range of the
   M_k.  On pieces of mass at most eps the value is the left sample. *)
Definition mid_mass (xs ws : seq R) (k : nat) : R :=
  \sum_(l <- iota 0 (size xs) | nth 0 xs l < nth 0 xs k) nth 0 ws l + nth 0 ws k / 2%:R.
Definition quantile (eps : R) (xs ws : seq R) (z y : R) : Prop :=
  [\/ exists k, [/\ (k < size xs)%N, forall l, (l < size xs)%N -> nth 0 xs k <= nth 0 xs l,
                   z < mid_mass xs ws k & y = nth 0 xs k],
      exists k, [/\ (k < size xs)%N, forall l, (l < size xs)%N -> nth 0 xs l <= nth 0 xs k,
                   mid_mass xs ws k < z & y = nth 0 xs k]
    | exists k l, [/\ (k < size xs)%N /\ (l < size xs)%N,
        nth 0 xs k <= nth 0 xs l /\
        (forall i, (i < size xs)%N -> ~~ ((nth 0 xs k < nth 0 xs i) && (nth 0 xs i < nth 0 xs l))),
        mid_mass xs ws k <= z /\ z <= mid_mass xs ws l
      & if mid_mass xs ws l - mid_mass xs ws k <= eps then y = nth 0 xs k
        else (y - nth 0 xs k) * (mid_mass xs ws l - mid_mass xs ws k)
             = (z - mid_mass xs ws k) * (nth 0 xs l - nth 0 xs k)]].
End Spec.

(* A resampling scheme is valid when, for every weight vector, it returns as many indices as
   weights, each in range and of positive weight. *)
Definition valid_resampling (R : rcfType) (K : Type) (resampling : seq R -> K -> seq nat) : Prop :=
  forall w k, weight_vector w ->
  size (resampling w k) = size w /\
  forall j, j \in resampling w k -> (j < size w)%N /\ 0 < nth 0 w j.
