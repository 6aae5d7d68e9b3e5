(* Specification of multi-dimensional moments and quadratures. *)
From mathcomp Require Import all_ssreflect all_algebra.
From Verif Require Import MultiIndexSpec QuadSpec.
Set Implicit Arguments.
Unset Strict Implicit.
Unset Printing Implicit Defensive.
Import Order.TTheory GRing.Theory Num.Theory.
Local Open Scope ring_scope.

(* Sum of multi-indices, unit multi-index. *)
Definition madd (x y : seq nat) : seq nat := [seq (p.1 + p.2)%N | p <- zip x y].
Definition munit (d a : nat) : seq nat := [seq (i == a : nat) | i <- iota 0 d].

Section Spec.
Variable R : rcfType.

(* The monomial x_1^{k_1} ... x_d^{k_d}. *)
Definition mono (x : seq R) (k : seq nat) : R := \prod_(p <- zip x k) p.1 ^+ p.2.

(* A real polynomial of degree < N in d variables with coefficients c (on the
   multi-indices of the basis), and the expectation of its square when the moments are M:
   the moments are admissible if this is positive unless the polynomial is zero. *)
Definition admissible_nd (d N : nat) (M : seq nat -> R) : Prop :=
  forall basis, enumerates d 0 N.-1 basis ->
  forall c : seq nat -> R, (exists2 x, x \in basis & c x != 0) ->
  0 < \sum_(x <- basis) \sum_(y <- basis) c x * c y * M (madd x y).

(* Expectation of p_1(X_1) ... p_d(X_d) when the moments are M. *)
Fixpoint tens_functional (M : seq nat -> R) (ps : seq {poly R}) : R :=
  match ps with
  | [::] => M [::]
  | p :: ps' => mom_functional (fun j => tens_functional (fun t => M (j :: t)) ps') p
  end.

(* Moments of the transformed vector with coordinates (X_a - mean_a) / scale_a. *)
Definition affine_nd (M : seq nat -> R) (mean scale : seq R) (k : seq nat) : R :=
  tens_functional M
    [seq ((nth 1 scale a)^-1 *: ('X - (nth 0 mean a)%:P)) ^+ (nth 0%N k a) | a <- iota 0 (size k)].

(* The coordinates (x_a - mean_a) / scale_a. *)
Definition std_coords (mean scale x : seq R) : seq R :=
  [seq (nth 0 x a - nth 0 mean a) / nth 1 scale a | a <- iota 0 (size x)].

(* Moments of the discrete measure with the given weights and points. *)
Definition discrete_nd (ws : seq R) (zs : seq (seq R)) (k : seq nat) : R :=
  \sum_(p <- zip ws zs) p.1 * mono p.2 k.

(* No non-zero polynomial of degree < N vanishes on all the points. *)
Definition unisolvent (d N : nat) (zs : seq (seq R)) := forall basis, enumerates d 0 N.-1 basis ->
  forall c : seq nat -> R, (exists2 x, x \in basis & c x != 0) ->
  exists2 z, z \in zs & \sum_(x <- basis) c x * mono z x != 0.
End Spec.
