(* Specifications for the discretisation and simulation of stochastic differential equations. *)
From mathcomp Require Import all_ssreflect all_algebra.
Set Implicit Arguments.
Unset Strict Implicit.
Unset Printing Implicit Defensive.
Import Order.TTheory GRing.Theory Num.Theory.
Local Open Scope ring_scope.

Section Spec.
Variable R : rcfType.

(* The matrix exponential on a class of matrices: one-parameter groups, compatible with
   transposition and with M P = P N. *)
Definition expm_group (C : forall n, 'M[R]_n -> Prop) (expm : forall n, 'M[R]_n -> 'M[R]_n) : Prop :=
  [/\ forall n (M : 'M[R]_n), C n M -> expm n (0 *: M) = 1%:M,
      forall n (M : 'M[R]_n) s t, C n M -> expm n ((s + t) *: M) = expm n (s *: M) *m expm n (t *: M),
      forall n (M : 'M[R]_n) t, C n M -> expm n (t *: M^T) = (expm n (t *: M))^T
    & forall n m (M : 'M[R]_n) (N : 'M[R]_m) (P : 'M[R]_(n, m)) t, C n M -> C m N ->
        M *m P = P *m N -> expm n (t *: M) *m P = P *m expm m (t *: N)].

(* g is the derivative of f *)
Definition derivative (f g : R -> R) : Prop :=
  forall t e, 0 < e -> exists2 dl, 0 < dl & forall h, `|h| < dl ->
    `|f (t + h) - f t - h * g t| <= e * `|h|.

(* the same for matrix-valued functions, entry by entry *)
Definition mx_derivative m n (f g : R -> 'M[R]_(m, n)) : Prop :=
  forall i j, derivative (fun t => f t i j) (fun t => g t i j).

Definition expm_deriv (C : forall n, 'M[R]_n -> Prop) (expm : forall n, 'M[R]_n -> 'M[R]_n) : Prop :=
  forall n (M : 'M[R]_n), C n M ->
  mx_derivative (fun t => expm n (t *: M)) (fun t => M *m expm n (t *: M)).

(* the block matrix of the method *)
Definition lti_class (C : forall n, 'M[R]_n -> Prop) d w (A : 'M[R]_d) (B : 'M[R]_(d, w)) : Prop :=
  let phi : 'M[R]_(d + d) := block_mx A (B *m B^T) 0 (- A^T) in
  [/\ C d A, C d (- A^T), C (d + d)%N phi & C (d + d)%N (- phi^T)].
End Spec.
