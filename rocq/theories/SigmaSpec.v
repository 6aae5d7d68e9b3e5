(* What sigma-point rules should integrate, stated without reference to the code. *)
From mathcomp Require Import all_ssreflect all_algebra.
From Verif Require Import QuadSpec Moments1DSpec.
Set Implicit Arguments.
Unset Strict Implicit.
Unset Printing Implicit Defensive.
Import Order.TTheory GRing.Theory Num.Theory.
Local Open Scope ring_scope.

Section Spec.
Variable R : rcfType.

(* A polynomial of degree at most three in d variables, by its coefficients. *)
Definition cubic d (c0 : R) (c1 : 'I_d -> R) (c2 : 'I_d -> 'I_d -> R)
    (c3 : 'I_d -> 'I_d -> 'I_d -> R) (x : 'cV[R]_d) : R :=
  c0 + \sum_i c1 i * x i 0 + \sum_i \sum_j c2 i j * (x i 0 * x j 0)
  + \sum_i \sum_j \sum_k c3 i j k * (x i 0 * x j 0 * x k 0).

(* Its expectation under N(m, P), from the first three moments of the Gaussian. *)
Definition gauss_cubic d (c0 : R) (c1 : 'I_d -> R) (c2 : 'I_d -> 'I_d -> R)
    (c3 : 'I_d -> 'I_d -> 'I_d -> R) (m : 'cV[R]_d) (P : 'M[R]_d) : R :=
  c0 + \sum_i c1 i * m i 0 + \sum_i \sum_j c2 i j * (m i 0 * m j 0 + P i j)
  + \sum_i \sum_j \sum_k c3 i j k *
      (m i 0 * m j 0 * m k 0 + m i 0 * P j k + m j 0 * P i k + m k 0 * P i j).

(* A polynomial in d variables as a list of terms: coefficient and exponents; its value,
   and its expectation under N(0, I). *)
Definition term_eval d (t : R * ('I_d -> nat)) (x : 'cV[R]_d) : R :=
  t.1 * \prod_i x i 0 ^+ t.2 i.
Definition mpoly_eval d (ts : seq (R * ('I_d -> nat))) (x : 'cV[R]_d) : R :=
  \sum_(t <- ts) term_eval t x.
Definition mpoly_gauss d (ts : seq (R * ('I_d -> nat))) : R :=
  \sum_(t <- ts) t.1 * \prod_i gauss_moment 0 1 (t.2 i).

(* A root finder that is right on polynomials with as many distinct roots as their degree. *)
Definition roots_spec (roots : seq R -> seq R) : Prop :=
  forall (c xs : seq R), head 0 c != 0 -> uniq xs -> size xs = (size c).-1 ->
    all (fun x => (Poly (rev c)).[x] == 0) xs -> perm_eq (roots c) xs.
End Spec.
