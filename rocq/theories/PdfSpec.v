(* Specifications for the density approximations. *)
From mathcomp Require Import all_ssreflect all_algebra.
From Verif Require Import QuadSpec.
Set Implicit Arguments.
Unset Strict Implicit.
Unset Printing Implicit Defensive.
Import Order.TTheory GRing.Theory Num.Theory.
Local Open Scope ring_scope.

Section Spec.
Variable R : rcfType.

(* The integral of a polynomial over [a, b], term by term. *)
Definition poly_integral (a b : R) (p : {poly R}) : R :=
  \sum_(k < size p) p`_k * ((b ^+ k.+1 - a ^+ k.+1) / k.+1%:R).

(* The moment polynomial sum_n s_n u^n / n! and the saddle equation K'(s) = x of
   K(z) = z mean + log P(z scale): mean + scale P'(s scale) / P(s scale) = x. *)
Definition moment_poly (sms : seq R) : {poly R} := \poly_(n < size sms) (sms`_n / (n`!)%:R).
Definition is_saddle (sms : seq R) (mean scale x s : R) : Prop :=
  (moment_poly sms).[s * scale] != 0 /\
  mean + scale * (moment_poly sms)^`().[s * scale] / (moment_poly sms).[s * scale] = x.
End Spec.
