(* Model of reproduce_paper_plots/plot_quadrature_rules.py: the moments that the script builds for its three laws and
   the rules that it draws.  The means, variances and weights of the mixture, the bounds a and b, the shape k and the
   scale theta, and N are arguments here; the script fixes them (lines 21-25, 45 and 59).  math.gamma is modelled at the
   positive integers, where the script evaluates it: gamma(n) = (n - 1)!.  The drawing is not modelled. *)
From mathcomp Require Import all_ssreflect all_algebra.
From Verif Require Import Prelude Moments1DModel QuadModel.
Set Implicit Arguments.
Unset Strict Implicit.
Unset Printing Implicit Defensive.
Import GRing.Theory Num.Theory.
Local Open Scope ring_scope.

Section Plot.
Variable R : rcfType.
Variable chol : forall n, 'M[R]_n -> 'M[R]_n.
Variable eigh : forall n, 'M[R]_n -> 'M[R]_n * 'rV[R]_n.

(* line 26: order = 2 * N - 1 *)
Definition plot_order (N : nat) : nat := (2 * N - 1)%N.

(* lines 27-28 *)
Definition plot_mixture_rms (means variances weights : seq R) (N : nat) : seq R :=
  [seq jsum [seq raw_moment_of_normal t.1.1 t.1.2 p * t.2 | t <- zip (zip means variances) weights]
  | p <- iota 0 (plot_order N).+1].

(* lines 29 and 33 *)
Definition plot_mixture_rule (means variances weights : seq R) (N : nat) : option (seq R * seq R) :=
  let cms := raw_to_central (plot_mixture_rms means variances weights N) in
  moment_quadrature chol eigh cms (jsum (jmul means weights)) 1 false.

(* line 46 *)
Definition plot_uniform_rms (a b : R) (N : nat) : seq R :=
  [seq 1 / k.+1%:R * jsum [seq a ^+ i * b ^+ (k - i) | i <- iota 0 k.+1] | k <- iota 0 (plot_order N).+1].

(* line 48 *)
Definition plot_uniform_rule (a b : R) (N : nat) : option (seq R * seq R) :=
  moment_quadrature chol eigh (plot_uniform_rms a b N) 0 1 false.

(* math.gamma at the integers n >= 1 *)
Definition math_gamma (n : nat) : R := (n.-1)`!%:R.

(* line 60 *)
Definition plot_gamma_rms (k : nat) (theta : R) (N : nat) : seq R :=
  [seq theta ^+ n * math_gamma (k + n) / math_gamma k | n <- iota 0 (plot_order N).+1].

(* line 62 *)
Definition plot_gamma_rule (k : nat) (theta : R) (N : nat) : option (seq R * seq R) :=
  moment_quadrature chol eigh (plot_gamma_rms k theta N) 0 1 false.
End Plot.
