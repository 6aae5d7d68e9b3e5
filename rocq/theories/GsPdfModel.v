(* Model of the densities of the Gaussian sums: GaussianSum1D.pdf, GaussianSumND.pdf and GaussianSumND.logpdf
   (mfs/utils.py lines 50-52 and 89-99) with jax.scipy.stats.multivariate_normal and jax.scipy.special.logsumexp. *)
From mathcomp Require Import all_ssreflect all_algebra.
From Verif Require Import Prelude ConvModel.
Set Implicit Arguments.
Unset Strict Implicit.
Unset Printing Implicit Defensive.
Import Order.TTheory GRing.Theory Num.Theory.
Local Open Scope ring_scope.

Section GsPdf.
Variable R : rcfType.
Variables (exp log : R -> R) (pi : R).
Variable chol : forall n, 'M[R]_n -> 'M[R]_n.

(* jax.scipy.stats.multivariate_normal.logpdf: L = cholesky(cov); y = solve_triangular(L, x - mean);
   -1/2 y.y - n/2 log(2 pi) - sum(log(diag(L))); pdf is its exponential *)
Definition mvn_logpdf d (x mean : 'cV[R]_d) (cov : 'M[R]_d) : R :=
  let L := chol cov in
  let y := invmx L *m (x - mean) in
  - 2%:R^-1 * (\sum_i y i 0 * y i 0) - d%:R / 2%:R * log (2%:R * pi) - \sum_i log (L i i).
Definition mvn_pdf d (x mean : 'cV[R]_d) (cov : 'M[R]_d) : R := exp (mvn_logpdf x mean cov).

(* jax.scipy.special.logsumexp(a, b): entries with b = 0 are set to -inf, the maximum of the others is subtracted *)
Definition lse_terms (a b : seq R) : seq (R * R) := [seq p <- zip a b | p.2 != 0].
Definition lse_max (a b : seq R) : R :=
  let s := [seq p.1 | p <- lse_terms a b] in foldr Num.max (head 0 s) s.
(* the arguments of exp *)
Definition lse_args (a b : seq R) : seq R := [seq p.1 - lse_max a b | p <- lse_terms a b].
Definition logsumexp (a b : seq R) : R :=
  log (jsum [seq exp p.1 * p.2 | p <- zip (lse_args a b) [seq p.2 | p <- lse_terms a b]]) + lse_max a b.

(* lines 50-52 *)
Definition gs1_pdf (means variances weights : seq R) (xs : seq R) : seq R :=
  [seq jsum [seq norm_pdf exp log pi x t.1.1 (Num.sqrt t.1.2) * t.2 | t <- zip (zip means variances) weights] | x <- xs].

(* lines 89-92 *)
Definition gsn_pdf d (means : seq 'cV[R]_d) (covs : seq 'M[R]_d) (weights : seq R) (x : 'cV[R]_d) : R :=
  jsum [seq mvn_pdf x t.1.1 t.1.2 * t.2 | t <- zip (zip means covs) weights].

(* lines 94-99 *)
Definition gsn_logpdf d (means : seq 'cV[R]_d) (covs : seq 'M[R]_d) (weights : seq R) (x : 'cV[R]_d) : R :=
  logsumexp [seq mvn_logpdf x t.1 t.2 | t <- zip means covs] weights.
End GsPdf.
