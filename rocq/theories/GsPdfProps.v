(* Property C140: the densities of the Gaussian sums. *)
From mathcomp Require Import all_ssreflect all_algebra.
From Verif Require Import Prelude LinAlgSpec ConvModel ConvProofs SsProofs GsPdfModel GsPdf.
Set Implicit Arguments.
Unset Strict Implicit.
Unset Printing Implicit Defensive.
Import Order.TTheory GRing.Theory Num.Theory.
Local Open Scope ring_scope.

Section Props.
Variable R : rcfType.
Variables (exp log : R -> R) (pi : R).
Hypothesis eA : exp_add exp.
Hypothesis eP : exp_spec exp.
Hypothesis lP : log_spec exp log.
Hypothesis pi0 : 0 < pi.
Variable chol : forall n, 'M[R]_n -> 'M[R]_n.
Hypothesis cholP : chol_spec chol.

(* C140: pdf is the mixture of the normal densities, in one dimension ... *)
Theorem gs1_pdf_correct (means variances weights xs : seq R) : size means = size weights -> size variances = size weights ->
  all (fun v => 0 < v) variances ->
  gs1_pdf exp log pi means variances weights xs
  = [seq \sum_(t <- zip (zip means variances) weights)
      t.2 * (exp (- (x - t.1.1) ^+ 2 / (2%:R * t.1.2)) / Num.sqrt (2%:R * pi * t.1.2)) | x <- xs].
Proof. exact: gs1_pdfE. Qed.

(* ... and in every dimension, with the normal density exp (- (x - m)^T C^-1 (x - m) / 2) / sqrt ((2 pi)^d det C) *)
Theorem gsn_pdf_correct d (means : seq 'cV[R]_d) (covs : seq 'M[R]_d) (weights : seq R) (x : 'cV[R]_d) :
  size means = size weights -> size covs = size weights -> {in covs, forall C, posdef C} ->
  gsn_pdf exp log pi chol means covs weights x
  = \sum_(t <- zip (zip means covs) weights)
      t.2 * (exp (- 2%:R^-1 * qform (invmx t.1.2) (x - t.1.1)) / Num.sqrt ((2%:R * pi) ^+ d * \det t.1.2)).
Proof. exact: gsn_pdfE. Qed.

(* C140: logpdf is the logarithm of pdf for non-negative weights of which one is positive; subtracting the maximum and leaving out
   the components of weight zero does not matter *)
Theorem gsn_logpdf_correct d (means : seq 'cV[R]_d) (covs : seq 'M[R]_d) (weights : seq R) (x : 'cV[R]_d) :
  size means = size weights -> size covs = size weights ->
  all (fun w => 0 <= w) weights -> has (fun w => 0 < w) weights ->
  0 < gsn_pdf exp log pi chol means covs weights x /\
  gsn_logpdf exp log pi chol means covs weights x = log (gsn_pdf exp log pi chol means covs weights x).
Proof.
move=> s1 s2 w0 w1; have e : exp (gsn_logpdf exp log pi chol means covs weights x) = gsn_pdf exp log pi chol means covs weights x by exact: gsn_logpdfE.
by rewrite -e (proj1 lP); split=> //; case: eP.
Qed.

(* C140: in logsumexp no argument of exp is positive and one is zero *)
Theorem logsumexp_no_overflow (a b : seq R) : has (fun p => p.2 != 0) (zip a b) ->
  all (fun u => u <= 0) (lse_args a b) /\ 0 \in lse_args a b.
Proof. exact: lse_safe. Qed.
End Props.
Print Assumptions logsumexp_no_overflow.
Print Assumptions gs1_pdf_correct.
Print Assumptions gsn_pdf_correct.
Print Assumptions gsn_logpdf_correct.
