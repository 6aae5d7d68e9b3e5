(* Property C140 over the reals of the standard library: the moments of GaussianSum1D are the integrals of the powers against
   its pdf. *)
From Coq Require Import Reals.
From mathcomp Require Import all_ssreflect all_algebra ring zify.
From Verif Require Import Prelude LinAlgSpec LdlProofs SpectralProofs Moments1DModel Moments1DSpec Moments1DConv Moments1DProofs
  SsProofs ConvModel ConvProofs RealField RealWitness RealGauss RealProps RealConv PlotQuadModel RealDensitySpec RealDensity RealPlotQuad
  GsPdfModel GsPdf GsPdfProps.
Set Implicit Arguments.
Unset Strict Implicit.
Unset Printing Implicit Defensive.
Import Order.TTheory GRing.Theory Num.Theory.
Local Open Scope ring_scope.
Arguments line_integral _ _ : clear scopes.
Local Notation K := R_rcfType.
Local Notation rexp := (Rtrigo_def.exp : K -> K).
Local Notation rln := (ln : K -> K).
Local Notation pi := (PI : K).

Lemma pi_gt0 : 0 < pi. Proof. by apply/RltE; exact: PI_RGT_0. Qed.

(* the hypotheses of C140 hold of the real functions *)
Example gs_pdf_ex : [/\ exp_add rexp, exp_spec rexp, log_spec rexp rln, 0 < pi & chol_spec (@chol_ref K)].
Proof. by split; [exact: real_exp_add|exact: real_exp_spec|exact: real_log_spec|exact: pi_gt0|exact: chol_ref_spec]. Qed.

Theorem gs1_pdf_density (means variances weights : seq K) : size means = size weights -> size variances = size weights ->
  all (fun v => 0 < v) variances -> all (fun w => 0 <= w) weights -> jsum weights = 1 ->
  is_density (fun x => head 0 (gs1_pdf rexp rln pi means variances weights [:: x])).
Proof.
move=> s1 s2 vp wp w1; have := mixture_is_density s1 s2 vp wp w1.
have e x : head 0 (gs1_pdf rexp rln pi means variances weights [:: x]) = normal_mixture means variances weights x.
  by rewrite (gs1_pdf_correct real_exp_add real_exp_spec real_log_spec pi_gt0).
have -> : normal_mixture means variances weights = fun x => head 0 (gs1_pdf rexp rln pi means variances weights [:: x]).
  by apply: FunctionalExtensionality.functional_extensionality => x; rewrite e.
by [].
Qed.

Theorem gs1_pdf_moments (means variances weights : seq K) (N n : nat) :
  size means = size weights -> size variances = size weights -> all (fun v => 0 < v) variances -> (n < 2 * N)%N ->
  line_integral (fun x => x ^+ n * head 0 (gs1_pdf rexp rln pi means variances weights [:: x]))
    (gs_rms (gaussian_sum1d_new means variances weights N))`_n.
Proof.
move=> s1 s2 vp hn.
have -> : (gs_rms (gaussian_sum1d_new means variances weights N))`_n = (plot_mixture_rms means variances weights N)`_n.
  by rewrite /plot_mixture_rms plot_orderE -?mul2n //; lia.
have N0 : (0 < N)%N by lia.
have hn' : (n < N.*2)%N by rewrite -mul2n.
have := mixture_moment s1 s2 vp n; rewrite -(mixture_rmsE s1 s2 vp N0 hn').
apply: line_ext => x.
by rewrite (gs1_pdf_correct real_exp_add real_exp_spec real_log_spec pi_gt0).
Qed.
Print Assumptions gs1_pdf_density.
Print Assumptions gs1_pdf_moments.
