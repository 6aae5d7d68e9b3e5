(* The Ornstein-Uhlenbeck convergence experiment with the real exponential and logarithm. *)
From Coq Require Import Reals Lra.
From mathcomp Require Import all_ssreflect all_algebra complex ring.
From Verif Require Import Prelude LinAlgSpec LinAlgProofs LdlProofs SpectralProofs.
From Verif Require Import SdeModel SdeSpec SdeDeriv SdeProps SsModel SsProofs ConvModel ConvProofs ConvFilter ConvGp ConvProps.
From Verif Require Import RealField RealWitness RealSeries RealExpm RealLti RealProps.
From Verif Require GfsSpec.
Set Implicit Arguments.
Unset Strict Implicit.
Unset Printing Implicit Defensive.
Import Order.TTheory GRing.Theory Num.Theory.
Local Open Scope ring_scope.
Local Notation K := R_rcfType.
Local Notation rexp := (Rtrigo_def.exp : K -> K).
Local Notation rln := (ln : K -> K).

Lemma real_exp_add : exp_add rexp.
Proof. by move=> x y; exact: exp_plus. Qed.

Lemma exp_scaled_deriv (c t : R) :
  derivable_pt_lim (fun t => Rtrigo_def.exp (Rmult c t)) t (Rmult (Rtrigo_def.exp (Rmult c t)) (Rmult c R1)).
Proof.
apply: (derivable_pt_lim_comp (mult_real_fct c id) Rtrigo_def.exp).
  by apply: derivable_pt_lim_scal; exact: derivable_pt_lim_id.
exact: derivable_pt_lim_exp.
Qed.

(* the algebra, over any real closed field with an exponential *)
Section Alg.
Variable F : rcfType.
Variables (exp : F -> F) (expm : forall n, 'M[F]_n -> 'M[F]_n) (ell sigma : F).
Hypotheses (eA : exp_add exp) (eP : exp_spec exp) (ell0 : 0 < ell).
Hypothesis eD : forall c, derivative (fun t => exp (c * t)) (fun t => c * exp (c * t)).
Local Notation A := ((conv_drift ell 1)%:M : 'M[F]_1).
Local Notation B := ((conv_dispersion ell sigma 0)%:M : 'M[F]_1).
Local Notation lti := (discretise_lti_sde expm A B).
Hypothesis hX : forall m (X : F -> 'M[F]_(1, m)) t, mx_derivative X (fun t => A *m X t) -> X t = (lti t).1 *m X 0.
Hypothesis hP : forall (P : F -> 'M[F]_1) t, mx_derivative P (fun t => A *m P t + P t *m A^T + B *m B^T) ->
  P t = (lti t).1 *m P 0 *m (lti t).1^T + (lti t).2.

Lemma ou_discretised (dt : F) : lti dt = ((conv_F exp dt ell)%:M, (conv_Sigma exp dt ell sigma)%:M).
Proof.
pose c := - 1 / ell; have en : ell != 0 by rewrite gt_eqF.
have e0 := exp0 eA eP.
have dE : conv_drift ell 1 = c by rewrite /conv_drift mulr1.
have bE : conv_dispersion ell sigma 0 ^+ 2 = - (2%:R * c) * sigma ^+ 2.
  by rewrite /conv_dispersion expr_div_n exprMn !sqr_sqrtr ?ler0n ?(ltW ell0) // /c; field.
have s1 (x : F) (i j : 'I_1) : (x%:M : 'M[F]_1) i j = x by rewrite !ord1 mxE mulr1n.
have h1 : (conv_F exp dt ell)%:M = (lti dt).1.
  have d1 : mx_derivative (fun t => (exp (c * t))%:M : 'M[F]_1) (fun t => A *m (exp (c * t))%:M).
    by move=> i j; apply: (der_ext _ _ (eD c)) => t; rewrite ?dE -?scalar_mxM s1.
  have := hX dt d1; rewrite mulr0 e0 mulmx1 => <-; congr (exp _)%:M.
  by rewrite /c !mulNr mul1r mulrC.
have h2 : (conv_Sigma exp dt ell sigma)%:M = (lti dt).2.
  have d2 : mx_derivative (fun t => (sigma ^+ 2 * (1 - exp (2%:R * c * t)))%:M : 'M[F]_1)
    (fun t => A *m (sigma ^+ 2 * (1 - exp (2%:R * c * t)))%:M + (sigma ^+ 2 * (1 - exp (2%:R * c * t)))%:M *m A^T + B *m B^T).
    move=> i j; apply: (der_ext _ _ (der_add (der_const (sigma ^+ 2)) (der_scale (- sigma ^+ 2) (eD (2%:R * c))))) => t.
      by rewrite s1 mulrBr mulr1 mulNr.
    rewrite !tr_scalar_mx -!scalar_mxM -!(raddfD (scalar_mx_additive F 1)) [in RHS]s1.
    rewrite -[conv_dispersion _ _ _ * _]expr2 bE dE; move: (c) (exp _) => a b; ring.
  have sE : conv_Sigma exp dt ell sigma = sigma ^+ 2 * (1 - exp (2%:R * c * dt)).
    by rewrite /conv_Sigma /c; congr (_ * (1 - exp _)); field.
  have := hP dt d2; rewrite mulr0 e0 subrr mulr0 sE => ->.
  have z : (0%:M : 'M[F]_1) = 0 by apply/matrixP => i j; rewrite s1 mxE.
  rewrite z mulmx0 mul0mx add0r //.
by rewrite [LHS]surjective_pairing -h1 -h2.
Qed.
End Alg.

Section Ou.
Variables (ell sigma : K).
Hypothesis ell0 : 0 < ell.

(* C87: F and Sigma are the exact discretisation of the drift and the dispersion of the script. *)
Theorem conv_ou_discretised (dt : K) :
  discretise_lti_sde real_expm ((conv_drift ell 1)%:M : 'M[K]_1) ((conv_dispersion ell sigma 0)%:M : 'M[K]_1) dt
  = ((conv_F rexp dt ell)%:M, (conv_Sigma rexp dt ell sigma)%:M).
Proof.
have [_ _ _ hX hP] := lti_real_exact ((conv_drift ell 1)%:M : 'M[K]_1) ((conv_dispersion ell sigma 0)%:M : 'M[K]_1).
apply: (ou_discretised real_exp_add real_exp_spec) => // c.
apply: derivative_Reals => t.
have := exp_scaled_deriv c t; rewrite Rmult_1_r Rmult_comm; exact.
Qed.
End Ou.
Print Assumptions conv_ou_discretised.

(* The hypotheses of C87-C91 hold of the real functions and the constants of the script. *)
Example conv_hypotheses_ex :
  [/\ exp_add rexp, exp_spec rexp, GfsSpec.log_spec rln, SsProofs.log_spec rexp rln
    & (forall u : K, 0 < u -> u != 1 -> rln u < u - 1)] /\
  [/\ 0 < (PI : K), 0 < (1 / 10%:R : K), 0 < (1 : K) & 0 < (1 / 2%:R : K)] /\
  chol_spec (@chol_ref K) /\ eigh_spec (@eigh_ref K).
Proof.
split; first by split; [exact: real_exp_add|exact: real_exp_spec|exact: real_log_mult|exact: real_log_spec|exact: real_log_lt].
split; last by split; [exact: chol_ref_spec|exact: eigh_ref_spec].
split; rewrite ?divr_gt0 ?ltr01 ?ltr0n //.
by apply/RltE; exact: PI_RGT_0.
Qed.
