(* Property C132: the rules that plot_quadrature_rules.py draws are the Gauss rules of the three densities that it draws
   them beside. *)
From Coq Require Import Reals.
From mathcomp Require Import all_ssreflect all_algebra ring zify.
From Verif Require Import Prelude LinAlgSpec LdlProofs SpectralProofs QuadModel QuadSpec Moments1DModel Moments1DConv
  RealField RealGauss PlotQuadModel RealDensitySpec RealDensity RealPlotQuad.
Set Implicit Arguments.
Unset Strict Implicit.
Unset Printing Implicit Defensive.
Import Order.TTheory GRing.Theory Num.Theory.
Local Open Scope ring_scope.
Arguments line_integral _ _ : clear scopes.
Local Notation K := R_rcfType.

Section Props.
Variable chol : forall n, 'M[K]_n -> 'M[K]_n.
Variable eigh : forall n, 'M[K]_n -> 'M[K]_n * 'rV[K]_n.

(* The moments of the script are the integrals of the powers against the densities. *)
Theorem plot_moments (means variances weights : seq K) (a b theta : K) (k N n : nat) :
  size means = size weights -> size variances = size weights -> all (fun v => 0 < v) variances ->
  a < b -> (0 < k)%N -> 0 < theta -> (0 < N)%N -> (n < N.*2)%N ->
  [/\ line_integral (fun x => x ^+ n * normal_mixture means variances weights x) (plot_mixture_rms means variances weights N)`_n,
      line_integral (fun x => x ^+ n * uniform_density a b x) (plot_uniform_rms a b N)`_n
    & line_integral (fun x => x ^+ n * gamma_density k theta x) (plot_gamma_rms k theta N)`_n].
Proof.
move=> s1 s2 vp ab k0 t0 N0 hn; split.
- by rewrite mixture_rmsE //; exact: mixture_moment.
- by rewrite uniform_rmsE //; exact: uniform_moment.
by case: k k0 => // k _; rewrite gamma_rmsE //; exact: gamma_moment.
Qed.

(* The rule for the Gaussian mixture, computed from central moments. *)
Theorem plot_mixture (means variances weights : seq K) (N : nat) :
  chol_spec chol -> eigh_spec eigh ->
  size means = size weights -> size variances = size weights ->
  all (fun v => 0 < v) variances -> all (fun v => 0 <= v) weights -> jsum weights = 1 -> (0 < N)%N ->
  is_density (normal_mixture means variances weights) /\
  exists ws, exists2 xs, plot_mixture_rule chol eigh means variances weights N = Some (ws, xs)
    & gauss_rule (normal_mixture means variances weights) N ws xs.
Proof. move=> hc he; exact: mixture_rule. Qed.

(* The rule for the uniform law: all nodes lie in [a, b]. *)
Theorem plot_uniform (a b : K) (N : nat) : chol_spec chol -> eigh_spec eigh -> a < b -> (0 < N)%N ->
  is_density (uniform_density a b) /\
  exists ws, exists2 xs, plot_uniform_rule chol eigh a b N = Some (ws, xs)
    & gauss_rule (uniform_density a b) N ws xs /\ all (fun x => a <= x <= b) xs.
Proof. move=> hc he; exact: uniform_rule. Qed.

(* The rule for the gamma law: no node is negative. *)
Theorem plot_gamma (k : nat) (theta : K) (N : nat) : chol_spec chol -> eigh_spec eigh -> (0 < k)%N -> 0 < theta -> (0 < N)%N ->
  is_density (gamma_density k theta) /\
  exists ws, exists2 xs, plot_gamma_rule chol eigh k theta N = Some (ws, xs)
    & gauss_rule (gamma_density k theta) N ws xs /\ all (fun x => 0 <= x) xs.
Proof. move=> hc he; exact: gamma_rule. Qed.
End Props.
Print Assumptions plot_moments.
Print Assumptions plot_mixture.
Print Assumptions plot_uniform.
Print Assumptions plot_gamma.

(* the laws of the script, with its N = 11, and factorisations that meet the specifications *)
Example plot_ex :
  (exists ws, exists2 xs, plot_mixture_rule (@chol_ref K) (@eigh_ref K) [:: - 2%:R; 2%:R] [:: 1 / 2%:R; 1] [:: 7%:R / 10%:R; 3%:R / 10%:R] 11 = Some (ws, xs)
    & gauss_rule (normal_mixture [:: - 2%:R; 2%:R] [:: 1 / 2%:R; 1] [:: 7%:R / 10%:R; 3%:R / 10%:R]) 11 ws xs) /\
  (exists ws, exists2 xs, plot_uniform_rule (@chol_ref K) (@eigh_ref K) (- 2%:R) 2%:R 11 = Some (ws, xs)
    & gauss_rule (uniform_density (- 2%:R) 2%:R) 11 ws xs /\ all (fun x => - 2%:R <= x <= 2%:R) xs) /\
  (exists ws, exists2 xs, plot_gamma_rule (@chol_ref K) (@eigh_ref K) 2 1 11 = Some (ws, xs)
    & gauss_rule (gamma_density 2 1) 11 ws xs /\ all (fun x => 0 <= x) xs).
Proof.
have n2 : (0 : K) < 2%:R by rewrite ltr0n.
have n10 : (0 : K) < 10%:R by rewrite ltr0n.
have vp : all (fun v : K => 0 < v) [:: 1 / 2%:R; 1] by rewrite /= ltr01 divr_gt0 ?ltr01.
have wp : all (fun v : K => 0 <= v) [:: 7%:R / 10%:R; 3%:R / 10%:R] by rewrite /= !divr_ge0 ?ler0n.
have w1 : jsum [:: 7%:R / 10%:R; 3%:R / 10%:R] = (1 : K).
  by rewrite /jsum /= addr0 -mulrDl -natrD divff // gt_eqF.
have ab : - 2%:R < (2%:R : K) by rewrite (lt_trans _ n2) // oppr_lt0.
have hc := @chol_ref_spec K; have he := @eigh_ref_spec K.
split; last split.
- exact: (proj2 (plot_mixture hc he _ _ vp wp w1 _)).
- exact: (proj2 (plot_uniform hc he ab _)).
exact: (proj2 (plot_gamma hc he _ ltr01 _)).
Qed.
