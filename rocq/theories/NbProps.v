(* Properties C143 and C144: the transitions of the notebooks. *)
From mathcomp Require Import all_ssreflect all_algebra.
From mathcomp Require Import ring zify.
From Verif Require Import Prelude LinAlgSpec LinAlgProofs LdlProofs SmallMx Moments1DModel Moments1DSpec Moments1DProofs Moments1DProps.
From Verif Require Import MultiIndexModel NdIndexModel MomentsNdModel MomentsNdSpec MomentsNdProps SdeModel SdeSpec SdeLti SdeNil SdeProps SpectralProofs QuadNdSpec NbModel.
Set Implicit Arguments.
Unset Strict Implicit.
Unset Printing Implicit Defensive.
Import Order.TTheory GRing.Theory Num.Theory.
Local Open Scope ring_scope.

Section Euler.
Variable R : rcfType.
Implicit Types drift dispersion : R -> R.

(* what the function returns: the moments of a normal law whose variance lacks the factor dt *)
Theorem nb_euler_moments drift dispersion (dt : R) N x n : (n < 2 * N)%N ->
  nb_euler_raw drift dispersion dt N x n = gauss_moment (x + drift x * dt) (dispersion x ^+ 2) n.
Proof.
move=> hn; rewrite /nb_euler_raw jget_nth ?size_map ?size_iota // (nth_map 0%N) ?size_iota // nth_iota // add0n.
by apply: gaussian_unique; apply: raw_normal_gauss; exact: sqr_ge0.
Qed.

(* C143: the mean is that of the Euler--Maruyama step, and the second moment is only for dt = 1 or without noise *)
Theorem nb_euler_second_moment drift dispersion (dt : R) N x : (1 < N)%N ->
  nb_euler_raw drift dispersion dt N x 1 = gauss_moment (x + drift x * dt) (dispersion x ^+ 2 * dt) 1 /\
  (nb_euler_raw drift dispersion dt N x 2 = gauss_moment (x + drift x * dt) (dispersion x ^+ 2 * dt) 2
    <-> dt = 1 \/ dispersion x = 0).
Proof.
move=> hN; rewrite !nb_euler_moments; [|lia|lia]; split=> //.
rewrite /gauss_moment /= !mulr1 !mul1r; split.
  move/addrI/eqP; rewrite -{1}[dispersion x ^+ 2]mulr1 -subr_eq0 -mulrBr mulf_eq0 expf_eq0 /= subr_eq0 eq_sym.
  by case/orP => /eqP h; [right|left].
by case=> ->; rewrite ?mulr1 // expr0n mul0r.
Qed.

(* C143, refuted with dt and dispersion of the notebook, whatever the drift and the state *)
Theorem nb_euler_refuted drift x : exists n, (n < 2 * 10)%N /\
  nb_euler_raw drift (fun=> 1) (100%:R^-1) 10 x n != gauss_moment (x + drift x * 100%:R^-1) (1 ^+ 2 * 100%:R^-1) n.
Proof.
exists 2%N; split=> //; apply/eqP => h; have [_ [/(_ h) [e|/eqP]]] := @nb_euler_second_moment drift (fun=> 1) (100%:R^-1) 10 x isT.
  by move/eqP: e; rewrite invr_eq1 (eqr_nat R 100 1).
by rewrite oner_eq0.
Qed.
End Euler.
Print Assumptions nb_euler_moments.
Print Assumptions nb_euler_second_moment.
Print Assumptions nb_euler_refuted.

Section Bearing.
Variable R : rcfType.
Variables (expm chol : forall n, 'M[R]_n -> 'M[R]_n).
(* on nilpotent matrices expm is the finite exponential sum *)
Hypothesis hE : forall n (M : 'M[R]_n), mxpow M n = 0 -> expm M = \sum_(k < n) (k`!)%:R^-1 *: mxpow M k.
Hypothesis cholP : chol_spec chol.

(* C144: the discretised transition *)
Theorem nb_bearing_transition (dt : R) :
  nb_FQ expm dt = (mx2 1 dt 0 1, mx2 (dt ^+ 3 / 3%:R) (dt ^+ 2 / 2%:R) (dt ^+ 2 / 2%:R) dt).
Proof.
rewrite -iwp_discretised /nb_FQ; have hA := iwp_nil R.
have -> : nb_A R = Aiw R by rewrite /nb_A /Aiw; congr mx2.
have -> : nb_B R = Biw R by rewrite /nb_B /Biw; congr mx2.
rewrite /discretise_lti_sde.
have [cA _ cphi _] := nil_lti (Biw R) hA.
have eE n (M : 'M[R]_n) : nilpotent M -> expm (dt *: M) = expm_nil (dt *: M).
  by move=> h; apply: hE; rewrite mxpowZ h scaler0.
by rewrite !eE.
Qed.

(* C144: the simulated step has the transition matrix F and noise of covariance Q *)
Theorem nb_bearing_step (dt : R) : 0 < dt -> exists L : 'M[R]_2,
  L *m L^T = mx2 (dt ^+ 3 / 3%:R) (dt ^+ 2 / 2%:R) (dt ^+ 2 / 2%:R) dt /\
  forall x r, nb_step expm chol dt x r = mx2 1 dt 0 1 *m x + L *m r.
Proof.
move=> t0; exists (chol (nb_FQ expm dt).2); split; last by move=> x r; rewrite /nb_step nb_bearing_transition.
have [|_ _ ->] := cholP (A := (nb_FQ expm dt).2); rewrite nb_bearing_transition //=.
apply: mx2_posdef; first by rewrite divr_gt0 ?exprn_gt0 ?ltr0n.
have -> : dt ^+ 3 / 3%:R * dt - (dt ^+ 2 / 2%:R) ^+ 2 = dt ^+ 4 / 12%:R by field.
by rewrite divr_gt0 ?exprn_gt0 ?ltr0n.
Qed.

(* C144: the conditional central moments and mean are those of the law of the step *)
Theorem nb_bearing_moments (dt : R) (mis : seq (seq nat)) (C : seq R -> seq nat -> R) : all (fun k => size k == 2%N) mis ->
  (forall x, mvn_moments (mx2 1 dt 0 1 *m cvec 2 x) (mx2 (dt ^+ 3 / 3%:R) (dt ^+ 2 / 2%:R) (dt ^+ 2 / 2%:R) dt) (C x)) ->
  (forall x j c, (j < size mis)%N -> nb_cond_central expm dt mis x j c = affine_nd (C x) c [::] (nth [::] mis j)) /\
  (forall x a, (a < 2)%N -> nth 0 (nb_cond_mean expm dt x) a = C x (munit 2 a)).
Proof.
move=> hm hC; rewrite /nb_cond_central /nb_cond_mean nb_bearing_transition /=.
set mc := fun x : 'cV[R]_2 => (mx2 1 dt 0 1 *m x, mx2 (dt ^+ 3 / 3%:R) (dt ^+ 2 / 2%:R) (dt ^+ 2 / 2%:R) dt).
have sy x : ((mc x).2)^T = (mc x).2 by rewrite /= mx2_tr.
have [_ h1 _ h2] := normal_nd_conditional_moments hm sy hC; split=> [x j c hj|x a ha]; first by rewrite -h1.
by have [<- _] := h2 x a ha.
Qed.
End Bearing.
Print Assumptions nb_bearing_transition.
Print Assumptions nb_bearing_step.
Print Assumptions nb_bearing_moments.

(* the hypotheses hold of expm_nil and chol_ref *)
Example nb_bearing_ex (R : rcfType) : exists L : 'M[R]_2,
  L *m L^T = mx2 (3%:R^-1) (2%:R^-1) (2%:R^-1) 1 /\
  forall x r, nb_step (@expm_nil R) (@chol_ref R) 1 x r = mx2 1 1 0 1 *m x + L *m r.
Proof.
have [L [h1 h2]] := @nb_bearing_step R _ _ (fun n M _ => erefl) (@chol_ref_spec R) 1 ltr01.
by exists L; rewrite h1 !expr1n !mul1r.
Qed.
