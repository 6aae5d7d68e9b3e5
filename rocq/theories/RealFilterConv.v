(* A hidden Markov model on [0, 1] over the real numbers that meets the hypotheses of C109: the initial
   law is uniform, the next state is the present one or a uniform one with equal probabilities, the
   likelihood of y is 1 + (y x)^2. *)
From Coq Require Import Reals FunctionalExtensionality Lra.
From mathcomp Require Import all_ssreflect all_algebra polyrcf ring.
From Verif Require Import Prelude LinAlgSpec LdlProofs SpectralProofs QuadModel Filter1DModel SsModel SsProofs
  LawSpec LawProofs FilterConv FilterConvProps.
From Verif Require Import RealField RealWitness RealInt.
Set Implicit Arguments.
Unset Strict Implicit.
Unset Printing Implicit Defensive.
Import Order.TTheory GRing.Theory Num.Theory.
Local Open Scope ring_scope.
Local Notation RR := R_rcfType.

Lemma itv01 (x : RR) : itv 0 1 x -> Rle R0 x /\ Rle x R1.
Proof. by move=> /andP [/RleE h1 /RleE h2]. Qed.
Lemma itv01' (x : RR) : Rle R0 x /\ Rle x R1 -> itv 0 1 x.
Proof. by move=> [h1 h2]; apply/andP; split; apply/RleE. Qed.

Lemma approx_integrable (f : RR -> RR) : approx 0 1 f -> integrable f.
Proof.
move=> h; apply: integrable_limit => e /RltE /h [p hp]; exists (fun x => p.[x]); split; first exact: R_poly_continuous.
by move=> x /itv01' /hp /RleE.
Qed.

Definition unif (f : RR -> RR) : RR := integral f.
Lemma unif_law : is_law (itv 0 1) (approx 0 1) unif.
Proof.
split.
- exact: approx_poly. - exact: approx_mod. - exact: approx_comb.
- by move=> c f g /approx_integrable hf /approx_integrable hg; exact: integral_lin.
- move=> f g /approx_integrable hf /approx_integrable hg h; apply/RleE; apply: integral_mono => // x /itv01' /h.
  by move=> /RleE.
- exact: integral_const.
Qed.

Lemma unif_nondegenerate : nondegenerate unif.
Proof.
move=> p p0; apply/RltE; pose d := next_root p (0 : RR) 1.
have d0 : 0 < d by apply: next_root_gt => //; exact: ltr01.
have d1 : d <= 1 by have := next_root_in p (0 : RR) 1; rewrite (max_l ler01) => /andP [].
apply: (integral_pos _ R0 d).
- by move=> x; have := R_poly_continuous (p ^+ 2) x; 
  rewrite (_ : (fun z : R => (p ^+ 2).[z]) = (fun z => p.[z] ^+ 2)) //; apply: functional_extensionality => z;
  rewrite horner_exp.
- by move=> x _; apply/RleE; rewrite sqr_ge0.
- by split; [apply/RleE; exact: lexx|apply/RltE].
- by apply/RleE.
- move=> x [/RltE x0 /RltE xd]; apply/RltE; rewrite lt_def sqr_ge0 andbT sqrf_eq0.
  by apply: (next_noroot (p := p) (a := 0) (b := 1)); rewrite in_itv /= x0 xd.
Qed.

(* stay or move to a uniform state *)
Definition jump (x : RR) (f : RR -> RR) : RR := 2%:R^-1 * f (clamp x) + 2%:R^-1 * unif f.
Lemma half0 : (0 : RR) < 2%:R^-1. Proof. by rewrite invr_gt0 ltr0n. Qed.
Lemma jump_law x : is_law (itv 0 1) (approx 0 1) (jump x).
Proof.
have hc := itv01' (clamp_in x); have hu := unif_law; split.
- exact: approx_poly. - exact: approx_mod. - exact: approx_comb.
- move=> c f g hf hg; rewrite /jump (law_lin hu) // !mulrDr !mulrA.
  by rewrite [2%:R^-1 * c]mulrC addrACA.
- move=> f g hf hg h; rewrite /jump ler_add // ler_pmul2l ?half0 //; [exact: h|exact: (law_mono hu)].
- rewrite /jump (law_one hu) mulr1 -mulr2n -mulr_natl mulfV // pnatr_eq0 //.
Qed.
Lemma jump_ge x f : 0 <= f (clamp x) -> 2%:R^-1 * unif f <= jump x f.
Proof. by move=> h; rewrite /jump ler_addr mulr_ge0 // ltW // half0. Qed.
Lemma jump_nondegenerate x : nondegenerate (jump x).
Proof.
move=> p p0; apply: lt_le_trans (jump_ge _); last by rewrite sqr_ge0.
by rewrite mulr_gt0 ?half0 //; exact: unif_nondegenerate.
Qed.
Lemma jump_feller f : approx 0 1 f -> approx 0 1 (fun x => jump x f).
Proof.
move=> hf; have hl := unif_law.
have h := law_comb hl 2%:R^-1 hf (law_const hl (2%:R^-1 * unif f)).
apply: (approx_mod h) => x hx; by rewrite /jump clamp_id //; exact: itv01.
Qed.

Definition lik (y x : RR) : RR := 1 + (y * x) ^+ 2.
Lemma lik_ge1 y x : 1 <= lik y x. Proof. by rewrite /lik ler_addl sqr_ge0. Qed.
Lemma lik_approx y : approx 0 1 (lik y).
Proof.
apply: (approx_mod (approx_poly 0 1 (1 + (y%:P * 'X) ^+ 2))) => x _.
by rewrite hornerD hornerC horner_exp hornerM hornerC hornerX.
Qed.

Lemma jump_model : compact_model 0 1 jump lik unif.
Proof.
split=> [|x _|f|y]; [split|split| |split].
- exact: unif_law. - exact: unif_nondegenerate. - exact: jump_law. - exact: jump_nondegenerate.
- exact: jump_feller. - exact: lik_approx.
by exists 1 => [|x _]; [exact: ltr01|exact: lik_ge1].
Qed.

Lemma approx_lin c k : approx (0 : RR) 1 (fun x => (x - c) ^+ k).
Proof.
by apply: (approx_mod (approx_poly 0 1 (('X - c%:P) ^+ k))) => x _; rewrite horner_exp hornerXsubC.
Qed.
Lemma jump_variance : exists2 v, 0 < v & forall x c, itv 0 1 x -> v <= jump x (fun z => (z - c) ^+ 2).
Proof.
have hu := unif_law; set m := unif (fun z => z).
exists (2%:R^-1 * unif (fun z => (z - m) ^+ 2)).
  rewrite mulr_gt0 ?half0 //; have := unif_nondegenerate (negbT (polyXsubC_eq0 m)).
  rewrite -(law_eq hu (approx_lin m 2)) // => x _; by rewrite hornerXsubC.
move=> x c _; apply: le_trans (jump_ge _); last by rewrite sqr_ge0.
rewrite ler_pmul2l ?half0 //.
have e0 : unif (fun z => (z - m) ^+ 1) = 0.
  have [_ e] := law_sub hu (approx_lin 0 1) (law_const hu m).
  have em : unif (fun x => (x - 0) ^+ 1) = m.
    by apply: (law_eq hu (approx_lin 0 1)) => z _; rewrite expr1 subr0.
  rewrite (law_constE hu) em subrr in e; rewrite -e; apply: (law_eq hu (approx_lin m 1)) => z _.
  by rewrite !expr1 subr0.
have e1 := law_lin hu (2%:R * (m - c)) (approx_lin m 1) (approx_lin m 2).
rewrite e0 mulr0 add0r in e1; rewrite -e1; apply: (law_mono hu _ (approx_lin c 2)) => [|z _].
  by apply: (law_comb hu); exact: approx_lin.
rewrite expr1 -subr_ge0.
have -> : (z - c) ^+ 2 - (2%:R * (m - c) * (z - m) + (z - m) ^+ 2) = (m - c) ^+ 2 by ring.
exact: sqr_ge0.
Qed.

(* C109 for this model: all three filters converge for every sequence of measurements. *)
Example jump_filters_converge (st : bool) (ys : seq RR) :
  let lnr : RR -> RR := ln in
  (exists rmss nell,
    [/\ forall n, (0 < n)%N -> moment_filter_rms (@chol_ref RR) (@eigh_ref RR) lnr (fun x k => jump x (fun z => z ^+ k)) lik st
          (law_moments unif n.*2) ys = Some (rmss n, nell n),
        forall t k, (t < size ys)%N -> converges (fun n => (nth [::] (rmss n) t)`_k)
          (nth (fun=> 0) (bayes_posteriors jump lik unif ys) t (fun x => x ^+ k))
      & converges nell (- \sum_(x <- bayes_likelihoods jump lik unif ys) lnr x)]) /\
  (exists out nell,
    [/\ forall n, (1 < n)%N -> moment_filter_scms (@chol_ref RR) (@eigh_ref RR) lnr
          (fun x k c r => jump x (fun z => ((z - c) / r) ^+ k)) (fun x => (jump x (fun z => z), 1)) lik st
          [seq unif (fun x => ((x - unif (fun z => z)) / 1) ^+ k) | k <- iota 0 n.*2] (unif (fun z => z)) 1 ys
          = Some (out n, nell n),
        forall t, (t < size ys)%N -> converges (fun n => (nth ([::], 0, 0) (out n) t).1.2)
          (nth (fun=> 0) (bayes_posteriors jump lik unif ys) t (fun x => x))
      & converges nell (- \sum_(x <- bayes_likelihoods jump lik unif ys) lnr x)]).
Proof.
move=> lnr; have hc := @chol_ref_spec RR; have he := @eigh_ref_spec RR.
split.
  exact: (raw_filter_converges st ys hc he real_exp_spec real_log_spec jump_model).
have [v v0 hv] := jump_variance.
have g0 y x : 0 < lik y x by apply: lt_le_trans (lik_ge1 y x); exact: ltr01.
have [out [nell [h1 h2 h3]]] := @scaled_filter_converges RR (@chol_ref RR) (@eigh_ref RR) _ _ _ 0 1 jump lik
  (fun x k c r => jump x (fun z => ((z - c) / r) ^+ k)) (fun x => (jump x (fun z => z), 1)) st unif 1 v ys hc he
  real_exp_spec real_log_spec jump_model (fun x => conj (jump_law x) (jump_nondegenerate x)) g0 v0 hv
  (fun _ _ _ _ _ => erefl) (fun _ => conj erefl ltr01) ltr01.
by exists out, nell; split=> // t /h2 [].
Qed.
Print Assumptions jump_filters_converge.
