(* Properties C23 - C26 and C57: Hermite polynomials and density approximations. *)
From mathcomp Require Import all_ssreflect all_algebra.
From mathcomp Require Import ring.
From Verif Require Import Prelude QuadSpec Moments1DModel Moments1DSpec Moments1DConv BellProofs.
From Verif Require Import PdfModel PdfSpec HermiteProofs LegendreProofs SaddleProofs GramCharlier.
Set Implicit Arguments.
Unset Strict Implicit.
Unset Printing Implicit Defensive.
Import Order.TTheory GRing.Theory Num.Theory.
Local Open Scope ring_scope.

Section Props.
Variable R : rcfType.

(* C23 *)
Theorem hermite_recurrence (S : ringType) (x : S) (n : nat) :
  hermite_probabilist n.+2 x = x * hermite_probabilist n.+1 x - n.+1%:R * hermite_probabilist n x.
Proof. exact: hermite_rec. Qed.

Theorem hermite_monic (n : nat) :
  [/\ forall x : R, hermite_probabilist n x = (hermite_probabilist n ('X : {poly R})).[x],
      size (hermite_probabilist n ('X : {poly R})) = n.+1
    & lead_coef (hermite_probabilist n ('X : {poly R})) = 1].
Proof. by have [h1 h2] := @hermite_size R n; exact: (And3 (fun x => esym (hermite_horner n x)) h1 h2). Qed.

Theorem hermite_orthogonal (n m : nat) :
  mom_functional (gauss_moment (0 : R) 1)
    (hermite_probabilist n ('X : {poly R}) * hermite_probabilist m ('X : {poly R}))
  = if n == m then (n`!)%:R else 0.
Proof. exact: hermite_orth. Qed.

Theorem hermite_derivative (n : nat) :
  (hermite_probabilist n.+1 ('X : {poly R}))^`() = n.+1%:R * hermite_probabilist n ('X : {poly R}).
Proof. exact: hermite_deriv. Qed.

Example hermite_ex (x : R) : hermite_probabilist 3 x = x ^+ 3 - 3%:R * x.
Proof. by rewrite /=; ring. Qed.

(* C24: the factor multiplying the Gaussian base is a polynomial, and integrating x^n
   against base times factor gives the n-th moment. *)
Theorem gram_charlier_matches_moments (ks : seq R) (m : nat -> R) :
  (1 < size ks)%N -> 0 < ks`_1 -> m 0%N = 1 ->
  is_cumulants m (fun j => ks`_j.-1) (size ks) ->
  exists2 q : {poly R}, forall x, gc_series ks x = q.[x]
   & forall n, (n <= size ks)%N ->
     mom_functional (gauss_moment ks`_0 ks`_1) ('X^n * q) = m n.
Proof.
move=> h1 h2 h3 h4; exists (gc_poly ks); first by move=> x; exact: gc_seriesE.
by move=> n; exact: gc_match.
Qed.

(* End to end, from scaled moments: raw moments of mean + scale X. *)
Theorem gram_charlier_from_moments (sms : seq R) (mean scale : R) :
  (2 < size sms)%N -> sms`_0 = 1 -> sms`_1 = 0 ->
  0 < (sms_to_cumulants sms mean scale)`_1 ->
  let ks := sms_to_cumulants sms mean scale in
  exists2 q : {poly R}, forall x, gc_series ks x = q.[x]
   & forall n, (n < size sms)%N ->
     mom_functional (gauss_moment ks`_0 ks`_1) ('X^n * q)
     = mom_functional (nth 0 sms) ((mean%:P + scale *: 'X) ^+ n).
Proof.
move=> hs h0 h1 hv ks; have sk : size ks = (size sms).-1 by rewrite size_map size_iota.
have [||||q hq hm] := @gram_charlier_matches_moments ks
   (fun n => mom_functional (nth 0 sms) ((mean%:P + scale *: 'X) ^+ n)).
- by rewrite sk; case: (sms) hs => [|? []].
- exact: hv.
- by rewrite expr0 -(expr0 'X) QuadProofs.momXn.
- by rewrite sk; exact: cumulants_scaled.
exists q => // n hn; apply: hm; rewrite sk -ltnS prednK //; exact: leq_ltn_trans hn.
Qed.

(* The approximation is the normal density of the first two cumulants times that factor; when the cumulants of order
   three and more vanish it is the normal density itself. *)
Theorem gram_charlier_base (exp : R -> R) (pi : R) (ks : seq R) (x : R) : (1 < size ks)%N ->
  gram_charlier exp pi ks x =
  exp (- (x - ks`_0) ^+ 2 / (2%:R * ks`_1)) / Num.sqrt (2%:R * pi * ks`_1) * gc_series ks x.
Proof. exact: gc_form. Qed.

Theorem gram_charlier_normal (exp : R -> R) (pi : R) (ks : seq R) (x : R) : (1 < size ks)%N ->
  (forall j, (1 < j)%N -> ks`_j = 0) ->
  gram_charlier exp pi ks x = exp (- (x - ks`_0) ^+ 2 / (2%:R * ks`_1)) / Num.sqrt (2%:R * pi * ks`_1).
Proof. by move=> h h0; rewrite gc_form // gc_series_normal // mulr1. Qed.

(* C123: the approximation is a density, hence non-negative.  False: for an odd number of cumulants, as documented
   (2 n - 1), it takes negative values as soon as its coefficient of highest order does not vanish. *)
Theorem gram_charlier_negative (exp : R -> R) (pi : R) (ks : seq R) :
  (forall x, 0 < exp x) -> 0 < pi -> (1 < size ks)%N -> 0 < ks`_1 -> odd (size ks) ->
  complete_bell (size ks) ([:: 0; 0] ++ drop 2 ks) != 0 -> exists x, gram_charlier exp pi ks x < 0.
Proof.
move=> e0 p0 s1 v0 ho hb; have [x hx] := gc_onto s1 v0 hb (-1) ho.
exists x; rewrite gc_form // hx mulrN1 oppr_lt0 divr_gt0 ?e0 // sqrtr_gt0 !mulr_gt0 ?ltr0n //.
Qed.

Theorem gram_charlier_skewed_negative (exp : R -> R) (pi m v k3 : R) :
  (forall x, 0 < exp x) -> 0 < pi -> 0 < v -> k3 != 0 -> exists x, gram_charlier exp pi [:: m; v; k3] x < 0.
Proof.
move=> e0 p0 v0 k0; apply: gram_charlier_negative => //=.
rewrite complete_bell_rec // !big_ord_recl big_ord0 /= !mulr0 !add0r addr0 subnn binn.
by rewrite /complete_bell /= !mul1r.
Qed.

Theorem gram_charlier_nonnegative_refuted (exp : R -> R) (pi : R) : (forall x, 0 < exp x) -> 0 < pi ->
  exists ks : seq R, [/\ (1 < size ks)%N, 0 < ks`_1 & exists x, gram_charlier exp pi ks x < 0].
Proof.
move=> e0 p0; exists [:: 0; 1; 1]; split=> //=; first exact: ltr01.
by apply: gram_charlier_skewed_negative; rewrite ?ltr01 ?oner_eq0.
Qed.

Example gram_charlier_ex : 0 < (sms_to_cumulants ([:: 1; 0; 1; 2%:R] : seq R) 3%:R 2%:R)`_1.
Proof.
rewrite /= /nth_cumulant /= /jget /= !mul1r !mul0r !mulr1 !addr0.
by rewrite mulr0 addr0 add0r exprn_gt0 // ltr0n.
Qed.

(* C25: on the default interval the moments are matched ... *)
Theorem legendre_expansion_default (rms : seq R) :
  exists2 p : {poly R}, forall x, legendre_poly_expansion rms (-1) 1 x = p.[x]
   & forall k, (k < size rms)%N -> poly_integral (-1) 1 ('X^k * p) = rms`_k.
Proof.
exists (leg_pdf_poly rms (-1) 1); first by move=> x; exact: leg_pdfE.
by move=> k; exact: leg_pdf_default.
Qed.

(* ... in general the given numbers are matched by the moments of the variable mapped
   to [-1, 1]. *)
Theorem legendre_expansion_partial (rms : seq R) (a b : R) : a < b ->
  exists2 p : {poly R}, forall x, legendre_poly_expansion rms a b x = p.[x]
   & forall k, (k < size rms)%N ->
     poly_integral a b (((- (a + b) / (b - a))%:P + (2%:R / (b - a)) *: 'X) ^+ k * p) = rms`_k.
Proof.
move=> hab; exists (leg_pdf_poly rms a b); first by move=> x; exact: leg_pdfE.
by move=> k; exact: leg_pdf_scaled.
Qed.

(* The full statement fails on every other interval ... *)
Theorem legendre_expansion_wrong_elsewhere (a b : R) : a < b -> (a != -1) || (b != 1) ->
  exists (rms : seq R) (p : {poly R}) (k : nat),
  [/\ forall x, legendre_poly_expansion rms a b x = p.[x], (k < size rms)%N
    & poly_integral a b ('X^k * p) <> rms`_k].
Proof.
move=> hab hne; have [r hr] := legendre_off_interval hab hne.
exists [:: 1; r], (leg_pdf_poly [:: 1; r] a b), 1%N; split=> //; first by move=> x; exact: leg_pdfE.
exact/eqP.
Qed.

(* ... for instance with the moments 1, 1/2 of the uniform law on [0, 1]. *)
Theorem legendre_expansion_refuted :
  exists (rms : seq R) (a b : R) (p : {poly R}) (k : nat),
  [/\ a < b, forall x, legendre_poly_expansion rms a b x = p.[x],
      forall j, (j < size rms)%N -> rms`_j = poly_integral a b 'X^j / (b - a), (k < size rms)%N
    & poly_integral a b ('X^k * p) <> rms`_k].
Proof.
exists [:: 1; 1 / 2%:R], 0, 1, (leg_pdf_poly [:: 1; 1 / 2%:R] 0 1), 1%N; split=> //.
- exact: ltr01.
- by move=> x; exact: leg_pdfE.
- move=> j hj; rewrite /poly_integral size_polyXn big_ord_recr /= big1 => [|i _].
    rewrite coefXn eqxx add0r subr0 divr1 !mul1r expr1n expr0n /= subr0.
    by case: j hj => [|[|j]] //= _; rewrite ?invr1 ?mul1r.
  by rewrite coefXn ltn_eqF // mul0r.
rewrite leg_first ?ltr01 //= subr0 add0r => /eqP.
rewrite -subr_eq0 (_ : _ - _ = 1 / 4%:R); last by field.
by rewrite mul1r invr_eq0 pnatr_eq0.
Qed.

(* C26: the polynomial set up for the saddle equation is the right one ... *)
Theorem saddle_equation_partial (sms : seq R) (mean scale x s : R) :
  (moment_poly sms).[s * scale] != 0 ->
  is_saddle sms mean scale x s <->
  root (Poly (rev (saddle_equation_poly sms mean scale x))) (s * scale).
Proof. exact: saddle_roots. Qed.

(* ... but its coefficients are used as if they were its roots. *)
Theorem saddle_point_refuted :
  exists (sms : seq R) (mean scale x : R),
  [/\ 0 < scale, exists s, is_saddle sms mean scale x s
    & ~ is_saddle sms mean scale x (saddle_s sms mean scale x)].
Proof.
have [h1 h2] := @saddle_wrong R.
by exists [:: 1; 0; 1; 0], 0, 1, (1 / 2%:R); split; [exact: ltr01|exists (2%:R - Num.sqrt 2%:R)|].
Qed.

Example saddle_ex : (moment_poly ([:: 1; 0; 1; 0] : seq R)).[1 * 1] != 0.
Proof. by rewrite saddle_witness_poly mulr1 expr1n gt_eqF // addr_gt0 ?ltr01 // divr_gt0 ?ltr0n ?ltr01. Qed.

(* C57 *)
Theorem truncated_cgf_representation (log : R -> R) (z : R) (sms : seq R) (mean scale : R) :
  truncated_cgf log z (scaled_to_central sms scale) mean 1 = truncated_cgf log z sms mean scale.
Proof. exact: cgf_repr. Qed.

Theorem truncated_cgf_value (log : R -> R) (z : R) (sms : seq R) (mean scale : R) :
  truncated_cgf log z sms mean scale = z * mean + log (moment_poly sms).[z * scale].
Proof. exact: cgf_eval. Qed.

Example truncated_cgf_ex (log : R -> R) : truncated_cgf log 1 [:: 1; 0; 1] 2%:R 2%:R = 2%:R + log 3%:R.
Proof.
rewrite truncated_cgf_value mul1r; congr (_ + log _); rewrite horner_poly !big_ord_recr big_ord0 /=.
by rewrite (_ : 2`! = 2%N) // (_ : 1`! = 1%N) // fact0; field.
Qed.
End Props.

Print Assumptions hermite_recurrence.
Print Assumptions hermite_monic.
Print Assumptions hermite_orthogonal.
Print Assumptions hermite_derivative.
Print Assumptions gram_charlier_matches_moments.
Print Assumptions gram_charlier_from_moments.
Print Assumptions gram_charlier_base.
Print Assumptions gram_charlier_normal.
Print Assumptions gram_charlier_negative.
Print Assumptions gram_charlier_skewed_negative.
Print Assumptions gram_charlier_nonnegative_refuted.
Print Assumptions legendre_expansion_default.
Print Assumptions legendre_expansion_partial.
Print Assumptions legendre_expansion_wrong_elsewhere.
Print Assumptions legendre_expansion_refuted.
Print Assumptions saddle_equation_partial.
Print Assumptions saddle_point_refuted.
Print Assumptions truncated_cgf_representation.
Print Assumptions truncated_cgf_value.
