(* Legendre expansion off [-1, 1], saddle equation, truncated cumulant function. *)
From mathcomp Require Import all_ssreflect all_algebra.
From mathcomp Require Import ring zify.
From Verif Require Import Prelude Egf QuadSpec QuadProofs Moments1DModel Moments1DSpec Moments1DProofs Moments1DConv.
From Verif Require Import PdfModel PdfSpec HermiteProofs LegendreProofs.
Set Implicit Arguments.
Unset Strict Implicit.
Unset Printing Implicit Defensive.
Import Order.TTheory GRing.Theory Num.Theory.
Local Open Scope ring_scope.

Section Leg.
Variable R : rcfType.

Lemma leg_first (a b r : R) : a < b ->
  poly_integral a b ('X^1 * leg_pdf_poly [:: 1; r] a b) = (b - a) / 2%:R * r + (a + b) / 2%:R.
Proof.
move=> hab; have h0 : b - a != 0 by rewrite gt_eqF // subr_gt0.
have /= e0 := @leg_pdf_scaled R [:: 1; r] a b 0 hab isT.
have /= e1 := @leg_pdf_scaled R [:: 1; r] a b 1 hab isT.
rewrite expr0 mul1r in e0; rewrite expr1 in e1 *.
move: e0 e1; move: (leg_pdf_poly _ _ _) => D e0.
rewrite mulrDl mul_polyC -scalerAl LD !LZ e0 mulr1 => <-.
by move: (poly_integral _ _ _) => z; field.
Qed.

Lemma legendre_off_interval (a b : R) : a < b -> (a != -1) || (b != 1) ->
  exists r : R, poly_integral a b ('X^1 * leg_pdf_poly [:: 1; r] a b) != r.
Proof.
move=> hab hne; case: (eqVneq (a + b) 0) => hs; last first.
  exists 0; rewrite leg_first // mulr0 add0r mulf_neq0 // invr_eq0 pnatr_eq0.
  by [].
exists 1; rewrite leg_first // hs mul0r addr0 mulr1; apply: contraTneq hne => h.
have h2 : (2%:R : R) != 0 by rewrite pnatr_eq0.
have hb : b = 1 by rewrite -h -[a](addrK b) hs sub0r; field.
have ha : a = -1 by rewrite -[a](addrK b) hs sub0r hb.
by rewrite ha hb !eqxx.
Qed.
End Leg.

Section Saddle.
Variable R : rcfType.
Implicit Types (sms : seq R).

(* the polynomial with highest-first coefficients c *)
Definition hpoly (c : seq R) : {poly R} := Poly (rev c).

Lemma coef_hpoly c i : (hpoly c)`_i = if (i < size c)%N then c`_(size c - i.+1) else 0.
Proof.
rewrite /hpoly coef_Poly; case: ltnP => h; first by rewrite nth_rev.
by rewrite nth_default // size_rev.
Qed.

Lemma hpoly_sms sms : hpoly (sms_poly sms) = moment_poly sms.
Proof.
apply/polyP => i; rewrite /hpoly /sms_poly revK coef_Poly coef_poly.
case: ltnP => h; last by rewrite nth_default // size_map size_iota.
by rewrite nth_iota_map // jget_nth.
Qed.

Lemma hpoly_scale c a : hpoly [seq a * x | x <- c] = a *: hpoly c.
Proof.
apply/polyP => i; rewrite coefZ !coef_hpoly size_map; case: ltnP => h; last by rewrite mulr0.
by rewrite (nth_map 0) // ltn_subrL (leq_trans _ h).
Qed.

Lemma hpoly_der c : hpoly (polyder c) = (hpoly c)^`().
Proof.
apply/polyP => i; rewrite coef_deriv !coef_hpoly /polyder size_map size_iota.
have -> : (i < size c - 1)%N = (i.+1 < size c)%N by lia.
case: ltnP => h; last by rewrite mul0rn.
rewrite nth_iota_map; last by lia.
have -> : (size c - 1 - (size c - 1 - i.+1) = i.+1)%N by lia.
have -> : (size c - 1 - i.+1 = size c - i.+2)%N by lia.
by rewrite mulr_natl.
Qed.

Lemma hpoly_add c d : hpoly (polyadd c d) = hpoly c + hpoly d.
Proof.
apply/polyP => i; rewrite coefD !coef_hpoly /polyadd.
set n := maxn _ _.
have sz s : (size s <= n)%N -> size (nseq (n - size s) 0 ++ s : seq R) = n.
  by move=> h; rewrite size_cat size_nseq subnK.
have hc : (size c <= n)%N by rewrite leq_maxl.
have hd : (size d <= n)%N by rewrite leq_maxr.
rewrite size_map size_zip !sz // minnn; case: ltnP => h; last first.
  by rewrite !ifF ?addr0 //; apply/negP; lia.
rewrite (nth_map (0, 0)); last by rewrite size_zip !sz // minnn; lia.
rewrite nth_zip ?sz //=.
have nn s : (size s <= n)%N -> (nseq (n - size s) 0 ++ s : seq R)`_(n - i.+1) = if (i < size s)%N then s`_(size s - i.+1) else 0.
  move=> hs; rewrite nth_cat size_nseq; case: (ltnP i (size s)) => hi.
    rewrite ifF; last by apply/negP; lia.
    by congr (s`_ _); lia.
  by rewrite ifT ?nth_nseq ?if_same //; lia.
by rewrite !nn.
Qed.

Lemma saddle_polyE sms mean scale x :
  hpoly (saddle_equation_poly sms mean scale x) =
  (mean - x) *: moment_poly sms + scale *: (moment_poly sms)^`().
Proof. by rewrite hpoly_add !hpoly_scale hpoly_der hpoly_sms. Qed.

(* the saddle points are the roots of saddle_equation_poly where the truncated
   moment-generating function does not vanish *)
Lemma saddle_roots sms mean scale x s : (moment_poly sms).[s * scale] != 0 ->
  is_saddle sms mean scale x s <-> root (hpoly (saddle_equation_poly sms mean scale x)) (s * scale).
Proof.
move=> h; rewrite /is_saddle rootE saddle_polyE hornerD !hornerZ.
move: h; move: ((moment_poly sms).[_]) ((moment_poly sms)^`().[_]) => p q h; split.
  by case=> _ <-; apply/eqP; field.
by move/eqP => e; split=> //; apply/eqP; rewrite -subr_eq0; apply/eqP; apply: (mulIf h); rewrite mul0r -e; field.
Qed.

Lemma saddle_witness : let sms : seq R := [:: 1; 0; 1; 0] in
  saddle_s sms 0 1 (1 / 2%:R) = 0.
Proof.
rewrite /=; have e : saddle_equation_poly ([:: 1; 0; 1; 0] : seq R) 0 1 (1 / 2%:R) = [:: 0; - 1 / 4%:R; 1; - 1 / 2%:R].
  have f3 : 3`! = 6%N by []. have f2 : 2`! = 2%N by []. have f1 : 1`! = 1%N by []. have f0 : 0`! = 1%N by [].
  rewrite /saddle_equation_poly /sms_poly /= /jget /= /polyadd /polyder /= f0 f1 f2 f3.
  rewrite -[(4 - 1 - 0)%N]/3%N -[(4 - 1 - 1)%N]/2%N -[(4 - 1 - 2)%N]/1%N.
  by congr [:: _; _; _; _]; field.
rewrite /saddle_s e /find_nearest_real_root /=.
have -> : (1 / 2%:R - 0) / 1 ^+ 2 = 1 / 2%:R :> R by field.
have -> : 0 - 1 / 2%:R = - (1 / 2%:R) :> R by field.
have -> : - 1 / 4%:R - 1 / 2%:R = - (3%:R / 4%:R) :> R by field.
have -> : 1 - 1 / 2%:R = 1 / 2%:R :> R by field.
have -> : - 1 / 2%:R - 1 / 2%:R = - 1 :> R by field.
have n1 : `|1 / 2%:R| = 1 / 2%:R :> R by rewrite ger0_norm // divr_ge0 ?ler01 ?ler0n.
have n2 : `|3%:R / 4%:R| = 3%:R / 4%:R :> R by rewrite ger0_norm // divr_ge0 ?ler01 ?ler0n.
rewrite !normrN normr1 n1 n2.
have h1 : (3%:R / 4%:R < 1 / 2%:R :> R) = false.
  apply: negbTE; rewrite -leNgt -subr_ge0 (_ : _ - _ = 1 / 4%:R); last by field.
  by rewrite divr_ge0 ?ler01 ?ler0n.
have h2 : (1 < 1 / 2%:R :> R) = false.
  apply: negbTE; rewrite -leNgt -subr_ge0 (_ : _ - _ = 1 / 2%:R); last by field.
  by rewrite divr_ge0 ?ler01 ?ler0n.
by rewrite h1 ltxx h2 /jget /= mul0r.
Qed.

Lemma saddle_witness_poly u : (moment_poly ([:: 1; 0; 1; 0] : seq R)).[u] = 1 + u ^+ 2 / 2%:R.
Proof.
rewrite horner_poly !big_ord_recr big_ord0 /= (_ : 3`! = 6%N) // (_ : 2`! = 2%N) // (_ : 1`! = 1%N) // fact0.
by field.
Qed.
Lemma saddle_witness_der u : (moment_poly ([:: 1; 0; 1; 0] : seq R))^`().[u] = u.
Proof.
have -> : moment_poly ([:: 1; 0; 1; 0] : seq R) = 1%:P + (2%:R)^-1 *: 'X^2.
  by apply: poly_ext => x; rewrite saddle_witness_poly hornerD hornerC hornerZ hornerXn; field.
by rewrite derivD derivC add0r derivZ derivXn /= hornerZ hornerMn hornerXn expr1 -mulr_natr; field.
Qed.

Lemma saddle_wrong :
  let sms : seq R := [:: 1; 0; 1; 0] in
  [/\ ~ is_saddle sms 0 1 (1 / 2%:R) (saddle_s sms 0 1 (1 / 2%:R))
    & is_saddle sms 0 1 (1 / 2%:R) (2%:R - Num.sqrt 2%:R)].
Proof.
rewrite /= saddle_witness /is_saddle !saddle_witness_poly !saddle_witness_der; split.
  case=> _; rewrite !mul0r mulr0 mul0r addr0 => /eqP.
  by rewrite eq_sym mul1r invr_eq0 pnatr_eq0.
have h := sqr_sqrtr (ler0n R 2).
have hp : 1 + ((2%:R - Num.sqrt 2%:R) * 1) ^+ 2 / 2%:R != 0 :> R.
  by rewrite gt_eqF // ltr_paddr ?ltr01 // divr_ge0 ?sqr_ge0 ?ler0n.
split=> //; rewrite add0r; apply: (mulIf hp); rewrite divfK //.
move: h; move: (Num.sqrt _) => q h.
have -> : 1 / 2%:R * (1 + ((2%:R - q) * 1) ^+ 2 / 2%:R) = 1 / 2%:R * (3%:R + q ^+ 2 / 2%:R - 2%:R * q) :> R by field.
by rewrite h; field.
Qed.

(* ---------- truncated cumulant-generating function ---------- *)
Lemma cgf_repr (log : R -> R) (z : R) sms mean scale :
  truncated_cgf log z (scaled_to_central sms scale) mean 1 = truncated_cgf log z sms mean scale.
Proof.
rewrite /truncated_cgf size_scaled_to_central !jsum_iota; congr (_ + log _); apply: eq_bigr => n _.
rewrite !jget_nth ?size_scaled_to_central // scaled_to_centralE // mulr1 exprMn mulrA.
by rewrite mulrAC; congr (_ * _); rewrite mulrAC.
Qed.

Lemma cgf_eval (log : R -> R) (z : R) sms mean scale :
  truncated_cgf log z sms mean scale = z * mean + log (moment_poly sms).[z * scale].
Proof.
rewrite /truncated_cgf jsum_iota horner_poly; congr (_ + log _); apply: eq_bigr => n _.
by rewrite jget_nth // mulrC mulrA mulrAC.
Qed.
End Saddle.
