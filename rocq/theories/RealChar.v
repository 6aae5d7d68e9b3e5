(* The characteristic function of the normal law, with integrals over the reals: lemmas. *)
From Coq Require Import Reals.
From mathcomp Require Import all_ssreflect all_algebra ring complex.
From Verif Require Import Prelude QuadSpec QuadProofs Moments1DModel Moments1DSpec Moments1DConv Moments1DProofs.
From Verif Require Import FourierProofs LawSpec RealField RealSeries RealWitness RealExpLim RealGauss RealNormal DardelModel.
Set Implicit Arguments.
Unset Strict Implicit.
Unset Printing Implicit Defensive.
Import Order.TTheory GRing.Theory Num.Theory.
Local Open Scope ring_scope.
Arguments line_integral _ _ : clear scopes.
Arguments gk _ : clear scopes.
Local Notation K := R_rcfType.
Local Notation rexp := (Rtrigo_def.exp : K -> K).
Local Notation rcos := (cos : K -> K).
Local Notation rsin := (sin : K -> K).
Local Notation pi := (PI : K).
Local Notation ii := ('i%C : K[i]).

Section Moments.
Variable F : rcfType.
Variable w : F.
Lemma centred_odd k : gauss_moment 0 w k.*2.+1 = 0.
Proof.
have [h0 h1 h2] := gauss_momentP (0 : F) w.
by elim: k => [|k IH]; rewrite ?h1 // doubleS h2 IH mul0r !mulr0 addr0.
Qed.
Lemma centred_even k : gauss_moment 0 w k.*2 / (k.*2)`!%:R = (w / 2%:R) ^+ k / (k`!)%:R.
Proof.
have [h0 h1 h2] := gauss_momentP (0 : F) w.
elim: k => [|k IH]; first by rewrite h0 fact0 expr0.
rewrite doubleS h2 mul0r add0r !factS !natrM exprS.
have f0 n : (n`!)%:R != 0 :> F by rewrite pnatr_eq0 -lt0n fact_gt0.
have s0 n : n.+1%:R != 0 :> F by rewrite pnatr_eq0.
have -> : gauss_moment 0 w k.*2 = (w / 2%:R) ^+ k / (k`!)%:R * (k.*2)`!%:R by rewrite -IH divfK.
have -> : (k.*2.+2)%:R = 2%:R * k.+1%:R :> F by rewrite -natrM mul2n doubleS.
move: ((w / 2%:R) ^+ k) (f0 k) (f0 k.*2) (s0 k) (s0 k.*2) (s0 1%N).
move: (k`!)%:R (k.*2)`!%:R k.+1%:R k.*2.+1%:R => a b c d e ha hb hc hd h2'.
by field; rewrite ha hb hc hd.
Qed.
End Moments.

Lemma cf_parts (F : rcfType) (z m v : F) :
  0 * (z * m) - 1 * 0 - 1 / 2%:R * z ^+ 2 * v = - (z ^+ 2 * v / 2%:R) /\ 0 * 0 + 1 * (z * m) - 0 = z * m.
Proof. by split; ring. Qed.

Lemma ii_even k : ii ^+ k.*2 = ((-1) ^+ k)%:C%C.
Proof.
rewrite -mul2n exprM; have -> : ii ^+ 2 = (-1)%:C%C by rewrite sqr_i rmorphN1.
by rewrite rmorphX.
Qed.

Section Char.
Variables (m v z : K).
Hypothesis v0 : 0 < v.
Let w := z ^+ 2 * v.
Let tp : {poly K} := (- (z * m))%:P + z *: 'X.

Lemma tp_eval x : tp.[x] = z * (x - m).
Proof. by rewrite /tp hornerD hornerC hornerZ hornerX mulrBr addrC. Qed.

Lemma shifted (p : {poly K}) :
  line_integral (fun x => p.[z * (x - m)] * normal_density m v x) (mom_functional (gauss_moment 0 w) p).
Proof.
have -> : mom_functional (gauss_moment 0 w) p = mom_functional (gauss_moment m v) (p \Po tp).
  rewrite -mom_comp; apply: mom_eq => k _.
  have := gaussian_aff (- (z * m)) z (gauss_momentP m v).
  by rewrite addrC subrr => h; rewrite (gaussian_unique h).
by apply: line_ext (line_normal (p \Po tp) m v0) => x; rewrite horner_comp tp_eval.
Qed.

Lemma mom_taylor (f : nat -> K) n :
  mom_functional (gauss_moment 0 w) (\sum_(k < n) (f k / (k`!)%:R) *: 'X^k) =
  \sum_(k < n) f k * (gauss_moment 0 w k / (k`!)%:R).
Proof.
elim: n => [|n IH]; first by rewrite !big_ord0 mom0.
by rewrite !big_ord_recr /= momD IH momZ momXn mulrAC mulrA.
Qed.

Lemma re_sum n : mom_functional (gauss_moment 0 w) (rePoly n.*2) = \sum_(k < n) (- (w / 2%:R)) ^+ k / (k`!)%:R.
Proof.
rewrite /rePoly (mom_taylor (fun k => complex.Re (ii ^+ k))).
elim: n => [|n IH]; first by rewrite !big_ord0.
rewrite doubleS !big_ord_recr /= IH centred_odd mul0r mulr0 addr0; congr (_ + _).
by rewrite ii_even /= centred_even mulrA -exprMn mulN1r.
Qed.

Lemma im_sum n : mom_functional (gauss_moment 0 w) (imPoly n.*2) = 0.
Proof.
rewrite /imPoly (mom_taylor (fun k => complex.Im (ii ^+ k))).
elim: n => [|n IH]; first by rewrite !big_ord0.
by rewrite doubleS !big_ord_recr /= IH centred_odd ii_even /= !(mul0r, mulr0) !addr0.
Qed.

Lemma cs_bound n (t : K) :
  `|rcos t - (rePoly n.*2).[t]| <= (((n.*2)`!%:R)^-1 *: 'X^n.*2 : {poly K}).[t] /\
  `|rsin t - (imPoly n.*2).[t]| <= (((n.*2)`!%:R)^-1 *: 'X^n.*2 : {poly K}).[t].
Proof.
have := @real_cexp_taylor n.*2 t; rewrite taylor_sum cexp_imag.
have -> : Complex (cos t) (sin t) - Complex (rePoly n.*2).[t] (imPoly n.*2).[t] =
          Complex (rcos t - (rePoly n.*2).[t])%R (rsin t - (imPoly n.*2).[t])%R by [].
move: (rcos t - _)%R (rsin t - _)%R => a b; rewrite normc_def /= lecR hornerZ hornerXn mulrC.
have -> : `|t| ^+ n.*2 = t ^+ n.*2 by rewrite -mul2n !exprM real_normK ?num_real.
move=> h; split; apply: le_trans h; rewrite -sqrtr_sqr; apply: ler_wsqrtr.
- by rewrite ler_addl sqr_ge0.
- by rewrite ler_addr sqr_ge0.
Qed.

Lemma tail n : mom_functional (gauss_moment 0 w) (((n.*2)`!%:R)^-1 *: 'X^n.*2) = (w / 2%:R) ^+ n / (n`!)%:R.
Proof. by rewrite momZ momXn mulrC centred_even. Qed.

Lemma sandwich (f : K -> K) (p q : {poly K}) (A : K) :
  (forall t, `|f t - p.[t]| <= q.[t]) ->
  line_integral (fun x => f (z * (x - m)) * normal_density m v x) A ->
  `|A - mom_functional (gauss_moment 0 w) p| <= mom_functional (gauss_moment 0 w) q.
Proof.
move=> hb hA; rewrite ler_distl; apply/andP; split.
- rewrite -momB; apply/RleE; apply: line_le (shifted (p - q)) hA => x; apply/RleE.
  rewrite ler_pmul2r ?density_gt0 // hornerD hornerN.
  by have := hb (z * (x - m)); rewrite ler_distl => /andP[].
- rewrite -momD; apply/RleE; apply: line_le hA (shifted (p + q)) => x; apply/RleE.
  rewrite ler_pmul2r ?density_gt0 // hornerD.
  by have := hb (z * (x - m)); rewrite ler_distl => /andP[].
Qed.

Let h : K := - (w / 2%:R).
Lemma factE k : INR (fact k) = (k`!)%:R :> K.
Proof. by rewrite INRE; congr (_%:R); elim: k => // k IH; rewrite factS -IH. Qed.
Lemma inv_factE k : Rinv (INR (fact k)) = ((k`!)%:R)^-1 :> K.
Proof. by rewrite factE RinvE ?pnatr_eq0 -?lt0n ?fact_gt0. Qed.

Lemma sum_expE n : sum_f_R0 (fun k => Rmult (Rinv (INR (fact k))) (pow h k)) n =
  \sum_(k < n.+1) (- (w / 2%:R)) ^+ k / (k`!)%:R.
Proof.
have tE k : Rmult (Rinv (INR (fact k))) (pow h k) = (- (w / 2%:R)) ^+ k / (k`!)%:R.
  by rewrite inv_factE RmultE RpowE mulrC.
elim: n => [|n IH]; first by rewrite big_ord_recr big_ord0 /= add0r -tE.
by rewrite big_ord_recr -IH -tE.
Qed.

Lemma tail_le n : (w / 2%:R) ^+ n / (n`!)%:R = Rmult (Rinv (INR (fact n))) (pow (Rabs h) n).
Proof.
rewrite inv_factE RmultE RpowE RabsE /h normrN ger0_norm; first by rewrite mulrC.
by rewrite divr_ge0 ?ler0n // mulr_ge0 ?sqr_ge0 // ltW.
Qed.

Lemma cos_integral A : line_integral (fun x => rcos (z * (x - m)) * normal_density m v x) A -> A = rexp (- (w / 2%:R)).
Proof.
move=> hA; apply: exp_squeeze => n; rewrite sum_expE; apply/RleE.
have := sandwich (fun t => (cs_bound n.+1 t).1) hA; rewrite re_sum tail => hb.
by rewrite RabsE -[X in _ <= X]tail_le.
Qed.

Lemma sin_integral A : line_integral (fun x => rsin (z * (x - m)) * normal_density m v x) A -> A = 0.
Proof.
move=> hA; apply: (@zero_squeeze A h) => n; apply/RleE.
have := sandwich (fun t => (cs_bound n.+1 t).2) hA; rewrite im_sum tail subr0 => hb.
by rewrite RabsE -[X in _ <= X]tail_le.
Qed.

Lemma cos_law : line_integral (fun x => rcos (z * (x - m)) * normal_density m v x) (rexp (- (w / 2%:R))).
Proof.
have [|x|A hA] := @normal_bounded_cont m v (fun x => rcos (z * (x - m))) 1 v0; last by rewrite -(cos_integral hA).
- by move=> x; apply/cont_at_pt; exact: cos_affine_cont.
- by apply/RleE; rewrite -RabsE; apply: Rabs_le; exact: COS_bound.
Qed.
Lemma sin_law : line_integral (fun x => rsin (z * (x - m)) * normal_density m v x) 0.
Proof.
have [|x|A hA] := @normal_bounded_cont m v (fun x => rsin (z * (x - m))) 1 v0; last by rewrite -(sin_integral hA).
- by move=> x; apply/cont_at_pt; exact: sin_affine_cont.
- by apply/RleE; rewrite -RabsE; apply: Rabs_le; exact: SIN_bound.
Qed.

Lemma char_parts :
  line_integral (fun x => rcos (z * x) * normal_density m v x) (rcos (z * m) * rexp (- (w / 2%:R))) /\
  line_integral (fun x => rsin (z * x) * normal_density m v x) (rsin (z * m) * rexp (- (w / 2%:R))).
Proof.
have split_x (x : K) : z * x = z * m + z * (x - m) by rewrite -mulrDr addrC subrK.
split.
- have := line_plus _ _ _ _ (line_scal (rcos (z * m)) _ _ cos_law) (line_scal (- rsin (z * m)) _ _ sin_law).
  rewrite !RmultE RplusE mulr0 addr0; apply: line_ext => x; rewrite !RmultE RplusE.
  rewrite (split_x x) [rcos (_ + _)]cos_plus RminusE !RmultE mulrBl mulNr !mulrA; by [].
- have := line_plus _ _ _ _ (line_scal (rsin (z * m)) _ _ cos_law) (line_scal (rcos (z * m)) _ _ sin_law).
  rewrite !RmultE RplusE mulr0 addr0; apply: line_ext => x; rewrite !RmultE RplusE.
  by rewrite (split_x x) [rsin (_ + _)]sin_plus RplusE !RmultE mulrDl !mulrA.
Qed.

Lemma ghf_cfE : ghf_cf real_cexp z m v = Complex (rcos (z * m) * rexp (- (w / 2%:R))) (rsin (z * m) * rexp (- (w / 2%:R))).
Proof.
have e : 'i%C * real_complex K z * real_complex K m - real_complex K (1 / 2%:R) * real_complex K z ^+ 2 * real_complex K v
    = Complex (- (w / 2%:R)) (z * m) :> K[i].
  rewrite -mulrA -!rmorphM -rmorphX -!rmorphM /=; apply/eqP; rewrite eq_complex /=.
  by have [-> ->] := cf_parts z m v; rewrite !eqxx.
rewrite /ghf_cf [X in real_cexp X]e /real_cexp /=; congr Complex; exact: mulrC.
Qed.
End Char.
