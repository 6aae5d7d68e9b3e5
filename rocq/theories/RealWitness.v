(* The real exponential, logarithm, sine and complex exponential meet the specifications that the
   theorems ask of jnp.exp, jnp.log, jnp.sin and the complex jnp.exp. *)
From Coq Require Import Reals Lra.
From mathcomp Require Import all_ssreflect all_algebra complex ring.
From Verif Require Import RealField.
From Verif Require GfsSpec.
From Verif Require Import SsModel SsProofs FourierProofs.
Set Implicit Arguments.
Unset Strict Implicit.
Unset Printing Implicit Defensive.
Import Order.TTheory GRing.Theory Num.Theory.
Local Open Scope ring_scope.

Theorem real_exp_spec : exp_spec (Rtrigo_def.exp : R -> R).
Proof.
split=> [x|x|x y /RltE h].
- by apply/RltE; exact: exp_pos.
- by rewrite -[LHS]exp_plus Rplus_opp_r exp_0.
- by apply/RltE; exact: exp_increasing.
Qed.

Theorem real_log_spec : log_spec (Rtrigo_def.exp : R -> R) ln.
Proof. by split=> [x|u /RltE h]; [exact: ln_exp|exact: exp_ln]. Qed.

Theorem real_log_mult : GfsSpec.log_spec (ln : R -> R).
Proof. by move=> x y /RltE hx /RltE hy; exact: ln_mult. Qed.

(* log u <= u - 1, with equality only at 1 *)
Theorem real_log_lt (u : R) : 0 < u -> u != 1 -> ln u < u - 1.
Proof.
move=> /RltE h /eqP h1; apply/RltE; have e := exp_ineq1 (ln u).
have l0 : ln u <> R0 by move=> l0; apply: h1; rewrite -(exp_ln u h) l0 exp_0.
by move: (e l0); rewrite (exp_ln u h) => e'; rewrite -[_ - 1]/(Rminus u R1); lra.
Qed.

Theorem real_sin_odd (t : R) : sin (- t) = - sin t.
Proof. exact: sin_antisym. Qed.

(* exp(a + i b) = exp a (cos b + i sin b) *)
Definition real_cexp (z : R[i]) : R[i] :=
  Complex (Rtrigo_def.exp (complex.Re z) * cos (complex.Im z)) (Rtrigo_def.exp (complex.Re z) * sin (complex.Im z)).

Lemma cmul_polar (F : rcfType) (r s c1 s1 c2 s2 : F) :
  Complex (r * s * (c1 * c2 - s1 * s2)) (r * s * (s1 * c2 + c1 * s2)) =
  Complex (r * c1) (r * s1) * Complex (s * c2) (s * s2).
Proof. by apply/eqP; rewrite eq_complex /=; apply/andP; split; apply/eqP; ring. Qed.

Theorem real_cexp_morph : exp_morph real_cexp.
Proof.
split=> [|[a b]|[a b] [c d]]; rewrite /real_cexp /=.
- by apply/eqP; rewrite eq_complex /= exp_0 cos_0 sin_0 mul1r mulr0 !eqxx.
- by apply/eqP; rewrite eq_complex /= [cos (- b)]cos_neg [sin (- b)]sin_neg mulrN !eqxx.
- rewrite [Rtrigo_def.exp (a + c)]exp_plus [cos (b + d)]cos_plus [sin (b + d)]sin_plus.
  exact: cmul_polar.
Qed.

(* ---- Taylor's formula ---- *)
Lemma derivable_horner (p : {poly R}) (x : R) : derivable_pt_lim (fun t => p.[t]) x p^`().[x].
Proof.
elim/poly_ind: p => [|p c IH].
  have -> : (fun t : R => (0 : {poly R}).[t]) = fct_cte R0.
    by apply: FunctionalExtensionality.functional_extensionality => t; rewrite horner0.
  by rewrite deriv0 horner0; exact: derivable_pt_lim_const.
have -> : (fun t : R => (p * 'X + c%:P).[t]) = plus_fct (mult_fct (fun t => p.[t]) id) (fct_cte c).
  by apply: FunctionalExtensionality.functional_extensionality => t; rewrite hornerD hornerM hornerX hornerC.
have -> : (p * 'X + c%:P)^`().[x] = Rplus (Rplus (Rmult p^`().[x] (id x)) (Rmult p.[x] R1)) R0.
  by rewrite derivD derivM derivX derivC addr0 mulr1 hornerD hornerM hornerX -[RHS]/(_ * x + p.[x] * 1 + 0) addr0 mulr1.
apply: derivable_pt_lim_plus; last exact: derivable_pt_lim_const.
by apply: (@derivable_pt_lim_mult (fun t => p.[t]) id) => //; exact: derivable_pt_lim_id.
Qed.

Lemma deriv_pow_fact (F : rcfType) (m : nat) (t : F) :
  ((m.+1)`!%:R^-1 *: 'X^m.+1 : {poly F})^`().[t] = t ^+ m / (m`!)%:R.
Proof.
have k0 : m.+1%:R != 0 :> F by rewrite pnatr_eq0.
rewrite derivZ derivXn hornerZ hornerMn hornerXn /= -[t ^+ m *+ _]mulr_natr factS natrM mulrC.
by rewrite invfM -mulrA [m.+1%:R * _]mulrA divff // mul1r.
Qed.

Section Taylor.
Local Notation ii := ('i%C : R[i]).
Definition rePoly (m : nat) : {poly R} := \sum_(k < m) (complex.Re (ii ^+ k) / (k`!)%:R) *: 'X^k.
Definition imPoly (m : nat) : {poly R} := \sum_(k < m) (complex.Im (ii ^+ k) / (k`!)%:R) *: 'X^k.

Lemma Re_mul_i (z : R[i]) : complex.Re (ii * z) = - complex.Im z.
Proof. by case: z => a b /=; rewrite mul0r mul1r sub0r. Qed.
Lemma Im_mul_i (z : R[i]) : complex.Im (ii * z) = complex.Re z.
Proof. by case: z => a b /=; rewrite mul0r mul1r add0r. Qed.

Lemma deriv_taylor (f : nat -> R) m :
  (\sum_(k < m.+1) (f k / (k`!)%:R) *: 'X^k : {poly R})^`() = \sum_(k < m) (f k.+1 / (k`!)%:R) *: 'X^k.
Proof.
rewrite raddf_sum big_ord_recl /= derivZ derivXn mulr0n scaler0 add0r; apply: eq_bigr => k _.
rewrite /bump /= add1n derivZ derivXn /= -scaler_nat scalerA; congr (_ *: _).
have k0 : k.+1%:R != 0 :> R by rewrite pnatr_eq0.
by rewrite factS natrM invfM mulrA [_ / k.+1%:R / _]mulrAC divfK.
Qed.

Lemma deriv_re m : (rePoly m.+1)^`() = - imPoly m.
Proof.
rewrite /rePoly (deriv_taylor (fun k => complex.Re (ii ^+ k))) /imPoly -sumrN; apply: eq_bigr => k _.
by rewrite exprS Re_mul_i mulNr scaleNr.
Qed.
Lemma deriv_im m : (imPoly m.+1)^`() = rePoly m.
Proof.
rewrite /imPoly (deriv_taylor (fun k => complex.Im (ii ^+ k))) /rePoly; apply: eq_bigr => k _.
by rewrite exprS Im_mul_i.
Qed.

Lemma taylor_at0 (f : nat -> R) m : (\sum_(k < m.+1) (f k / (k`!)%:R) *: 'X^k : {poly R}).[0] = f 0%N.
Proof.
rewrite horner_sum big_ord_recl /= hornerZ hornerXn expr0 mulr1 fact0 divr1 big1 ?addr0 // => k _.
by rewrite hornerZ hornerXn /bump /= expr0n mulr0.
Qed.

(* the real part of the remainder in the direction (u, v) *)
Definition rem (m : nat) (u v t : R) : R := (u * (cos t - (rePoly m).[t]) + v * (sin t - (imPoly m).[t]))%R.

Lemma derivable_rem m u v t : derivable_pt_lim (rem m.+1 u v) t (rem m v (- u) t).
Proof.
have -> : rem m v (- u) t = Rplus (Rmult u (Rminus (Ropp (sin t)) (rePoly m.+1)^`().[t]))
                                  (Rmult v (Rminus (cos t) (imPoly m.+1)^`().[t])).
  rewrite deriv_re deriv_im hornerN /rem -[RHS]/(u * (- sin t - - (imPoly m).[t]) + v * (cos t - (rePoly m).[t])).
  by rewrite addrC mulNr -mulrN opprB opprK [- sin t + _]addrC.
apply: (@derivable_pt_lim_plus (mult_real_fct u (minus_fct cos (fun t => (rePoly m.+1).[t])))
                              (mult_real_fct v (minus_fct sin (fun t => (imPoly m.+1).[t])))).
- apply: derivable_pt_lim_scal; apply: derivable_pt_lim_minus; first exact: derivable_pt_lim_cos.
  exact: derivable_horner.
- apply: derivable_pt_lim_scal; apply: derivable_pt_lim_minus; first exact: derivable_pt_lim_sin.
  exact: derivable_horner.
Qed.

Lemma derivable_pow m t : derivable_pt_lim (fun t : R => t ^+ m.+1 / (m.+1)`!%:R) t (t ^+ m / (m`!)%:R).
Proof.
have := derivable_horner ((m.+1)`!%:R^-1 *: 'X^m.+1) t.
have -> : (fun t0 : R => ((m.+1)`!%:R^-1 *: 'X^m.+1 : {poly R}).[t0]) = (fun t0 : R => t0 ^+ m.+1 / (m.+1)`!%:R).
  by apply: FunctionalExtensionality.functional_extensionality => x; rewrite hornerZ hornerXn mulrC.
have k0 : m.+1%:R != 0 :> R by rewrite pnatr_eq0.
have -> : ((m.+1)`!%:R^-1 *: 'X^m.+1 : {poly R})^`().[t] = t ^+ m / (m`!)%:R.
  exact: deriv_pow_fact.
by [].
Qed.

Lemma rem_bound m (u v t : R) : u ^+ 2 + v ^+ 2 <= 1 -> 0 <= t -> rem m u v t <= t ^+ m / (m`!)%:R.
Proof.
elim: m u v t => [|m IH] u v t huv ht.
- rewrite /rem /rePoly /imPoly !big_ord0 !horner0 !subr0 expr0 fact0 divr1.
  have h : 0 <= (u - cos t) ^+ 2 + (v - sin t) ^+ 2 by rewrite addr_ge0 ?sqr_ge0.
  have e : cos t ^+ 2 + sin t ^+ 2 = 1 :> R.
    by have := sin2_cos2 t; rewrite addrC !expr2.
  rewrite -(ler_pmul2l (x := 2%:R)) ?ltr0n // mulr1.
  apply: le_trans (_ : u ^+ 2 + v ^+ 2 + (cos t ^+ 2 + sin t ^+ 2) <= _); last by rewrite e -[2%:R]/(1 + 1) ler_add2r.
  rewrite -subr_ge0; move: h; congr (0 <= _); move: (cos t) (sin t) => a b; ring.
- case/RleE: (ht) => [hlt|e]; last first.
    rewrite -e /rem !(@taylor_at0 (fun k => complex.Re (ii ^+ k))) !(@taylor_at0 (fun k => complex.Im (ii ^+ k))).
    by rewrite cos_0 sin_0 /= !subrr !mulr0 addr0 expr0n mul0r.
  pose f := fun x : R => Rminus (x ^+ m.+1 / (m.+1)`!%:R)%R (rem m.+1 u v x).
  pose g := fun x : R => Rminus (x ^+ m / (m`!)%:R)%R (rem m v (- u)%R x).
  have hd c : derivable_pt_lim f c (g c).
    apply: derivable_pt_lim_minus; [exact: derivable_pow|exact: derivable_rem].
  have [c [hc [c0 c1]]] := @MVT_cor2 f g R0 t hlt (fun c _ => hd c).
  have f0 : f R0 = 0.
    rewrite /f /rem !(@taylor_at0 (fun k => complex.Re (ii ^+ k))) !(@taylor_at0 (fun k => complex.Im (ii ^+ k))).
    by rewrite cos_0 sin_0 RminusE /= !subrr !mulr0 addr0 expr0n mul0r subrr.
  have hg : 0 <= g c.
    by rewrite /g RminusE subr_ge0 IH ?sqrrN 1?addrC //; apply/RleE/Rlt_le.
  rewrite -subr_ge0 -[_ - _]/(f t).
  have -> : f t = g c * t.
    by move: hc; rewrite f0 !RminusE RmultE !subr0.
  by rewrite mulr_ge0.
Qed.

Lemma taylor_sum m (t : R) : \sum_(k < m) (ii * real_complex R t) ^+ k / (k`!)%:R =
  Complex (rePoly m).[t] (imPoly m).[t].
Proof.
rewrite /rePoly /imPoly !horner_sum; elim: m => [|m IH]; first by rewrite !big_ord0.
rewrite !big_ord_recr IH !hornerZ !hornerXn exprMn -rmorphX /=.
have -> : ((m`!)%:R : R[i]) = real_complex R (m`!)%:R by rewrite rmorph_nat.
rewrite -fmorphV; case: (ii ^+ m) => a b /=.
by apply/eqP; rewrite eq_complex /= !mulr0 ?mul0r !subr0 ?addr0 ?add0r ![_ / _ * _]mulrAC !eqxx.
Qed.

Lemma cexp_imag (t : R) : real_cexp (ii * real_complex R t) = Complex (cos t) (sin t).
Proof.
rewrite /real_cexp /= mul0r mul1r mulr0 subr0 add0r.
by rewrite exp_0 !mul1r.
Qed.

Lemma taylor_pos m (t : R) : 0 <= t ->
  `|real_cexp (ii * real_complex R t) - \sum_(k < m) (ii * real_complex R t) ^+ k / (k`!)%:R|
  <= real_complex R (t ^+ m / (m`!)%:R)%R.
Proof.
move=> ht; rewrite taylor_sum cexp_imag.
have -> : Complex (cos t) (sin t) - Complex (rePoly m).[t] (imPoly m).[t] =
          Complex (cos t - (rePoly m).[t])%R (sin t - (imPoly m).[t])%R by [].
have := fun u v h => @rem_bound m u v t h ht; rewrite /rem.
move: (cos t - _)%R (sin t - _)%R => a b hb; rewrite normc_def /= lecR.
set r := Num.sqrt _; have r0 : 0 <= r by exact: sqrtr_ge0.
have rr : r ^+ 2 = a ^+ 2 + b ^+ 2 by rewrite sqr_sqrtr // addr_ge0 ?sqr_ge0.
case: (eqVneq r 0) => [->|rn]; first by rewrite divr_ge0 ?exprn_ge0 ?ler0n.
have h : r = a / r * a + b / r * b by rewrite ![_ / r * _]mulrAC -mulrDl -!expr2 -rr expr2 mulfK.
by rewrite h; apply: hb; rewrite !expr_div_n -mulrDl -rr divff ?expf_neq0.
Qed.
End Taylor.

Theorem real_cexp_taylor m : taylor_exp m real_cexp.
Proof.
move=> t; case: (lerP 0 t) => ht.
  by have -> : `|t| = t := ger0_norm ht; exact: taylor_pos.
have -> : `|t| = - t := ltr0_norm ht.
have := @taylor_pos m (- t); rewrite oppr_ge0 => /(_ (ltW ht)); congr (_ <= _).
have [_ hc _] := real_cexp_morph.
rewrite -normc_conj conjcB -hc conj_i opprK; congr (`|_ - _|).
rewrite rmorph_sum; apply: eq_bigr => k _.
rewrite -[LHS]/(conjc _) conjcM conjc_inv conjc_nat; congr (_ / _).
by rewrite -[LHS]/(conjc_rmorphism _ _) rmorphX; congr (_ ^+ _); rewrite -[LHS]/(conjc _) conj_i opprK.
Qed.
