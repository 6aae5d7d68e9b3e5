(* Products of normal densities: the Kalman recursion is the Bayesian filter, with integrals over the reals; and the
   divergence of the convergence experiment as an integral: lemmas. *)
From Coq Require Import Reals.
From mathcomp Require Import all_ssreflect all_algebra ring.
From Verif Require Import Prelude QuadSpec QuadProofs Moments1DModel Moments1DSpec Moments1DConv Moments1DProofs.
From Verif Require Import SsModel SsProofs ConvModel ConvFilter ConvProofs.
From Verif Require Import LawSpec RealField RealWitness RealGauss RealNormal.
Set Implicit Arguments.
Unset Strict Implicit.
Unset Printing Implicit Defensive.
Import Order.TTheory GRing.Theory Num.Theory.
Local Open Scope ring_scope.
Local Notation K := R_rcfType.
Local Notation rexp := (Rtrigo_def.exp : K -> K).
Local Notation rln := (ln : K -> K).
Local Notation pi := (PI : K).
Arguments line_integral _ _ : clear scopes.

(* completing the square, over any real closed field *)
Section Square.
Variable F : rcfType.
Variables (a b m v r x y : F).
Hypotheses (v0 : 0 < v) (r0 : 0 < r).
Let s := a ^+ 2 * v + r.
Let k := v * a / s.

Lemma s_gt0 : 0 < s.
Proof. by rewrite ltr_spaddr // mulr_ge0 ?sqr_ge0 // ltW. Qed.
Lemma post_var : v - k * a * v = v * r / s.
Proof. by have h := s_gt0; rewrite /k; move: (lt0r_neq0 h); rewrite /s => hs; field. Qed.
Lemma post_var_gt0 : 0 < v - k * a * v.
Proof. by rewrite post_var divr_gt0 ?mulr_gt0 // s_gt0. Qed.

Lemma square : - (y - (a * x + b)) ^+ 2 / (2%:R * r) + - (x - m) ^+ 2 / (2%:R * v) =
  - (y - (a * m + b)) ^+ 2 / (2%:R * s) + - (x - (m + k * (y - (a * m + b)))) ^+ 2 / (2%:R * (v - k * a * v)).
Proof.
have hs := lt0r_neq0 s_gt0; have hv := lt0r_neq0 v0; have hr := lt0r_neq0 r0.
by rewrite post_var /k; move: hs; rewrite /s => hs; field; rewrite hs hv hr.
Qed.

Lemma roots_prod c : 0 < c -> Num.sqrt (c * r) * Num.sqrt (c * v) = Num.sqrt (c * s) * Num.sqrt (c * (v - k * a * v)).
Proof.
move=> c0; rewrite -!sqrtrM ?mulr_ge0 ?(ltW c0) ?(ltW r0) ?(ltW s_gt0) //; congr Num.sqrt.
by rewrite post_var; have hs := lt0r_neq0 s_gt0; field.
Qed.
End Square.

Lemma halves (F : rcfType) (l : F) : - (l / 2%:R) + - (l / 2%:R) = - l.
Proof. by field. Qed.

Lemma frac_prod (F : fieldType) (a b c d p q r s : F) : a * b = c * d -> p * q = r * s ->
  a / p * (b / q) = c / r * (d / s).
Proof. by move=> h1 h2; rewrite !mulf_div h1 h2. Qed.

(* N(y; a x + b, r) N(x; m, v) = N(y; a m + b, s) N(x; m + k (y - a m - b), v - k a v) *)
Lemma density_product (a b m v r x y : K) : 0 < v -> 0 < r ->
  let s := a ^+ 2 * v + r in
  let k := v * a / s in
  normal_density (a * x + b) r y * normal_density m v x =
  normal_density (a * m + b) s y * normal_density (m + k * (y - (a * m + b))) (v - k * a * v) x.
Proof.
move=> v0 r0 s k; rewrite /normal_density.
have e1 : rexp (- (y - (a * x + b)) ^+ 2 / (2%:R * r)) * rexp (- (x - m) ^+ 2 / (2%:R * v)) =
    rexp (- (y - (a * m + b)) ^+ 2 / (2%:R * s)) * rexp (- (x - (m + k * (y - (a * m + b)))) ^+ 2 / (2%:R * (v - k * a * v))).
  rewrite -!RmultE -!exp_plus !RplusE; congr (Rtrigo_def.exp _); exact: square.
have e2 := roots_prod a v0 r0 (mulr_gt0 (ltr0Sn _ 1) pi_gt0).
exact: frac_prod e1 e2.
Qed.

(* the normalising constant *)
Lemma product_integral (a b m v r y : K) : 0 < v -> 0 < r ->
  line_integral (fun x => normal_density (a * x + b) r y * normal_density m v x)
    (normal_density (a * m + b) (a ^+ 2 * v + r) y).
Proof.
move=> v0 r0; set c := normal_density _ _ _; pose s := a ^+ 2 * v + r; pose k := v * a / s.
have v' : 0 < v - k * a * v by exact: post_var_gt0.
have := line_scal c _ _ (dens_integral (m + k * (y - (a * m + b))) v').
rewrite Rmult_1_r; apply: line_ext => x; by rewrite density_product.
Qed.

Lemma norm_pdfE (x loc v : K) : 0 < v -> norm_pdf rexp rln pi x loc (Num.sqrt v) = normal_density loc v x.
Proof.
move=> v0; rewrite /norm_pdf /norm_logpdf /normal_density sqr_sqrtr ?(ltW v0) //.
set c := 2%:R * pi * v; have c0 : 0 < c by exact: mulr_gt0 (mulr_gt0 (ltr0Sn _ 1) pi_gt0) v0.
have -> : (rln c + (x - loc) ^+ 2 / v) / (- 2%:R) = - (x - loc) ^+ 2 / (2%:R * v) + - (rln c / 2%:R).
  by have := lt0r_neq0 v0; move: (rln c) ((x - loc) ^+ 2) => l q hv; field.
rewrite -RplusE exp_plus; congr (_ * _).
have h : rexp (- (rln c / 2%:R)) ^+ 2 = c^-1.
  rewrite expr2 -RmultE -exp_plus RplusE halves.
  have e : rexp (- rln c) = Rinv (rexp (rln c)) by exact: exp_Ropp.
  by rewrite e exp_ln; [rewrite RinvE // gt_eqF|apply/RltE].
have p1 : 0 <= rexp (- (rln c / 2%:R)) by apply/RleE; apply: Rlt_le; exact: exp_pos.
apply/eqP; rewrite -(@eqr_expn2 _ 2) ?invr_ge0 ?sqrtr_ge0 // h exprVn sqr_sqrtr // ltW //.
Qed.

Lemma norm_logpdfE (x loc v : K) : 0 < v -> norm_logpdf rln pi x loc (Num.sqrt v) = rln (normal_density loc v x).
Proof. by move=> v0; rewrite -norm_pdfE // /norm_pdf; symmetry; exact: ln_exp. Qed.

(* ---- on laws ---- *)
Definition gauss_lik (a b r : K) (y x : K) : K := normal_density (a * x + b) r y.

Lemma normal_update (a b m v r y : K) (f : K -> K) : 0 < v -> 0 < r ->
  let s := a ^+ 2 * v + r in
  let k := v * a / s in
  let m' := m + k * (y - (a * m + b)) in
  let v' := v - k * a * v in
  normal_integrable m' v' f ->
  bayes_update (gauss_lik a b r) y (normal_law m v) f = normal_law m' v' f.
Proof.
move=> v0 r0 s k m' v' hf; rewrite /bayes_update.
have s0 : 0 < s by exact: s_gt0.
set c := normal_density (a * m + b) s y; have c0 : 0 < c by exact: density_gt0.
have -> : normal_law m v (gauss_lik a b r y) = c by apply: normal_lawE; exact: product_integral.
have -> : normal_law m v (fun x => f x * gauss_lik a b r y x) = c * normal_law m' v' f.
  apply: normal_lawE; apply: line_ext (line_scal c _ _ (normal_lawP hf)) => x.
  by rewrite RmultE -mulrA /gauss_lik density_product // mulrCA.
by rewrite mulrC mulKf // gt_eqF.
Qed.

Lemma normal_predict (a b m v q : K) n : 0 < v -> 0 < q ->
  bayes_predict (fun x => normal_law (a * x + b) q) (normal_law m v) (fun z => z ^+ n) =
  normal_law (a * m + b) (a ^+ 2 * v + q) (fun z => z ^+ n).
Proof.
move=> v0 q0; have mono (m1 v1 : K) : 0 < v1 -> normal_law m1 v1 (fun z => z ^+ n) = gauss_moment m1 v1 n.
  move=> h; have [_] := normal_law_poly m1 'X^n h; rewrite momXn => <-; congr normal_law.
  by apply: FunctionalExtensionality.functional_extensionality => x; rewrite hornerXn.
rewrite mono; last by exact: s_gt0.
rewrite -trans_gauss; have [_ <-] := normal_law_poly m (trans_poly a b q n) v0.
rewrite /bayes_predict; congr normal_law; apply: FunctionalExtensionality.functional_extensionality => x.
by rewrite mono // trans_poly_eval.
Qed.

(* ---- on densities: one step of the Bayesian filter with transition density p(x' | x) and likelihood p(y | x);
   Z is the likelihood of the measurement given the earlier ones ---- *)
Definition bayes_step (trans : K -> K -> K) (lik : K -> K -> K) (prior : K -> K) (y : K) (post : K -> K) (Z : K) : Prop :=
  exists pred : K -> K,
    [/\ forall x', line_integral (fun x => trans x x' * prior x) (pred x'),
        line_integral (fun x => lik y x * pred x) Z, 0 < Z & forall x, post x = lik y x * pred x / Z].
Fixpoint bayes_filter trans lik (prior : K -> K) (ys : seq K) (posts : seq (K -> K)) (Zs : seq K) : Prop :=
  match ys, posts, Zs with
  | [::], [::], [::] => True
  | y :: ys, post :: posts, Z :: Zs =>
      bayes_step trans lik prior y post Z /\ bayes_filter trans lik post ys posts Zs
  | _, _, _ => False
  end.

Lemma bayes_step_unique trans lik prior y post Z post' Z' :
  bayes_step trans lik prior y post Z -> bayes_step trans lik prior y post' Z' ->
  Z = Z' /\ forall x, post x = post' x.
Proof.
move=> [p [h1 h2 h3 h4]] [p' [k1 k2 k3 k4]].
have e x : p x = p' x by exact: line_unique (h1 x) (k1 x).
have eZ : Z = Z' by apply: line_unique h2 _; apply: line_ext k2 => x; rewrite e.
by split=> // x; rewrite h4 k4 eZ e.
Qed.

Section Conv.
Variables (dt ell sigma noise_var : K).
Hypotheses (dt0 : 0 < dt) (ell0 : 0 < ell) (s0 : 0 < sigma) (r0 : 0 < noise_var).
Let F := conv_F rexp dt ell.
Let Sg := conv_Sigma rexp dt ell sigma.
Let trans (x x' : K) : K := norm_pdf rexp rln pi x' (F * x) (Num.sqrt Sg).
Let lik (y x : K) : K := conv_pdf rexp rln pi noise_var y x.
Let body := conv_kf_body rexp rln pi dt ell sigma noise_var.

Lemma real_Sg_gt0 : 0 < Sg.
Proof. by apply: Sg_gt0 => //; [move=> u w; exact: exp_plus|exact: real_exp_spec]. Qed.

Lemma kf_scan_bayes (ys : seq K) (m v c : K) : 0 < v ->
  let out := scan body (m, v, c) ys in
  exists Zs, bayes_filter trans lik (normal_density m v) ys [seq normal_density o.1 o.2 | o <- out.2] Zs
    /\ out.1.2 = c - \sum_(Z <- Zs) rln Z.
Proof.
elim: ys m v c => [|y ys IH] m v c v0 /=.
  by exists [::]; split=> //; rewrite big_nil subr0.
set mp := F * m; set vp := F * v * F + Sg; set s := vp + noise_var; set k := vp / s.
set m' := mp + k * (y - mp); set v' := vp - vp * k; set c' := c - norm_logpdf rln pi y mp (Num.sqrt s).
have evp : vp = F ^+ 2 * v + Sg by rewrite /vp expr2 mulrAC.
have vp0 : 0 < vp by rewrite evp; exact: (@s_gt0 _ F v Sg v0 real_Sg_gt0).
have s0' : 0 < s by rewrite addr_gt0.
have v'0 : 0 < v'.
  have := post_var_gt0 1 vp0 r0; rewrite expr1n mul1r !mulr1 -/s -/k.
  by rewrite /v' [vp * k]mulrC.
have [Zs [hb hc]] := IH m' v' c' v'0.
change (body (m, v, c) y) with ((m', v', c'), (m', v')).
move: hb hc; case: (scan body (m', v', c') ys) => carry out /= hb hc.
exists (normal_density mp s y :: Zs); split; last first.
  by rewrite hc big_cons opprD addrA /c' norm_logpdfE.
split=> //; exists (normal_density mp vp); split.
- move=> x'; have := product_integral F 0 m x' v0 real_Sg_gt0; rewrite addr0 -evp.
  by apply: line_ext => x; rewrite addr0 /trans norm_pdfE ?real_Sg_gt0.
- have := product_integral 1 0 mp y vp0 r0; rewrite expr1n !mul1r addr0.
  by apply: line_ext => x; rewrite mul1r addr0 /lik /conv_pdf norm_pdfE.
- exact: density_gt0.
move=> x; rewrite /lik /conv_pdf norm_pdfE //.
have := density_product 1 0 mp x y vp0 r0; rewrite expr1n !mul1r !addr0 !mulr1 -/s -/k => ->.
rewrite /m' /v' mulr1 -/k [vp * k]mulrC [normal_density mp s y * _]mulrC mulfK //.
by rewrite gt_eqF // density_gt0.
Qed.
End Conv.
