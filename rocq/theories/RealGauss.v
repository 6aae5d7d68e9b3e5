(* Integration over the real line, the Gaussian integral and the moments of the standard normal density, over the
   standard library's reals. *)
From Coq Require Import Reals Rcomplete Lra Lia.
From Coquelicot Require Import Coquelicot.
From Verif Require Import RealSeries.
Local Open Scope R_scope.

(* f is integrable on bounded intervals and its integrals over [a, b] tend to l as a and b tend to -oo and +oo *)
Definition line_integral (f : R -> R) (l : R) : Prop :=
  (forall a b, ex_RInt f a b) /\
  forall eps, 0 < eps -> exists T, forall a b, a < - T -> T < b -> Rabs (RInt f a b - l) < eps.

(* F tends to 0 at -oo and +oo *)
Definition vanishes (F : R -> R) : Prop :=
  forall eps, 0 < eps -> exists T, forall x, T < Rabs x -> Rabs (F x) < eps.

Lemma line_unique f l l' : line_integral f l -> line_integral f l' -> l = l'.
Proof.
intros [_ h] [_ h']; apply Req_lt_aux; intros eps.
destruct (h (eps / 2)) as [T hT]; [destruct eps; simpl; lra|].
destruct (h' (eps / 2)) as [T' hT']; [destruct eps; simpl; lra|].
set (a := - Rmax T T' - 1); set (b := Rmax T T' + 1).
pose proof (Rmax_l T T'); pose proof (Rmax_r T T').
assert (h1 := hT a b ltac:(unfold a; lra) ltac:(unfold b; lra)).
assert (h2 := hT' a b ltac:(unfold a; lra) ltac:(unfold b; lra)).
replace (l - l') with ((RInt f a b - l') - (RInt f a b - l)) by ring.
eapply Rle_lt_trans; [apply Rabs_triang|]; rewrite Rabs_Ropp; lra.
Qed.

Lemma line_ext f g l : (forall x, f x = g x) -> line_integral f l -> line_integral g l.
Proof.
intros e [h1 h2]; split.
- intros a b; apply ex_RInt_ext with f; [intros; apply e|apply h1].
- intros eps he; destruct (h2 eps he) as [T hT]; exists T; intros a b ha hb.
  rewrite <- (RInt_ext f g); [now apply hT|intros; apply e].
Qed.

Lemma line_scal c f l : line_integral f l -> line_integral (fun x => c * f x) (c * l).
Proof.
intros [h1 h2]; split.
- intros a b; apply (ex_RInt_scal (V := R_CompleteNormedModule)); apply h1.
- intros eps he.
  assert (hc : 0 < Rabs c + 1) by (pose proof (Rabs_pos c); lra).
  destruct (h2 (eps / (Rabs c + 1))) as [T hT]; [apply Rdiv_lt_0_compat; lra|].
  exists T; intros a b ha hb.
  assert (e : RInt (fun x => c * f x) a b = c * RInt f a b)
    by exact (RInt_scal (V := R_CompleteNormedModule) f a b c (h1 a b)).
  rewrite e.
  replace (c * RInt f a b - c * l) with (c * (RInt f a b - l)) by ring.
  rewrite Rabs_mult; specialize (hT a b ha hb).
  apply Rle_lt_trans with (Rabs c * (eps / (Rabs c + 1))).
    apply Rmult_le_compat_l; [apply Rabs_pos|lra].
  apply Rlt_le_trans with ((Rabs c + 1) * (eps / (Rabs c + 1))); [|apply Req_le; field; lra].
  apply Rmult_lt_compat_r; [apply Rdiv_lt_0_compat|]; lra.
Qed.

Lemma line_plus f g l k : line_integral f l -> line_integral g k -> line_integral (fun x => f x + g x) (l + k).
Proof.
intros [h1 h2] [k1 k2]; split.
- intros a b; apply (ex_RInt_plus (V := R_CompleteNormedModule)); [apply h1|apply k1].
- intros eps he.
  destruct (h2 (eps / 2)) as [T hT]; [lra|]; destruct (k2 (eps / 2)) as [T' hT']; [lra|].
  exists (Rmax T T'); intros a b ha hb; pose proof (Rmax_l T T'); pose proof (Rmax_r T T').
  assert (e : RInt (fun x => f x + g x) a b = RInt f a b + RInt g a b)
    by exact (RInt_plus (V := R_CompleteNormedModule) f g a b (h1 a b) (k1 a b)).
  rewrite e.
  specialize (hT a b ltac:(lra) ltac:(lra)); specialize (hT' a b ltac:(lra) ltac:(lra)).
  replace (RInt f a b + RInt g a b - (l + k)) with ((RInt f a b - l) + (RInt g a b - k)) by ring.
  eapply Rle_lt_trans; [apply Rabs_triang|lra].
Qed.

Lemma line_0 : line_integral (fun _ => 0) 0.
Proof.
split; [intros; apply ex_RInt_const|intros eps he; exists 0; intros a b _ _].
rewrite RInt_const; unfold scal; simpl; unfold mult; simpl; rewrite Rmult_0_r, Rminus_0_r, Rabs_R0; lra.
Qed.

(* change of variables x = m + s z *)
Lemma line_affine f l m s : 0 < s -> line_integral f l -> line_integral (fun x => / s * f ((x - m) / s)) l.
Proof.
intros hs [h1 h2].
assert (e : forall x, / s * f ((x - m) / s) = / s * f (/ s * x + - m / s)).
  intros x; f_equal; f_equal; field; lra.
assert (hi : forall a b, ex_RInt (fun x => / s * f (/ s * x + - m / s)) a b).
  intros a b; apply (ex_RInt_comp_lin (V := R_CompleteNormedModule) f (/ s) (- m / s)); apply h1.
split.
- intros a b; apply ex_RInt_ext with (fun x => / s * f (/ s * x + - m / s)); [intros; rewrite e; reflexivity|apply hi].
- intros eps he; destruct (h2 eps he) as [T hT].
  exists (s * Rabs T + Rabs m); intros a b ha hb.
  rewrite (RInt_ext _ (fun x => / s * f (/ s * x + - m / s))); [|intros; apply e].
  assert (e2 : RInt (fun x => / s * f (/ s * x + - m / s)) a b = RInt f (/ s * a + - m / s) (/ s * b + - m / s))
    by exact (RInt_comp_lin (V := R_CompleteNormedModule) f (/ s) (- m / s) a b (h1 _ _)).
  rewrite e2.
  pose proof (Rle_abs T); pose proof (Rle_abs m); pose proof (Rle_abs (- m)) as hm; rewrite Rabs_Ropp in hm.
  assert (hsT : s * T <= s * Rabs T) by (apply Rmult_le_compat_l; lra).
  apply hT.
  + apply Rmult_lt_reg_l with s; [lra|]; replace (s * (/ s * a + - m / s)) with (a - m) by (field; lra); lra.
  + apply Rmult_lt_reg_l with s; [lra|]; replace (s * (/ s * b + - m / s)) with (b - m) by (field; lra); lra.
Qed.

(* the fundamental theorem *)
Lemma line_derive F f : (forall x, is_derive F x (f x)) -> (forall x, continuous f x) -> vanishes F -> line_integral f 0.
Proof.
intros hd hc hv; split.
- intros a b; apply (ex_RInt_continuous (V := R_CompleteNormedModule)); intros; apply hc.
- intros eps he; destruct (hv (eps / 2)) as [T hT]; [lra|].
  exists (Rabs T); intros a b ha hb.
  assert (e : RInt f a b = F b - F a).
    apply is_RInt_unique.
    apply (is_RInt_derive (V := R_CompleteNormedModule) F f); intros; [apply hd|apply hc].
  rewrite e, Rminus_0_r; pose proof (Rle_abs T); pose proof (Rabs_pos T).
  assert (h1 : Rabs (F a) < eps / 2) by (apply hT; rewrite Rabs_left; lra).
  assert (h2 : Rabs (F b) < eps / 2) by (apply hT; rewrite Rabs_right; lra).
  unfold Rminus; eapply Rle_lt_trans; [apply Rabs_triang|rewrite Rabs_Ropp; lra].
Qed.

(* ---- the Gaussian integral ---- *)
Definition gk (x : R) : R := exp (- (x * x) / 2).

Lemma gk_derive x : is_derive gk x (- x * gk x).
Proof. unfold gk; auto_derive; [exact I|]; field_simplify; try lra; ring. Qed.
Lemma gk_cont x : continuous gk x.
Proof. apply (ex_derive_continuous (V := R_NormedModule)); eexists; apply gk_derive. Qed.
Lemma gk_pos x : 0 < gk x. Proof. apply exp_pos. Qed.
Lemma gk_even x : gk (- x) = gk x. Proof. unfold gk; f_equal; f_equal; ring. Qed.

Definition Aint (t : R) : R := RInt gk 0 t.
Definition Eint (t : R) : R := RInt (fun u => exp (- (t * t * (1 + u * u)) / 2) / (1 + u * u)) 0 1.

Lemma gk_int a b : ex_RInt gk a b.
Proof. apply (ex_RInt_continuous (V := R_CompleteNormedModule)); intros; apply gk_cont. Qed.

Lemma A_derive t : is_derive Aint t (gk t).
Proof.
apply (is_derive_RInt (V := R_NormedModule) gk Aint 0).
- apply filter_forall; intros x; apply (RInt_correct (V := R_CompleteNormedModule) gk 0 x); apply gk_int.
- apply gk_cont.
Qed.

Definition ek (t u : R) : R := exp (- (t * t * (1 + u * u)) / 2) / (1 + u * u).
Lemma one_sq u : 0 < 1 + u * u. Proof. pose proof (Rle_0_sqr u); unfold Rsqr in *; lra. Qed.
Lemma ek_derive (t u : R) : is_derive (fun z => ek z u) t (- t * exp (- (t * t * (1 + u * u)) / 2)).
Proof. pose proof (one_sq u); unfold ek; auto_derive; [lra|]; unfold Rdiv; set (e := exp _); field; lra. Qed.
Lemma exp_continuity_2d t u : continuity_2d_pt (fun x y => - x * exp (- (x * x * (1 + y * y)) / 2)) t u.
Proof.
apply continuity_2d_pt_mult; [apply continuity_2d_pt_opp; apply continuity_2d_pt_id1|].
apply (continuity_1d_2d_pt_comp exp); [apply derivable_continuous_pt; apply derivable_pt_exp|].
apply continuity_2d_pt_mult; [|apply continuity_2d_pt_const].
apply continuity_2d_pt_opp; apply continuity_2d_pt_mult.
- apply continuity_2d_pt_mult; apply continuity_2d_pt_id1.
- apply continuity_2d_pt_plus; [apply continuity_2d_pt_const|apply continuity_2d_pt_mult; apply continuity_2d_pt_id2].
Qed.
Lemma ek_cont t u : continuous (ek t) u.
Proof.
pose proof (one_sq u); unfold ek.
apply (ex_derive_continuous (V := R_NormedModule)); auto_derive; lra.
Qed.
Lemma ek_int t a b : ex_RInt (ek t) a b.
Proof. apply (ex_RInt_continuous (V := R_CompleteNormedModule)); intros; apply ek_cont. Qed.

Lemma E_derive (t : R) : is_derive Eint t (- gk t * Aint t).
Proof.
assert (hd : is_derive (fun x => RInt (fun u => ek x u) 0 1) t (RInt (fun u => Derive (fun z => ek z u) t) 0 1)).
  apply is_derive_RInt_param.
  - apply filter_forall; intros x u _; eexists; apply ek_derive.
  - intros u _; apply continuity_2d_pt_ext with (fun x y => - x * exp (- (x * x * (1 + y * y)) / 2)).
      intros x y; symmetry; apply is_derive_unique; apply ek_derive.
    apply exp_continuity_2d.
  - apply filter_forall; intros x; apply ek_int.
replace (- gk t * Aint t) with (RInt (fun u => Derive (fun z => ek z u) t) 0 1); [exact hd|].
rewrite (RInt_ext _ (fun u => - gk t * (t * gk (t * u + 0)))).
  assert (e1 : RInt (fun u => t * gk (t * u + 0)) 0 1 = RInt gk (t * 0 + 0) (t * 1 + 0))
    by exact (RInt_comp_lin (V := R_CompleteNormedModule) gk t 0 0 1 (gk_int _ _)).
  assert (e2 : RInt (fun u => - gk t * (t * gk (t * u + 0))) 0 1 = - gk t * RInt (fun u => t * gk (t * u + 0)) 0 1).
    apply (RInt_scal (V := R_CompleteNormedModule)).
    apply (ex_RInt_comp_lin (V := R_CompleteNormedModule) gk t 0); apply gk_int.
  rewrite e2, e1; unfold Aint; do 2 f_equal; ring.
intros u _; replace (Derive (fun z : R => ek z u) t) with (- t * exp (- (t * t * (1 + u * u)) / 2))
  by (symmetry; apply is_derive_unique; apply ek_derive).
replace (exp (- (t * t * (1 + u * u)) / 2)) with (gk t * gk (t * u + 0)).
  match goal with |- ?a = ?b => change (@eq R a b) end; ring.
unfold gk; rewrite <- exp_plus; f_equal; field.
Qed.

Lemma AE_const t : Aint t * Aint t + 2 * Eint t = Aint 0 * Aint 0 + 2 * Eint 0.
Proof.
destruct (Req_dec t 0) as [->|ht]; [reflexivity|].
set (F := fun t => Aint t * Aint t + 2 * Eint t).
assert (hF : forall x, is_derive F x 0).
  intros x; unfold F.
  replace 0 with ((gk x * Aint x + Aint x * gk x) + 2 * (- gk x * Aint x)) by ring.
  apply (is_derive_plus (V := R_NormedModule)).
  - apply (is_derive_mult Aint Aint x (gk x) (gk x)); [apply A_derive|apply A_derive|intros; apply Rmult_comm].
  - apply (is_derive_scal Eint x 2); apply E_derive.
destruct (MVT_gen F 0 t (fun _ => 0)) as [c [_ hc]].
- intros x _; apply hF.
- intros x _; apply continuity_pt_filterlim; apply (ex_derive_continuous (V := R_NormedModule)); eexists; apply hF.
unfold F in *; lra.
Qed.

Lemma E0 : Eint 0 = PI / 4.
Proof.
unfold Eint; rewrite (RInt_ext _ (fun u => / (1 + u ^ 2))).
  apply is_RInt_unique.
  replace (PI / 4) with (atan 1 - atan 0) by (rewrite atan_1, atan_0; ring).
  apply (is_RInt_derive (V := R_CompleteNormedModule) atan).
  - intros x _; apply is_derive_Reals; apply derivable_pt_lim_atan.
  - intros x _; apply (ex_derive_continuous (V := R_NormedModule)); auto_derive; pose proof (one_sq x); lra.
intros x _; pose proof (one_sq x).
replace (- (0 * 0 * (1 + x * x)) / 2) with 0 by field; rewrite exp_0.
match goal with |- ?a = ?b => change (@eq R a b) end; field; lra.
Qed.

Lemma E_bounds t : 0 <= Eint t <= gk t.
Proof.
assert (hp : forall u, 0 <= ek t u).
  intros u; apply Rlt_le; unfold ek; apply Rdiv_lt_0_compat; [apply exp_pos|apply one_sq].
assert (hu : forall u, ek t u <= gk t).
  intros u; unfold ek, gk; pose proof (one_sq u); pose proof (Rle_0_sqr u) as h; pose proof (Rle_0_sqr t) as h'.
  pose proof (Rmult_le_pos _ _ h h'); unfold Rsqr in *.
  apply Rle_trans with (exp (- (t * t * (1 + u * u)) / 2)).
  - rewrite <- (Rmult_1_r (exp _)) at 2; apply Rmult_le_compat_l; [apply Rlt_le, exp_pos|].
    rewrite <- Rinv_1; apply Rinv_le_contravar; lra.
  - destruct (Req_dec (- (t * t * (1 + u * u)) / 2) (- (t * t) / 2)) as [->|hne]; [lra|].
    apply Rlt_le, exp_increasing.
    assert (- (t * t * (1 + u * u)) / 2 <= - (t * t) / 2) by lra; lra.
split.
- apply (RInt_ge_0 (ek t)); [lra|apply ek_int|intros; apply hp].
- replace (gk t) with (RInt (fun _ => gk t) 0 1).
    apply (RInt_le (ek t)); [lra|apply ek_int|apply ex_RInt_const|intros; apply hu].
  rewrite RInt_const; unfold scal; simpl; unfold mult; simpl; ring.
Qed.

Lemma A_sqr t : Aint t * Aint t = PI / 2 - 2 * Eint t.
Proof.
pose proof (AE_const t) as h; rewrite E0 in h.
assert (h0 : Aint 0 = 0) by exact (RInt_point (V := R_CompleteNormedModule) 0 gk).
rewrite h0 in h; lra.
Qed.

Lemma A_odd t : Aint (- t) = - Aint t.
Proof.
assert (e : RInt (fun x => -1 * gk (-1 * x + 0)) 0 t = RInt gk (-1 * 0 + 0) (-1 * t + 0))
  by exact (RInt_comp_lin (V := R_CompleteNormedModule) gk (-1) 0 0 t (gk_int _ _)).
replace (-1 * 0 + 0) with 0 in e by ring; replace (-1 * t + 0) with (- t) in e by ring.
unfold Aint; rewrite <- e.
rewrite (RInt_ext _ (fun x => -1 * gk x)).
  assert (e2 : RInt (fun x => -1 * gk x) 0 t = -1 * RInt gk 0 t)
    by exact (RInt_scal (V := R_CompleteNormedModule) gk 0 t (-1) (gk_int _ _)).
  rewrite e2; ring.
intros x _; rewrite <- (gk_even x); f_equal; f_equal; ring.
Qed.

Lemma A_nonneg t : 0 <= t -> 0 <= Aint t.
Proof. intros h; apply RInt_ge_0; [lra|apply gk_int|intros; apply Rlt_le, gk_pos]. Qed.

Definition half_mass : R := sqrt (PI / 2).
Lemma half_mass_pos : 0 < half_mass.
Proof. apply sqrt_lt_R0; pose proof PI_RGT_0; lra. Qed.

Lemma A_close t : 0 <= t -> Rabs (Aint t - half_mass) <= 2 / half_mass * gk t.
Proof.
intros ht; pose proof half_mass_pos; pose proof (A_nonneg t ht); pose proof (E_bounds t).
assert (hs : half_mass * half_mass = PI / 2) by (apply sqrt_sqrt; pose proof PI_RGT_0; lra).
assert (h1 : (half_mass - Aint t) * (half_mass + Aint t) = 2 * Eint t) by (pose proof (A_sqr t); nra).
assert (h2 : 0 <= half_mass - Aint t) by nra.
rewrite Rabs_minus_sym, Rabs_right by lra.
apply Rmult_le_reg_r with half_mass; [lra|].
replace (2 / half_mass * gk t * half_mass) with (2 * gk t) by (field; lra).
nra.
Qed.

Lemma pow_exp_bound n y : 0 <= y -> y ^ n * exp (- y) <= INR (fact n).
Proof.
intros hy; pose proof (exp_term_le y n hy) as h; pose proof (exp_pos y).
pose proof (INR_fact_lt_0 n).
rewrite exp_Ropp; apply Rmult_le_reg_r with (exp y); [lra|].
rewrite Rmult_assoc, Rinv_l, Rmult_1_r by lra.
apply Rmult_le_reg_l with (/ INR (fact n)); [apply Rinv_0_lt_compat; lra|].
replace (/ INR (fact n) * (INR (fact n) * exp y)) with (exp y) by (field; lra); lra.
Qed.

Lemma vanish_pow k : vanishes (fun x => x ^ k * gk x).
Proof.
intros eps he.
set (n := S k); set (C := 2 ^ n * INR (fact n)).
assert (hC : 0 < C).
  unfold C; apply Rmult_lt_0_compat; [apply pow_lt; lra|apply INR_fact_lt_0].
exists (Rmax 1 (C / eps)); intros x hx.
pose proof (Rmax_l 1 (C / eps)); pose proof (Rmax_r 1 (C / eps)).
rewrite Rabs_mult, <- RPow_abs, (Rabs_right (gk x)) by (apply Rle_ge, Rlt_le, gk_pos).
set (a := Rabs x) in *.
assert (ea : gk x = exp (- (a * a / 2))).
  unfold gk, a; rewrite <- Rabs_mult, Rabs_right by (apply Rle_ge, Rle_0_sqr); f_equal; field.
assert (hb : a ^ n * a ^ n * gk x <= C).
  pose proof (pow_exp_bound n (a * a / 2) ltac:(pose proof (Rle_0_sqr a); unfold Rsqr in *; lra)) as h1.
  rewrite <- ea in h1; unfold C.
  replace (a ^ n * a ^ n * gk x) with (2 ^ n * ((a * a / 2) ^ n * gk x)).
    apply Rmult_le_compat_l; [apply Rlt_le, pow_lt; lra|exact h1].
  unfold Rdiv; rewrite !Rpow_mult_distr, pow_inv; field; apply pow_nonzero; lra.
assert (h1 : 1 <= a ^ n) by (apply pow_R1_Rle; lra).
assert (h2 : a ^ n * gk x <= C).
  apply Rle_trans with (a ^ n * a ^ n * gk x); [|exact hb].
  pose proof (gk_pos x); rewrite Rmult_assoc.
  rewrite <- (Rmult_1_l (a ^ n * gk x)) at 1; apply Rmult_le_compat_r; [|exact h1].
  apply Rmult_le_pos; lra.
assert (h3 : a * (a ^ k * gk x) <= C) by (unfold n in h2; simpl in h2; lra).
apply Rmult_lt_reg_l with a; [lra|].
apply Rle_lt_trans with C; [exact h3|].
apply Rmult_lt_reg_r with (/ eps); [apply Rinv_0_lt_compat; lra|].
rewrite Rmult_assoc, Rinv_r, Rmult_1_r by lra; unfold Rdiv in *; lra.
Qed.

(* the integral of exp (- x^2 / 2) over the line *)
Theorem gaussian_integral : line_integral gk (sqrt (2 * PI)).
Proof.
split; [apply gk_int|intros eps he].
pose proof half_mass_pos as hm.
assert (e2 : sqrt (2 * PI) = 2 * half_mass).
  unfold half_mass; replace (2 * PI) with (2 * 2 * (PI / 2)) by field.
  rewrite sqrt_mult, sqrt_square; pose proof PI_RGT_0; lra.
destruct (vanish_pow 0 (eps * half_mass / 8)) as [T hT]; [nra|].
exists (Rabs T); intros a b ha hb; pose proof (Rabs_pos T); pose proof (Rle_abs T).
assert (e : RInt gk a b = Aint b + Aint (- a)).
  rewrite A_odd; unfold Aint.
  pose proof (RInt_Chasles (V := R_CompleteNormedModule) gk a 0 b (gk_int _ _) (gk_int _ _)) as hch.
  pose proof (opp_RInt_swap (V := R_CompleteNormedModule) gk a 0 (gk_int _ _)) as hs.
  unfold plus, opp in *; simpl in *; lra.
rewrite e, e2.
assert (hc : forall t, Rabs T < t -> Rabs (Aint t - half_mass) < eps / 2).
  intros t ht; eapply Rle_lt_trans; [apply A_close; lra|].
  specialize (hT t ltac:(rewrite Rabs_right; lra)).
  simpl in hT; rewrite Rmult_1_l, Rabs_right in hT by (apply Rle_ge, Rlt_le, gk_pos).
  apply Rmult_lt_reg_r with half_mass; [lra|].
  replace (2 / half_mass * gk t * half_mass) with (2 * gk t) by (field; lra); nra.
pose proof (hc b hb) as h1; pose proof (hc (- a) ltac:(lra)) as h2.
replace (Aint b + Aint (- a) - 2 * half_mass) with ((Aint b - half_mass) + (Aint (- a) - half_mass)) by ring.
eapply Rle_lt_trans; [apply Rabs_triang|lra].
Qed.

(* the moments of exp (- x^2 / 2) *)
Fixpoint std_moment (n : nat) : R :=
  match n with
  | O => 1
  | S O => 0
  | S (S n' as n1) => INR n1 * std_moment n'
  end.

Lemma gk_pow_cont k x : continuous (fun x => x ^ k * gk x) x.
Proof.
apply (ex_derive_continuous (V := R_NormedModule)); unfold gk; auto_derive; exact I.
Qed.

Theorem gaussian_moments n : line_integral (fun x => x ^ n * gk x) (sqrt (2 * PI) * std_moment n).
Proof.
assert (hpair : line_integral (fun x => x ^ n * gk x) (sqrt (2 * PI) * std_moment n) /\
                line_integral (fun x => x ^ S n * gk x) (sqrt (2 * PI) * std_moment (S n))).
  induction n as [|n [IH1 IH2]].
  - split.
    + apply line_ext with gk; [intros; simpl; ring|].
      simpl; rewrite Rmult_1_r; apply gaussian_integral.
    + simpl std_moment; rewrite Rmult_0_r.
      apply line_derive with (fun x => - gk x).
      * intros x; replace (x ^ 1 * gk x) with (- (- x * gk x)) by (simpl; ring).
        apply (is_derive_opp (V := R_NormedModule)); apply gk_derive.
      * intros x; apply gk_pow_cont.
      * intros eps he; destruct (vanish_pow 0 eps he) as [T hT]; exists T; intros x hx.
        specialize (hT x hx); simpl in hT; rewrite Rmult_1_l in hT; rewrite Rabs_Ropp; exact hT.
  - split; [exact IH2|].
    assert (h0 : line_integral (fun x => x ^ S (S n) * gk x - INR (S n) * (x ^ n * gk x)) 0).
      apply line_derive with (fun x => - (x ^ S n * gk x)).
      + intros x.
        assert (hg := gk_derive x).
        replace (x ^ S (S n) * gk x - INR (S n) * (x ^ n * gk x))
          with (- ((INR (S n) * x ^ n) * gk x + x ^ S n * (- x * gk x))) by (simpl pow; ring).
        apply (is_derive_opp (V := R_NormedModule)).
        apply (is_derive_mult (fun x => x ^ S n) gk x).
        * apply is_derive_Reals; apply (derivable_pt_lim_pow x (S n)).
        * exact hg.
        * intros; apply Rmult_comm.
      + intros x; apply (continuous_minus (V := R_NormedModule)); [apply gk_pow_cont|].
        apply (continuous_scal_r (V := R_NormedModule) (INR (S n)) (fun x => x ^ n * gk x)); apply gk_pow_cont.
      + intros eps he; destruct (vanish_pow (S n) eps he) as [T hT]; exists T; intros x hx.
        rewrite Rabs_Ropp; apply hT; exact hx.
    assert (h1 := line_plus _ _ _ _ h0 (line_scal (INR (S n)) _ _ IH1)).
    replace (sqrt (2 * PI) * std_moment (S (S n))) with (0 + INR (S n) * (sqrt (2 * PI) * std_moment n))
      by (change (std_moment (S (S n))) with (INR (S n) * std_moment n); ring).
    revert h1; apply line_ext; intros x; ring.
exact (proj1 hpair).
Qed.

(* ---- comparison ---- *)
Lemma line_le f g l k : (forall x, f x <= g x) -> line_integral f l -> line_integral g k -> l <= k.
Proof.
intros hfg [h1 h2] [k1 k2].
destruct (Rle_or_lt l k) as [h|h]; [exact h|exfalso].
destruct (h2 ((l - k) / 2)) as [T hT]; [lra|]; destruct (k2 ((l - k) / 2)) as [T' hT']; [lra|].
set (a := - (Rabs T + Rabs T' + 1)); set (b := Rabs T + Rabs T' + 1).
pose proof (Rabs_pos T); pose proof (Rabs_pos T'); pose proof (Rle_abs T); pose proof (Rle_abs T').
specialize (hT a b ltac:(unfold a; lra) ltac:(unfold b; lra)).
specialize (hT' a b ltac:(unfold a; lra) ltac:(unfold b; lra)).
assert (hle : RInt f a b <= RInt g a b).
  apply RInt_le; [unfold a, b; lra|apply h1|apply k1|intros; apply hfg].
apply Rabs_def2 in hT; apply Rabs_def2 in hT'; lra.
Qed.

Lemma RInt_split (f : R -> R) a b c : (forall a b, ex_RInt f a b) -> RInt f a b = RInt f a c + RInt f c b.
Proof.
intros h; pose proof (RInt_Chasles (V := R_CompleteNormedModule) f a c b (h _ _) (h _ _)) as e.
unfold plus in e; simpl in e; lra.
Qed.

Lemma RInt_abs_le (f h : R -> R) a b : (forall a b, ex_RInt f a b) -> (forall a b, ex_RInt h a b) ->
  (forall x, Rabs (h x) <= f x) -> Rabs (RInt h a b) <= Rabs (RInt f a b).
Proof.
intros hf hh hd.
assert (main : forall a b, a <= b -> Rabs (RInt h a b) <= RInt f a b).
  intros a' b' hab; apply Rabs_le; split.
  - assert (e : RInt (fun x => (-1) * f x) a' b' = -1 * RInt f a' b')
      by exact (RInt_scal (V := R_CompleteNormedModule) f a' b' (-1) (hf _ _)).
    apply Rle_trans with (RInt (fun x => (-1) * f x) a' b'); [rewrite e; lra|].
    apply RInt_le; [exact hab| |apply hh|].
    + apply (ex_RInt_scal (V := R_CompleteNormedModule)); apply hf.
    + intros x _; pose proof (hd x); pose proof (Rle_abs (- h x)) as h0; rewrite Rabs_Ropp in h0; lra.
  - apply RInt_le; [exact hab|apply hh|apply hf|].
    intros x _; pose proof (hd x); pose proof (Rle_abs (h x)); lra.
destruct (Rle_or_lt a b) as [hab|hab].
  eapply Rle_trans; [apply main; exact hab|apply Rle_abs].
assert (s : forall g : R -> R, (forall a b, ex_RInt g a b) -> RInt g a b = - RInt g b a).
  intros g hg; pose proof (opp_RInt_swap (V := R_CompleteNormedModule) g b a (hg _ _)) as e.
  unfold opp in e; simpl in e; lra.
rewrite (s h hh), (s f hf), !Rabs_Ropp; eapply Rle_trans; [apply main; lra|apply Rle_abs].
Qed.

Lemma line_dominated (f h : R -> R) l : line_integral f l -> (forall a b, ex_RInt h a b) ->
  (forall x, Rabs (h x) <= f x) -> exists k, line_integral h k.
Proof.
intros [hf hl] hh hd.
assert (close : forall eps, 0 < eps -> exists T, forall a b a' b', a < - T -> a' < - T -> T < b -> T < b' ->
  Rabs (RInt h a b - RInt h a' b') < eps).
  intros eps he; destruct (hl (eps / 4)) as [T hT]; [lra|].
  exists T; intros a b a' b' ha ha' hb hb'.
  assert (e : RInt h a b - RInt h a' b' = RInt h a a' + RInt h b' b).
    rewrite (RInt_split h a b a' hh), (RInt_split h a' b b' hh); ring.
  assert (ea : RInt f a a' = RInt f a b - RInt f a' b) by (rewrite (RInt_split f a b a' hf); lra).
  assert (eb : RInt f b' b = RInt f a b - RInt f a b') by (rewrite (RInt_split f a b b' hf); lra).
  pose proof (RInt_abs_le f h a a' hf hh hd) as h1; pose proof (RInt_abs_le f h b' b hf hh hd) as h2.
  rewrite ea in h1; rewrite eb in h2.
  pose proof (hT a b ha hb) as t1; pose proof (hT a' b ha' hb) as t2; pose proof (hT a b' ha hb') as t3.
  apply Rabs_def2 in t1; apply Rabs_def2 in t2; apply Rabs_def2 in t3.
  assert (u1 : Rabs (RInt f a b - RInt f a' b) < eps / 2) by (apply Rabs_def1; lra).
  assert (u2 : Rabs (RInt f a b - RInt f a b') < eps / 2) by (apply Rabs_def1; lra).
  rewrite e; eapply Rle_lt_trans; [apply Rabs_triang|lra].
set (u := (fun n : nat => RInt h (- INR n) (INR n)) : nat -> R).
assert (hN : forall T, exists N : nat, T < INR N).
  intros T; destruct (nfloor_ex (Rmax T 0) (Rmax_r T 0)) as [N [_ hN]]; exists (S N).
  rewrite S_INR; pose proof (Rmax_l T 0); lra.
assert (hc : Cauchy_crit u).
  intros eps he; destruct (close eps he) as [T hT]; destruct (hN T) as [N hNN].
  exists N; intros n m hn hm; apply le_INR in hn; apply le_INR in hm; unfold R_dist, u; apply hT; lra.
destruct (Rcomplete.R_complete u hc) as [k hk]; exists k; split; [exact hh|].
intros eps he; destruct (close (eps / 2)) as [T hT]; [lra|].
exists T; intros a b ha hb.
destruct (hk (eps / 2)) as [N1 h1]; [lra|]; destruct (hN T) as [N2 h2].
set (n := (N1 + N2)%nat).
specialize (h1 n ltac:(unfold n; lia)); unfold R_dist, u in h1.
assert (hn : T < INR n) by (unfold n; rewrite plus_INR; pose proof (pos_INR N1); lra).
specialize (hT a b (- INR n) (INR n) ha ltac:(lra) hb hn).
replace (RInt h a b - k) with ((RInt h a b - RInt h (- INR n) (INR n)) + (RInt h (- INR n) (INR n) - k)) by ring.
eapply Rle_lt_trans; [apply Rabs_triang|lra].
Qed.

(* a locally integrable function cut off at a point: g agrees with f on one side and is 0 on the other *)
Lemma cut_integrable (f g : R -> R) c : (forall a b, ex_RInt f a b) ->
  (forall x, x < c -> g x = f x) -> (forall x, c < x -> g x = 0) -> forall a b, ex_RInt g a b.
Proof.
intros hf hl hr.
assert (main : forall a, ex_RInt g a c).
  intros a; destruct (Rle_or_lt a c) as [h|h].
  - apply ex_RInt_ext with f; [|apply hf]; intros x hx; rewrite Rmin_left, Rmax_right in hx by lra.
    symmetry; apply hl; lra.
  - apply ex_RInt_swap, ex_RInt_ext with (fun _ => 0); [|apply ex_RInt_const].
    intros x hx; rewrite Rmin_left, Rmax_right in hx by lra; symmetry; apply hr; lra.
intros a b; apply ex_RInt_Chasles with c; [apply main|apply ex_RInt_swap, main].
Qed.

Definition cont_at (f : R -> R) (x : R) : Prop := continuous f x.
Definition locally_integrable (f : R -> R) : Prop := forall a b, ex_RInt f a b.

Lemma plain_normal_cont (m a c x : R) : cont_at (fun x => exp (- ((x - m) * (x - m)) * a) * c) x.
Proof. apply (ex_derive_continuous (V := R_NormedModule)); auto_derive; exact I. Qed.

Lemma cont_at_ext f g x : (forall x, f x = g x) -> cont_at f x -> cont_at g x.
Proof. intros h; apply continuous_ext; exact h. Qed.
Lemma cont_at_pt f x : cont_at f x <-> continuity_pt f x.
Proof. symmetry; apply continuity_pt_filterlim. Qed.

Lemma product_integrable (f g : R -> R) : (forall x, cont_at f x) -> (forall x, cont_at g x) ->
  locally_integrable (fun x => f x * g x).
Proof.
intros hf hg a b; apply (ex_RInt_continuous (V := R_CompleteNormedModule)); intros x _.
apply (continuous_mult f g); [apply hf|apply hg].
Qed.
