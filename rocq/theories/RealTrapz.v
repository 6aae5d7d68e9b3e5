(* The trapezoidal rule on a grid of the real line, for functions dominated by a Gaussian, over the standard
   library's reals. *)
From Coq Require Import Reals Lra Lia List.
From Coquelicot Require Import Coquelicot.
From Verif Require Import RealSeries RealGauss.
Local Open Scope R_scope.

Definition lipschitz (L : R) (f : R -> R) : Prop := forall x y, Rabs (f x - f y) <= L * Rabs (x - y).

Fixpoint tsum (f : R -> R) (z : R) (zs : list R) : R :=
  match zs with nil => 0 | z' :: zs' => (z' - z) * (f z + f z') / 2 + tsum f z' zs' end.
Fixpoint gaps (h z : R) (zs : list R) : Prop :=
  match zs with nil => True | z' :: zs' => 0 <= z' - z <= h /\ gaps h z' zs' end.

Lemma cell L f a b : lipschitz L f -> (forall a b, ex_RInt f a b) -> a <= b ->
  Rabs ((b - a) * (f a + f b) / 2 - RInt f a b) <= L * (b - a) / 2 * (b - a).
Proof.
intros hL hf hab.
set (c := (f a + f b) / 2).
assert (ec : RInt (fun _ => c) a b = (b - a) * c) by exact (RInt_const (V := R_CompleteNormedModule) a b c).
assert (hc : forall a b, ex_RInt (fun _ : R => c) a b) by (intros; apply ex_RInt_const).
assert (hd : ex_RInt (fun t => c - f t) a b).
  apply (ex_RInt_minus (V := R_CompleteNormedModule)); [apply hc|apply hf].
assert (e : (b - a) * (f a + f b) / 2 - RInt f a b = RInt (fun t => c - f t) a b).
  assert (em : RInt (fun t => c - f t) a b = RInt (fun _ => c) a b - RInt f a b)
    by exact (RInt_minus (V := R_CompleteNormedModule) (fun _ => c) f a b (hc _ _) (hf _ _)).
  rewrite em, ec; unfold c; field.
rewrite e.
replace (L * (b - a) / 2 * (b - a)) with ((b - a) * (L * (b - a) / 2)) by ring.
apply (abs_RInt_le_const (fun t => c - f t) a b (L * (b - a) / 2) hab hd).
intros t [h1 h2]; unfold c.
replace ((f a + f b) / 2 - f t) with (/ 2 * ((f a - f t) + (f b - f t))) by field.
rewrite Rabs_mult, (Rabs_right (/ 2)) by lra.
pose proof (Rabs_triang (f a - f t) (f b - f t)).
pose proof (hL a t) as u; pose proof (hL b t) as w.
rewrite (Rabs_left1 (a - t)) in u by lra.
rewrite (Rabs_right (b - t)) in w by lra.
nra.
Qed.

Lemma trap_error L h f z zs : lipschitz L f -> 0 <= L -> (forall a b, ex_RInt f a b) -> gaps h z zs ->
  z <= last zs z /\ Rabs (tsum f z zs - RInt f z (last zs z)) <= L * h / 2 * (last zs z - z).
Proof.
intros hL L0 hf; revert z; induction zs as [|z' zs IH]; intros z hg.
  simpl; assert (e : RInt f z z = 0) by exact (RInt_point (V := R_CompleteNormedModule) z f).
  rewrite e, Rminus_0_r, Rabs_R0; split; [lra|].
  replace (z - z) with 0 by ring; lra.
destruct hg as [h1 h2]; destruct (IH z' h2) as [i1 i2].
replace (last (z' :: zs) z) with (last zs z').
2:{ clear; revert z z'; induction zs as [|x zs IH]; intros z z'; [reflexivity|].
    change (last (x :: zs) z' = last (x :: zs) z); clear IH; revert x; induction zs as [|y zs IH]; intros x; [reflexivity|].
    exact (IH y). }
split; [lra|]; simpl tsum.
rewrite (RInt_split f z (last zs z') z' hf).
pose proof (cell L f z z' hL hf ltac:(lra)) as c.
replace ((z' - z) * (f z + f z') / 2 + tsum f z' zs - (RInt f z z' + RInt f z' (last zs z'))) with
  (((z' - z) * (f z + f z') / 2 - RInt f z z') + (tsum f z' zs - RInt f z' (last zs z'))) by ring.
eapply Rle_trans; [apply Rabs_triang|].
assert (L * (z' - z) / 2 * (z' - z) <= L * h / 2 * (z' - z)).
  apply Rmult_le_compat_r; [lra|]; assert (L * (z' - z) <= L * h) by (apply Rmult_le_compat_l; lra); lra.
nra.
Qed.

Lemma A_le t : 0 <= t -> Aint t <= half_mass.
Proof.
intros ht; pose proof half_mass_pos; pose proof (A_nonneg t ht); pose proof (E_bounds t); pose proof (A_sqr t).
assert (hs : half_mass * half_mass = PI / 2) by (apply sqrt_sqrt; pose proof PI_RGT_0; lra).
nra.
Qed.

Lemma half_mass_ge1 : 1 <= half_mass.
Proof.
unfold half_mass; rewrite <- sqrt_1 at 1; apply sqrt_le_1; pose proof PI2_1; pose proof PI_RGT_0; lra.
Qed.

Lemma gk_decr s t : 0 <= s -> s <= t -> gk t <= gk s.
Proof. intros h1 h2; unfold gk; destruct (Req_dec s t) as [e|e]; [subst; lra|apply Rlt_le, exp_increasing; nra]. Qed.

Lemma A_gap s t : 0 <= s -> s <= t -> Rabs (Aint t - Aint s) <= 2 * gk s.
Proof.
intros h1 h2; pose proof (A_le t ltac:(lra)); pose proof (A_close s h1) as hc; pose proof (A_le s h1).
rewrite Rabs_minus_sym, Rabs_right in hc by lra.
assert (hm : Aint s <= Aint t).
  assert (e : Aint t = Aint s + RInt gk s t) by (unfold Aint; apply RInt_split; apply gk_int).
  assert (0 <= RInt gk s t) by (apply RInt_ge_0; [lra|apply gk_int|intros; apply Rlt_le, gk_pos]); lra.
rewrite Rabs_right by lra.
pose proof half_mass_ge1; pose proof (gk_pos s).
assert (2 / half_mass * gk s <= 2 * gk s).
  apply Rmult_le_compat_r; [lra|]; apply Rmult_le_reg_r with half_mass; [lra|].
  replace (2 / half_mass * half_mass) with 2 by (field; lra); lra.
lra.
Qed.

Definition gks (s x : R) : R := gk (s * x).
Lemma gks_int s a b : ex_RInt (gks s) a b.
Proof.
apply (ex_RInt_continuous (V := R_CompleteNormedModule)); intros x _.
apply (ex_derive_continuous (V := R_NormedModule)); unfold gks, gk; auto_derive; exact I.
Qed.

Lemma gks_RInt s a b : 0 < s -> RInt (gks s) a b = / s * (Aint (s * b) - Aint (s * a)).
Proof.
intros hs.
assert (e : RInt (fun x => s * gk (s * x + 0)) a b = RInt gk (s * a + 0) (s * b + 0))
  by exact (RInt_comp_lin (V := R_CompleteNormedModule) gk s 0 a b (gk_int _ _)).
assert (e1 : RInt (fun x => s * gk (s * x + 0)) a b = s * RInt (gks s) a b).
  rewrite (RInt_ext _ (fun x => s * gks s x)); [|intros; unfold gks; f_equal; f_equal; ring].
  exact (RInt_scal (V := R_CompleteNormedModule) (gks s) a b s (gks_int _ _ _)).
assert (e2 : RInt gk (s * a + 0) (s * b + 0) = Aint (s * b) - Aint (s * a)).
  rewrite !Rplus_0_r; unfold Aint; pose proof (RInt_split gk 0 (s * b) (s * a) gk_int); lra.
rewrite <- e2, <- e, e1, <- Rmult_assoc, Rinv_l, Rmult_1_l by lra; reflexivity.
Qed.

Lemma tail_gap s a b : 0 < s -> 0 <= a -> a <= b -> Rabs (RInt (gks s) a b) <= 2 / s * gks s a.
Proof.
intros hs ha hab; rewrite gks_RInt by exact hs.
rewrite Rabs_mult, Rabs_right by (apply Rle_ge, Rlt_le, Rinv_0_lt_compat; lra).
assert (h1 : 0 <= s * a) by (apply Rmult_le_pos; lra).
assert (h2 : s * a <= s * b) by (apply Rmult_le_compat_l; lra).
pose proof (A_gap _ _ h1 h2) as hg.
replace (2 / s * gks s a) with (/ s * (2 * gk (s * a))) by (unfold gks; field; lra).
apply Rmult_le_compat_l; [apply Rlt_le, Rinv_0_lt_compat; lra|exact hg].
Qed.

Lemma tail_gap_neg s a b : 0 < s -> 0 <= a -> a <= b -> Rabs (RInt (gks s) (- b) (- a)) <= 2 / s * gks s a.
Proof.
intros hs ha hab; rewrite gks_RInt by exact hs.
replace (s * - a) with (- (s * a)) by ring; replace (s * - b) with (- (s * b)) by ring.
rewrite !A_odd; replace (- Aint (s * a) - - Aint (s * b)) with (Aint (s * b) - Aint (s * a)) by ring.
rewrite <- gks_RInt by exact hs; now apply tail_gap.
Qed.

Lemma truncation s f l A a b : 0 < s -> line_integral f l -> (forall x, Rabs (f x) <= gks s x) ->
  0 <= A -> a <= - A -> A <= b -> Rabs (RInt f a b - l) <= 4 / s * gks s A.
Proof.
intros hs [hf hl] hd hA ha hb.
apply le_epsilon; intros eps he.
destruct (hl eps he) as [T hT].
set (a' := Rmin a (- Rabs T) - 1); set (b' := Rmax b (Rabs T) + 1).
assert (u1 : a' < a) by (unfold a'; pose proof (Rmin_l a (- Rabs T)); lra).
assert (u2 : a' < - T) by (unfold a'; pose proof (Rmin_r a (- Rabs T)); pose proof (Rle_abs T); lra).
assert (w1 : b < b') by (unfold b'; pose proof (Rmax_l b (Rabs T)); lra).
assert (w2 : T < b') by (unfold b'; pose proof (Rmax_r b (Rabs T)); pose proof (Rle_abs T); lra).
specialize (hT a' b' u2 w2).
assert (e : RInt f a b - l = (RInt f a' b' - l) - RInt f a' a - RInt f b b').
  rewrite (RInt_split f a' b' a hf), (RInt_split f a b' b hf); ring.
rewrite e.
pose proof (RInt_abs_le (gks s) f a' a (gks_int s) hf hd) as h1.
pose proof (RInt_abs_le (gks s) f b b' (gks_int s) hf hd) as h2.
pose proof (tail_gap s b b' hs ltac:(lra) ltac:(lra)) as g2.
pose proof (tail_gap_neg s (- a) (- a') hs ltac:(lra) ltac:(lra)) as g1.
rewrite !Ropp_involutive in g1.
assert (hp : 0 < 2 / s) by (apply Rdiv_lt_0_compat; lra).
assert (k1 : 2 / s * gks s (- a) <= 2 / s * gks s A).
  apply Rmult_le_compat_l; [lra|]; apply gk_decr; [apply Rmult_le_pos; lra|apply Rmult_le_compat_l; lra].
assert (k2 : 2 / s * gks s b <= 2 / s * gks s A).
  apply Rmult_le_compat_l; [lra|]; apply gk_decr; [apply Rmult_le_pos; lra|apply Rmult_le_compat_l; lra].
replace (4 / s * gks s A) with (2 / s * gks s A + 2 / s * gks s A) by (field; lra).
unfold Rminus at 1.
eapply Rle_trans; [apply Rabs_triang|]; rewrite Rabs_Ropp.
assert (Rabs (RInt f a' b' - l - RInt f a' a) <= eps + 2 / s * gks s A).
  unfold Rminus at 1; eapply Rle_trans; [apply Rabs_triang|]; rewrite Rabs_Ropp; lra.
lra.
Qed.

(* the integrand of the inverse transform of a normal characteristic function *)
Definition fint (d s z : R) : R := cos (d * z) * gk (s * z).

Lemma t_gk_le1 t : Rabs (t * gk t) <= 1.
Proof.
assert (h : Rabs t <= exp (t * t / 2)).
  pose proof (exp_ineq1_le (t * t / 2)); assert (t * t = Rabs t * Rabs t) by (rewrite <- Rabs_mult, Rabs_right; [reflexivity|nra]).
  pose proof (Rabs_pos t); nra.
rewrite Rabs_mult, (Rabs_right (gk t)) by (apply Rle_ge, Rlt_le, gk_pos).
assert (e : exp (t * t / 2) * gk t = 1) by (unfold gk; rewrite <- exp_plus, <- exp_0; f_equal; field).
rewrite <- e; apply Rmult_le_compat_r; [apply Rlt_le, gk_pos|exact h].
Qed.

Lemma gk_le1 t : gk t <= 1.
Proof.
unfold gk; rewrite <- exp_0; destruct (Req_dec t 0) as [e|e].
  rewrite e; apply Req_le; f_equal; field.
apply Rlt_le, exp_increasing; assert (0 < t * t) by nra; lra.
Qed.

Lemma fint_lip d s : 0 < s -> lipschitz (Rabs d + s) (fint d s).
Proof.
intros hs x y.
assert (hd : forall z, is_derive (fint d s) z (- d * sin (d * z) * gk (s * z) + cos (d * z) * (- (s * z) * gk (s * z) * s))).
  intros z; unfold fint, gk; auto_derive; [exact I|]; field_simplify; try lra; ring_simplify; try ring.
destruct (MVT_gen (fint d s) y x (fun z => - d * sin (d * z) * gk (s * z) + cos (d * z) * (- (s * z) * gk (s * z) * s))) as [c [_ hc]].
- intros z _; apply hd.
- intros z _; apply continuity_pt_filterlim.
  apply (ex_derive_continuous (V := R_NormedModule)); eexists; apply hd.
rewrite hc, Rabs_mult; apply Rmult_le_compat_r; [apply Rabs_pos|].
eapply Rle_trans; [apply Rabs_triang|]; apply Rplus_le_compat.
- rewrite !Rabs_mult, Rabs_Ropp, (Rabs_right (gk _)) by (apply Rle_ge, Rlt_le, gk_pos).
  pose proof (Rabs_pos d); pose proof (gk_le1 (s * c)); pose proof (gk_pos (s * c)).
  assert (Rabs (sin (d * c)) <= 1) by (apply Rabs_le; apply SIN_bound).
  pose proof (Rabs_pos (sin (d * c))).
  assert (Rabs (sin (d * c)) * gk (s * c) <= 1) by nra.
  rewrite Rmult_assoc; nra.
- replace (- (s * c) * gk (s * c) * s) with (- ((s * c * gk (s * c)) * s)) by ring.
  rewrite Rabs_mult, Rabs_Ropp, Rabs_mult, (Rabs_right s) by lra.
  assert (Rabs (cos (d * c)) <= 1) by (apply Rabs_le; apply COS_bound).
  pose proof (Rabs_pos (cos (d * c))); pose proof (t_gk_le1 (s * c)); pose proof (Rabs_pos (s * c * gk (s * c))).
  assert (Rabs (cos (d * c)) * Rabs (s * c * gk (s * c)) <= 1) by nra.
  rewrite <- Rmult_assoc; nra.
Qed.

Lemma fint_dom d s x : Rabs (fint d s x) <= gks s x.
Proof.
unfold fint, gks; rewrite Rabs_mult, (Rabs_right (gk _)) by (apply Rle_ge, Rlt_le, gk_pos).
assert (Rabs (cos (d * x)) <= 1) by (apply Rabs_le; apply COS_bound).
pose proof (gk_pos (s * x)); nra.
Qed.

Theorem fint_trapezoid d s l h A z zs : 0 < s -> line_integral (fint d s) l -> gaps h z zs ->
  0 <= A -> z <= - A -> A <= last zs z ->
  Rabs (tsum (fint d s) z zs - l) <= (Rabs d + s) * h / 2 * (last zs z - z) + 4 / s * gk (s * A).
Proof.
intros hs hl hg hA hz hb.
assert (L0 : 0 <= Rabs d + s) by (pose proof (Rabs_pos d); lra).
destruct (trap_error (Rabs d + s) h (fint d s) z zs (fint_lip d s hs) L0 (proj1 hl) hg) as [_ h1].
pose proof (truncation s (fint d s) l A z (last zs z) hs hl (fint_dom d s) hA hz hb) as h2.
unfold gks in h2.
replace (tsum (fint d s) z zs - l) with ((tsum (fint d s) z zs - RInt (fint d s) z (last zs z)) + (RInt (fint d s) z (last zs z) - l)) by ring.
eapply Rle_trans; [apply Rabs_triang|lra].
Qed.

Lemma pick_A s c eps : 0 < s -> 0 < eps -> exists A0, 0 < A0 /\ forall A, A0 <= A -> Rabs c * gk (s * A) < eps.
Proof.
intros hs he; pose proof (Rabs_pos c) as hc.
destruct (vanish_pow 0 (eps / (Rabs c + 1))) as [T hT]; [apply Rdiv_lt_0_compat; lra|].
assert (hp : 0 < (Rabs T + 1) / s) by (apply Rdiv_lt_0_compat; pose proof (Rabs_pos T); lra).
exists ((Rabs T + 1) / s); split; [exact hp|]; intros A hA.
assert (hsA : Rabs T + 1 <= s * A).
  apply Rmult_le_compat_l with (r := s) in hA; [|lra].
  replace (s * ((Rabs T + 1) / s)) with (Rabs T + 1) in hA by (field; lra); exact hA.
specialize (hT (s * A)); simpl in hT; rewrite Rmult_1_l in hT.
pose proof (Rle_abs T); pose proof (Rabs_pos T).
assert (hg : Rabs (gk (s * A)) < eps / (Rabs c + 1)) by (apply hT; rewrite Rabs_right; lra).
rewrite Rabs_right in hg by (apply Rle_ge, Rlt_le, gk_pos).
pose proof (gk_pos (s * A)).
apply Rle_lt_trans with ((Rabs c + 1) * gk (s * A)); [nra|].
apply Rmult_lt_compat_l with (r := Rabs c + 1) in hg; [|lra].
replace ((Rabs c + 1) * (eps / (Rabs c + 1))) with eps in hg by (field; lra); exact hg.
Qed.

Lemma pick_n c eps : 0 < eps -> exists N : nat, forall n, (N <= n)%nat -> Rabs c / INR (S n) < eps.
Proof.
intros he; pose proof (Rabs_pos c).
assert (h0 : 0 <= Rabs c / eps) by (apply Rmult_le_pos; [lra|apply Rlt_le, Rinv_0_lt_compat; lra]).
destruct (nfloor_ex (Rabs c / eps) h0) as [N [_ hN]]; exists N; intros n hn.
apply le_INR in hn; rewrite S_INR; pose proof (pos_INR n); pose proof (pos_INR N).
apply Rmult_lt_reg_r with (INR n + 1); [lra|].
replace (Rabs c / (INR n + 1) * (INR n + 1)) with (Rabs c) by (field; lra).
apply Rmult_lt_compat_l with (r := eps) in hN; [|lra].
replace (eps * (Rabs c / eps)) with (Rabs c) in hN by (field; lra); nra.
Qed.
