(* Integrals of powers against the exponential density of the half line and against the uniform density of an
   interval, and positivity of integrals, over the standard library's reals. *)
From Coq Require Import Reals Lra Lia.
From Coquelicot Require Import Coquelicot.
From Verif Require Import RealSeries RealGauss.
Local Open Scope R_scope.

(* antiderivative of x^n exp(-x) *)
Fixpoint gam_prim (n : nat) (x : R) : R :=
  match n with
  | O => - exp (- x)
  | S n' => - (x ^ n * exp (- x)) + INR n * gam_prim n' x
  end.

Lemma gam_prim_derive n x : is_derive (gam_prim n) x (x ^ n * exp (- x)).
Proof.
induction n as [|n IH].
- apply (is_derive_ext (fun t => - exp (- t))); [reflexivity|].
  auto_derive; [exact I|]; simpl; ring.
- replace (x ^ S n * exp (- x)) with
    (- (INR (S n) * x ^ n * exp (- x) - x ^ S n * exp (- x)) + INR (S n) * (x ^ n * exp (- x))) by ring.
  apply (is_derive_ext (fun t => - (t ^ S n * exp (- t)) + INR (S n) * gam_prim n t)); [reflexivity|].
  apply (is_derive_plus (V := R_NormedModule) (fun t => - (t ^ S n * exp (- t))) (fun t => INR (S n) * gam_prim n t)).
  + replace (- (INR (S n) * x ^ n * exp (- x) - x ^ S n * exp (- x)))
      with (- ((INR (S n) * 1 * x ^ pred (S n)) * exp (- x) + x ^ S n * (- (1) * exp (- x)))) by (rewrite <- pred_Sn; ring).
    apply (is_derive_opp (V := R_NormedModule) (fun t => t ^ S n * exp (- t))).
    apply (is_derive_mult (fun t => t ^ S n) (fun t => exp (- t))).
    * apply (is_derive_pow (fun t => t) (S n) x 1), (is_derive_id (K := R_AbsRing)).
    * auto_derive; [exact I|]; ring.
    * intros; apply Rmult_comm.
  + apply (is_derive_scal (gam_prim n) x (INR (S n))); exact IH.
Qed.

Lemma gam_prim_S n x : gam_prim (S n) x = - (x ^ S n * exp (- x)) + INR (S n) * gam_prim n x.
Proof. reflexivity. Qed.

Lemma gam_prim_0 n : gam_prim n 0 = - INR (fact n).
Proof.
induction n as [|n IH]; [simpl; rewrite Ropp_0, exp_0; simpl; ring|].
rewrite gam_prim_S, IH; replace (INR (fact (S n))) with (INR (S n) * INR (fact n)) by (rewrite <- mult_INR; reflexivity).
rewrite pow_i by lia; ring.
Qed.

Lemma pow_exp_small n eps : 0 < eps -> exists T, forall x, T < x -> Rabs (x ^ n * exp (- x)) < eps.
Proof.
intros he; exists (Rmax 1 (INR (fact (S n)) / eps)); intros x hx.
pose proof (Rmax_l 1 (INR (fact (S n)) / eps)); pose proof (Rmax_r 1 (INR (fact (S n)) / eps)).
assert (hp : 0 <= x ^ n * exp (- x)) by (apply Rmult_le_pos; [apply pow_le; lra|apply Rlt_le, exp_pos]).
rewrite Rabs_right by lra.
pose proof (pow_exp_bound (S n) x ltac:(lra)) as hb; simpl pow in hb.
apply Rmult_lt_reg_l with x; [lra|].
apply Rle_lt_trans with (INR (fact (S n))); [rewrite <- Rmult_assoc; exact hb|].
apply Rmult_lt_reg_r with (/ eps); [apply Rinv_0_lt_compat; lra|].
replace (x * eps * / eps) with x by (field; lra); unfold Rdiv in *; lra.
Qed.

Lemma gam_prim_small n eps : 0 < eps -> exists T, forall x, T < x -> Rabs (gam_prim n x) < eps.
Proof.
revert eps; induction n as [|n IH]; intros eps he.
- destruct (pow_exp_small 0 eps he) as [T hT]; exists T; intros x hx; specialize (hT x hx); simpl gam_prim.
  simpl in hT; rewrite Rmult_1_l in hT; rewrite Rabs_Ropp; exact hT.
- assert (hn : 0 < INR (S n)) by (apply lt_0_INR; lia).
  destruct (pow_exp_small (S n) (eps / 2)) as [T hT]; [lra|].
  destruct (IH (eps / 2 / INR (S n))) as [T' hT']; [apply Rdiv_lt_0_compat; lra|].
  exists (Rmax T T'); intros x hx.
  pose proof (Rmax_l T T'); pose proof (Rmax_r T T').
  specialize (hT x ltac:(lra)); specialize (hT' x ltac:(lra)).
  rewrite gam_prim_S; eapply Rle_lt_trans; [apply Rabs_triang|]; 
  rewrite Rabs_Ropp, (Rabs_mult (INR (S n))), (Rabs_right (INR (S n))) by lra.
  apply Rmult_lt_compat_l with (r := INR (S n)) in hT'; [|lra].
  replace (INR (S n) * (eps / 2 / INR (S n))) with (eps / 2) in hT' by (field; lra).
  lra.
Qed.

Lemma zero_RInt (a b : R) : is_RInt (fun _ : R => 0) a b 0.
Proof.
pose proof (is_RInt_const (V := R_NormedModule) a b 0) as h.
replace (scal (b - a) (0 : R_NormedModule)) with 0 in h; [exact h|].
unfold scal; simpl; unfold mult; simpl; ring.
Qed.

(* functions supported on one side, or in an interval *)
Lemma half_line_integral (f g G : R -> R) c l : (forall x, x <= c -> f x = 0) -> (forall x, c < x -> f x = g x) ->
  (forall x, is_derive G x (g x)) -> (forall x, continuous g x) ->
  (forall eps, 0 < eps -> exists T, forall x, T < x -> Rabs (G x) < eps) -> l = - G c -> line_integral f l.
Proof.
intros h0 h1 hd hc hs hl.
assert (hg : forall a b, ex_RInt g a b).
  intros a b; apply (ex_RInt_continuous (V := R_CompleteNormedModule)); intros; apply hc.
assert (right : forall b, c <= b -> is_RInt f c b (G b - G c)).
  intros b hb; apply is_RInt_ext with g.
    intros x hx; rewrite Rmin_left, Rmax_right in hx by lra; symmetry; apply h1; lra.
  apply (is_RInt_derive (V := R_CompleteNormedModule) G g); intros; [apply hd|apply hc].
assert (left : forall a, a <= c -> is_RInt f a c 0).
  intros a ha; apply is_RInt_ext with (fun _ => 0).
    intros x hx; rewrite Rmin_left, Rmax_right in hx by lra; symmetry; apply h0; lra.
  apply zero_RInt.
assert (exc : forall a, ex_RInt f a c).
  intros a; destruct (Rle_or_lt a c) as [h|h]; [exists 0; now apply left|].
  apply ex_RInt_swap; exists (G a - G c); apply right; lra.
split.
- intros a b; apply ex_RInt_Chasles with c; [apply exc|apply ex_RInt_swap, exc].
- intros eps he; destruct (hs eps he) as [T hT]; exists (Rabs T + Rabs c); intros a b ha hb.
  pose proof (Rle_abs T); pose proof (Rle_abs c); pose proof (Rle_abs (- c)) as hcc; rewrite Rabs_Ropp in hcc.
  pose proof (Rabs_pos T); pose proof (Rabs_pos c).
  assert (e : is_RInt f a b (0 + (G b - G c))).
    apply (is_RInt_Chasles (V := R_NormedModule) f a c b); [apply left|apply right]; lra.
  assert (e2 : RInt f a b = 0 + (G b - G c)) by (apply is_RInt_unique; exact e).
  rewrite e2, hl; replace (0 + (G b - G c) - - G c) with (G b) by ring; apply hT; lra.
Qed.

Lemma interval_integral (f g G : R -> R) c d l : c <= d -> (forall x, x < c -> f x = 0) -> (forall x, d < x -> f x = 0) ->
  (forall x, c < x < d -> f x = g x) ->
  (forall x, is_derive G x (g x)) -> (forall x, continuous g x) -> l = G d - G c -> line_integral f l.
Proof.
intros hcd h0 h0' h1 hd hc hl.
assert (mid : is_RInt f c d l).
  rewrite hl; apply is_RInt_ext with g.
    intros x hx; rewrite Rmin_left, Rmax_right in hx by lra; symmetry; apply h1; lra.
  apply (is_RInt_derive (V := R_CompleteNormedModule) G g); intros; [apply hd|apply hc].
assert (left : forall a, a <= c -> is_RInt f a c 0).
  intros a ha; apply is_RInt_ext with (fun _ => 0); [|apply zero_RInt].
  intros x hx; rewrite Rmin_left, Rmax_right in hx by lra; symmetry; apply h0; lra.
assert (right : forall b, d <= b -> is_RInt f d b 0).
  intros b hb; apply is_RInt_ext with (fun _ => 0); [|apply zero_RInt].
  intros x hx; rewrite Rmin_left, Rmax_right in hx by lra; symmetry; apply h0'; lra.
assert (exc : forall a, ex_RInt f a c).
  intros a; destruct (Rle_or_lt a c) as [h|h]; [exists 0; now apply left|].
  apply ex_RInt_swap.
  destruct (Rle_or_lt a d) as [h'|h'].
    apply (ex_RInt_Chasles_1 (V := R_CompleteNormedModule) f c a d); [lra|exists l; exact mid].
  apply ex_RInt_Chasles with d; [exists l; exact mid|exists 0; apply right; lra].
split.
- intros a b; apply ex_RInt_Chasles with c; [apply exc|apply ex_RInt_swap, exc].
- intros eps he; exists (Rabs c + Rabs d); intros a b ha hb.
  pose proof (Rle_abs d); pose proof (Rle_abs (- c)) as hcc; rewrite Rabs_Ropp in hcc.
  pose proof (Rabs_pos d); pose proof (Rabs_pos c).
  assert (e : is_RInt f a b (0 + (l + 0))).
    apply (is_RInt_Chasles (V := R_NormedModule) f a c b); [apply left; lra|].
    apply (is_RInt_Chasles (V := R_NormedModule) f c d b); [exact mid|apply right; lra].
  assert (e2 : RInt f a b = 0 + (l + 0)) by (apply is_RInt_unique; exact e).
  rewrite e2; replace (0 + (l + 0) - l) with 0 by ring; rewrite Rabs_R0; exact he.
Qed.

Theorem gamma_integral n : line_integral (fun x => if Rle_dec x 0 then 0 else x ^ n * exp (- x)) (INR (fact n)).
Proof.
apply half_line_integral with (g := fun x => x ^ n * exp (- x)) (G := gam_prim n) (c := 0).
- intros x hx; destruct (Rle_dec x 0); [reflexivity|contradiction].
- intros x hx; destruct (Rle_dec x 0); [lra|reflexivity].
- intros x; apply gam_prim_derive.
- intros x; apply (ex_derive_continuous (V := R_NormedModule)); auto_derive; exact I.
- intros eps he; apply gam_prim_small; exact he.
- rewrite gam_prim_0; ring.
Qed.

Theorem uniform_integral n a b : a < b ->
  line_integral (fun x => if Rle_dec a x then (if Rle_dec x b then x ^ n * / (b - a) else 0) else 0)
    ((b ^ S n - a ^ S n) / (INR (S n) * (b - a))).
Proof.
intros hab; assert (hn : 0 < INR (S n)) by (apply lt_0_INR; lia).
apply interval_integral with (g := fun x => x ^ n * / (b - a)) (G := fun x => x ^ S n / (INR (S n) * (b - a))) (c := a) (d := b).
- lra.
- intros x hx; destruct (Rle_dec a x); [lra|reflexivity].
- intros x hx; destruct (Rle_dec a x); [|reflexivity]; destruct (Rle_dec x b); [lra|reflexivity].
- intros x hx; destruct (Rle_dec a x); [|lra]; destruct (Rle_dec x b); [reflexivity|lra].
- intros x.
  replace (x ^ n * / (b - a)) with (INR (S n) * x ^ n * / (INR (S n) * (b - a))) by (field; split; lra).
  apply (is_derive_ext (fun t => / (INR (S n) * (b - a)) * t ^ S n)); [intros t; apply Rmult_comm|].
  replace (INR (S n) * x ^ n * / (INR (S n) * (b - a))) with (/ (INR (S n) * (b - a)) * (INR (S n) * 1 * x ^ pred (S n)))
    by (rewrite <- pred_Sn; ring).
  apply (is_derive_scal (fun t => t ^ S n)), (is_derive_pow (fun t => t) (S n) x 1), (is_derive_id (K := R_AbsRing)).
- intros x; apply (ex_derive_continuous (V := R_NormedModule)); auto_derive; exact I.
- field; split; lra.
Qed.

(* a non-negative function that is positive and continuous at a point has a positive integral *)
Lemma line_pos (f : R -> R) l x0 : line_integral f l -> (forall x, 0 <= f x) -> 0 < f x0 -> continuous f x0 -> 0 < l.
Proof.
intros [hi hl] h0 hx hc.
assert (hc' : locally x0 (fun x => f x0 / 2 < f x)).
  apply (hc (fun y => f x0 / 2 < y)); exists (mkposreal (f x0 / 2) ltac:(lra)); intros y hy.
  unfold ball in hy; simpl in hy; unfold AbsRing_ball, abs, minus, plus, opp in hy; simpl in hy.
  apply Rabs_def2 in hy; lra.
destruct hc' as [d hd]; destruct d as [d d0].
assert (hd' : forall x, x0 - d / 2 <= x <= x0 + d / 2 -> f x0 / 2 < f x).
  intros x hx'; apply hd; unfold ball; simpl; unfold AbsRing_ball, abs, minus, plus, opp; simpl.
  apply Rabs_def1; lra.
set (c := x0 - d / 2) in *; set (e := x0 + d / 2) in *.
assert (hce : c < e) by (unfold c, e; lra).
assert (lower : f x0 / 2 * d <= RInt f c e).
  assert (ec : RInt (fun _ => f x0 / 2) c e = (e - c) * (f x0 / 2)) by exact (RInt_const (V := R_CompleteNormedModule) c e _).
  assert (e0 : f x0 / 2 * d = (e - c) * (f x0 / 2)) by (unfold c, e; field).
  rewrite e0, <- ec.
  apply RInt_le; [lra|apply ex_RInt_const|apply hi|]; intros x hx'; apply Rlt_le, hd'; lra.
assert (hp : 0 < f x0 / 2 * d) by (apply Rmult_lt_0_compat; lra).
destruct (Rlt_or_le 0 l) as [h|h]; [exact h|exfalso].
destruct (hl (f x0 / 2 * d / 2)) as [T hT]; [lra|].
set (a := - (Rabs T + Rabs c + Rabs e + 1)); set (b := Rabs T + Rabs c + Rabs e + 1).
pose proof (Rle_abs T); pose proof (Rabs_pos T); pose proof (Rabs_pos c); pose proof (Rabs_pos e); pose proof (Rle_abs e).
pose proof (Rle_abs (- c)) as hcc; rewrite Rabs_Ropp in hcc.
specialize (hT a b ltac:(unfold a; lra) ltac:(unfold b; lra)).
assert (e1 : RInt f a b = RInt f a c + (RInt f c e + RInt f e b)).
  rewrite (RInt_split f a b c hi), (RInt_split f c b e hi); reflexivity.
assert (p1 : 0 <= RInt f a c) by (apply RInt_ge_0; [unfold a; lra|apply hi|intros; apply h0]).
assert (p2 : 0 <= RInt f e b) by (apply RInt_ge_0; [unfold b; lra|apply hi|intros; apply h0]).
rewrite e1 in hT; apply Rabs_def2 in hT; lra.
Qed.

Lemma cont_local (f g : R -> R) a b x : a < x < b -> (forall z, a < z < b -> f z = g z) -> cont_at g x -> cont_at f x.
Proof.
intros hx hfg hg.
apply (continuous_ext_loc f g x); [|exact hg].
assert (hd : 0 < Rmin (x - a) (b - x)) by (apply Rmin_pos; lra).
exists (mkposreal _ hd); intros z hz; symmetry; apply hfg.
unfold ball in hz; simpl in hz; unfold AbsRing_ball, abs, minus, plus, opp in hz; simpl in hz.
apply Rabs_def2 in hz; pose proof (Rmin_l (x - a) (b - x)); pose proof (Rmin_r (x - a) (b - x)); lra.
Qed.

Lemma gamma_cont n t c x : cont_at (fun z => z ^ n * exp (- (z * t)) * c) x.
Proof. apply (ex_derive_continuous (V := R_NormedModule)); auto_derive; exact I. Qed.
Lemma const_cont c x : cont_at (fun _ => c) x.
Proof. apply continuous_const. Qed.
