(* The Riemann integral over [0, 1]: the facts used for the real witness of the convergence theorems,
   stated with the standard library's continuity. *)
From Coq Require Import Reals Lra.
From Coquelicot Require Import Coquelicot.
Open Scope R_scope.

Definition integrable (f : R -> R) : Prop := ex_RInt f 0 1.
Definition integral (f : R -> R) : R := RInt f 0 1.

Lemma min01 : Rmin 0 1 = 0. Proof. apply Rmin_left; lra. Qed.
Lemma max01 : Rmax 0 1 = 1. Proof. apply Rmax_right; lra. Qed.

Lemma integral_ext f g : (forall x, 0 <= x <= 1 -> f x = g x) -> integral f = integral g.
Proof. intros h; apply RInt_ext; rewrite min01, max01; intros x hx; apply h; lra. Qed.
Lemma integrable_ext f g : (forall x, 0 <= x <= 1 -> f x = g x) -> integrable f -> integrable g.
Proof. intros h; apply ex_RInt_ext; rewrite min01, max01; intros x hx; apply h; lra. Qed.

Lemma integral_lin c f g : integrable f -> integrable g ->
  integral (fun x => c * f x + g x) = c * integral f + integral g.
Proof.
intros hf hg; unfold integral.
assert (hs := RInt_scal (V := R_CompleteNormedModule) f 0 1 c hf).
assert (es := ex_RInt_scal (V := R_CompleteNormedModule) f 0 1 c hf).
assert (hp := RInt_plus (V := R_CompleteNormedModule) _ _ 0 1 es hg).
exact (eq_trans hp (f_equal (fun z => plus z (RInt g 0 1)) hs)).
Qed.

Lemma integral_mono f g : integrable f -> integrable g -> (forall x, 0 <= x <= 1 -> f x <= g x) ->
  integral f <= integral g.
Proof. intros hf hg h; apply RInt_le; [lra|exact hf|exact hg|]; intros x hx; apply h; lra. Qed.

Lemma integral_const c : integral (fun _ => c) = c.
Proof. unfold integral; rewrite RInt_const; unfold scal; simpl; unfold mult; simpl; lra. Qed.

Lemma integrable_cont f : (forall x, continuity_pt f x) -> integrable f.
Proof.
intros h; apply (ex_RInt_continuous (V := R_CompleteNormedModule)); intros z _.
apply continuity_pt_filterlim; exact (h z).
Qed.

(* a uniform limit of continuous functions is integrable *)
Definition clamp (x : R) : R := Rmax 0 (Rmin 1 x).
Lemma clamp_in x : 0 <= clamp x <= 1.
Proof. unfold clamp, Rmax, Rmin; destruct (Rle_dec 1 x); destruct (Rle_dec 0 _); lra. Qed.
Lemma clamp_id x : 0 <= x <= 1 -> clamp x = x.
Proof. intros h; unfold clamp, Rmax, Rmin; destruct (Rle_dec 1 x); destruct (Rle_dec 0 _); lra. Qed.
Lemma clamp_lip x y : Rabs (clamp x - clamp y) <= Rabs (x - y).
Proof.
unfold clamp, Rmax, Rmin; destruct (Rle_dec 1 x); destruct (Rle_dec 1 y);
repeat destruct (Rle_dec 0 _); unfold Rabs; repeat destruct (Rcase_abs _); lra.
Qed.

Lemma integrable_limit f :
  (forall e, 0 < e -> exists p, continuity p /\ forall x, 0 <= x <= 1 -> Rabs (f x - p x) <= e) -> integrable f.
Proof.
intros h; apply (integrable_ext (fun x => f (clamp x))).
  intros x hx; rewrite clamp_id; auto.
apply integrable_cont; intros x e he.
destruct (h (e / 4)) as [p [hp hc]]; [lra|].
destruct (hp (clamp x) (e / 4)) as [d [hd H]]; [lra|].
exists d; split; [exact hd|]; intros y [_ hy]; unfold dist in *; simpl in *; unfold R_dist in *.
assert (h1 := hc (clamp x) (clamp_in x)); assert (h2 := hc (clamp y) (clamp_in y)).
assert (h3 : Rabs (p (clamp y) - p (clamp x)) < e / 4).
  destruct (Req_dec (clamp y) (clamp x)) as [E|E].
    rewrite E, Rminus_eq_0, Rabs_R0; lra.
  apply H; split; [split; [exact I|auto]|].
  apply Rle_lt_trans with (2 := hy); apply clamp_lip.
revert h1 h2 h3; unfold Rabs; repeat destruct (Rcase_abs _); lra.
Qed.

(* positivity *)
Lemma integral_pos f c d : (forall x, continuity_pt f x) -> (forall x, 0 <= x <= 1 -> 0 <= f x) ->
  0 <= c < d -> d <= 1 -> (forall x, c < x < d -> 0 < f x) -> 0 < integral f.
Proof.
intros hc h0 hcd hd hp.
assert (ex : forall u v, ex_RInt f u v).
  intros u v; apply (ex_RInt_continuous (V := R_CompleteNormedModule)); intros z _.
  apply continuity_pt_filterlim; exact (hc z).
unfold integral.
rewrite <- (RInt_Chasles (V := R_CompleteNormedModule) f 0 c 1 (ex _ _) (ex _ _)).
rewrite <- (RInt_Chasles (V := R_CompleteNormedModule) f c d 1 (ex _ _) (ex _ _)).
assert (a1 : 0 <= RInt f 0 c) by (apply RInt_ge_0; [lra|apply ex|intros x hx; apply h0; lra]).
assert (a2 : 0 < RInt f c d).
  apply RInt_gt_0; [lra|exact hp|intros x hx; apply continuity_pt_filterlim; exact (hc x)].
assert (a3 : 0 <= RInt f d 1) by (apply RInt_ge_0; [lra|apply ex|intros x hx; apply h0; lra]).
unfold plus; simpl; lra.
Qed.
