(* Uniform random numbers over the reals: the Riemann integral over [0, 1] and the iterated integral
   over the unit square. *)
From Coq Require Import Reals Lra FunctionalExtensionality.
From Coquelicot Require Import Coquelicot.
From Verif Require Import RealInt.
Open Scope R_scope.

(* the identity of [0, 1), extended by zero *)
Definition unit_id (x : R) : R := if Rle_dec 0 x then (if Rlt_dec x 1 then x else 0) else 0.
Lemma unit_id_in x : 0 <= unit_id x < 1.
Proof. unfold unit_id; destruct (Rle_dec 0 x); [destruct (Rlt_dec x 1)|]; lra. Qed.
Lemma unit_id_id x : 0 <= x < 1 -> unit_id x = x.
Proof. intros h; unfold unit_id; destruct (Rle_dec 0 x); [destruct (Rlt_dec x 1)|]; lra. Qed.

Lemma step_integral (f : R -> R) b : 0 <= b <= 1 ->
  (forall x, 0 < x < b -> f x = 1) -> (forall x, b < x < 1 -> f x = 0) ->
  integrable f /\ integral f = b.
Proof.
intros hb h1 h0; unfold integrable, integral.
assert (a : is_RInt f 0 b (scal (b - 0) 1)).
  apply (is_RInt_ext (fun _ => 1)); [|exact (is_RInt_const 0 b 1)].
  intros x hx; rewrite Rmin_left, Rmax_right in hx; [|lra..]; symmetry; apply h1; lra.
assert (c : is_RInt f b 1 (scal (1 - b) 0)).
  apply (is_RInt_ext (fun _ => 0)); [|exact (is_RInt_const b 1 0)].
  intros x hx; rewrite Rmin_left, Rmax_right in hx; [|lra..]; symmetry; apply h0; lra.
assert (d := is_RInt_Chasles f 0 b 1 _ _ a c).
split; [eexists; exact d|].
rewrite (is_RInt_unique _ _ _ _ d); unfold scal, plus; simpl; unfold mult; simpl; lra.
Qed.

(* iterated integrals over the unit square *)
Definition integrable2 (f : R * R -> R) : Prop :=
  (forall x, integrable (fun y => f (x, y))) /\ integrable (fun x => integral (fun y => f (x, y))).
Definition integral2 (f : R * R -> R) : R := integral (fun x => integral (fun y => f (x, y))).

Lemma integrable_comb c f g : integrable f -> integrable g -> integrable (fun x => c * f x + g x).
Proof.
intros hf hg.
assert (es := ex_RInt_scal (V := R_CompleteNormedModule) f 0 1 c hf).
exact (ex_RInt_plus (V := R_CompleteNormedModule) _ _ 0 1 es hg).
Qed.
Lemma integrable_const c : integrable (fun _ => c).
Proof. apply integrable_cont; intros x; apply continuity_const; intros y z; reflexivity. Qed.
Lemma integral2_one : integrable2 (fun _ => 1) /\ integral2 (fun _ => 1) = 1.
Proof.
split; [split|]; [intros x; apply integrable_const| |unfold integral2; rewrite !integral_const; reflexivity].
rewrite (functional_extensionality (fun x : R => integral (fun y => 1)) (fun _ => 1)); [apply integrable_const|].
intros x; apply integral_const.
Qed.
Lemma integral2_comb c f g : integrable2 f -> integrable2 g ->
  integrable2 (fun p => c * f p + g p) /\ integral2 (fun p => c * f p + g p) = c * integral2 f + integral2 g.
Proof.
intros [f1 f2] [g1 g2].
assert (e : (fun x => integral (fun y => c * f (x, y) + g (x, y)))
          = (fun x => c * integral (fun y => f (x, y)) + integral (fun y => g (x, y)))).
  apply functional_extensionality; intros x; apply integral_lin; auto.
split; [split|].
- intros x; apply integrable_comb; auto.
- rewrite e; apply integrable_comb; auto.
- unfold integral2; rewrite e; apply integral_lin; auto.
Qed.
(* products *)
Lemma integral2_prod f g : integrable f -> integrable g ->
  integrable2 (fun p => f (fst p) * g (snd p)) /\
  integral2 (fun p => f (fst p) * g (snd p)) = integral f * integral g.
Proof.
intros hf hg.
assert (sc : forall c h, integrable h -> integrable (fun x => c * h x) /\ integral (fun x => c * h x) = c * integral h).
  intros c h hh.
  assert (z := integrable_comb c h (fun _ => 0) hh (integrable_const 0)).
  assert (e := integral_lin c h (fun _ => 0) hh (integrable_const 0)).
  rewrite integral_const, Rplus_0_r in e.
  assert (E : (fun x => c * h x + 0) = (fun x => c * h x)) by (apply functional_extensionality; intros x; lra).
  simpl in z; rewrite E in z, e; split; assumption.
assert (e : (fun x => integral (fun y => f x * g y)) = (fun x => integral g * f x)).
  apply functional_extensionality; intros x; rewrite (proj2 (sc (f x) g hg)); apply Rmult_comm.
unfold integrable2, integral2; simpl; rewrite e; repeat split.
- intros x; apply sc; assumption.
- apply sc; assumption.
- rewrite (proj2 (sc _ f hf)); apply Rmult_comm.
Qed.
Lemma unit_step (f : R -> R) b : 0 <= b -> b <= 1 ->
  (forall x, unit_id x <= b -> f x = 1) -> (forall x, ~ unit_id x <= b -> f x = 0) ->
  integrable f /\ integral f = b.
Proof.
intros b0 b1 h1 h0; apply step_integral; [split; assumption| |].
- intros x hx; apply h1; rewrite unit_id_id; lra.
- intros x hx; apply h0; rewrite unit_id_id; lra.
Qed.
