(* Real series: the facts used for the matrix exponential, stated with the standard library's
   infinite_sum and derivable_pt_lim. *)
From Coq Require Import Reals Lra.
From Coquelicot Require Import Coquelicot.
Open Scope R_scope.

Definition series (a : nat -> R) : R := Series a.

Lemma series_unique a l : infinite_sum a l -> series a = l.
Proof. intros h; apply is_series_unique; apply is_series_Reals; exact h. Qed.

Lemma series_correct a : (exists l, infinite_sum a l) -> infinite_sum a (series a).
Proof. intros [l h]; rewrite (series_unique _ _ h); exact h. Qed.

Lemma series_le a b l : (forall n, Rabs (a n) <= b n) -> infinite_sum b l ->
  exists l', infinite_sum a l'.
Proof.
intros h hb.
assert (H : ex_series a).
  apply (ex_series_le (K := R_AbsRing) (V := R_CompleteNormedModule) a b); [exact h|].
  exists l; apply is_series_Reals; exact hb.
destruct H as [l' H]; exists l'; apply is_series_Reals; exact H.
Qed.

Lemma series_mult a b la lb : infinite_sum a la -> infinite_sum b lb ->
  (exists l, infinite_sum (fun n => Rabs (a n)) l) -> (exists l, infinite_sum (fun n => Rabs (b n)) l) ->
  infinite_sum (fun n => sum_f_R0 (fun k => a k * b (n - k)%nat) n) (la * lb).
Proof.
intros ha hb [l1 h1] [l2 h2]; apply is_series_Reals; apply is_series_mult.
- apply is_series_Reals; exact ha.
- apply is_series_Reals; exact hb.
- exists l1; apply is_series_Reals; exact h1.
- exists l2; apply is_series_Reals; exact h2.
Qed.

Lemma series_plus a b la lb : infinite_sum a la -> infinite_sum b lb ->
  infinite_sum (fun n => a n + b n) (la + lb).
Proof.
intros ha hb; apply is_series_Reals; apply (is_series_plus (K := R_AbsRing) (V := R_NormedModule) a b la lb).
- apply is_series_Reals; exact ha.
- apply is_series_Reals; exact hb.
Qed.

Lemma series_scal c a la : infinite_sum a la -> infinite_sum (fun n => c * a n) (c * la).
Proof.
intros ha; apply is_series_Reals; apply (is_series_scal (K := R_AbsRing) (V := R_NormedModule) c a la).
apply is_series_Reals; exact ha.
Qed.

Lemma series_0 : infinite_sum (fun _ => 0) 0.
Proof.
intros e he; exists 0%nat; intros n _; rewrite sum_eq_R0; [|reflexivity].
unfold R_dist; rewrite Rminus_0_r, Rabs_R0; exact he.
Qed.

Lemma series_ext a b l : (forall n, a n = b n) -> infinite_sum a l -> infinite_sum b l.
Proof.
intros h ha; apply is_series_Reals; apply (is_series_ext a b l h); apply is_series_Reals; exact ha.
Qed.

Lemma series_exp x : infinite_sum (fun n => / INR (fact n) * x ^ n) (exp x).
Proof. apply is_series_Reals; apply is_pseries_R; apply is_exp_Reals. Qed.

Lemma exp_term_le x n : 0 <= x -> / INR (fact n) * x ^ n <= exp x.
Proof.
intros h; assert (H := series_exp x).
assert (pos : forall k, 0 <= / INR (fact k) * x ^ k).
  intros k; apply Rmult_le_pos; [|apply pow_le; exact h].
  left; apply Rinv_0_lt_compat; apply INR_fact_lt_0.
assert (h2 : forall m, (n <= m)%nat -> / INR (fact n) * x ^ n <= sum_f_R0 (fun k => / INR (fact k) * x ^ k) m).
  intros m hm; induction hm.
  - destruct n; [simpl; lra|]; rewrite tech5.
    assert (0 <= sum_f_R0 (fun k => / INR (fact k) * x ^ k) n) by (apply cond_pos_sum; exact pos).
    lra.
  - rewrite tech5; assert (p := pos (S m)); lra.
destruct (Rle_or_lt (/ INR (fact n) * x ^ n) (exp x)) as [h3|h3]; [exact h3|exfalso].
destruct (H (/ INR (fact n) * x ^ n - exp x)) as [N hN]; [lra|].
assert (h4 := hN (max n N) (Nat.le_max_r _ _)); unfold R_dist in h4.
assert (h5 := h2 (max n N) (Nat.le_max_l _ _)).
rewrite Rabs_right in h4; lra.
Qed.

Lemma series_derive a x : (forall r, exists M, forall n, Rabs (a n * r ^ n) <= M) ->
  derivable_pt_lim (fun t => series (fun n => a n * t ^ n)) x
    (series (fun n => INR (S n) * a (S n) * x ^ n)).
Proof.
intros h.
assert (hr : CV_radius a = p_infty).
  assert (H := CV_radius_bounded a); destruct H as [H _]; unfold is_ub_Rbar in H.
  destruct (CV_radius a) as [c| |]; [|reflexivity|].
  - assert (H1 := H (c + 1) (h (c + 1))); simpl in H1; lra.
  - assert (H1 := H 0 (h 0)); simpl in H1; contradiction.
assert (H : is_derive (PSeries a) x (PSeries (PS_derive a) x)).
  apply is_derive_PSeries; rewrite hr; exact I.
apply is_derive_Reals in H; exact H.
Qed.

Lemma series_shift a l : infinite_sum (fun n => a (S n)) l -> infinite_sum a (a 0%nat + l).
Proof.
intros h; apply is_series_Reals.
apply (is_series_decr_1 (K := R_AbsRing) (V := R_NormedModule) a (a 0%nat + l)).
apply is_series_Reals.
change (infinite_sum (fun k => a (S k)) ((a 0%nat + l) + - a 0%nat)).
assert (e : (a 0%nat + l) + - a 0%nat = l) by ring.
rewrite e; exact h.
Qed.
