(* A number within the Taylor remainder of every partial sum of the exponential series is the exponential: plain reals. *)
From Coq Require Import Reals Lra.
From Verif Require Import RealSeries.
Local Open Scope R_scope.

Lemma exp_squeeze (A x : R) :
  (forall n, Rabs (A - sum_f_R0 (fun k => / INR (fact k) * x ^ k) n) <= / INR (fact (S n)) * Rabs x ^ S n) -> A = exp x.
Proof.
intros h; apply cond_eq; intros e e0.
assert (e2 : e / 2 > 0) by lra.
destruct (series_exp x (e / 2) e2) as [N1 h1].
destruct (cv_speed_pow_fact (Rabs x) (e / 2) e2) as [N2 h2].
set (n := max N1 N2).
assert (n1 : (n >= N1)%nat) by (apply Nat.le_max_l).
assert (n2 : (S n >= N2)%nat) by (unfold ge; apply Nat.le_trans with n; [apply Nat.le_max_r|apply Nat.le_succ_diag_r]).
specialize (h n); specialize (h1 n n1); specialize (h2 (S n) n2); unfold R_dist in *.
set (s := sum_f_R0 _ n) in *.
assert (h3 : / INR (fact (S n)) * Rabs x ^ S n < e / 2).
{ apply Rle_lt_trans with (2 := h2); rewrite Rminus_0_r; unfold Rdiv; rewrite Rmult_comm; apply Rle_abs. }
replace (A - exp x) with ((A - s) + (s - exp x)) by ring.
apply Rle_lt_trans with (1 := Rabs_triang _ _); lra.
Qed.

Lemma cos_affine_cont z m : continuity (fun x => cos (z * (x - m))).
Proof. intros x; apply (continuity_pt_comp (fun x => z * (x - m)) cos); [|apply continuity_cos]. reg. Qed.
Lemma sin_affine_cont z m : continuity (fun x => sin (z * (x - m))).
Proof. intros x; apply (continuity_pt_comp (fun x => z * (x - m)) sin); [|apply continuity_sin]. reg. Qed.
Lemma zero_squeeze (A c : R) : (forall n, Rabs A <= / INR (fact (S n)) * Rabs c ^ S n) -> A = 0.
Proof.
intros h; apply cond_eq; intros e e0; rewrite Rminus_0_r.
destruct (cv_speed_pow_fact (Rabs c) e e0) as [N h2].
assert (n2 : (S N >= N)%nat) by apply Nat.le_succ_diag_r.
specialize (h2 (S N) n2); unfold R_dist in h2; rewrite Rminus_0_r in h2.
apply Rle_lt_trans with (1 := h N); apply Rle_lt_trans with (2 := h2).
unfold Rdiv; rewrite Rmult_comm; apply Rle_abs.
Qed.
