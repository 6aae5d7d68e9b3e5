(* Continuity of the particle-filter objective of dardel/parameter_estimation/pf.py. *)
From mathcomp Require Import all_ssreflect all_algebra.
From mathcomp Require Import zify ring.
From Verif Require Import Prelude LinAlgSpec Moments1DModel SsModel SsProofs ResampleModel ResampleSpec ResampleProofs
  ResampleConti SmcProofs NearSpec ResampleCont BootCont PfModel.
Set Implicit Arguments.
Unset Strict Implicit.
Unset Printing Implicit Defensive.
Import Order.TTheory GRing.Theory Num.Theory.
Local Open Scope ring_scope.

(* an increasing function with an inverse is continuous, and so is the inverse *)
Section ExpLog.
Variables (R : rcfType) (exp log : R -> R).
Hypotheses (expP : exp_spec exp) (logP : log_spec exp log).
Let exp0 x : 0 < exp x. Proof. by case: expP. Qed.
Let expm x y : x < y -> exp x < exp y. Proof. by case: expP => _ _; exact. Qed.
Let le x : log (exp x) = x. Proof. by case: logP. Qed.
Let el u : 0 < u -> exp (log u) = u. Proof. by case: logP => _; exact. Qed.
Lemma log_mono u v : 0 < u -> 0 < v -> u < v -> log u < log v.
Proof.
move=> hu hv h; case: (ltrgtP (log u) (log v)) => // h'.
  by have := expm h'; rewrite !el // => /(lt_trans h); rewrite ltxx.
by move: h; rewrite -(el hu) -(el hv) h' ltxx.
Qed.
Lemma exp_cont a : cont_at exp a.
Proof.
move=> e e0; set e1 := Num.min e (exp a / 2%:R).
have h2 : 0 < exp a / 2%:R by rewrite divr_gt0 ?ltr0n.
have e1p : 0 < e1 by rewrite lt_minr e0.
have hlow : 0 < exp a - e1.
  rewrite subr_gt0; apply: (@le_lt_trans _ _ (exp a / 2%:R)); first by rewrite le_minl lexx orbT.
  by rewrite ltr_pdivr_mulr ?ltr0n // ltr_pmulr // (_ : 1 = 1%:R) // ltr_nat.
have hup : 0 < exp a + e1 by rewrite addr_gt0.
have lo : log (exp a - e1) < a by rewrite -{2}(le a); apply: log_mono => //; rewrite gtr_addl oppr_lt0.
have up : a < log (exp a + e1) by rewrite -{1}(le a); apply: log_mono => //; rewrite ltr_addl.
exists (Num.min (a - log (exp a - e1)) (log (exp a + e1) - a)); first by rewrite lt_minr !subr_gt0 lo.
move=> x; rewrite lt_minr => /andP [hx1 hx2].
apply: (@lt_le_trans _ _ e1); last by rewrite le_minl lexx.
rewrite ltr_norml; apply/andP; split.
  rewrite ltr_subr_addl -{1}(el hlow); apply: expm.
  move: hx1; rewrite ltr_norml => /andP [h _]; move: h; rewrite opprB ltr_subl_addr.
  by rewrite subrK.
rewrite ltr_subl_addr addrC -(el hup); apply: expm.
by move: hx2; rewrite ltr_norml => /andP [_]; rewrite ltr_subl_addr subrK.
Qed.
Lemma log_cont u : 0 < u -> cont_at log u.
Proof.
move=> hu e e0; set a := log u.
have lo : exp (a - e) < u by rewrite -(el hu); apply: expm; rewrite gtr_addl oppr_lt0.
have up : u < exp (a + e) by rewrite -(el hu); apply: expm; rewrite ltr_addl.
exists (Num.min (u - exp (a - e)) (exp (a + e) - u)); first by rewrite lt_minr !subr_gt0 lo.
move=> x; rewrite lt_minr => /andP [hx1 hx2].
have h1 : exp (a - e) < x.
  by move: hx1; rewrite ltr_norml => /andP [h _]; move: h; rewrite opprB ltr_subl_addr subrK.
have h2 : x < exp (a + e) by move: hx2; rewrite ltr_norml => /andP [_]; rewrite ltr_subl_addr subrK.
have hx : 0 < x by apply: lt_trans h1.
rewrite ltr_norml -/a; apply/andP; split.
  by rewrite ltr_subr_addl -(le (a - e)); apply: log_mono.
by rewrite ltr_subl_addl -(le (a + e)); apply: log_mono.
Qed.
Lemma expz : exp 0 = 1.
Proof.
case: expP => _ /(_ 0) h _; move: h; rewrite oppr0 => h.
have : (exp 0 - 1) * (exp 0 + 1) = 0 by rewrite -subr_sqr expr1n expr2 h subrr.
move/eqP; rewrite mulf_eq0 => /orP [|]; first by rewrite subr_eq0 => /eqP.
by rewrite gt_eqF ?addr_gt0 ?ltr01.
Qed.
Lemma softplus_gt0 x : 0 < log (1 + exp x).
Proof. by rewrite -(le 0) expz; apply: log_mono; rewrite ?ltr_addl ?addr_gt0 ?ltr01. Qed.
End ExpLog.

Section Objective.
Variables (R : rcfType) (exp log : R -> R) (K : Type).
Hypotheses (expP : exp_spec exp) (logP : log_spec exp log).
Variables (ss_left ss_right : seq R -> R -> nat) (eps : R).
Hypotheses (ssP : ss_right_spec ss_right) (eps0 : 0 <= eps).
Variables (split1 : K -> K) (split_keys : K -> nat -> seq K) (uniform normal : K -> nat -> seq R).
Hypothesis split_size : forall k m, size (split_keys k m) = m.
Hypothesis uniform_size : forall k m, size (uniform k m) = m.
Hypothesis normal_size : forall k m, size (normal k m) = m.
Variable n : nat.
Hypothesis n0 : (0 < n)%N.
Variable mc : R -> R -> R -> R * R.
(* both moments are continuous in the parameter and the state together *)
Hypothesis mc1 : forall p x, tends (p, x) (near2 (p, x)) (fun q : R * R => (mc q.1 q.2 (ss_dt R)).1).
Hypothesis mc2 : forall p x, tends (p, x) (near2 (p, x)) (fun q : R * R => Num.sqrt (mc q.1 q.2 (ss_dt R)).2).

Section At.
Variable q : R * R.
Local Notation near := (near2 q).
Local Notation tends := (@tends R (R * R) q near).
Let nP := near2P q.

Lemma tends2 (h : R * R -> R) (f g : R * R -> R) :
  (forall p x, NearSpec.tends (p, x) (near2 (p, x)) h) -> tends f -> tends g -> tends (fun t => h (f t, g t)).
Proof.
move=> hc hf hg e e0; have [d d0 hd] := hc (f q) (g q) e e0.
apply: (near_sub nP) (near_and nP (hf d d0) (hg d d0)) => t [h1 h2].
exact: hd.
Qed.

Lemma pos_tends1 : tends (fun t => positive_params exp log t.1).
Proof.
apply: (tends_comp nP (g := log)); first by apply: (log_cont expP logP); rewrite addr_gt0 ?ltr01 //; case: expP.
apply: (tends_add nP); last exact: (tends_const nP).
apply: (tends_comp nP (g := exp)); first exact: (exp_cont expP logP).
by move=> e e0; exists e.
Qed.
Lemma pos_tends2 : tends (fun t => positive_params exp log t.2).
Proof.
apply: (tends_comp nP (g := log)); first by apply: (log_cont expP logP); rewrite addr_gt0 ?ltr01 //; case: expP.
apply: (tends_add nP); last exact: (tends_const nP).
apply: (tends_comp nP (g := exp)); first exact: (exp_cont expP logP).
by move=> e e0; exists e.
Qed.

Local Notation pmf t := (fun y x => wp_pmf exp log y x (positive_params exp log t.2)).
Lemma emission_gt0 x p : 0 < wp_emission exp log x p.
Proof. exact: (softplus_gt0 expP logP). Qed.
Lemma wp_pmf_gt0 y x p : 0 < wp_pmf exp log y x p.
Proof.
rewrite /wp_pmf /poisson_pmf divr_gt0 ?ltr0n ?fact_gt0 // mulr_gt0 //; last by case: expP.
by rewrite exprn_gt0 // emission_gt0.
Qed.
Lemma pmf_tends y (x : R * R -> R) : tends x -> tends (fun t => pmf t y (x t)).
Proof.
move=> hx; have he : tends (fun t => wp_emission exp log (x t) (positive_params exp log t.2)).
  apply: (tends_comp nP (g := log)); first by apply: (log_cont expP logP); rewrite addr_gt0 ?ltr01 //; case: expP.
  apply: (tends_add nP); first exact: (tends_const nP).
  apply: (tends_comp nP (g := exp)); first exact: (exp_cont expP logP).
  by apply: (tends_mul nP) => //; exact: pos_tends2.
apply: (tends_mul nP); last exact: (tends_const nP).
apply: (tends_mul nP); first exact: (tends_exp nP).
apply: (tends_comp nP (g := exp)); first exact: (exp_cont expP logP).
exact: (tends_opp nP).
Qed.

Local Notation prop t := (wp_pf_proposal normal (mc (positive_params exp log t.1)) n).
Lemma prop_size (t : R * R) s k : size s = n -> size (prop t s k) = n.
Proof. by move=> h; rewrite size_map size_zip size_map h normal_size minnn. Qed.
Lemma prop_tends (s : R * R -> seq R) k : (forall t, size (s t) = n) ->
  (forall i, (i < n)%N -> tends (fun t => (s t)`_i)) ->
  forall i, (i < n)%N -> tends (fun t => (prop t (s t) k)`_i).
Proof.
move=> sn st i hi; set m := fun t : R * R => mc (positive_params exp log t.1) (s t)`_i (ss_dt R).
apply: (tends_ext nP (f := fun t => (m t).1 + Num.sqrt (m t).2 * (normal k n)`_i)).
  apply: (near_all nP) => t; rewrite (nth_map ((0, 0), 0)) ?size_zip ?size_map ?sn ?normal_size ?minnn //.
  by rewrite nth_zip ?size_map ?sn ?normal_size //= (nth_map 0) ?sn.
apply: (tends_add nP).
  exact: (tends2 mc1 pos_tends1 (st i hi)).
apply: (tends_mul nP); last exact: (tends_const nP).
exact: (tends2 mc2 pos_tends1 (st i hi)).
Qed.

Lemma init_size k m : size (wp_init_sampler ss_left split1 uniform normal k m) = m.
Proof. by rewrite size_map size_zip size_map uniform_size normal_size minnn. Qed.

Local Notation obj := (wp_pf_objective exp log ss_left ss_right eps split1 split_keys uniform normal mc true n).
Local Notation init := (wp_init_sampler ss_left split1 uniform normal).
Local Notation runq := (bootstrap_filter log split1 split_keys (prop q) (fun y s => [seq pmf q y x | x <- s])
  (continuous_resample ss_right eps uniform n)).

Lemma objective_tends (k0 : K) ys key :
  let sol := (runq ys init key n).1 in
  let prev k := if k is k'.+1 then nth [::] sol k' else init key n in
  let lik k := [seq pmf q (nth 0%N ys k) x | x <- prop q (prev k) (nth k0 (split_keys key (size ys)) k)] in
  (forall k i, (k < size ys)%N -> (i < n)%N -> eps * jsum (lik k) < (lik k)`_i) ->
  tends (fun t => obj t ys key).
Proof.
move=> sol prev lik hw; have logc := log_cont expP logP.
by have [h _] := boot_tends nP logc ssP eps0 (y0 := 0%N) (k0 := k0) n0 (split1 := split1) (split_keys := split_keys) (uniform := uniform)
  (init_sampler := init) (trans := fun t => prop t) (g := fun t => pmf t) prop_size prop_tends pmf_tends
  (fun y x => wp_pmf_gt0 y x _) split_size init_size hw.
Qed.
End At.
End Objective.
