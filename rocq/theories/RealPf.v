(* The particle-filter objective of parameter_estimation/pf.py with the real exponential and logarithm. *)
From Coq Require Import Reals Lra.
From mathcomp Require Import all_ssreflect all_algebra.
From Verif Require Import Prelude SsModel SsProofs ResampleModel ResampleSpec PfModel PfCont PfProps.
From Verif Require Import RealField RealWitness.
Set Implicit Arguments.
Unset Strict Implicit.
Unset Printing Implicit Defensive.
Import Order.TTheory GRing.Theory Num.Theory.
Local Open Scope ring_scope.
Local Notation K := R_rcfType.
Local Notation rexp := (Rtrigo_def.exp : K -> K).
Local Notation rln := (ln : K -> K).

(* C101: continuity of the --cr objective as a function on pairs of reals *)
Theorem pf_objective_continuous_reals (T : Type) (k0 : T) (ss_left ss_right : seq K -> K -> nat)
    (split1 : T -> T) (split_keys : T -> nat -> seq T) (uniform normal : T -> nat -> seq K)
    (n : nat) (q : K * K) (ys : seq nat) (key : T) :
  ss_right_spec ss_right -> (forall k m, size (split_keys k m) = m) -> (forall k m, size (uniform k m) = m) ->
  (forall k m, size (normal k m) = m) -> (0 < n)%N ->
  let obj := wp_pf_objective rexp rln ss_left ss_right 0 split1 split_keys uniform normal (@wp_pf_euler K) true n in
  forall e, 0 < e -> exists2 d, 0 < d & forall q', `|q'.1 - q.1| < d -> `|q'.2 - q.2| < d ->
    `|obj q' ys key - obj q ys key| < e.
Proof.
move=> sP h1 h2 h3 n0 obj.
exact: (pf_objective_continuous k0 _ _ real_exp_spec real_log_spec h1 h2 h3 _ _ _ sP n0).
Qed.
Print Assumptions pf_objective_continuous_reals.

(* C102 over the reals *)
Theorem pf_objective_stratified_reals_refuted (ss_left ss_right : seq K -> K -> nat) (eps : K) (q : K * K) :
  ss_left_spec ss_left ->
  exists (split1 : nat -> nat) (split_keys : nat -> nat -> seq nat) (uniform normal : nat -> nat -> seq K) (ys : seq nat),
    [/\ forall k m, size (split_keys k m) = m, forall k m, size (uniform k m) = m,
        forall k m, all (fun u => 0 < u < 1) (uniform k m), forall k m, size (normal k m) = m &
    let obj := wp_pf_objective rexp rln ss_left ss_right eps split1 split_keys uniform normal (@wp_pf_euler K) false 2 in
    exists2 e, 0 < e & forall d, 0 < d -> exists q',
      [/\ `|q'.1 - q.1| < d, `|q'.2 - q.2| < d & e <= `|obj q' ys 0%N - obj q ys 0%N|]].
Proof. by move=> sP; apply: pf_objective_stratified_refuted => //; [exact: real_exp_spec|exact: real_log_spec]. Qed.
Print Assumptions pf_objective_stratified_reals_refuted.
