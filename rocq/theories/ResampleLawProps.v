(* C110, C112: the law of the resampled particles under uniform random numbers. *)
From mathcomp Require Import all_ssreflect all_algebra.
From Verif Require Import Prelude ResampleModel ResampleSpec ResampleProofs ResampleLaw ResampleContLaw.
Set Implicit Arguments.
Unset Strict Implicit.
Unset Printing Implicit Defensive.
Import Order.TTheory GRing.Theory Num.Theory.
Local Open Scope ring_scope.

(* Systematic resampling is unbiased: the expected sum of phi over the picked indices is n times the
   weighted mean of phi.  With phi the indicator of j, the expected number of copies of j is n w_j. *)
Theorem systematic_unbiased (R : rcfType) (ss : seq R -> R -> nat) (w : seq R) (K : Type)
    (D : (K -> R) -> Prop) (E : (K -> R) -> R) (u : K -> R) (phi : nat -> R) :
  ss_left_spec ss -> weight_vector w -> is_expectation D E -> uniform_draw D E u ->
  let S := fun k => sum_at phi (systematic ss w (u k)) in
  D S /\ E S = (size w)%:R * wmean w phi.
Proof. exact: systematic_unbiased_l. Qed.

Theorem systematic_copies (R : rcfType) (ss : seq R -> R -> nat) (w : seq R) (K : Type)
    (D : (K -> R) -> Prop) (E : (K -> R) -> R) (u : K -> R) (j : nat) :
  ss_left_spec ss -> weight_vector w -> is_expectation D E -> uniform_draw D E u -> (j < size w)%N ->
  E (fun k => (count_mem j (systematic ss w (u k)))%:R) = (size w)%:R * nth 0 w j.
Proof. exact: systematic_copies_l. Qed.

(* Stratified resampling is unbiased whatever the dependence of the uniforms. *)
Theorem stratified_unbiased (R : rcfType) (ss : seq R -> R -> nat) (w : seq R) (K : Type)
    (D : (K -> R) -> Prop) (E : (K -> R) -> R) (us : K -> seq R) (phi : nat -> R) :
  ss_left_spec ss -> weight_vector w -> is_expectation D E ->
  (forall i, (i < size w)%N -> uniform_draw D E (fun k => nth 0 (us k) i)) ->
  let S := fun k => sum_at phi (stratified ss w (us k)) in
  D S /\ E S = (size w)%:R * wmean w phi.
Proof. exact: stratified_unbiased_l. Qed.

Theorem stratified_copies (R : rcfType) (ss : seq R -> R -> nat) (w : seq R) (K : Type)
    (D : (K -> R) -> Prop) (E : (K -> R) -> R) (us : K -> seq R) (j : nat) :
  ss_left_spec ss -> weight_vector w -> is_expectation D E ->
  (forall i, (i < size w)%N -> uniform_draw D E (fun k => nth 0 (us k) i)) -> (j < size w)%N ->
  E (fun k => (count_mem j (stratified ss w (us k)))%:R) = (size w)%:R * nth 0 w j.
Proof. exact: stratified_copies_l. Qed.

(* With independent uniforms its variance is at most that of n independent draws from the weights. *)
Theorem stratified_variance (R : rcfType) (ss : seq R -> R -> nat) (w : seq R) (K : Type)
    (D : (K -> R) -> Prop) (E : (K -> R) -> R) (us : K -> seq R) (phi : nat -> R) :
  ss_left_spec ss -> weight_vector w -> is_expectation D E ->
  (forall i, (i < size w)%N -> uniform_draw D E (fun k => nth 0 (us k) i)) ->
  (forall i j, (i < size w)%N -> (j < size w)%N -> i != j ->
     independent_draws D E (fun k => nth 0 (us k) i) (fun k => nth 0 (us k) j)) ->
  let S := fun k => sum_at phi (stratified ss w (us k)) in
  let n := (size w)%:R in
  D (fun k => (S k - n * wmean w phi) ^+ 2) /\ E (fun k => (S k - n * wmean w phi) ^+ 2) <= n * wvar w phi.
Proof. exact: stratified_variance_l. Qed.

(* Continuous resampling is not: a sample of weight zero is drawn towards. *)
Theorem continuous_unbiased_refuted (R : rcfType) (ss : seq R -> R -> nat) (eps : R) :
  0 <= eps < 2%:R^-1 ->
  exists (samples w : seq R) (phi : R -> R), [/\ size samples = size w, weight_vector w &
    forall (K : Type) (D : (K -> R) -> Prop) (E : (K -> R) -> R) (us : K -> seq R),
    is_expectation D E ->
    (forall i, (i < size w)%N -> uniform_draw D E (fun k => nth 0 (us k) i)) ->
    let S := fun k => \sum_(x <- continuous_resampling ss eps samples w (size w) (us k)) phi x in
    D S /\ E S <> (size w)%:R * wmean w (fun j => phi (nth 0 samples j))].
Proof. exact: continuous_unbiased_l. Qed.
Print Assumptions systematic_unbiased.
Print Assumptions systematic_copies.
Print Assumptions stratified_unbiased.
Print Assumptions stratified_copies.
Print Assumptions stratified_variance.
Print Assumptions continuous_unbiased_refuted.
