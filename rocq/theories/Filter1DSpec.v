(* Specifications for the one-dimensional moment filters. *)
From mathcomp Require Import all_ssreflect all_algebra.
From Verif Require Import LinAlgSpec QuadSpec.
Set Implicit Arguments.
Unset Strict Implicit.
Unset Printing Implicit Defensive.
Import Order.TTheory GRing.Theory Num.Theory.
Local Open Scope ring_scope.

Section Spec.
Variable R : rcfType.

(* The forward algorithm of a hidden Markov chain on the points zs (of any type T): alpha lists the
   probabilities, trans x z the transition probabilities, lik y z the likelihoods. *)
Section Hmm.
Variables (Y T : Type) (zs : seq T) (trans : T -> T -> R) (lik : Y -> T -> R).
Definition hmm_predict (alpha : seq R) : seq R :=
  [seq \sum_(q <- zip alpha zs) q.1 * trans q.2 z | z <- zs].
Definition hmm_norm (y : Y) (alpha : seq R) : R := \sum_(q <- zip alpha zs) q.1 * lik y q.2.
Definition hmm_update (y : Y) (alpha : seq R) : seq R :=
  [seq q.1 * lik y q.2 / hmm_norm y alpha | q <- zip alpha zs].
(* filtering probabilities and predictive likelihoods p(y_t | y_1 .. y_{t-1}) *)
Fixpoint hmm_forward (alpha : seq R) (ys : seq Y) : seq (seq R * R) :=
  match ys with
  | [::] => [::]
  | y :: ys' =>
      let a' := hmm_update y (hmm_predict alpha) in
      (a', hmm_norm y (hmm_predict alpha)) :: hmm_forward a' ys'
  end.
End Hmm.
(* the first num moments of the distribution alpha on the points *)
Definition hmm_moments (zs : seq R) (num : nat) (alpha : seq R) : seq R :=
  [seq discrete_moment alpha zs k | k <- iota 0 num].

(* (central moments, mean) -> (scaled central moments, mean, standard deviation) *)
Definition standardise (s : seq R * R) : seq R * R * R :=
  let r := Num.sqrt s.1`_2 in
  ([seq s.1`_n / r ^+ n | n <- iota 0 (size s.1)], s.2, r).
End Spec.
