(* Specification of probability laws on the line by their integrals, independent of the models.

   A law is given by a class D of integrable functions and the integral L of each.  D holds the
   polynomials, so all moments are finite, and S is a set that carries the law.  Every Borel
   probability measure with finite moments that is carried by S is an instance: take for D the
   integrable functions and for L the integral. *)
From mathcomp Require Import all_ssreflect all_algebra.
Set Implicit Arguments.
Unset Strict Implicit.
Unset Printing Implicit Defensive.
Import Order.TTheory GRing.Theory Num.Theory.
Local Open Scope ring_scope.

Section Law.
Variable R : rcfType.
Implicit Types (S : R -> bool) (D : (R -> R) -> Prop) (L : (R -> R) -> R).

Record is_law S D L : Prop := IsLaw {
  law_poly : forall p : {poly R}, D (fun x => p.[x]);
  law_mod : forall f g, D f -> (forall x, S x -> f x = g x) -> D g;
  law_comb : forall c f g, D f -> D g -> D (fun x => c * f x + g x);
  law_lin : forall c f g, D f -> D g -> L (fun x => c * f x + g x) = c * L f + L g;
  law_mono : forall f g, D f -> D g -> (forall x, S x -> f x <= g x) -> L f <= L g;
  law_one : L (fun=> 1) = 1 }.

(* L has the first n moments ms, about mean and in units of scale *)
Definition has_moments L (mean scale : R) (ms : seq R) (n : nat) : Prop :=
  forall k, (k < n)%N -> L (fun x => ((x - mean) / scale) ^+ k) = ms`_k.

(* no polynomial vanishes on the law: it is not carried by finitely many points *)
Definition nondegenerate L : Prop := forall p : {poly R}, p != 0 -> 0 < L (fun x => p.[x] ^+ 2).

(* the interval [a, b] *)
Definition itv (a b : R) : R -> bool := fun x => a <= x <= b.

(* the functions that are uniform limits of polynomials on [a, b]: by Weierstrass' theorem the
   functions continuous there *)
Definition approx (a b : R) (f : R -> R) : Prop :=
  forall e, 0 < e -> exists p : {poly R}, forall x, a <= x <= b -> `|f x - p.[x]| <= e.

(* convergence of a sequence *)
Definition converges (u : nat -> R) (l : R) : Prop :=
  forall e, 0 < e -> exists n0, forall n, (n0 <= n)%N -> `|u n - l| <= e.
End Law.

(* The exact Bayesian filter on laws: the prediction averages the transition law K x over x, the
   update reweights by the likelihood g. *)
Section Bayes.
Variables (R : rcfType) (Y : Type).
Variables (K : R -> (R -> R) -> R) (g : Y -> R -> R).

Definition bayes_predict (L : (R -> R) -> R) : (R -> R) -> R := fun f => L (fun x => K x f).
Definition bayes_update (y : Y) (L : (R -> R) -> R) : (R -> R) -> R :=
  fun f => L (fun x => f x * g y x) / L (g y).

(* the posterior laws and the likelihoods of the measurements given the earlier ones *)
Fixpoint bayes_posteriors (L : (R -> R) -> R) (ys : seq Y) : seq ((R -> R) -> R) :=
  if ys is y :: ys' then
    let L' := bayes_update y (bayes_predict L) in L' :: bayes_posteriors L' ys'
  else [::].
Fixpoint bayes_likelihoods (L : (R -> R) -> R) (ys : seq Y) : seq R :=
  if ys is y :: ys' then
    bayes_predict L (g y) :: bayes_likelihoods (bayes_update y (bayes_predict L)) ys'
  else [::].
End Bayes.

(* the first n raw moments of a law *)
Definition law_moments (R : rcfType) (L : (R -> R) -> R) (n : nat) : seq R :=
  [seq L (fun x => x ^+ k) | k <- iota 0 n].
