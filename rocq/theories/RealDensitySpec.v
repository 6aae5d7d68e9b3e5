(* Specification of laws on the line given by a density and of the quadrature rules for them, over the reals of the
   standard library.  line_integral f l (RealGauss) says that l is the integral of f over the line. *)
From Coq Require Import Reals.
From mathcomp Require Import all_ssreflect all_algebra.
From Verif Require Import Prelude QuadModel QuadSpec RealField RealGauss.
Set Implicit Arguments.
Unset Strict Implicit.
Unset Printing Implicit Defensive.
Import Order.TTheory GRing.Theory Num.Theory.
Local Open Scope ring_scope.
Arguments line_integral _ _ : clear scopes.
Arguments cont_at _ _ : clear scopes.
Local Notation K := R_rcfType.
Local Notation rexp := (Rtrigo_def.exp : K -> K).
Local Notation pi := (PI : K).

(* a probability density with finite moments that is positive and continuous on some interval *)
Definition is_density (w : K -> K) : Prop :=
  [/\ forall x, 0 <= w x,
      forall p : {poly K}, exists l, line_integral (fun x => p.[x] * w x) l,
      line_integral w 1
    & exists a b, a < b /\ forall x, a < x < b -> 0 < w x /\ cont_at w x].

(* a rule with N different nodes and positive weights of sum one that integrates polynomials of degree below 2 N exactly
   against w, keeps its nodes between bounds of the support, and whose distribution function is no further from that of
   w than the largest weight *)
Record gauss_rule (w : K -> K) (N : nat) (ws xs : seq K) : Prop := GaussRule {
  rule_size : size ws = N /\ size xs = N;
  rule_nodes : uniq xs;
  rule_weights : all (fun v => 0 < v) ws /\ jsum ws = 1;
  rule_exact : forall p : {poly K}, (size p <= N.*2)%N ->
    line_integral (fun x => p.[x] * w x) (expect ws xs (fun x => p.[x]));
  rule_lower : forall a, (forall x, w x != 0 -> a <= x) -> all (fun x => a <= x) xs;
  rule_upper : forall b, (forall x, w x != 0 -> x <= b) -> all (fun x => x <= b) xs;
  rule_cdf : forall t e, all (fun v => v <= e) ws -> exists2 l,
    line_integral (fun x => ((x <= t)%R)%:R * w x) l & `|l - expect ws xs (fun x => ((x <= t)%R)%:R)| <= e }.

(* the three densities of plot_quadrature_rules.py *)
Definition normal_mixture (means variances weights : seq K) (x : K) : K :=
  \sum_(t <- zip (zip means variances) weights)
    t.2 * (rexp (- (x - t.1.1) ^+ 2 / (2%:R * t.1.2)) / Num.sqrt (2%:R * pi * t.1.2)).
Definition uniform_density (a b x : K) : K := if a <= x <= b then (b - a)^-1 else 0.
Definition gamma_density (k : nat) (theta x : K) : K :=
  if x <= 0 then 0 else x ^+ k.-1 * rexp (- (x / theta)) / ((k.-1)`!%:R * theta ^+ k).
