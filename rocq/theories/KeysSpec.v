(* Specification of the discipline of random keys. *)
From mathcomp Require Import all_ssreflect.
From Verif Require Import KeysModel.
Set Implicit Arguments.
Unset Strict Implicit.
Unset Printing Implicit Defensive.

(* The keys random numbers are drawn from, in order. *)
Definition draws (es : seq event) : seq key :=
  flatten [seq (if e is Draw _ k then [:: k] else [::]) | e <- es].

(* The keys consumed, by a draw or by a split, in order. *)
Definition uses (es : seq event) : seq key :=
  [seq (match e with Draw _ k => k | Split k _ => k end) | e <- es].

(* Every random number has its own key: under the ideal of independent streams for
   different keys the draws are independent. *)
Definition independent_draws (es : seq event) : Prop := uniq (draws es).

(* jax's rule: a key is consumed once. *)
Definition single_use (es : seq event) : Prop := uniq (uses es).
