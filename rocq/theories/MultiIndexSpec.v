(* Independent specification for multi-indices: what the sets and the order are.
   Nothing here refers to the model of the code. *)
From mathcomp Require Import all_ssreflect.
Set Implicit Arguments.
Unset Strict Implicit.
Unset Printing Implicit Defensive.

(* The collection { x in N^d : lower <= |x| <= upper }. *)
Definition in_range (d lower upper : nat) (x : seq nat) : bool :=
  (size x == d) && (lower <= sumn x <= upper).

(* Lexicographic comparison: the first non-zero entry of y - x is positive. *)
Definition lex_lt (x y : seq nat) : Prop :=
  exists2 i, nth 0 x i < nth 0 y i & forall j, j < i -> nth 0 x j = nth 0 y j.

(* Graded lexicographic order (docstring of graded_lexico_indexof_multi_index). *)
Definition glex_lt (x y : seq nat) : Prop :=
  (sumn x < sumn y) \/ (sumn x = sumn y /\ lex_lt x y).

(* [l] lists the collection without repetition. *)
Definition enumerates (d lower upper : nat) (l : seq (seq nat)) : Prop :=
  uniq l /\ forall x, (x \in l) = in_range d lower upper x.

(* Rows strictly increasing for the graded lexicographic order. *)
Definition glex_sorted (l : seq (seq nat)) : Prop :=
  forall i j, i < j -> j < size l -> glex_lt (nth [::] l i) (nth [::] l j).
