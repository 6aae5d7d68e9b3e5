(* The shape of the Gram-Charlier density (one_dim/pdf_approximations.py:56-90): lemmas. *)
From mathcomp Require Import all_ssreflect all_algebra.
From mathcomp Require Import ring polyrcf.
From Verif Require Import Prelude QuadSpec Moments1DModel Moments1DSpec Moments1DConv BellProofs.
From Verif Require Import PdfModel PdfSpec HermiteProofs.
Set Implicit Arguments.
Unset Strict Implicit.
Unset Printing Implicit Defensive.
Import Order.TTheory GRing.Theory Num.Theory.
Local Open Scope ring_scope.

Section GC.
Variable R : rcfType.
Variables (exp : R -> R) (pi : R).
Notation H n := (hermite_probabilist n ('X : {poly R})).

Lemma gc_form (ks : seq R) x : (1 < size ks)%N ->
  gram_charlier exp pi ks x =
  exp (- (x - ks`_0) ^+ 2 / (2%:R * ks`_1)) / Num.sqrt (2%:R * pi * ks`_1) * gc_series ks x.
Proof.
move=> h; rewrite /gram_charlier /gc_base !jget_nth ?(ltnW h) //.
by rewrite invfM mulrA div1r [_^-1 * _]mulrC.
Qed.

Lemma bell_zeros (xs : seq R) n : (forall j, xs`_j = 0) -> (0 < n <= size xs)%N -> complete_bell n xs = 0.
Proof.
move=> h0; case: n => // n hn; rewrite complete_bell_rec //; apply: big1 => i _.
by rewrite h0 mulr0.
Qed.

Lemma gc_series_normal (ks : seq R) x : (1 < size ks)%N -> (forall j, (1 < j)%N -> ks`_j = 0) -> gc_series ks x = 1.
Proof.
move=> h h0; rewrite /gc_series; set bi := [:: 0; 0] ++ drop 2 ks.
have sb : size bi = size ks by rewrite size_cat size_drop /= subnKC.
have hb j : bi`_j = 0 by case: j => [|[|j]] //=; rewrite nth_drop h0.
rewrite jsum_iota big_ord_recl big1 => [|i _].
  by rewrite /complete_bell /= expr0 fact0 !mulr1 divr1 addr0.
have e : complete_bell (lift ord0 i) (take (lift ord0 i) bi) = 0.
  by rewrite complete_bell_take ?sb ?ltn_ord // bell_zeros // sb lift0 /= ltn_ord.
by rewrite e !mul0r.
Qed.

Variable ks : seq R.
Hypothesis ks2 : (1 < size ks)%N.
Hypothesis vpos : 0 < ks`_1.
Let b := complete_bell (size ks) ([:: 0; 0] ++ drop 2 ks).
Hypothesis b0 : b != 0.

Lemma sumH_size (c : nat -> R) n : c n != 0 -> size (\sum_(j < n.+1) c j *: H j) = n.+1.
Proof.
move=> cn; rewrite big_ord_recr /=.
have s1 : size (c n *: H n) = n.+1 by rewrite size_scale //; case: (@hermite_size R n).
rewrite addrC size_addl s1 // ltnS; apply: (leq_trans (size_sum _ _ _)).
apply/bigmax_leqP => i _; apply: (leq_trans (size_scale_leq _ _)).
by case: (@hermite_size R i) => ->.
Qed.

Lemma size_gc_poly : size (gc_poly ks) = (size ks).+1.
Proof.
have s0 := s_neq0 vpos.
rewrite /gc_poly size_comp_poly2; last first.
  rewrite addrC size_addl size_scale ?size_polyX ?invr_eq0 //.
  by rewrite ltnS size_polyC leq_b1.
apply: (@sumH_size (fun j => (Num.sqrt ks`_1)^-1 ^+ j * complete_bell j ([:: 0; 0] ++ drop 2 ks) / j`!%:R)).
rewrite !mulf_neq0 ?invr_eq0 ?expf_neq0 ?invr_eq0 //.
by rewrite pnatr_eq0 -lt0n fact_gt0.
Qed.

Lemma gc_onto (y : R) : odd (size ks) -> exists x, gc_series ks x = y.
Proof.
move=> ho; have sp : size (gc_poly ks - y%:P) = (size ks).+1.
  by rewrite size_addl size_gc_poly // size_opp ltnS (leq_trans (size_polyC_leq1 _)) // ltnW.
have [|x] := @odd_poly_root R (gc_poly ks - y%:P); first by rewrite sp /= ho.
by rewrite /root !hornerE subr_eq0 => /eqP hx; exists x; rewrite gc_seriesE.
Qed.
End GC.
