(* Equivariance of the one-dimensional raw moment filter under affine changes of the state. *)
From mathcomp Require Import all_ssreflect all_algebra.
From mathcomp Require Import ring zify.
From Verif Require Import Prelude LinAlgSpec QuadModel QuadSpec QuadProofs QuadMain QuadStrict.
From Verif Require Import Moments1DModel Moments1DSpec Moments1DProofs Moments1DConv.
From Verif Require Import Filter1DModel Filter1DSpec Filter1DProofs Filter1DSim.
Set Implicit Arguments.
Unset Strict Implicit.
Unset Printing Implicit Defensive.
Import Order.TTheory GRing.Theory Num.Theory.
Local Open Scope ring_scope.

Arguments rms_update : simpl never.
Arguments rms_predict : simpl never.

Section Affine.
Variable R : rcfType.
Variable chol : forall n, 'M[R]_n -> 'M[R]_n.
Variable eigh : forall n, 'M[R]_n -> 'M[R]_n * 'rV[R]_n.
Hypothesis cholP : chol_spec chol.
Hypothesis eighP : eigh_spec eigh.
Local Notation quad := (quad chol eigh).
Variables (c s : R).
Hypothesis s0 : s != 0.

(* the moments of (X - c) / s *)
Definition aff_seq (ms : seq R) : seq R := [seq affine_moments (nth 0 ms) c s k | k <- iota 0 (size ms)].

Lemma size_aff ms : size (aff_seq ms) = size ms.
Proof. by rewrite size_map size_iota. Qed.
Lemma nth_aff ms k : (k < size ms)%N -> (aff_seq ms)`_k = affine_moments (nth 0 ms) c s k.
Proof. by move=> h; rewrite nth_iota_map. Qed.

Lemma affine_ext (m m' : nat -> R) k : (forall j, (j <= k)%N -> m j = m' j) ->
  affine_moments m c s k = affine_moments m' c s k.
Proof. by move=> h; rewrite ![affine_moments _ _ _ _]scaled_aff; apply: aff_ext. Qed.

Lemma half_ge1 n : (1 < n)%N -> (0 < n./2)%N.
Proof. by lia. Qed.

Lemma affine_0 (m : nat -> R) : affine_moments m c s 0 = m 0%N.
Proof. by rewrite /affine_moments expr0 /mom_functional size_poly1 big_ord1 coef1 mul1r. Qed.

Lemma quad_affine ms st st' : (1 < size ms)%N -> ms`_0 = 1 -> adm ms ->
  forall f, ex (quad (aff_seq ms) 0 1 st') f = ex (quad ms 0 1 st) (fun x => f ((x - c) / s)).
Proof.
move=> hs h0 ha f.
have [g1 g2 g3 g4 g5] := quad_strict cholP eighP 0 st hs (oner_neq0 R) ha.
have eq := @quadP R chol eigh ms 0 1 st hs.
move: g1 g2 g3 g4 g5 eq; case: (quad ms 0 1 st) => ws xs /= g1 g2 g3 g4 g5 eq.
pose zs := [seq (x - c) / s | x <- xs].
have he g : expect ws zs g = expect ws xs (fun x => g ((x - c) / s)).
  rewrite !expect_sumE /zs.
  have -> : zip ws [seq (x - c) / s | x <- xs] = [seq (p.1, (p.2 - c) / s) | p <- zip ws xs].
    by elim: (ws) (xs) => [|w ws' IH] [|x xs'] //=; rewrite IH.
  by rewrite big_map.
have hp := quadrature_poly cholP eighP (oner_neq0 R) ha eq.
have hm k : (k < (size ms)./2.*2)%N -> (aff_seq ms)`_k = discrete_moment ws zs k.
  move=> hk; have hk' : (k < size ms)%N.
    by apply: leq_trans hk _; rewrite -{2}[size ms]odd_double_half leq_addl.
  rewrite nth_aff // -[RHS]/(\sum_(p <- zip ws zs) p.1 * p.2 ^+ k) -(expect_sumE ws zs (fun x => x ^+ k)) he.
  have := hp ((s^-1 *: ('X - c%:P)) ^+ k); rewrite h0 divr1 -/(affine_moments (nth 0 ms) c s k) => <-.
    apply: expect_ext => x; rewrite subr0 divr1 horner_exp hornerZ hornerD hornerX hornerN hornerC.
    by rewrite mulrC.
  apply: (leq_trans (size_exp_leq _ _)); rewrite poly.size_scale ?invr_eq0 // size_XsubC mul1n; exact: hk.
have hq' := @quadP R chol eigh (aff_seq ms) 0 1 st'; rewrite size_aff in hq'.
have e' := hq' hs.
have hsum : jsum ws = 1.
  have := hp 1; rewrite size_poly1 => h1.
  have n1 : (0 < (size ms)./2.*2)%N by rewrite double_gt0 -g2.
  have := h1 n1; rewrite h0 divr1 /mom_functional size_poly1 big_ord1 coef1 mul1r h0 => e1.
  apply: etrans e1; rewrite expect_sumE jsumE -[in LHS](unzip1_zip (eq_leq (etrans g2 (esym g3)))) big_map.
  by apply: eq_bigr => p _; rewrite hornerC mulr1.
rewrite /ex -he.
apply: (quadrature_discrete cholP eighP (ms := aff_seq ms) (ldl := st')) => //.
- by rewrite size_map g2 g3.
- by rewrite size_aff size_map g3.
- by rewrite map_inj_uniq // => x y /(mulIf (invr_neq0 s0)) /addIr.
- by move=> k; rewrite size_aff; exact: hm.
- by rewrite e'; case: (quad _ _ _ _).
Qed.

Section Run.
Variables (log : R -> R) (Y Y' : Type) (g : Y -> Y').
Variables (cond cond' : R -> nat -> R) (pdf : Y -> R -> R) (pdf' : Y' -> R -> R) (st st' : bool) (num : nat).
Hypothesis hcond : forall x k, (k < num)%N -> cond' ((x - c) / s) k = affine_moments (cond x) c s k.
Hypothesis cond0 : forall x, cond x 0%N = 1.
Hypothesis hpdf : forall y x, pdf' (g y) ((x - c) / s) = pdf y x.
Local Notation predict := (rms_predict chol eigh cond st).
Local Notation update := (rms_update chol eigh pdf st).
Local Notation body := (rms_body chol eigh log cond pdf st).
Local Notation predict' := (rms_predict chol eigh cond' st').
Local Notation update' := (rms_update chol eigh pdf' st').
Local Notation body' := (rms_body chol eigh log cond' pdf' st').

Lemma predict_affine rms : size rms = num -> (1 < num)%N -> rms`_0 = 1 -> adm rms ->
  predict' (aff_seq rms) = aff_seq (predict rms).
Proof.
move=> hs h1 h0 ha; have hs1 : (1 < size rms)%N by rewrite hs.
apply: (@eq_from_nth _ 0); rewrite ?size_aff !size_rms_predict ?size_aff // => k hk.
rewrite nth_moments_of ?size_aff // (quad_affine st st') // nth_aff ?size_rms_predict //.
rewrite (@affine_ext _ (fun k => ex (quad rms 0 1 st) (fun x => cond x k))); last first.
  by move=> j hj; rewrite nth_moments_of // (leq_ltn_trans hj).
rewrite [RHS]expect_mom; apply: expect_ext => x; by rewrite hcond // -hs.
Qed.

Lemma update_affine y rms : (1 < size rms)%N -> rms`_0 = 1 -> adm rms ->
  update' (g y) (aff_seq rms) = (aff_seq (update y rms).1, (update y rms).2).
Proof.
move=> hs h0 ha; have hq := quad_affine st st' hs h0 ha.
have hp : ex (quad (aff_seq rms) 0 1 st') (pdf' (g y)) = (update y rms).2.
  by rewrite hq; apply: expect_ext => x; rewrite hpdf.
rewrite /rms_update -!/(ex _ _) hp; congr pair.
apply: (@eq_from_nth _ 0); first by rewrite size_map size_moments_of !size_aff size_rms_update.
rewrite size_map size_moments_of size_aff => k hk.
rewrite nth_divm nth_moments_of ?size_aff // hq nth_aff ?size_rms_update //.
rewrite (@affine_ext _ (fun k => ex (quad rms 0 1 st) (fun x => x ^+ k * pdf y x) / (update y rms).2)); last first.
  by move=> j hj; rewrite nth_divm nth_moments_of // (leq_ltn_trans hj).
rewrite [RHS]mom_mulr expect_mom; congr (_ / _); apply: expect_ext => x.
rewrite hpdf mom_mulr mom_point horner_exp hornerZ hornerD hornerX hornerN hornerC.
by rewrite [s^-1 * _]mulrC.
Qed.

Lemma predict_0 rms : size rms = num -> (1 < num)%N -> rms`_0 = 1 -> adm rms -> (predict rms)`_0 = 1.
Proof.
move=> hs h1 h0 ha; have hs1 : (1 < size rms)%N by rewrite hs.
have hq := @quadP R chol eigh rms 0 1 st hs1.
rewrite nth_moments_of ?(ltnW hs1) //.
have := quadrature_poly cholP eighP (oner_neq0 R) ha.
move: hq; case e : (quad rms 0 1 st) => [ws xs] hq /(_ _ _ _ _ hq 1).
rewrite size_poly1 double_gt0 => hh; have {hh} := hh (half_ge1 hs1).
rewrite h0 divr1 /mom_functional size_poly1 big_ord1 coef1 mul1r h0 => <-.
by apply: expect_ext => x; rewrite cond0 hornerC.
Qed.

Lemma affine_sim rms ys nell : size rms = num -> (1 < num)%N -> rms`_0 = 1 ->
  rms_ok chol eigh cond pdf st rms ys ->
  scan body' (aff_seq rms, nell) [seq g y | y <- ys] =
  ((aff_seq (scan body (rms, nell) ys).1.1, (scan body (rms, nell) ys).1.2),
   [seq aff_seq r | r <- (scan body (rms, nell) ys).2]).
Proof.
move=> hs h1 h0; elim: ys rms hs h0 nell => [|y ys IH] rms hs h0 nell // [ha ha' hp ho].
rewrite [map _ _]/= !scan_cons !(rms_bodyE _ _ log) predict_affine //.
have hs' : size (predict rms) = num by rewrite size_rms_predict.
rewrite update_affine ?hs' //=; last exact: predict_0.
rewrite IH ?size_rms_update //.
by rewrite rms_update0 // hs' ltnW.
Qed.
End Run.
End Affine.
