(* Property C127: signs of the weights of the multi-dimensional moment quadrature. *)
From mathcomp Require Import all_ssreflect all_algebra.
From mathcomp Require Import ring.
From Verif Require Import Prelude MultiIndexModel MultiIndexSpec LinAlgSpec SpectralProofs LdlProofs.
From Verif Require Import QuadNdModel QuadNdSpec QuadNdMain QuadNdFinal QuadNdDisc QuadNdSign FilterNdModel.
Set Implicit Arguments.
Unset Strict Implicit.
Unset Printing Implicit Defensive.
Import Order.TTheory GRing.Theory Num.Theory.
Local Open Scope ring_scope.

Section Props.
Variable R : rcfType.
Variable chol : forall n, 'M[R]_n -> 'M[R]_n.
Variable eigh : forall n, 'M[R]_n -> 'M[R]_n * 'rV[R]_n.

(* C127. Full statement: for every family of admissible moments all the weights are
   non-negative, so that a non-negative integrand has a non-negative expectation. What
   holds: a non-negative integrand of one coordinate, and a bound on product integrands
   (no cancellation can make them exceed the product of the bounds of the factors). *)
Theorem nd_quadrature_marginals_partial d N full inds (M : seq nat -> R) mean scale ldl ws xs a (g : R -> R) :
  chol_spec chol -> eigh_spec eigh -> (0 < N)%N ->
  generate_graded_lexico_multi_indices d (2 * N - 1) 0 = Some full ->
  gram_and_hankel_indices_graded_lexico N d = Some inds ->
  admissible_nd d N M ->
  moment_quadrature_nd chol eigh [seq M x | x <- full] inds mean scale ldl = Some (ws, xs) ->
  (a < d)%N -> (forall y, 0 <= g y) ->
  0 <= expect_nd ws xs (fun x => g (nth 0 x a)).
Proof. by move=> hc he hN hf hi ha hq hd hg; exact: (nd_marginal_ge0 hc he hN hf hi ha hd hg hq). Qed.

Theorem nd_quadrature_products_bounded d N full inds (M : seq nat -> R) mean scale ldl ws xs
    (F : nat -> R -> R) (B : nat -> R) :
  chol_spec chol -> eigh_spec eigh -> (0 < N)%N ->
  generate_graded_lexico_multi_indices d (2 * N - 1) 0 = Some full ->
  gram_and_hankel_indices_graded_lexico N d = Some inds ->
  admissible_nd d N M ->
  moment_quadrature_nd chol eigh [seq M x | x <- full] inds mean scale ldl = Some (ws, xs) ->
  (forall a, (a < d)%N -> forall y, `|F a y| <= B a) ->
  `|expect_nd ws xs (fun x => \prod_(a < d) F a (nth 0 x a))| <= \prod_(a < d) B a.
Proof. by move=> hc he hN hf hi ha hq hB; exact: (nd_product_bound hc he hN hf hi ha hB hq). Qed.
End Props.
Print Assumptions nd_quadrature_marginals_partial.
Print Assumptions nd_quadrature_products_bounded.

(* C127 is false: there is a probability law on six points of the plane, with positive
   weights, admissible moments, whose rule with N = 2 has a negative weight, whatever
   factorisations are used; a strictly positive integrand has a negative expectation. *)
Theorem nd_quadrature_weights_nonneg_refuted (R : rcfType) (chol : forall n, 'M[R]_n -> 'M[R]_n) eigh ldl :
  chol_spec chol -> eigh_spec eigh ->
  exists ps, exists zs : seq (seq R),
  [/\ all (fun w => 0 < w) ps, jsum ps = 1, size ps = size zs,
      admissible_nd 2 2 (discrete_nd ps zs)
    & exists full inds ws xs,
      [/\ generate_graded_lexico_multi_indices 2 3 0 = Some full,
          gram_and_hankel_indices_graded_lexico 2 2 = Some inds,
          moment_quadrature_nd chol eigh [seq discrete_nd ps zs x | x <- full] inds None None ldl
            = Some (ws, xs)
        & exists2 w, w \in ws & w < 0]].
Proof. by move=> hc he; exact: six_has_negative. Qed.
Print Assumptions nd_quadrature_weights_nonneg_refuted.

(* In the raw-moment filter: the same moments and a strictly positive likelihood give a
   negative evidence (whose logarithm the filter then takes). *)
Theorem nd_filter_evidence_positive_refuted (R : rcfType) (chol : forall n, 'M[R]_n -> 'M[R]_n) eigh st :
  chol_spec chol -> eigh_spec eigh ->
  exists ps, exists2 zs : seq (seq R),
    [/\ all (fun w => 0 < w) ps, jsum ps = 1, size ps = size zs
      & admissible_nd 2 2 (discrete_nd ps zs)]
  & exists full inds, exists2 pdf : unit -> seq R -> R,
      [/\ generate_graded_lexico_multi_indices 2 3 0 = Some full,
          gram_and_hankel_indices_graded_lexico 2 2 = Some inds
        & forall y x, 0 < pdf y x]
    & (rms_nd_update chol eigh full inds pdf st tt [seq discrete_nd ps zs x | x <- full]).2 < 0.
Proof. by move=> hc he; exact: six_negative_evidence. Qed.
Print Assumptions nd_filter_evidence_positive_refuted.

(* The hypotheses of the partial statements are met by that same law and the reference
   factorisations. *)
Example nd_sign_ex (R : rcfType) :
  [/\ chol_spec (@chol_ref R), eigh_spec (@eigh_ref R) &
      exists full inds ws xs,
      [/\ generate_graded_lexico_multi_indices 2 (2 * 2 - 1) 0 = Some full,
          gram_and_hankel_indices_graded_lexico 2 2 = Some inds,
          admissible_nd 2 2 (discrete_nd (six_ws R) (six_zs R)),
          moment_quadrature_nd (@chol_ref R) (@eigh_ref R)
            [seq discrete_nd (six_ws R) (six_zs R) x | x <- full] inds None None false = Some (ws, xs)
        & expect_nd ws xs (fun x => mono x [:: 2; 0]%N) = 1]].
Proof. exact: six_example. Qed.
