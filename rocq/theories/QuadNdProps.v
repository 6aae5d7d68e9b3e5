(* Properties C13, C14: the multi-dimensional moment quadrature. *)
From mathcomp Require Import all_ssreflect all_algebra.
From mathcomp Require Import ring.
From Verif Require Import Prelude MultiIndexModel MultiIndexSpec LinAlgSpec SpectralProofs LdlProofs.
From Verif Require Import QuadNdModel QuadNdSpec QuadNdFinal QuadNdExact QuadNdDisc.
Set Implicit Arguments.
Unset Strict Implicit.
Unset Printing Implicit Defensive.
Import Order.TTheory GRing.Theory Num.Theory.
Local Open Scope ring_scope.

Section Props.
Variable R : rcfType.
Variable chol : forall n, 'M[R]_n -> 'M[R]_n.
Variable eigh : forall n, 'M[R]_n -> 'M[R]_n * 'rV[R]_n.

(* C13: the rule exists, has C(N-1+d, d)^d nodes of dimension d, and reproduces every
   moment of total order at most 2N - 1: raw, central and scaled. *)
Theorem nd_quadrature_raw_moments d N full inds (M : seq nat -> R) ldl :
  chol_spec chol -> eigh_spec eigh -> (0 < N)%N ->
  generate_graded_lexico_multi_indices d (2 * N - 1) 0 = Some full ->
  gram_and_hankel_indices_graded_lexico N d = Some inds ->
  admissible_nd d N M ->
  exists ws, exists2 xs,
    moment_quadrature_nd chol eigh [seq M x | x <- full] inds None None ldl = Some (ws, xs)
  & [/\ size ws = ('C(N.-1 + d, d) ^ d)%N, size xs = size ws, all (fun x => size x == d) xs,
        jsum ws = 1
      & forall k, in_range d 0 (2 * N - 1) k ->
        expect_nd ws xs (fun x => mono x k) = M k / M (nseq d 0%N)].
Proof. by move=> hc he hN hf hi ha; exact: (nd_exact_raw hc he hN hf hi ha). Qed.

Theorem nd_quadrature_central_moments d N full inds (M : seq nat -> R) (mean : seq R) ldl :
  chol_spec chol -> eigh_spec eigh -> (0 < N)%N ->
  generate_graded_lexico_multi_indices d (2 * N - 1) 0 = Some full ->
  gram_and_hankel_indices_graded_lexico N d = Some inds ->
  admissible_nd d N M ->
  exists ws, exists2 xs,
    moment_quadrature_nd chol eigh [seq M x | x <- full] inds (Some mean) None ldl = Some (ws, xs)
  & [/\ size ws = ('C(N.-1 + d, d) ^ d)%N, size xs = size ws, all (fun x => size x == d) xs,
        jsum ws = 1
      & forall k, in_range d 0 (2 * N - 1) k ->
        expect_nd ws xs (fun x => mono (std_coords mean [::] x) k) = M k / M (nseq d 0%N)].
Proof. by move=> hc he hN hf hi ha; exact: (nd_exact_central hc he hN hf hi ha). Qed.

Theorem nd_quadrature_scaled_moments d N full inds (M : seq nat -> R) (mean scale : seq R) ldl :
  chol_spec chol -> eigh_spec eigh -> (0 < N)%N ->
  generate_graded_lexico_multi_indices d (2 * N - 1) 0 = Some full ->
  gram_and_hankel_indices_graded_lexico N d = Some inds ->
  admissible_nd d N M ->
  size mean = d -> size scale = d -> all (fun s => s != 0) scale ->
  exists ws, exists2 xs,
    moment_quadrature_nd chol eigh [seq M x | x <- full] inds (Some mean) (Some scale) ldl = Some (ws, xs)
  & [/\ size ws = ('C(N.-1 + d, d) ^ d)%N, size xs = size ws, all (fun x => size x == d) xs,
        jsum ws = 1
      & forall k, in_range d 0 (2 * N - 1) k ->
        expect_nd ws xs (fun x => mono (std_coords mean scale x) k) = M k / M (nseq d 0%N)].
Proof. by move=> hc he hN hf hi ha; exact: (nd_exact_scaled hc he hN hf hi ha). Qed.

(* C13: hence every polynomial of total degree at most 2N - 1. *)
Theorem nd_quadrature_polynomials d N full inds (M : seq nat -> R) ldl ws xs (p : seq (R * seq nat)) :
  chol_spec chol -> eigh_spec eigh -> (0 < N)%N ->
  generate_graded_lexico_multi_indices d (2 * N - 1) 0 = Some full ->
  gram_and_hankel_indices_graded_lexico N d = Some inds ->
  admissible_nd d N M ->
  moment_quadrature_nd chol eigh [seq M x | x <- full] inds None None ldl = Some (ws, xs) ->
  all (fun ck => in_range d 0 (2 * N - 1) ck.2) p ->
  expect_nd ws xs (fun x => \sum_(ck <- p) ck.1 * mono x ck.2) =
  \sum_(ck <- p) ck.1 * M ck.2 / M (nseq d 0%N).
Proof. by move=> hc he hN hf hi ha hq; exact: (nd_poly hc he hN hf hi ha hq). Qed.

(* C14: the weights sum to one, however the nodes are placed. *)
Theorem nd_quadrature_weights d N full inds (M : seq nat -> R) mean scale ldl ws xs :
  chol_spec chol -> eigh_spec eigh -> (0 < N)%N ->
  generate_graded_lexico_multi_indices d (2 * N - 1) 0 = Some full ->
  gram_and_hankel_indices_graded_lexico N d = Some inds ->
  admissible_nd d N M ->
  moment_quadrature_nd chol eigh [seq M x | x <- full] inds mean scale ldl = Some (ws, xs) ->
  size ws = size xs /\ jsum ws = 1.
Proof. by move=> hc he hN hf hi ha hq; exact: (nd_weights hc he hN hf hi ha hq). Qed.

(* C14: the same functional from raw and from (scaled) central moments, on every
   integrand, whichever factorisation is used. *)
Theorem nd_quadrature_scaled_representation d N full inds (M M' : seq nat -> R)
    (mean scale : seq R) ldl ldl' ws xs ws' xs' :
  chol_spec chol -> eigh_spec eigh -> (0 < N)%N ->
  generate_graded_lexico_multi_indices d (2 * N - 1) 0 = Some full ->
  gram_and_hankel_indices_graded_lexico N d = Some inds ->
  admissible_nd d N M ->
  size mean = d -> size scale = d -> all (fun s => 0 < s) scale ->
  (forall k, in_range d 0 (2 * N - 1) k -> M' k = affine_nd M mean scale k) ->
  moment_quadrature_nd chol eigh [seq M x | x <- full] inds None None ldl = Some (ws, xs) ->
  moment_quadrature_nd chol eigh [seq M' x | x <- full] inds (Some mean) (Some scale) ldl' = Some (ws', xs') ->
  forall f, expect_nd ws' xs' f = expect_nd ws xs f.
Proof. move=> hc he hN hf hi ha; exact: (nd_repr_scaled hc he hN hf hi ha). Qed.

Theorem nd_quadrature_central_representation d N full inds (M M' : seq nat -> R)
    (mean : seq R) ldl ldl' ws xs ws' xs' :
  chol_spec chol -> eigh_spec eigh -> (0 < N)%N ->
  generate_graded_lexico_multi_indices d (2 * N - 1) 0 = Some full ->
  gram_and_hankel_indices_graded_lexico N d = Some inds ->
  admissible_nd d N M ->
  size mean = d ->
  (forall k, in_range d 0 (2 * N - 1) k -> M' k = affine_nd M mean [::] k) ->
  moment_quadrature_nd chol eigh [seq M x | x <- full] inds None None ldl = Some (ws, xs) ->
  moment_quadrature_nd chol eigh [seq M' x | x <- full] inds (Some mean) None ldl' = Some (ws', xs') ->
  forall f, expect_nd ws' xs' f = expect_nd ws xs f.
Proof. move=> hc he hN hf hi ha; exact: (nd_repr_central hc he hN hf hi ha). Qed.

(* C13: when the moments are those of a law on exactly C(N-1+d, d) points that determine
   the polynomials of degree < N, the rule integrates every function exactly. *)
Theorem nd_quadrature_discrete_exact d N full inds (ws : seq R) zs ldl qw qx :
  chol_spec chol -> eigh_spec eigh -> (0 < N)%N ->
  generate_graded_lexico_multi_indices d (2 * N - 1) 0 = Some full ->
  gram_and_hankel_indices_graded_lexico N d = Some inds ->
  size ws = 'C(N.-1 + d, d) -> size zs = 'C(N.-1 + d, d) ->
  all (fun w => 0 < w) ws -> all (fun z => size z == d) zs -> unisolvent d N zs ->
  moment_quadrature_nd chol eigh [seq discrete_nd ws zs x | x <- full] inds None None ldl
    = Some (qw, qx) ->
  forall f, expect_nd qw qx f = expect_nd ws zs f / jsum ws.
Proof. by move=> hc he hN hf hi; exact: (nd_discrete_exact hc he hN hf hi). Qed.
End Props.

Print Assumptions nd_quadrature_raw_moments.
Print Assumptions nd_quadrature_central_moments.
Print Assumptions nd_quadrature_scaled_moments.
Print Assumptions nd_quadrature_polynomials.
Print Assumptions nd_quadrature_weights.
Print Assumptions nd_quadrature_scaled_representation.
Print Assumptions nd_quadrature_central_representation.
Print Assumptions nd_quadrature_discrete_exact.

(* The moments after the change of variable are those of the transformed points. *)
Theorem affine_nd_discrete (R : rcfType) d (ws : seq R) zs mean scale k :
  all (fun z => size z == d) zs -> size k = d ->
  affine_nd (discrete_nd ws zs) mean scale k =
  discrete_nd ws [seq std_coords mean scale z | z <- zs] k.
Proof. exact: affine_disc. Qed.
Print Assumptions affine_nd_discrete.

(* Three atoms in the plane: not a product law, admissible for N = 2, unisolvent. *)
Example nd_quadrature_ex (R : rcfType) :
  exists chol : forall n, 'M[R]_n -> 'M[R]_n,
  exists eigh : forall n, 'M[R]_n -> 'M[R]_n * 'rV[R]_n,
  let ws := [:: 1; 2%:R; 3%:R] : seq R in
  let zs := [:: [:: 0; 0]; [:: 1; 0]; [:: 0; 1]] : seq (seq R) in
  [/\ chol_spec chol, eigh_spec eigh, admissible_nd 2 2 (discrete_nd ws zs),
      unisolvent 2 2 zs &
      (exists full, generate_graded_lexico_multi_indices 2 (2 * 2 - 1) 0 = Some full) /\
      exists inds, gram_and_hankel_indices_graded_lexico 2 2 = Some inds].
Proof.
exists (@chol_ref R), (@eigh_ref R) => /=.
have hu := @three_points_unisolvent R.
split; [exact: chol_ref_spec|exact: eigh_ref_spec| |exact: hu|].
  by apply: discrete_nd_admissible => //=; rewrite ?ltr01 ?ltr0n.
by split; eexists; vm_compute; reflexivity.
Qed.
