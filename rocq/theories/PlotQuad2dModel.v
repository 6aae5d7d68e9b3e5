(* Model of reproduce_paper_plots/plot_quadrature_rules_2d.py: the moments and rules of its Gaussian-mixture and uniform
   panels, the scaling of the weights to marker sizes, and the selection of the nodes that each scatter call draws.
   The dimension d, N and the parameters of the laws are arguments here; the script fixes them (lines 31, 34, 40-49, 78).
   The moments of the polygon (lines 111-114) come from sympy and are an argument.  The contours, axes and colours are not modelled. *)
From mathcomp Require Import all_ssreflect all_algebra.
From Verif Require Import Prelude MultiIndexModel QuadNdModel MomentsNdModel.
Set Implicit Arguments.
Unset Strict Implicit.
Unset Printing Implicit Defensive.
Import GRing.Theory Num.Theory.
Local Open Scope ring_scope.

Section Plot2d.
Variable R : rcfType.
Variable chol : forall n, 'M[R]_n -> 'M[R]_n.
Variable eigh : forall n, 'M[R]_n -> 'M[R]_n * 'rV[R]_n.

(* lines 36-37: multi_indices and inds *)
Definition plot2d_tables (d N : nat) : option (seq (seq nat) * seq (seq (seq int))) :=
  obind (fun multi_indices =>
    omap (fun inds => (multi_indices, inds)) (gram_and_hankel_indices_graded_lexico N d))
    (generate_graded_lexico_multi_indices d (2 * N - 1) 0).

(* lines 50 and 54 *)
Definition plot2d_mixture_rule d (means : seq 'cV[R]_d) (covs : seq 'M[R]_d) (gs_weights : seq R) (N : nat)
    : option (seq R * seq (seq R)) :=
  obind (fun t =>
    let gs := gaussian_sum_nd_new means covs gs_weights t.1 in
    moment_quadrature_nd chol eigh (gsn_cms gs) t.2 (Some [seq gsn_mean gs i 0 | i <- enum 'I_d]) None false)
    (plot2d_tables d N).

(* lines 81-82 *)
Definition plot2d_uniform_rule (bounds : seq (R * R)) (N : nat) : option (seq R * seq (seq R)) :=
  obind (fun t =>
    let rms := [seq moments_nd_uniform bounds multi_index None | multi_index <- t.1] in
    moment_quadrature_nd chol eigh rms t.2 None None false)
    (plot2d_tables (size bounds) N).

(* lines 110-117: moment multi_index stands for polytope_integrate(polygon, expr) / area *)
Definition plot2d_polygon_rule (moment : seq nat -> R) (N : nat) : option (seq R * seq (seq R)) :=
  obind (fun t =>
    let rms := [seq moment multi_index | multi_index <- t.1] in
    moment_quadrature_nd chol eigh rms t.2 None None false)
    (plot2d_tables 2 N).

(* lines 55, 83 and 118: weights / max(abs(weights)) *)
Definition plot2d_scale (weights : seq R) : seq R :=
  let m := foldr (fun w u => Num.max `|w| u) 0 weights in
  [seq w / m | w <- weights].

(* lines 57-58 and 120-121, drawn at 62-65 and 127-129: the points with weight >= 0, then those with weight < 0.
   A drawn point is its position and the size of its marker in units of marker_size. *)
Definition plot2d_points (weights : seq R) (nodes : seq (seq R)) : seq (seq R * R) :=
  let t := zip weights nodes in
  [seq (p.2, p.1) | p <- t & 0 <= p.1] ++ [seq (p.2, - p.1) | p <- t & p.1 < 0].

(* lines 85-87, drawn at 92-97: weight > 0, weight < 0, abs(weight) < 1e-8; the last with a fixed size, not modelled here.
   The positions that are drawn. *)
Definition plot2d_uniform_points (weights : seq R) (nodes : seq (seq R)) : seq (seq R) :=
  let t := zip weights nodes in
  [seq p.2 | p <- t & 0 < p.1] ++ [seq p.2 | p <- t & p.1 < 0]
  ++ [seq p.2 | p <- t & `|p.1| < 1 / (10 ^ 8)%:R].
End Plot2d.
