(* Properties C133, C134: the rules of plot_quadrature_rules_2d.py and the points that it draws. *)
From mathcomp Require Import all_ssreflect all_algebra.
From mathcomp Require Import ring.
From Verif Require Import Prelude MultiIndexSpec LinAlgSpec LdlProofs SpectralProofs SmallMx QuadSpec QuadNdModel QuadNdSpec MomentsNdModel MomentsNdSpec
  MomentsNdKan MomentsNdMvn AdmissibleProd PlotQuad2dModel PlotQuad2d.
Set Implicit Arguments.
Unset Strict Implicit.
Unset Printing Implicit Defensive.
Import Order.TTheory GRing.Theory Num.Theory.
Local Open Scope ring_scope.

Section Props.
Variable R : rcfType.
Variable chol : forall n, 'M[R]_n -> 'M[R]_n.
Variable eigh : forall n, 'M[R]_n -> 'M[R]_n * 'rV[R]_n.

(* C133, Gaussian panel: the rule exists for every mixture of non-degenerate normals, in every dimension and for every N,
   and has the raw moments of the mixture up to total order 2 N - 1.  Ms are the moment sequences of the components. *)
Theorem plot2d_mixture d (means : seq 'cV[R]_d) (covs : seq 'M[R]_d) (weights : seq R) (Ms : seq (seq nat -> R)) N :
  chol_spec chol -> eigh_spec eigh -> size means = size weights -> size covs = size weights ->
  all (fun w => 0 < w) weights -> \sum_(w <- weights) w = 1 ->
  (forall i, (i < size weights)%N -> posdef (nth 0 covs i)) -> (0 < d)%N -> (0 < N)%N -> size Ms = size weights ->
  (forall i, (i < size weights)%N -> mvn_moments (nth 0 means i) (nth 0 covs i) (nth (fun=> 0) Ms i)) ->
  exists ws, exists2 xs, plot2d_mixture_rule chol eigh means covs weights N = Some (ws, xs)
  & [/\ size ws = ('C(N.-1 + d, d) ^ d)%N, size xs = size ws, all (fun x => size x == d) xs, jsum ws = 1
      & forall k, in_range d 0 (2 * N - 1) k ->
          expect_nd ws xs (fun x => mono x k) = \sum_(t <- zip weights Ms) t.1 * t.2 k].
Proof. move=> hc he h1 h2 h3 h4 h5 h6 h7 h8 h9; exact: (mixture2d_rule hc he h1 h2 h3 h4 h5 h6 h7 h8 h9). Qed.

(* C133, uniform panel: on every box, the integrals of the monomials; P_i is a primitive of x^(k_i). *)
Theorem plot2d_uniform (bounds : seq (R * R)) N : chol_spec chol -> eigh_spec eigh ->
  (0 < size bounds)%N -> (0 < N)%N -> all (fun b => b.1 < b.2) bounds ->
  let d := size bounds in
  exists ws, exists2 xs, plot2d_uniform_rule chol eigh bounds N = Some (ws, xs)
  & [/\ size ws = ('C(N.-1 + d, d) ^ d)%N, size xs = size ws, all (fun x => size x == d) xs, jsum ws = 1
      & forall k (Ps : seq {poly R}), in_range d 0 (2 * N - 1) k -> size Ps = d ->
          (forall i, (i < d)%N -> (nth 0 Ps i)^`() = 'X^(nth 0%N k i)) ->
          expect_nd ws xs (fun x => mono x k)
          = \prod_(t <- zip bounds Ps) ((t.2.[t.1.2] - t.2.[t.1.1]) / (t.1.2 - t.1.1))].
Proof. move=> hc he; exact: uniform2d_rule. Qed.

(* C133, polygon panel: whatever moments sympy returns, if they are the moments of a law on which no polynomial of degree
   below N vanishes. *)
Theorem plot2d_polygon (moment : seq nat -> R) N : chol_spec chol -> eigh_spec eigh ->
  (0 < N)%N -> admissible_nd 2 N moment -> moment [:: 0; 0]%N = 1 ->
  exists ws, exists2 xs, plot2d_polygon_rule chol eigh moment N = Some (ws, xs)
  & [/\ size ws = ('C(N.+1, 2) ^ 2)%N, size xs = size ws, all (fun x => size x == 2%N) xs, jsum ws = 1
      & forall k, in_range 2 0 (2 * N - 1) k -> expect_nd ws xs (fun x => mono x k) = moment k].
Proof. move=> hc he; exact: polygon2d_rule. Qed.

(* C133: the product of admissible one-dimensional laws, and every mixture of admissible laws, is admissible. *)
Theorem product_law_admissible (Ms : seq (nat -> R)) N : (0 < N)%N ->
  (forall i, (i < size Ms)%N -> admissible (nth (fun=> 0) Ms i) N) ->
  admissible_nd (size Ms) N (fun k => \prod_(t <- zip Ms k) t.1 t.2).
Proof. exact: product_admissible. Qed.

Theorem mixture_law_admissible d N (ts : seq (R * (seq nat -> R))) :
  all (fun t => 0 < t.1) ts -> (0 < size ts)%N -> (forall t, List.In t ts -> admissible_nd d N t.2) ->
  admissible_nd d N (fun k => \sum_(t <- ts) t.1 * t.2 k).
Proof. exact: mixture_admissible. Qed.

(* C134: the marker sizes: the weights times one positive factor, the largest of absolute value one. *)
Theorem plot2d_scale_correct (ws : seq R) : has (fun w => w != 0) ws ->
  [/\ size (plot2d_scale ws) = size ws, all (fun w => `|w| <= 1) (plot2d_scale ws),
      has (fun w => `|w| == 1) (plot2d_scale ws)
    & exists2 c, 0 < c & forall i, (plot2d_scale ws)`_i = c * ws`_i].
Proof. exact: scale_spec. Qed.

(* C134: in the first and third panels each node is drawn once, with its absolute weight as size. *)
Theorem plot2d_points_once (ws : seq R) (xs : seq (seq R)) : size ws = size xs ->
  perm_eq (plot2d_points ws xs) [seq (t.2, `|t.1|) | t <- zip ws xs].
Proof. exact: points_spec. Qed.

(* C134: in the second panel each node is drawn once, and once more if its weight is small but not zero. *)
Theorem plot2d_uniform_points_twice (ws : seq R) (xs : seq (seq R)) : size ws = size xs ->
  perm_eq (plot2d_uniform_points ws xs)
          (xs ++ [seq t.2 | t <- zip ws xs & (t.1 != 0) && (`|t.1| < 1 / (10 ^ 8)%:R)]).
Proof. exact: uniform_points_spec. Qed.
End Props.
Print Assumptions plot2d_mixture.
Print Assumptions plot2d_uniform.
Print Assumptions plot2d_polygon.
Print Assumptions product_law_admissible.
Print Assumptions mixture_law_admissible.
Print Assumptions plot2d_scale_correct.
Print Assumptions plot2d_points_once.
Print Assumptions plot2d_uniform_points_twice.

Lemma xs_prim (R : rcfType) i : (i < 2)%N ->
  (nth 0 [:: 'X; (2%:R^-1) *: 'X^2] i)^`() = 'X^(nth 0%N [:: 0; 1]%N i) :> {poly R}.
Proof.
case: i => [|[|//]] _ /=; first by rewrite derivX expr0.
by rewrite derivZ derivXn expr1 -scaler_nat scalerA mulVf ?scale1r // pnatr_eq0.
Qed.

Lemma box_val (R : rcfType) : (4%:R - - 4%:R) / (4%:R - - 4%:R)
  * ((2%:R^-1 * 4%:R ^+ 2 - 2%:R^-1 * (- 3%:R) ^+ 2) / (4%:R - - 3%:R) * 1) = 1%:R / 2%:R :> R.
Proof. by field. Qed.

Lemma three_sum (R : rcfType) (a b c : R) (Ls : seq (seq nat -> R)) k : size Ls = 3%N ->
  \sum_(t <- zip [:: a; b; c] Ls) t.1 * t.2 k
  = a * nth (fun=> 0) Ls 0 k + (b * nth (fun=> 0) Ls 1 k + c * nth (fun=> 0) Ls 2 k).
Proof. by case: Ls => [|x [|y [|z [|]]]] // _; rewrite !big_cons big_nil addr0. Qed.

(* The laws of the script, with its largest N. *)
Example plot2d_ex (R : rcfType) :
  let q (n d : nat) : R := n%:R / d%:R in
  let vec (a b : R) : 'cV[R]_2 := \col_i (if i == 0 then a else b) in
  let means := [:: vec 1 1; vec (-1) (-1); vec (- q 1%N 2%N) (q 1%N 2%N)] in
  let covs := [:: mx2 (q 1%N 5%N) (q 1%N 10%N) (q 1%N 10%N) 1; mx2 2%:R (q 1%N 5%N) (q 1%N 5%N) (q 3%N 10%N); mx2 (q 1%N 2%N) 0 0 1] in
  let weights := [:: q 2%N 5%N; q 2%N 5%N; q 1%N 5%N] in
  let bounds := [:: (- 4%:R, 4%:R); (- 3%:R, 4%:R)] : seq (R * R) in
  (exists ws, exists2 xs, plot2d_mixture_rule (@chol_ref R) (@eigh_ref R) means covs weights 6 = Some (ws, xs)
     & size ws = 441%N /\ expect_nd ws xs (fun x => mono x [:: 1; 0]%N) = - q 1%N 10%N) /\
  (exists ws, exists2 xs, plot2d_uniform_rule (@chol_ref R) (@eigh_ref R) bounds 6 = Some (ws, xs)
     & size ws = 441%N /\ expect_nd ws xs (fun x => mono x [:: 0; 1]%N) = q 1%N 2%N).
Proof.
move=> q vec means covs weights bounds.
have q0 n d : (0 < n)%N -> (0 < d)%N -> 0 < q n d by move=> hn hd; rewrite divr_gt0 ?ltr0n.
have hc := @chol_ref_spec R; have he := @eigh_ref_spec R.
have cp i : (i < 3)%N -> posdef (nth 0 covs i).
  case: i => [|[|[|//]]] _ /=; apply: mx2_posdef; rewrite ?q0 ?ltr0n //.
  - have -> : q 1%N 5%N * 1 - q 1%N 10%N ^+ 2 = q 19%N 100%N by rewrite /q; field.
    by rewrite q0.
  - have -> : 2%:R * q 3%N 10%N - q 1%N 5%N ^+ 2 = q 14%N 25%N by rewrite /q; field.
    by rewrite q0.
  - by rewrite expr0n subr0 mulr1 q0.
pose Ms := [seq (fun k => raw_moments_mvn_kan t.1 t.2 k) | t <- zip means covs].
have hM i : (i < 3)%N -> mvn_moments (nth 0 means i) (nth 0 covs i) (nth (fun=> 0) Ms i).
  by case: i => [|[|[|//]]] _ /=; apply: kan_moments; apply: mx2_sym.
have first i : (i < 3)%N -> nth (fun=> 0) Ms i [:: 1; 0]%N = (nth 0 means i) 0 0.
  move=> hi; have [h0 hr] := hM i hi; have := hr [:: 0; 0]%N (0 : 'I_2) erefl.
  rewrite -[minc _ _]/[:: 1; 0]%N -[[:: 0; 0]%N]/(nseq 2 0%N) => ->; rewrite h0 mulr1 big1 ?addr0 // => j _.
  by rewrite nth_nseq ltn_ord mulr0 mul0r.
split.
- have wp : all (fun w => 0 < w) weights by rewrite /= !q0.
  have w1 : \sum_(w <- weights) w = 1 by rewrite !big_cons big_nil /q; field.
  have [ws [xs h [h1 _ _ _ h5]]] := @plot2d_mixture R _ _ 2 means covs weights Ms 6 hc he erefl erefl wp w1 cp isT isT erefl hM.
  exists ws; exists xs; first exact: h.
  split; first exact: h1.
  rewrite (h5 [:: 1; 0]%N isT) (three_sum _ _ _ _ (erefl : size Ms = 3%N)).
  rewrite (first 0%N isT) (first 1%N isT) (first 2%N isT) {h h1 h5 first hM cp}.
  by rewrite !mxE /= /q; field.
have neg (x y : nat) : (0 < x)%N -> (0 < y)%N -> - x%:R < (y%:R : R).
  by move=> hx hy; apply: (@lt_trans _ _ 0); rewrite ?oppr_lt0 ltr0n.
have hb : all (fun b : R * R => b.1 < b.2) bounds.
  by apply/andP; split; [exact: neg|apply/andP; split; [exact: neg|]].
have [ws [xs h [h1 _ _ _ h5]]] := @plot2d_uniform R _ _ bounds 6 hc he isT isT hb.
exists ws; exists xs; first exact: h.
split; first exact: h1.
rewrite (h5 [:: 0; 1]%N _ isT (erefl : size [:: 'X; (2%:R^-1) *: 'X^2] = 2%N) (@xs_prim R)) {h h1 h5 first hM cp hb hc he q0 neg}.
rewrite !big_cons big_nil /= !hornerZ !hornerXn !hornerX /=; exact: box_val.
Qed.
