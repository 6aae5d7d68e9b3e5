(* The rules of plot_quadrature_rules_2d.py: proofs. *)
From mathcomp Require Import all_ssreflect all_algebra.
From mathcomp Require Import zify ring.
From Verif Require Import Prelude MultiIndexModel MultiIndexSpec MultiIndexMain LinAlgSpec QuadSpec QuadNdModel QuadNdSpec QuadNdFinal QuadNdExact
  MomentsNdModel MomentsNdSpec MomentsNdKan MomentsNdMvn MomentsNdMain GaussNdGh MultiIndexProps QuadNdProps MomentsNdProps
  AdmissibleProd PlotQuad2dModel.
Set Implicit Arguments.
Unset Strict Implicit.
Unset Printing Implicit Defensive.
Import Order.TTheory GRing.Theory Num.Theory.
Local Open Scope ring_scope.

Lemma tables_some d N : (0 < d)%N -> (0 < N)%N -> exists full inds,
  [/\ generate_graded_lexico_multi_indices d (2 * N - 1) 0 = Some full,
      gram_and_hankel_indices_graded_lexico N d = Some inds & plot2d_tables d N = Some (full, inds)].
Proof.
move=> d0 N0; have [b [f [t [_ h1 h2 _]]]] := gram_hankel_tables_correct N0 d0.
by exists f, t; split=> //; rewrite /plot2d_tables h1 /= h2.
Qed.

Section Rules.
Variable R : rcfType.
Variable chol : forall n, 'M[R]_n -> 'M[R]_n.
Variable eigh : forall n, 'M[R]_n -> 'M[R]_n * 'rV[R]_n.
Hypothesis cholP : chol_spec chol.
Hypothesis eighP : eigh_spec eigh.

Lemma uniform_prod (bounds : seq (R * R)) k : size k = size bounds ->
  moments_nd_uniform bounds k None = prod_moments [seq umom b.1 b.2 | b <- bounds] k.
Proof.
rewrite /moments_nd_uniform jprodE big_map /prod_moments.
elim: k bounds => [|j k IH] [|b bs] //=; first by rewrite !big_nil.
by case=> hs; rewrite !big_cons IH // !subr0.
Qed.

Lemma adm_ext d N (M M' : seq nat -> R) : (forall k, size k = d -> M k = M' k) -> admissible_nd d N M -> admissible_nd d N M'.
Proof.
move=> e ha basis hb c hc; have := ha basis hb c hc.
suff -> : \sum_(x <- basis) \sum_(y <- basis) c x * c y * M (madd x y)
  = \sum_(x <- basis) \sum_(y <- basis) c x * c y * M' (madd x y) by [].
have [_ mb] := hb; apply: eq_big_seq => x; rewrite mb => /and3P [/eqP hx _ _].
apply: eq_big_seq => y; rewrite mb => /and3P [/eqP hy _ _].
by rewrite e // size_map size_zip hx hy minnn.
Qed.

Lemma uniform_box_admissible (bounds : seq (R * R)) N : (0 < N)%N -> all (fun b => b.1 < b.2) bounds ->
  admissible_nd (size bounds) N (fun k => moments_nd_uniform bounds k None).
Proof.
move=> N0 hb; apply: (@adm_ext _ _ (prod_moments [seq umom b.1 b.2 | b <- bounds])).
  by move=> k hk; rewrite uniform_prod.
rewrite -{1}(size_map (fun b => umom b.1 b.2) bounds); apply: product_admissible => // i.
rewrite size_map => hi; rewrite (nth_map (0, 0)) //; apply: umom_admissible.
exact: (all_nthP (0, 0) hb).
Qed.

Lemma uniform2d_rule (bounds : seq (R * R)) N : (0 < size bounds)%N -> (0 < N)%N -> all (fun b => b.1 < b.2) bounds ->
  let d := size bounds in
  exists ws, exists2 xs, plot2d_uniform_rule chol eigh bounds N = Some (ws, xs)
  & [/\ size ws = ('C(N.-1 + d, d) ^ d)%N, size xs = size ws, all (fun x => size x == d) xs, jsum ws = 1
      & forall k (Ps : seq {poly R}), in_range d 0 (2 * N - 1) k -> size Ps = d ->
          (forall i, (i < d)%N -> (nth 0 Ps i)^`() = 'X^(nth 0%N k i)) ->
          expect_nd ws xs (fun x => mono x k)
          = \prod_(t <- zip bounds Ps) ((t.2.[t.1.2] - t.2.[t.1.1]) / (t.1.2 - t.1.1))].
Proof.
move=> d0 N0 hb d; have [full [inds [hf hi ht]]] := tables_some d0 N0.
have ha := uniform_box_admissible N0 hb.
have [ws [xs hq [h1 h2 h3 h4 h5]]] := nd_quadrature_raw_moments false cholP eighP N0 hf hi ha.
exists ws, xs; first by rewrite /plot2d_uniform_rule ht.
split=> // k Ps hk sP hP; rewrite h5 //.
have m0 : moments_nd_uniform bounds (nseq (size bounds) 0%N) None = 1.
  rewrite uniform_prod ?size_nseq // /prod_moments.
  elim: (bounds) hb {h5 ha d hk sP hP d0 hf hi ht h1 h3 hq} => [|b bs IH] /=; first by rewrite big_nil.
  by move=> /andP [hb hbs]; rewrite big_cons IH //= /umom !expr1 divr1 divff ?mulr1 // subr_eq0 gt_eqF.
rewrite m0 divr1; have /and3P [/eqP sk _ _] := hk.
rewrite -(@uniform_prim _ bounds k (nseq d 0)) ?size_nseq ?sk //; last first.
  by move=> i hi'; rewrite hP // ?nth_nseq ?hi' ?subr0 -?sk.
Qed.

Section Mix.
Variables (d : nat) (means : seq 'cV[R]_d) (covs : seq 'M[R]_d) (weights : seq R).
Hypothesis sm : size means = size weights.
Hypothesis sc : size covs = size weights.
Hypothesis wp : all (fun w => 0 < w) weights.
Hypothesis w1 : \sum_(w <- weights) w = 1.
Hypothesis cp : forall i, (i < size weights)%N -> posdef (nth 0 covs i).

Lemma w_ne : (0 < size weights)%N.
Proof. by move: w1; case: weights => //; rewrite big_nil => /eqP; rewrite eq_sym oner_eq0. Qed.

Lemma In_nth (T : Type) (t0 t : T) (s : seq T) : List.In t s -> exists2 i, (i < size s)%N & nth t0 s i = t.
Proof.
elim: s => //= u s IH [->|/IH [i hi e]]; first by exists 0%N.
by exists i.+1.
Qed.

Lemma normal_mixture_admissible (Ms : seq (seq nat -> R)) N : (0 < N)%N -> size Ms = size weights ->
  (forall i, (i < size weights)%N -> mvn_moments (nth 0 means i) (nth 0 covs i) (nth (fun=> 0) Ms i)) ->
  admissible_nd d N (fun k => \sum_(t <- zip weights Ms) t.1 * t.2 k).
Proof.
move=> N0 sM hM; apply: mixture_admissible.
- move: sM wp; elim: weights Ms {hM} => [|w ws IH] [|M Ms'] //= [e] /andP [-> h] /=; exact: IH.
- by rewrite size_zip sM minnn w_ne.
move=> t /(In_nth (0, fun=> 0)) [i]; rewrite size_zip sM minnn => hi <-; rewrite nth_zip ?sM //=.
exact: (gauss_nd_admissible (cp hi) (hM i hi)).
Qed.

End Mix.

Lemma zip_shift d (means : seq 'cV[R]_d) (covs : seq 'M[R]_d) (weights : seq R) (c0 : 'cV[R]_d) k :
  size means = size weights -> size covs = size weights ->
  \sum_(j <- zip (zip means covs) weights) raw_moments_mvn_kan (j.1.1 - c0) j.1.2 k * j.2
  = \sum_(t <- zip weights [seq (fun k => raw_moments_mvn_kan mp.1 mp.2 k) | mp <- zip [seq m - c0 | m <- means] covs]) t.1 * t.2 k.
Proof.
elim: weights means covs => [|w ws0 IH] [|m ms0] [|P Ps0] //=; first by rewrite !big_nil.
by case=> e1 [e2]; rewrite !big_cons /= IH // mulrC.
Qed.

Section Mix2.
Variables (d : nat) (means : seq 'cV[R]_d) (covs : seq 'M[R]_d) (weights : seq R).
Hypothesis sm : size means = size weights.
Hypothesis sc : size covs = size weights.
Hypothesis wp : all (fun w => 0 < w) weights.
Hypothesis w1 : \sum_(w <- weights) w = 1.
Hypothesis cp : forall i, (i < size weights)%N -> posdef (nth 0 covs i).

Lemma mixture2d_rule (Ms : seq (seq nat -> R)) N : (0 < d)%N -> (0 < N)%N -> size Ms = size weights ->
  (forall i, (i < size weights)%N -> mvn_moments (nth 0 means i) (nth 0 covs i) (nth (fun=> 0) Ms i)) ->
  exists ws, exists2 xs, plot2d_mixture_rule chol eigh means covs weights N = Some (ws, xs)
  & [/\ size ws = ('C(N.-1 + d, d) ^ d)%N, size xs = size ws, all (fun x => size x == d) xs, jsum ws = 1
      & forall k, in_range d 0 (2 * N - 1) k ->
          expect_nd ws xs (fun x => mono x k) = \sum_(t <- zip weights Ms) t.1 * t.2 k].
Proof.
move=> d0 N0 sM hM; have [full [inds [hf hi ht]]] := tables_some d0 N0.
pose M k := \sum_(t <- zip weights Ms) t.1 * t.2 k.
have ha : admissible_nd d N M by exact: (normal_mixture_admissible (means := means) (covs := covs)).
have hsym : all (fun P : 'M[R]_d => P^T == P) covs.
  by apply/(all_nthP 0) => i; rewrite sc => hi'; have [h _] := cp hi'; apply/eqP.
have [s hs [[_ ms] _]] := generate_enumerates d0 (leq0n (2 * N - 1)).
have es : s = full by move: hs; rewrite hf => -[].
have hfull : all (fun k => size k == d) full.
  by apply/allP => k; rewrite -es ms => /and3P [].
have [_ e2 _ _] := gaussian_sum_nd_consistent hfull w1 sm sc hsym sM hM.
set g := gaussian_sum_nd_new means covs weights full in e2.
pose mu := [seq gsn_mean g i 0 | i <- enum 'I_d].
have smu : size mu = d by rewrite size_map size_enum_ord.
have [ws [xs hq [h1 h2 h3 h4 h5]]] := nd_quadrature_raw_moments false cholP eighP N0 hf hi ha.
pose means' := [seq m - gsn_mean g | m <- means].
pose Ms' := [seq (fun k => raw_moments_mvn_kan mp.1 mp.2 k) | mp <- zip means' covs].
have sm' : size means' = size weights by rewrite size_map.
have sM' : size Ms' = size weights by rewrite size_map size_zip sm' sc minnn.
pose M' k := \sum_(t <- zip weights Ms') t.1 * t.2 k.
have hM' i : (i < size weights)%N -> mvn_moments (nth 0 means' i) (nth 0 covs i) (nth (fun=> 0) Ms' i).
  move=> hi'; rewrite (nth_map (0, 0)) ?size_zip ?sm' ?sc ?minnn // nth_zip ?sm' ?sc //=.
  by apply: kan_moments; apply/eqP; apply: (all_nthP 0 hsym); rewrite sc.
have ha' : admissible_nd d N M' by exact: (normal_mixture_admissible (means := means') (covs := covs)).
have e3 : gsn_cms g = [seq M' k | k <- full].
  apply: eq_map => k; rewrite jsumE big_map /M' /Ms' /means'.
  exact: zip_shift.
have [ws' [xs' hq' [h1' h2' h3' h4' _]]] := nd_quadrature_central_moments mu false cholP eighP N0 hf hi ha'.
exists ws', xs'; first by move: hq'; rewrite -e3 /plot2d_mixture_rule ht.
split=> // k hk.
have e4 k' : in_range d 0 (2 * N - 1) k' -> M' k' = affine_nd M mu [::] k'.
  move=> hk'; have hin : k' \in full by rewrite -es ms.
  by move: e2; rewrite e3 => /eq_in_map ->.
rewrite (nd_quadrature_central_representation cholP eighP N0 hf hi ha smu e4 hq hq') h5 //.
have M0 : M (nseq d 0%N) = 1.
  rewrite /M -w1; have : forall i, (i < size weights)%N -> nth (fun=> 0) Ms i (nseq d 0%N) = 1.
    by move=> i /hM [].
  elim: (weights) (Ms) sM => [|w ws0 IH] [|M1 Ms0] //=; first by rewrite !big_nil.
  case=> e h; rewrite !big_cons /= IH // => [|i hi']; last exact: (h i.+1).
  by rewrite -[M1]/(nth (fun=> 0) (M1 :: Ms0) 0) (h 0%N) // mulr1.
by rewrite M0 divr1.
Qed.
End Mix2.

Lemma polygon2d_rule (moment : seq nat -> R) N : (0 < N)%N -> admissible_nd 2 N moment -> moment [:: 0; 0]%N = 1 ->
  exists ws, exists2 xs, plot2d_polygon_rule chol eigh moment N = Some (ws, xs)
  & [/\ size ws = ('C(N.+1, 2) ^ 2)%N, size xs = size ws, all (fun x => size x == 2%N) xs, jsum ws = 1
      & forall k, in_range 2 0 (2 * N - 1) k -> expect_nd ws xs (fun x => mono x k) = moment k].
Proof.
move=> N0 ha m0; have [full [inds [hf hi ht]]] := tables_some (d := 2) isT N0.
have [ws [xs hq [h1 h2 h3 h4 h5]]] := nd_quadrature_raw_moments false cholP eighP N0 hf hi ha.
exists ws, xs; first by rewrite /plot2d_polygon_rule ht.
split=> //; first by rewrite h1 (_ : (N.-1 + 2)%N = N.+1); lia.
by move=> k hk; rewrite h5 // m0 divr1.
Qed.
End Rules.

Section Draw.
Variable R : rcfType.
Implicit Types (ws : seq R) (xs : seq (seq R)).

Lemma max_abs ws : let m := foldr (fun w u => Num.max `|w| u) 0 ws in
  [/\ 0 <= m, all (fun w => `|w| <= m) ws & has (fun w => w != 0) ws -> 0 < m /\ exists2 w, w \in ws & `|w| = m].
Proof.
elim: ws => [|w ws [h0 h1 h2]] //=; set m := foldr _ _ _ in h0 h1 h2 *.
have hm : m <= Num.max `|w| m by rewrite le_maxr lexx orbT.
split; first by rewrite (le_trans h0).
  by rewrite le_maxr lexx /=; apply: sub_all h1 => v hv; rewrite (le_trans hv).
have [hw|hw] := leP `|w| m => h; last first.
  by split; [rewrite (le_lt_trans h0)|exists w; rewrite ?mem_head].
have /h2 [m0 [v hv e]] : has (fun w => w != 0) ws.
  case/orP: h => // wn; case: (boolP (has _ _)) => // /hasPn hn.
  have : m = 0; last by move=> m0; move: hw; rewrite m0 normr_le0 (negbTE wn).
  rewrite /m; elim: (ws) hn => //= v vs IH hn.
  rewrite IH => [|u hu]; last by apply: hn; rewrite inE hu orbT.
  by move: (hn v (mem_head _ _)); rewrite negbK => /eqP ->; rewrite normr0 maxxx.
by split=> //; exists v => //; rewrite inE hv orbT.
Qed.

Lemma scale_spec ws : has (fun w => w != 0) ws ->
  [/\ size (plot2d_scale ws) = size ws, all (fun w => `|w| <= 1) (plot2d_scale ws),
      has (fun w => `|w| == 1) (plot2d_scale ws)
    & exists2 c, 0 < c & forall i, (plot2d_scale ws)`_i = c * ws`_i].
Proof.
move=> hn; have [h0 h1 /(_ hn) [mp [w hw e]]] := max_abs ws; rewrite /plot2d_scale.
set m := foldr _ _ _ in h0 h1 mp e *; split; rewrite ?size_map //.
- rewrite all_map; apply: sub_all h1 => v hv /=.
  by rewrite normrM normfV (ger0_norm h0) ler_pdivr_mulr // mul1r.
- apply/hasP; exists (w / m); first exact: map_f.
  by rewrite normrM normfV (ger0_norm h0) e divff // gt_eqF.
exists m^-1; first by rewrite invr_gt0.
move=> i; have [hi|hi] := ltnP i (size ws); first by rewrite (nth_map 0) // mulrC.
by rewrite !nth_default ?size_map // mulr0.
Qed.

Lemma points_spec ws xs : size ws = size xs ->
  perm_eq (plot2d_points ws xs) [seq (t.2, `|t.1|) | t <- zip ws xs].
Proof.
rewrite /plot2d_points => _; elim: (zip ws xs) => //= t ts IH.
have [h|h] := lerP 0 t.1 => /=; first by rewrite (ger0_norm h) perm_cons.
by rewrite -[X in perm_eq (_ ++ X)]cat1s perm_catCA /= (ltr0_norm h) perm_cons.
Qed.

Lemma uniform_points_spec ws xs : size ws = size xs ->
  perm_eq (plot2d_uniform_points ws xs)
          (xs ++ [seq t.2 | t <- zip ws xs & (t.1 != 0) && (`|t.1| < 1 / (10 ^ 8)%:R)]).
Proof.
rewrite /plot2d_uniform_points; set e := 1 / _.
have e0 : 0 < e by rewrite divr_gt0 ?ltr01 // ltr0n expn_gt0.
elim: ws xs => [|w ws IH] [|x xs] //= [/IH].
move=> h; apply/permP => a; move/permP: h => /(_ a).
case: (ltgtP w 0) => [w0|w0|->] /=; last by rewrite normr0 e0 ?eqxx /= !count_cat /=; lia.
  by case: (`|w| < e); rewrite /= !count_cat /= ?count_cat /=; lia.
by case: (`|w| < e); rewrite /= !count_cat /= ?count_cat /=; lia.
Qed.
End Draw.
