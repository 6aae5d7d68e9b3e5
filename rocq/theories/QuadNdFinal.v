(* The multi-dimensional moment quadrature on the layout produced by the multi-index code. *)
From mathcomp Require Import all_ssreflect all_algebra.
From mathcomp Require Import zify ring.
From Verif Require Import Prelude MultiIndexModel MultiIndexSpec MultiIndexProofs MultiIndexGramProofs MultiIndexMain.
From Verif Require Import NdIndexModel NdIndexProofs LinAlgSpec LinAlgProofs SpectralProofs LdlModel LdlProofs.
From Verif Require Import QuadModel QuadSpec QuadProofs QuadMain QuadNdModel QuadNdSpec QuadNdProofs QuadNdGram.
From Verif Require Import QuadNdAffine QuadNdMain.
Set Implicit Arguments.
Unset Strict Implicit.
Unset Printing Implicit Defensive.
Import Order.TTheory GRing.Theory Num.Theory.
Local Open Scope ring_scope.

Section Final.
Variables (R : rcfType).
Variable chol : forall n, 'M[R]_n -> 'M[R]_n.
Variable eigh : forall n, 'M[R]_n -> 'M[R]_n * 'rV[R]_n.
Hypothesis cholP : chol_spec chol.
Hypothesis eighP : eigh_spec eigh.

Lemma layoutE d N full inds :
  (0 < N)%N -> generate_graded_lexico_multi_indices d (2 * N - 1) 0 = Some full ->
  gram_and_hankel_indices_graded_lexico N d = Some inds ->
  [/\ (0 < d)%N, full = blocks d 0 (2 * N) & inds = tabs d N].
Proof.
move=> hN hf hi; have [hd ->] := fullE hf; split=> //.
  by congr blocks; lia.
by move: hi; rewrite gram_hankel_tables // => -[<-].
Qed.

Lemma sizeb d N : (0 < d)%N -> (0 < N)%N -> size (blocks d 0 N) = 'C(N.-1 + d, d).
Proof.
by case: d => // d _; case: N => // N _; rewrite size_blocks.
Qed.

Lemma std_place (mean scale x : seq R) : (forall a, (a < size x)%N -> nth 1 scale a != 0) ->
  size scale = size x ->
  std_coords mean scale (place_nodes (Some mean) (Some scale) x) = x.
Proof.
move=> h hs; rewrite /std_coords /= size_map size_iota; apply: (@eq_from_nth _ 0).
  by rewrite size_map size_iota.
move=> a; rewrite size_map size_iota => ha.
rewrite (nth_map 0%N) ?size_iota // nth_iota // add0n (nth_map 0%N) ?size_iota // nth_iota // add0n.
rewrite -(set_nth_default 0 1 (s := scale)) ?hs //; have := h _ ha; move: (nth 1 scale a) => s s0.
by rewrite addrK mulfK.
Qed.

Lemma central_place (mean x : seq R) :
  std_coords mean [::] (place_nodes (Some mean) None x) = x.
Proof.
rewrite /std_coords /= size_map size_iota; apply: (@eq_from_nth _ 0).
  by rewrite size_map size_iota.
move=> a; rewrite size_map size_iota => ha.
rewrite (nth_map 0%N) ?size_iota // nth_iota // add0n (nth_map 0%N) ?size_iota // nth_iota // add0n.
by rewrite nth_nil divr1 addrK.
Qed.

Section Lay.
Variables (d N : nat) (full : seq (seq nat)) (inds : seq (seq (seq int))).
Hypothesis hN : (0 < N)%N.
Hypothesis hf : generate_graded_lexico_multi_indices d (2 * N - 1) 0 = Some full.
Hypothesis hi : gram_and_hankel_indices_graded_lexico N d = Some inds.
Variable M : seq nat -> R.
Hypothesis ha : admissible_nd d N M.

Lemma nd_exact mean scale ldl (g : seq R -> seq R) :
  (forall x, size x = d -> g (place_nodes mean scale x) = x) ->
  exists ws, exists2 xs,
    moment_quadrature_nd chol eigh [seq M x | x <- full] inds mean scale ldl = Some (ws, xs)
  & [/\ size ws = ('C(N.-1 + d, d) ^ d)%N, size xs = size ws, all (fun x => size x == d) xs,
        jsum ws = 1
      & forall k, in_range d 0 (2 * N - 1) k ->
        expect_nd ws xs (fun x => mono (g x) k) = M k / M (nseq d 0%N)].
Proof.
have [hd -> ->] := layoutE hN hf hi => hg; have [n hn] := basis_pos hd hN.
rewrite -/(mvec d N M).
move: (quad_ndE chol eigh hd M hn mean scale ldl) => /=; set w := map _ _; set x := map _ _ => hq.
exists w, x; first exact: hq.
have [h1 h2 h3] := quad_nd_size hd hn hq.
rewrite -(sizeb hd hN) hn h1 h2; split=> //; first exact: (quad_nd_weights cholP eighP hd hN hn ha hq).
move=> k /andP [/eqP hk /= hs].
apply: (quad_nd_moments cholP eighP hd hN hn ha hq) => //.
lia.
Qed.

Lemma nd_exact_scaled (mean scale : seq R) ldl :
  size mean = d -> size scale = d -> all (fun s => s != 0) scale ->
  exists ws, exists2 xs,
    moment_quadrature_nd chol eigh [seq M x | x <- full] inds (Some mean) (Some scale) ldl = Some (ws, xs)
  & [/\ size ws = ('C(N.-1 + d, d) ^ d)%N, size xs = size ws, all (fun x => size x == d) xs,
        jsum ws = 1
      & forall k, in_range d 0 (2 * N - 1) k ->
        expect_nd ws xs (fun x => mono (std_coords mean scale x) k) = M k / M (nseq d 0%N)].
Proof.
move=> hm hs h0; apply: nd_exact => x hx; apply: std_place; last by rewrite hx.
by move=> a; rewrite hx -hs => haa; apply: (allP h0); exact: mem_nth.
Qed.

Lemma nd_exact_central (mean : seq R) ldl :
  exists ws, exists2 xs,
    moment_quadrature_nd chol eigh [seq M x | x <- full] inds (Some mean) None ldl = Some (ws, xs)
  & [/\ size ws = ('C(N.-1 + d, d) ^ d)%N, size xs = size ws, all (fun x => size x == d) xs,
        jsum ws = 1
      & forall k, in_range d 0 (2 * N - 1) k ->
        expect_nd ws xs (fun x => mono (std_coords mean [::] x) k) = M k / M (nseq d 0%N)].
Proof. by apply: nd_exact => x hx; exact: central_place. Qed.

Lemma nd_exact_raw ldl :
  exists ws, exists2 xs,
    moment_quadrature_nd chol eigh [seq M x | x <- full] inds None None ldl = Some (ws, xs)
  & [/\ size ws = ('C(N.-1 + d, d) ^ d)%N, size xs = size ws, all (fun x => size x == d) xs,
        jsum ws = 1
      & forall k, in_range d 0 (2 * N - 1) k ->
        expect_nd ws xs (fun x => mono x k) = M k / M (nseq d 0%N)].
Proof. exact: (@nd_exact None None ldl id). Qed.

Lemma nd_weights mean scale ldl ws xs :
  moment_quadrature_nd chol eigh [seq M x | x <- full] inds mean scale ldl = Some (ws, xs) ->
  size ws = size xs /\ jsum ws = 1.
Proof.
have [hd -> ->] := layoutE hN hf hi; have [n hn] := basis_pos hd hN.
rewrite -/(mvec d N M) => hq; have [h1 h2 h3] := quad_nd_size hd hn hq.
by split; [rewrite h1 h2 | exact: (quad_nd_weights cholP eighP hd hN hn ha hq)].
Qed.

Lemma nd_poly ldl ws xs (p : seq (R * seq nat)) :
  moment_quadrature_nd chol eigh [seq M x | x <- full] inds None None ldl = Some (ws, xs) ->
  all (fun ck => in_range d 0 (2 * N - 1) ck.2) p ->
  expect_nd ws xs (fun x => \sum_(ck <- p) ck.1 * mono x ck.2) =
  \sum_(ck <- p) ck.1 * M ck.2 / M (nseq d 0%N).
Proof.
move=> hq hp; have [ws' [xs' hq' [_ _ _ _ h]]] := nd_exact_raw ldl.
move: hq; rewrite hq' => -[<- <-].
rewrite expect_nd_sum !big_seq; apply: eq_bigr => ck hck.
by rewrite expect_nd_mul h ?mulrA //; exact: (allP hp).
Qed.

Lemma nd_repr_scaled (M' : seq nat -> R) (mean scale : seq R) ldl ldl' ws xs ws' xs' :
  size mean = d -> size scale = d -> all (fun s => 0 < s) scale ->
  (forall k, in_range d 0 (2 * N - 1) k -> M' k = affine_nd M mean scale k) ->
  moment_quadrature_nd chol eigh [seq M x | x <- full] inds None None ldl = Some (ws, xs) ->
  moment_quadrature_nd chol eigh [seq M' x | x <- full] inds (Some mean) (Some scale) ldl' = Some (ws', xs') ->
  forall f, expect_nd ws' xs' f = expect_nd ws xs f.
Proof.
have [hd ef ->] := layoutE hN hf hi => hm hs hpos hM hq hq' f.
have hpos' a : (a < d)%N -> 0 < nth 1 scale a.
  by move=> had; apply: (allP hpos); apply: mem_nth; rewrite hs.
have h1 : moment_quadrature_nd chol eigh (mvec d N M) (tabs d N) None None ldl = Some (ws, xs).
  by rewrite /mvec -ef; exact: hq.
have h2 : moment_quadrature_nd chol eigh (mvec d N (affine_nd M mean scale)) (tabs d N) (Some mean) (Some scale) ldl'
    = Some (ws', xs').
  have -> // : mvec d N (affine_nd M mean scale) = [seq M' x | x <- full].
  rewrite /mvec ef; apply/eq_in_map => x; rewrite mem_blocks => /andP [h2 h3]; rewrite hM // /in_range.
  by rewrite h2 /=; lia.
exact: (quad_nd_repr cholP eighP hd hN f hm hs hpos' ha h1 h2).
Qed.

Lemma affine_central mean k :
  affine_nd M mean [::] k = affine_nd M mean (nseq (size k) 1) k.
Proof.
rewrite /affine_nd; congr tens_functional; apply/eq_in_map => a.
by rewrite mem_iota => /andP [_ h]; rewrite nth_nil nth_nseq h.
Qed.

Lemma quad_central_one (ms : seq R) mean ldl :
  size mean = d ->
  moment_quadrature_nd chol eigh ms inds (Some mean) None ldl =
  moment_quadrature_nd chol eigh ms inds (Some mean) (Some (nseq d 1)) ldl.
Proof.
move=> hm; have [hd _ ->] := layoutE hN hf hi; have [n hn] := basis_pos hd hN.
rewrite /moment_quadrature_nd /tabs size_map size_iota [_.+1.-1]/=.
case: (d) hd hm => // d' _ hm.
case: (size _) => // n'; congr (Some (_, _)).
apply/eq_in_map => x /mapP [y _ ->]; rewrite place_nodes_None ?size_map ?size_iota size_behead size_map size_iota //.
Qed.

Lemma nd_repr_central (M' : seq nat -> R) (mean : seq R) ldl ldl' ws xs ws' xs' :
  size mean = d ->
  (forall k, in_range d 0 (2 * N - 1) k -> M' k = affine_nd M mean [::] k) ->
  moment_quadrature_nd chol eigh [seq M x | x <- full] inds None None ldl = Some (ws, xs) ->
  moment_quadrature_nd chol eigh [seq M' x | x <- full] inds (Some mean) None ldl' = Some (ws', xs') ->
  forall f, expect_nd ws' xs' f = expect_nd ws xs f.
Proof.
move=> hm hM hq hq'; apply: (@nd_repr_scaled M' mean (nseq d 1) ldl ldl') => //.
- by rewrite size_nseq.
- by apply/allP => x; rewrite mem_nseq => /andP [_ /eqP ->]; rewrite ltr01.
- by move=> k hk; rewrite hM // affine_central; case/andP: hk => /eqP ->.
by rewrite -quad_central_one.
Qed.
End Lay.
End Final.

(* ---- discrete measures ---- *)
Section Discrete.
Variable R : rcfType.
Implicit Types (ws : seq R) (zs : seq (seq R)).

Lemma mono_madd (z : seq R) x y : size x = size z -> size y = size z ->
  mono z (madd x y) = mono z x * mono z y.
Proof.
rewrite /mono /madd; elim: z x y => [|a z IH] [|i x] [|j y] //= hx hy; first by rewrite !big_nil mulr1.
rewrite !big_cons /= IH; [|exact: succn_inj|exact: succn_inj].
by rewrite exprD mulrACA.
Qed.

Lemma zip_mem (A B : eqType) (s : seq A) (t : seq B) p :
  p \in zip s t -> p.1 \in s /\ p.2 \in t.
Proof.
elim: s t => [|a s IH] [|b t] //=; rewrite !inE => /orP [/eqP -> /=|/IH [h1 h2]].
  by rewrite !eqxx.
by rewrite h1 h2 !orbT.
Qed.

Lemma discrete_nd_admissible d N ws zs : size ws = size zs -> all (fun w => 0 < w) ws ->
  all (fun z => size z == d) zs -> unisolvent d N zs ->
  admissible_nd d N (discrete_nd ws zs).
Proof.
move=> hs hw hz hu b hb c hc; have [z hz' hn0] := hu _ hb _ hc.
have -> : \sum_(x <- b) \sum_(y <- b) c x * c y * discrete_nd ws zs (madd x y) =
   \sum_(p <- zip ws zs) p.1 * (\sum_(x <- b) c x * mono p.2 x) ^+ 2.
  under eq_bigr => x _ do under eq_bigr => y _ do rewrite /discrete_nd mulr_sumr.
  under eq_bigr => x _ do rewrite exchange_big /=.
  rewrite exchange_big /= !big_seq; apply: eq_bigr => -[w q] hp /=.
  have hq : size q = d by apply/eqP; apply: (allP hz); exact: (zip_mem hp).2.
  rewrite expr2 !mulr_suml mulr_sumr; rewrite !big_seq; apply: eq_bigr => x hx.
  rewrite mulr_sumr mulr_sumr !big_seq; apply: eq_bigr => y hy.
  have sx : size x = d by have [_ e] := hb; move: hx; rewrite e => /andP [/eqP].
  have sy : size y = d by have [_ e] := hb; move: hy; rewrite e => /andP [/eqP].
  by rewrite mono_madd ?sx ?sy //; ring.
have iz : (index z zs < size zs)%N by rewrite index_mem.
have hin : (nth 0 ws (index z zs), z) \in zip ws zs.
  by rewrite -{2}(nth_index [::] hz') -nth_zip //; apply: mem_nth; rewrite size_zip hs minnn.
have hge p : p \in zip ws zs -> 0 <= p.1 * (\sum_(x <- b) c x * mono p.2 x) ^+ 2.
  move=> hp; apply: mulr_ge0; last exact: sqr_ge0.
  by apply: ltW; apply: (allP hw); exact: (zip_mem hp).1.
rewrite (big_rem _ hin) /=; apply: ltr_spaddl.
  apply: mulr_gt0; first by apply: (allP hw); apply: mem_nth; rewrite hs.
  by rewrite lt_neqAle sqr_ge0 eq_sym sqrf_eq0 hn0.
by rewrite big_seq; apply: sumr_ge0 => p /mem_rem; exact: hge.
Qed.
End Discrete.
