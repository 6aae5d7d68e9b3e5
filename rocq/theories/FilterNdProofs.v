(* The multi-dimensional moment filters: lemmas. *)
From mathcomp Require Import all_ssreflect all_algebra.
From mathcomp Require Import zify ring.
From Verif Require Import Prelude MultiIndexModel MultiIndexSpec MultiIndexProofs MultiIndexGramProofs MultiIndexMain.
From Verif Require Import NdIndexModel NdIndexProofs LinAlgSpec LinAlgProofs SpectralProofs LdlModel LdlProofs.
From Verif Require Import QuadModel QuadSpec QuadProofs QuadMain QuadNdModel QuadNdSpec QuadNdProofs QuadNdGram.
From Verif Require Import QuadNdAffine QuadNdMain QuadNdFinal QuadNdExact QuadNdDisc.
From Verif Require Import Filter1DSpec FilterNdModel FilterNdSpec.
Set Implicit Arguments.
Unset Strict Implicit.
Unset Printing Implicit Defensive.
Import Order.TTheory GRing.Theory Num.Theory.
Local Open Scope ring_scope.

Section Aux.
Variable R : rcfType.
Implicit Types (M : seq nat -> R) (ps : seq {poly R}) (ws mean scale x : seq R) (xs : seq (seq R)).

Lemma tens_ext_box M M' ps :
  (forall t, size t = size ps -> (forall a, a < size ps -> nth 0%N t a < size (nth 0%R ps a))%N -> M t = M' t) ->
  tens_functional M ps = tens_functional M' ps.
Proof.
elim: ps M M' => [|p ps IH] M M' h /=; first exact: h.
apply: mom_eq => j hj; apply: IH => t ht hb; apply: h; first by rewrite /= ht.
by case=> [|a] /= ha //; exact: hb.
Qed.

Lemma sumn_le (s t : seq nat) : size s = size t -> (forall a, a < size t -> nth 0%N s a <= nth 0%N t a)%N ->
  (sumn s <= sumn t)%N.
Proof.
elim: s t => [|a s IH] [|b t] //= hs h; apply: leq_add; first exact: (h 0%N).
by apply: IH => [|i hi]; [exact: succn_inj|exact: (h i.+1)].
Qed.

Lemma sumn_double (s : seq nat) : sumn [seq (2 * n)%N | n <- s] = (2 * sumn s)%N.
Proof. by elim: s => //= n s ->; rewrite mulnDr. Qed.

Lemma affine_ext M M' mean scale k :
  (forall t, size t = size k -> (sumn t <= sumn k)%N -> M t = M' t) ->
  affine_nd M mean scale k = affine_nd M' mean scale k.
Proof.
move=> h; apply: tens_ext_box => t; rewrite size_map size_iota => ht hb.
apply: h => //; apply: sumn_le => // a ha.
have := hb a ha; rewrite (nth_map 0%N) ?size_iota // nth_iota // add0n => hp.
rewrite -ltnS; apply: (leq_trans hp).
apply: (leq_trans (size_exp_leq _ _)).
have hs : (size ((nth 1%R scale a)^-1 *: ('X - (nth 0%R mean a)%:P))%R <= 2)%N.
  by rewrite (leq_trans (size_scale_leq _ _)) // size_XsubC.
by rewrite ltnS -{2}[nth 0%N k a]mul1n leq_mul2r -subn1 leq_subLR addn1 hs orbT.
Qed.

Lemma affine_linl I (r : seq I) (c : I -> R) (G : I -> seq nat -> R) mean scale k :
  affine_nd (fun t => \sum_(i <- r) c i * G i t) mean scale k =
  \sum_(i <- r) c i * affine_nd (G i) mean scale k.
Proof. exact: tens_linl. Qed.

Lemma expect_nd_ext_in (ws : seq R) xs f g : (forall x, x \in xs -> f x = g x) ->
  expect_nd ws xs f = expect_nd ws xs g.
Proof.
by move=> h; rewrite !expect_ndE !big_seq; apply: eq_bigr => p hp; rewrite h //; exact: (zip_mem hp).2.
Qed.

(* reweighting *)
Definition reweight (ws : seq R) (xs : seq (seq R)) (h : seq R -> R) : seq R :=
  [seq p.1 * h p.2 | p <- zip ws xs].

Lemma expect_reweight ws xs h f : expect_nd (reweight ws xs h) xs f = expect_nd ws xs (fun x => f x * h x).
Proof.
rewrite !expect_ndE /reweight; elim: ws xs => [|w ws IH] [|x xs] //=; rewrite ?big_nil //.
by rewrite !big_cons IH /=; congr (_ + _); rewrite -mulrA [h x * _]mulrC.
Qed.

Lemma discrete_expect ws xs k : discrete_nd ws xs k = expect_nd ws xs (fun x => mono x k).
Proof. by rewrite expect_ndE. Qed.

Lemma std_coords_map ws xs mean scale k :
  discrete_nd ws [seq std_coords mean scale z | z <- xs] k =
  expect_nd ws xs (fun x => mono (std_coords mean scale x) k).
Proof. by rewrite discrete_expect expect_nd_map. Qed.

Lemma jprod_mono mean scale x k : size k = size x -> power mean scale x k = mono (std_coords mean scale x) k.
Proof.
move=> hs; rewrite /power jprodE /mono /std_coords big_map.
rewrite [RHS](big_nth (0, 0%N)) size_zip size_map size_iota hs minnn big_mkord.
rewrite -{1}[size x]subn0 -/(index_iota 0 _) big_mkord; apply: eq_bigr => i _.
by rewrite nth_zip ?size_map ?size_iota ?hs //= (nth_map 0%N) ?size_iota // nth_iota.
Qed.

Lemma jprod_raw (x : seq R) k : size k = size x ->
  jprod [seq nth 0 x a ^+ nth 0%N k a | a <- iota 0 (size x)] = mono x k.
Proof.
move=> hs; rewrite jprodE /mono big_map.
rewrite [RHS](big_nth (0, 0%N)) size_zip hs minnn big_mkord.
rewrite -{1}[size x]subn0 -/(index_iota 0 _) big_mkord; apply: eq_bigr => i _.
by rewrite nth_zip.
Qed.

Lemma jprod_central (x c : seq R) k : size k = size x ->
  jprod [seq (nth 0 x a - nth 0 c a) ^+ nth 0%N k a | a <- iota 0 (size x)] = mono (std_coords c [::] x) k.
Proof.
move=> hs; rewrite -jprod_mono // /power; congr jprod; apply: eq_map => a.
by rewrite nth_nil divr1.
Qed.

(* the variance of an admissible functional is positive *)
Lemma adm_var d N M mean a : (0 < d)%N -> (1 < N)%N -> (a < d)%N -> admissible_nd d N M ->
  0 < affine_nd M mean [::] [seq (2 * n)%N | n <- munit d a].
Proof.
move=> hd hN ha hM; have N0 : (0 < N)%N by apply: ltnW.
have ad' : admissible_nd d N (affine_nd M mean (nseq d 1)).
  by apply: affine_adm => // b hb; rewrite nth_nseq hb ltr01.
have := ad' _ (basis_enum d N0) (fun t => (t == munit d a)%:R).
have hin : munit d a \in blocks d 0 N by rewrite mem_blocks size_munit eqxx sumn_munit.
have ub := uniq_blocks d 0 N.
rewrite (bigD1_seq _ hin ub) /= (bigD1_seq _ hin ub) /= eqxx !mul1r big1 ?addr0; last first.
  by move=> t ht; rewrite (negbTE ht) mulr0 mul0r.
rewrite big1 ?addr0; last first.
  by move=> t ht; rewrite (negbTE ht) big1 // => y _; rewrite !mul0r.
have -> : madd (munit d a) (munit d a) = [seq (2 * n)%N | n <- munit d a].
  rewrite /madd; elim: (munit d a) => //= x s ->; congr (_ :: _); lia.
have := @affine_central R M mean [seq (2 * n)%N | n <- munit d a].
rewrite size_map size_munit => ->; apply.
by exists (munit d a) => //; rewrite eqxx oner_eq0.
Qed.
End Aux.

Section Sim.
Variables (R : rcfType).
Variable chol : forall n, 'M[R]_n -> 'M[R]_n.
Variable eigh : forall n, 'M[R]_n -> 'M[R]_n * 'rV[R]_n.
Hypothesis cholP : chol_spec chol.
Hypothesis eighP : eigh_spec eigh.
Variables (d N : nat) (full : seq (seq nat)) (inds : seq (seq (seq int))).
Hypothesis hN : (0 < N)%N.
Hypothesis hf : generate_graded_lexico_multi_indices d (2 * N - 1) 0 = Some full.
Hypothesis hi : gram_and_hankel_indices_graded_lexico N d = Some inds.

Let hd : (0 < d)%N. Proof. by have [] := layoutE hN hf hi. Qed.
Let fE : full = blocks d 0 (2 * N). Proof. by have [] := layoutE hN hf hi. Qed.

Lemma full_uniq : uniq full. Proof. by rewrite fE uniq_blocks. Qed.
Lemma full_mem k : (k \in full) = (size k == d) && (sumn k < 2 * N)%N.
Proof. by rewrite fE mem_blocks add0n. Qed.
Lemma full_pos : (0 < size full)%N.
Proof. by case: full (full_mem (nseq d 0%N)) => //; rewrite size_nseq eqxx sumn_nseq0 muln_gt0 hN. Qed.
Lemma full_dim : dim full = d.
Proof.
have : nth [::] full 0 \in full by apply: mem_nth; exact: full_pos.
by rewrite full_mem /dim => /andP [/eqP].
Qed.
Lemma full_nth j : (j < size full)%N -> size (nth [::] full j) = d /\ nth [::] full j \in full.
Proof.
move=> hj; have : nth [::] full j \in full by apply: mem_nth.
by move=> h; split=> //; move: h; rewrite full_mem => /andP [/eqP].
Qed.

Lemma look_map (M : seq nat -> R) k : k \in full -> look full [seq M x | x <- full] k = M k.
Proof. by move=> hk; rewrite /look (nth_map [::]) ?index_mem // nth_index. Qed.

Lemma map_look (ms : seq R) : size ms = size full -> [seq look full ms x | x <- full] = ms.
Proof.
move=> hs; apply: (@eq_from_nth _ 0); rewrite size_map ?hs // => i hi'.
by rewrite (nth_map [::]) // /look index_uniq ?full_uniq.
Qed.

Lemma map_iota_full T (F : seq nat -> T) : [seq F (nth [::] full j) | j <- iota 0 (size full)] = [seq F k | k <- full].
Proof. by rewrite -[in RHS](mkseq_nth [::] full) /mkseq -map_comp. Qed.

Local Notation adm r := (admissible_nd d N (look full r)).
Local Notation quad := (quad_nd chol eigh inds).
Local Notation E wx := (expect_nd wx.1 wx.2).

Lemma quad_ex ms mean scale st :
  exists ws xs, moment_quadrature_nd chol eigh ms inds mean scale st = Some (ws, xs).
Proof.
have [_ _ ->] := layoutE hN hf hi; have [n hn] := basis_pos hd hN.
rewrite /moment_quadrature_nd /tabs size_map size_iota [_.+1.-1]/=.
have -> : nth [::] [seq table N d k | k <- iota 0 d.+1] 0 = table N d 0 by [].
rewrite size_table hn; case: (d) hd => // d' _; by eexists; eexists; reflexivity.
Qed.

Lemma traceable_inds : traceable inds.
Proof.
have [_ _ ->] := layoutE hN hf hi; have [n hn] := basis_pos hd hN.
rewrite /traceable size_map size_iota ltnS hd andTb.
have -> : nth [::] (tabs d N) 0 = table N d 0 by [].
by rewrite size_table hn.
Qed.

Lemma quad_raw_some r st : size r = size full -> adm r ->
  exists ws, exists2 xs, moment_quadrature_nd chol eigh r inds None None st = Some (ws, xs)
  & [/\ quad r None None st = (ws, xs), size ws = size xs & all (fun x => size x == d) xs].
Proof.
move=> hr ha; have [ws [xs hq [h1 h2 h3 _ _]]] := nd_exact_raw cholP eighP hN hf hi ha st.
by move: hq; rewrite map_look // => hq; exists ws, xs; rewrite ?hq // /quad_nd hq; split.
Qed.

Lemma quad_raw_dim r st x : size r = size full -> adm r -> x \in (quad r None None st).2 -> size x = d.
Proof.
move=> hr ha; have [ws [xs hq [-> _ h]]] := quad_raw_some st hr ha.
by move=> hx; apply/eqP; exact: (allP h).
Qed.

Lemma quad_central r mean st st' f : size r = size full -> adm r -> size mean = d ->
  E (quad (shift_nd full r mean [::]) (Some mean) None st') f = E (quad r None None st) f.
Proof.
move=> hr ha hm; have [ws [xs hq [-> _ _]]] := quad_raw_some st hr ha.
rewrite -(map_look hr) in hq.
have [ws' [xs' hq']] := quad_ex (shift_nd full r mean [::]) (Some mean) None st'.
rewrite /quad_nd hq' /=.
by rewrite (nd_repr_central cholP eighP hN hf hi ha hm _ hq hq').
Qed.

Lemma quad_scaled r mean scale st st' f : size r = size full -> adm r -> size mean = d ->
  size scale = d -> all (fun s => 0 < s) scale ->
  E (quad (shift_nd full r mean scale) (Some mean) (Some scale) st') f = E (quad r None None st) f.
Proof.
move=> hr ha hm hs h0; have [ws [xs hq [-> _ _]]] := quad_raw_some st hr ha.
rewrite -(map_look hr) in hq.
have [ws' [xs' hq']] := quad_ex (shift_nd full r mean scale) (Some mean) (Some scale) st'.
rewrite /quad_nd hq' /=.
by rewrite (nd_repr_scaled cholP eighP hN hf hi ha hm hs h0 _ hq hq').
Qed.

(* moments under a signed discrete law *)
Lemma look_columns wx (F : seq R -> nat -> R) (G : seq R -> seq nat -> R) k :
  (forall x j, (j < size full)%N -> F x j = G x (nth [::] full j)) -> k \in full ->
  look full (columns wx (size full) F) k = E wx (fun x => G x k).
Proof.
move=> h hk; have hk' : (index k full < size full)%N by rewrite index_mem.
rewrite /look /columns (nth_map 0%N) ?size_iota // nth_iota // add0n.
by apply: expect_nd_ext => x; rewrite h // nth_index.
Qed.

Lemma columns_ext (wx wx' : seq R * seq (seq R)) num F : (forall f, E wx f = E wx' f) -> columns wx num F = columns wx' num F.
Proof. by move=> h; apply: eq_map => j; rewrite h. Qed.

Lemma size_columns wx num (F : seq R -> nat -> R) : size (columns wx num F) = num.
Proof. by rewrite size_map size_iota. Qed.

Lemma columns_full wx (F : seq R -> nat -> R) (G : seq R -> seq nat -> R) :
  (forall x j, (j < size full)%N -> F x j = G x (nth [::] full j)) ->
  columns wx (size full) F = [seq E wx (fun x => G x k) | k <- full].
Proof.
move=> h; rewrite -map_iota_full; apply/eq_in_map => j; rewrite mem_iota => /andP [_ hj].
by apply: expect_nd_ext => x; rewrite h.
Qed.

Lemma unit_full a : (a < d)%N -> munit d a \in full.
Proof. by move=> ha; rewrite full_mem size_munit eqxx sumn_munit //=; lia. Qed.

Lemma look_affine_ext r (M : seq nat -> R) mean scale k : k \in full ->
  (forall t, t \in full -> look full r t = M t) ->
  affine_nd (look full r) mean scale k = affine_nd M mean scale k.
Proof.
rewrite full_mem => /andP [/eqP hk hs] h; apply: affine_ext => t ht hst; apply: h.
by rewrite full_mem ht hk eqxx (leq_ltn_trans hst).
Qed.

Variables (Y : Type) (pdf : Y -> seq R -> R).
Variable C : seq R -> seq nat -> R.
Variable cond : cond_fn (seq R) R.
Hypothesis condP : forall x j, (j < size full)%N -> cond_at full cond x j = C x (nth [::] full j).
Variable st : bool.
Local Notation predict := (rms_nd_predict chol eigh full inds cond st).
Local Notation update := (rms_nd_update chol eigh full inds pdf st).

Lemma size_predict r : size (predict r) = size full.
Proof. exact: size_columns. Qed.
Lemma size_update y r : size (update y r).1 = size full.
Proof. by rewrite size_map size_columns. Qed.

Lemma predict_look r k : k \in full -> look full (predict r) k = E (quad r None None st) (fun x => C x k).
Proof. by move=> hk; rewrite (look_columns _ (G := C)). Qed.

Lemma update_pdf y r : (update y r).2 = E (quad r None None st) (pdf y).
Proof. by []. Qed.

Lemma update_look y r k : size r = size full -> adm r -> k \in full ->
  look full (update y r).1 k = E (quad r None None st) (fun x => mono x k * pdf y x) / (update y r).2.
Proof.
move=> hr ha hk; have hk' : (index k full < size full)%N by rewrite index_mem.
rewrite /look (nth_map 0) ?size_columns //; congr (_ / _).
rewrite /columns (nth_map 0%N) ?size_iota // nth_iota // add0n nth_index //.
apply: expect_nd_ext_in => x hx; congr (_ * _); apply: jprod_raw.
by rewrite (quad_raw_dim hr ha hx); move: hk; rewrite full_mem => /andP [/eqP].
Qed.

(* the shifted moments of the updated law *)
Lemma update_affine y r mean scale k : size r = size full -> adm r -> k \in full ->
  affine_nd (look full (update y r).1) mean scale k =
  E (quad r None None st) (fun x => mono (std_coords mean scale x) k * pdf y x) / (update y r).2.
Proof.
move=> hr ha hk; set Z := (update y r).2; set wx := quad r None None st.
have [/eqP hkd hks] : size k == d /\ (sumn k < 2 * N)%N by apply/andP; rewrite -full_mem.
rewrite (@look_affine_ext _ (fun t => \sum_(i <- [:: tt]) Z^-1 * discrete_nd (reweight wx.1 wx.2 (pdf y)) wx.2 t)) //; last first.
  move=> t ht; rewrite update_look // big_seq1 discrete_expect expect_reweight mulrC.
  by congr (_ * _); apply: expect_nd_ext.
rewrite affine_linl big_seq1 mulrC (@affine_disc _ d) //; last first.
  by apply/allP => x hx; rewrite (quad_raw_dim hr ha hx).
by rewrite std_coords_map expect_reweight.
Qed.

Lemma predict_affine r mean scale k : k \in full ->
  affine_nd (look full (predict r)) mean scale k =
  E (quad r None None st) (fun x => affine_nd (C x) mean scale k).
Proof.
move=> hk; rewrite (look_affine_ext _ _ hk (M := fun t =>
   \sum_(p <- zip (quad r None None st).1 (quad r None None st).2) p.1 * C p.2 t)).
  by rewrite affine_linl expect_ndE.
by move=> t ht; rewrite predict_look // expect_ndE.
Qed.

(* ---- central moments ---- *)
Section Central.
Variable condc : cond_fn (seq R) (seq R -> R).
Variable condm : seq R -> seq R.
Hypothesis condcP : forall x j c, (j < size full)%N ->
  cond_at full condc x j c = affine_nd (C x) c [::] (nth [::] full j).
Hypothesis condmP : forall x a, (a < d)%N -> nth 0 (condm x) a = C x (munit d a).
Variable st' : bool.
Local Notation cpredict := (cms_nd_predict chol eigh full inds condc condm st').
Local Notation cupdate := (cms_nd_update chol eigh full inds pdf st').

Lemma mean_predict r (wx : seq R * seq (seq R)) : (forall f, E wx f = E (quad r None None st) f) ->
  columns wx d (fun x j => nth 0 (condm x) j) = mean_nd d full (predict r).
Proof.
move=> h; rewrite (columns_ext _ _ h); apply/eq_in_map => a; rewrite mem_iota => /andP [_ ha].
rewrite predict_look ?unit_full //; apply: expect_nd_ext => x; exact: condmP.
Qed.

Lemma cms_predict_sim r mean : size r = size full -> adm r -> size mean = d ->
  cpredict (shift_nd full r mean [::], mean) = central_nd d full (predict r).
Proof.
move=> hr ha hm; have hE f := quad_central st st' f hr ha hm.
rewrite /cms_nd_predict full_dim (mean_predict hE) /central_nd; congr pair.
rewrite (columns_ext _ _ hE) (columns_full _ (G := fun x k => affine_nd (C x) (mean_nd d full (predict r)) [::] k)).
  by apply/eq_in_map => k hk; rewrite predict_affine.
by move=> x j hj; exact: condcP.
Qed.

Lemma mono_munit (x : seq R) a : size x = d -> (a < d)%N -> mono x (munit d a) = nth 0 x a.
Proof. by move=> hx ha; rewrite (@mono_unit _ d). Qed.

Lemma mean_multi a : mean_multi_index full a = munit d a.
Proof. by rewrite /mean_multi_index full_dim; apply: eq_map => i; rewrite eq_sym. Qed.

Lemma std_zeros (x : seq R) : size x = d -> std_coords (zeros R full) [::] x = x.
Proof.
move=> hx; rewrite /std_coords /zeros full_dim; apply: (@eq_from_nth _ 0); rewrite size_map size_iota // => a ha.
by rewrite (nth_map 0%N) ?size_iota // nth_iota // nth_nil add0n nth_nseq if_same subr0 divr1.
Qed.

Lemma cms_update_sim y r mean : size r = size full -> adm r -> size mean = d ->
  cupdate y (shift_nd full r mean [::], mean) = (central_nd d full (update y r).1, (update y r).2).
Proof.
move=> hr ha hm; have hE f := quad_central st st' f hr ha hm.
rewrite /cms_nd_update full_dim !hE -(update_pdf y r).
set Z := (update y r).2; set wx := quad (shift_nd _ _ _ _) _ _ _.
have eM : [seq m / Z | m <- columns wx d (fun x j =>
     jprod [seq (nth 0 x a - nth 0 (zeros R full) a) ^+ nth 0%N (mean_multi_index full j) a | a <- iota 0 (size x)] * pdf y x)]
   = mean_nd d full (update y r).1.
  rewrite (columns_ext _ _ hE) -map_comp; apply/eq_in_map => a; rewrite mem_iota => /andP [_ ha'] /=.
  rewrite update_look ?unit_full // -/Z; congr (_ / _); apply: expect_nd_ext_in => x hx.
  have hx' := quad_raw_dim hr ha hx.
  by congr (_ * _); rewrite mean_multi jprod_central ?size_munit // std_zeros.
rewrite eM /central_nd; congr (_, _, _).
rewrite (columns_ext _ _ hE).
rewrite (columns_full _ (G := fun x k => jprod [seq (nth 0 x a - nth 0 (mean_nd d full (update y r).1) a) ^+ nth 0%N k a | a <- iota 0 (size x)] * pdf y x)) //.
rewrite -map_comp; apply/eq_in_map => k hk /=; rewrite update_affine // -/Z; congr (_ / _).
apply: expect_nd_ext_in => x hx; have hx' := quad_raw_dim hr ha hx.
by rewrite jprod_central // hx'; move: hk; rewrite full_mem => /andP [/eqP].
Qed.
End Central.

(* ---- scaled central moments ---- *)
Section Scaled.
Variable conds : cond_fn (seq R) (seq R -> seq R -> R).
Variable condmv : seq R -> seq R * seq R.
Hypothesis condsP : forall x j c s, (j < size full)%N -> size s = d -> all (fun r => 0 < r) s ->
  cond_at full conds x j c s = affine_nd (C x) c s (nth [::] full j).
Hypothesis condmvP : forall x a, (a < d)%N -> nth 0 (condmv x).1 a = C x (munit d a).
Variable st' : bool.
Local Notation spredict := (scms_nd_predict chol eigh full inds conds condmv st').
Local Notation supdate := (scms_nd_update chol eigh full inds pdf st').

(* the predicted scale of the code *)
Definition pscale r : seq R :=
  [seq Num.sqrt (E (quad r None None st) (fun x => nth 0 (condmv x).2 a)) | a <- iota 0 d].

Lemma scms_predict_sim r mean scale : size r = size full -> adm r -> size mean = d ->
  size scale = d -> all (fun s => 0 < s) scale -> all (fun s => 0 < s) (pscale r) ->
  spredict (shift_nd full r mean scale, mean, scale) =
  (shift_nd full (predict r) (mean_nd d full (predict r)) (pscale r), mean_nd d full (predict r), pscale r).
Proof.
move=> hr ha hm hs h0 hp; have hE f := quad_scaled st st' f hr ha hm hs h0.
rewrite /scms_nd_predict full_dim.
rewrite (@mean_predict (fun x => (condmv x).1) condmvP r _ hE).
rewrite (_ : map _ (columns _ d (fun x j => nth 0 (condmv x).2 j)) = pscale r); last first.
  by rewrite (columns_ext _ _ hE) -map_comp.
congr (_, _, _); rewrite (columns_ext _ _ hE).
rewrite (columns_full _ (G := fun x k => affine_nd (C x) (mean_nd d full (predict r)) (pscale r) k)).
  by apply/eq_in_map => k hk; rewrite predict_affine.
by move=> x j hj; rewrite condsP // size_map size_iota.
Qed.

Lemma std_ones (mean x : seq R) : size x = d -> std_coords mean (ones R full) x = std_coords mean [::] x.
Proof.
move=> hx; apply/eq_in_map => a; rewrite mem_iota => /andP [_ ha].
by rewrite /ones full_dim nth_nil nth_nseq if_same.
Qed.

Lemma scms_update_sim y r mean scale : (1 < N)%N -> size r = size full -> adm r -> size mean = d ->
  size scale = d -> all (fun s => 0 < s) scale ->
  supdate y (shift_nd full r mean scale, mean, scale) = (scaled_nd d full (update y r).1, (update y r).2).
Proof.
move=> hN1 hr ha hm hs h0; have hE f := quad_scaled st st' f hr ha hm hs h0.
rewrite /scms_nd_update full_dim !hE -(update_pdf y r).
set Z := (update y r).2; set wx := quad (shift_nd _ _ _ _) _ _ _.
have eM : [seq m / Z | m <- columns wx d (fun x j =>
     power (zeros R full) (ones R full) x (mean_multi_index full j) * pdf y x)]
   = mean_nd d full (update y r).1.
  rewrite (columns_ext _ _ hE) -map_comp; apply/eq_in_map => a; rewrite mem_iota => /andP [_ ha'] /=.
  rewrite update_look ?unit_full // -/Z; congr (_ / _); apply: expect_nd_ext_in => x hx.
  have hx' := quad_raw_dim hr ha hx.
  by congr (_ * _); rewrite mean_multi jprod_mono ?size_munit // std_ones // std_zeros.
rewrite eM; set m1 := mean_nd _ _ _.
have eS : [seq Num.sqrt (m / Z) | m <- columns wx d (fun x j =>
     power m1 (ones R full) x [seq (n * 2)%N | n <- mean_multi_index full j] * pdf y x)]
   = std_nd d full (update y r).1.
  rewrite (columns_ext _ _ hE) -map_comp; apply/eq_in_map => a; rewrite mem_iota => /andP [_ ha'] /=.
  have hin : [seq (2 * n)%N | n <- munit d a] \in full.
    rewrite full_mem size_map size_munit eqxx /= sumn_double sumn_munit //.
    by lia.
  rewrite update_affine // -/Z; congr (Num.sqrt (_ / _)); apply: expect_nd_ext_in => x hx.
  have hx' := quad_raw_dim hr ha hx.
  rewrite mean_multi (_ : [seq (n * 2)%N | n <- munit d a] = [seq (2 * n)%N | n <- munit d a]); last first.
    by apply: eq_map => n; rewrite mulnC.
  by congr (_ * _); rewrite jprod_mono ?size_map ?size_iota // std_ones.
rewrite eS /scaled_nd -/m1; congr (_, _, _, _).
rewrite (columns_ext _ _ hE).
rewrite (columns_full _ (G := fun x k => power m1 (std_nd d full (update y r).1) x k * pdf y x)) //.
rewrite -map_comp; apply/eq_in_map => k hk /=; rewrite update_affine // -/Z; congr (_ / _).
apply: expect_nd_ext_in => x hx; have hx' := quad_raw_dim hr ha hx.
by rewrite jprod_mono // hx'; move: hk; rewrite full_mem => /andP [/eqP].
Qed.

Lemma std_pos (r : seq R) : (1 < N)%N -> adm r -> size (std_nd d full r) = d /\ all (fun s => 0 < s) (std_nd d full r).
Proof.
move=> hN1 ha; split; first by rewrite size_map size_iota.
apply/allP => s /mapP [a]; rewrite mem_iota => /andP [_ had] ->.
by rewrite sqrtr_gt0; apply: (@adm_var _ d N).
Qed.
End Scaled.
End Sim.
