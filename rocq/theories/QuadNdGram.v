(* The multi-dimensional moment quadrature: exactness and representation independence. *)
From mathcomp Require Import all_ssreflect all_algebra.
From mathcomp Require Import zify ring.
From Verif Require Import Prelude MultiIndexModel MultiIndexSpec MultiIndexProofs MultiIndexGramProofs.
From Verif Require Import NdIndexModel NdIndexProofs LinAlgSpec LinAlgProofs SpectralProofs LdlModel LdlProofs.
From Verif Require Import QuadModel QuadSpec QuadProofs QuadMain QuadNdModel QuadNdSpec QuadNdProofs.
Set Implicit Arguments.
Unset Strict Implicit.
Unset Printing Implicit Defensive.
Import Order.TTheory GRing.Theory Num.Theory.
Local Open Scope ring_scope.

(* ---- product functions ---- *)
Section Words.
Variables (R : rcfType) (n : nat).
Local Notation eig := ('M[R]_n.+1 * 'rV[R]_n.+1)%type.
Implicit Types (es : seq eig) (v : 'cV[R]_n.+1).

Fixpoint fword es (fs : seq (R -> R)) : 'cV[R]_n.+1 :=
  match es, fs with
  | e :: es', g :: fs' => fcalc e.1 e.2 g *m fword es' fs'
  | _, _ => e0 R n
  end.

Definition pfun (fs : seq (R -> R)) (xs : seq R) : R := \prod_(p <- zip fs xs) p.1 p.2.

Lemma chain_pfun es fs v c : size fs = size es ->
  chain es v (fun xs => c * pfun fs xs) = c * dotp v (fword es fs).
Proof.
elim: es fs v c => [|e es IH] [|g fs] v c //= hs.
  by rewrite /pfun big_nil mulr1 mulrC; congr (_ * _); rewrite /dotp (bigD1 0) //= mxE mulr1
    big1 ?addr0 // => i hi; rewrite mxE (negbTE hi) mulr0.
move/succn_inj: hs => hs.
under eq_bigr => i _.
  rewrite (@chain_ext _ _ _ _ _ (fun xs => (c * g (e.2 0 i)) * pfun fs xs)); last first.
    by move=> xs _; rewrite /pfun /= big_cons mulrA.
  rewrite IH //; over.
rewrite [in RHS]/dotp mulr_sumr.
under [RHS]eq_bigr => l _.
  rewrite mxE; under eq_bigr => k _ do rewrite fcalc_entry mulr_suml.
  rewrite exchange_big mulr_sumr mulr_sumr /=; over.
rewrite exchange_big /=; apply: eq_bigr => i _.
rewrite {1}/dotp mulr_suml; apply: eq_bigr => l _.
under [in RHS]eq_bigr do rewrite -[e.1 l i * _ * _ * _]mulrA.
rewrite -mulr_sumr mxE.
have -> : dotp (col i e.1) (fword es fs) = \sum_(k < n.+1) e.1 k i * fword es fs k 0.
  by apply: eq_bigr => k _; rewrite mxE.
move: (v l 0) (g _) (\sum_(i0 < n.+1) _) (e.1 l i) => a b x y.
ring.
Qed.

(* words in the matrices *)
Definition mxword (K : nat -> 'M[R]_n.+1) (w : seq nat) : 'M[R]_n.+1 :=
  foldr (fun a M => K a *m M) 1%:M w.

Lemma mxword_cat K u w : mxword K (u ++ w) = mxword K u *m mxword K w.
Proof. by elim: u => [|a u IH] /=; rewrite ?mul1mx // IH mulmxA. Qed.

Lemma mxword_rev K w : (forall a, a \in w -> symmetric (K a)) -> (mxword K w)^T = mxword K (rev w).
Proof.
elim: w => [|a w IH] h /=; first by rewrite trmx1.
rewrite rev_cons -cats1 mxword_cat trmx_mul (h a) ?mem_head // IH /= ?mulmx1 //.
by move=> b hb; apply: h; rewrite inE hb orbT.
Qed.

Lemma mxword_nseq K a k : mxword K (nseq k a) = mxpow (K a) k.
Proof. by elim: k => [|k IH] //=; rewrite IH. Qed.

Lemma fword_mxword (K : nat -> 'M[R]_n.+1) (e : nat -> eig) (k : nat -> nat) l :
  (forall a, a \in l -> is_eigh (K a) (e a).1 (e a).2) ->
  fword [seq e a | a <- l] [seq (fun x => x ^+ k a) | a <- l] =
  mxword K (flatten [seq nseq (k a) a | a <- l]) *m e0 R n.
Proof.
elim: l => [|a l IH] h /=; first by rewrite mul1mx.
rewrite (fcalc_pow (k a) (h a _)) ?mem_head // IH; last first.
  by move=> b hb; apply: h; rewrite inE hb orbT.
by rewrite mxword_cat mxword_nseq mulmxA.
Qed.
End Words.

(* ---- multi-indices ---- *)
Lemma maddE x y : mi_add x y = madd x y. Proof. by []. Qed.

Lemma size_munit d a : size (munit d a) = d.
Proof. by rewrite size_map size_iota. Qed.

Lemma nth_munit d a i : (i < d)%N -> nth 0%N (munit d a) i = (i == a).
Proof. by move=> h; rewrite (nth_map 0%N) ?size_iota // nth_iota. Qed.

Lemma madd_incr d x a : size x = d -> (a < d)%N -> mi_incr x a = madd x (munit d a).
Proof.
move=> hs ha; apply: (@eq_from_nth _ 0%N).
  by rewrite size_mi_incr ?hs // -maddE size_mi_add ?size_munit.
move=> i; rewrite size_mi_incr ?hs // => hi.
by rewrite nth_mi_incr -maddE nth_mi_add ?size_munit // nth_munit.
Qed.

(* the multi-index of a word *)
Definition wcount d (w : seq nat) : seq nat := [seq count_mem a w | a <- iota 0 d].

Lemma size_wcount d w : size (wcount d w) = d.
Proof. by rewrite size_map size_iota. Qed.

Lemma nth_wcount d w i : (i < d)%N -> nth 0%N (wcount d w) i = count_mem i w.
Proof. by move=> h; rewrite (nth_map 0%N) ?size_iota // nth_iota. Qed.

Lemma wcount_cat d u w : wcount d (u ++ w) = madd (wcount d u) (wcount d w).
Proof.
apply: (@eq_from_nth _ 0%N); rewrite -maddE ?size_mi_add ?size_wcount // => i hi.
by rewrite nth_mi_add ?size_wcount // !nth_wcount // count_cat.
Qed.

Lemma wcount1 d a : wcount d [:: a] = munit d a.
Proof. by apply: eq_map => i /=; rewrite addn0 eq_sym. Qed.

Lemma wcount0 d : wcount d [::] = nseq d 0%N.
Proof. by rewrite /wcount; elim: d {1}0%N => [|d IH] m //=; rewrite IH. Qed.

Lemma wcount_rev d w : wcount d (rev w) = wcount d w.
Proof. by apply: eq_map => i; rewrite count_rev. Qed.

Lemma sumn_munit d a : (a < d)%N -> sumn (munit d a) = 1%N.
Proof.
move=> ha; have := @sumn_unit_index d a ha; rewrite unit_indexE (@madd_incr d) ?size_nseq //.
rewrite -maddE sumn_mi_add ?size_nseq ?size_munit // sumn_nseq0 add0n => h.
exact: h.
Qed.

Lemma sumn_wcount d w : all (fun a => a < d)%N w -> sumn (wcount d w) = size w.
Proof.
elim: w => [|a w IH] /=; first by rewrite wcount0 sumn_nseq0.
move=> /andP [ha hw]; rewrite -cat1s wcount_cat -maddE sumn_mi_add ?size_wcount //.
by rewrite wcount1 sumn_munit // IH.
Qed.

Definition mword d (k : seq nat) : seq nat := flatten [seq nseq (nth 0%N k a) a | a <- iota 0 d].

Lemma mword_lt d k : all (fun a => a < d)%N (mword d k).
Proof.
apply/allP => a /flattenP [s /mapP [b hb ->]].
by rewrite mem_nseq => /andP [_ /eqP ->]; move: hb; rewrite mem_iota.
Qed.

Lemma wcount_mword d k : size k = d -> wcount d (mword d k) = k.
Proof.
move=> hs; apply: (@eq_from_nth _ 0%N); rewrite size_wcount ?hs // => i hi.
rewrite nth_wcount // /mword count_flatten -map_comp.
rewrite (eq_map (f2 := fun a => if a == i then nth 0%N k i else 0%N)); last first.
  by move=> a /=; rewrite count_nseq /=; case: eqP => [->|_]; rewrite ?mul1n ?mul0n.
rewrite sumnE big_map -{1}[d]subn0 -/(index_iota 0 d) big_mkord.
rewrite (bigD1 (Ordinal hi)) //= eqxx big1 ?addn0 // => j hj.
by rewrite -[_ == i]/(j == Ordinal hi) (negbTE hj).
Qed.

Lemma size_mword d k : size k = d -> size (mword d k) = sumn k.
Proof. by move=> hs; rewrite -(sumn_wcount (mword_lt d k)) wcount_mword. Qed.

(* ---- the Gram and Hankel matrices ---- *)
Section Gram.
Variables (R : rcfType) (d N n : nat) (M : seq nat -> R).
Hypothesis hd : (0 < d)%N.
Hypothesis hN : (0 < N)%N.
Local Notation basis := (blocks d 0 N).
Hypothesis hn : size basis = n.+1.

Definition bas (i : nat) : seq nat := nth [::] basis i.
Definition gramM : 'M[R]_n.+1 := \matrix_(i, j) M (madd (bas i) (bas j)).
Definition hankM (a : nat) : 'M[R]_n.+1 := \matrix_(i, j) M (madd (madd (bas i) (bas j)) (munit d a)).

Lemma bas_size i : (i < n.+1)%N -> size (bas i) = d.
Proof. by move=> h; have [] := @basis_nth N d i; rewrite ?hn. Qed.

Lemma maddC x y : madd x y = madd y x.
Proof. exact: mi_addC. Qed.

Lemma gramM_sym : symmetric gramM.
Proof. by apply/matrixP => i j; rewrite !mxE maddC. Qed.

Lemma hankM_sym a : symmetric (hankM a).
Proof. by apply/matrixP => i j; rewrite !mxE [madd (bas j) _]maddC. Qed.

(* the moment vector *)
Definition mvec : seq R := [seq M x | x <- blocks d 0 (2 * N)].

Lemma mvec_get x : size x = d -> (sumn x < 2 * N)%N -> jget 0 mvec (rank x) = M x.
Proof.
move=> hs hu; have [h1 h2] := nth_rank hs (n := (2 * N)%N) hu.
by rewrite jget_nth ?size_map // (nth_map [::]) // h1.
Qed.

Lemma table_mxE k (i j : 'I_n.+1) : (k <= d)%N ->
  table_mx mvec (table N d k) n.+1 i j = M (table_target basis k i j).
Proof.
move=> hk; have [||h1 h2] := @table_target_props N d k i j hk; rewrite ?hn //.
by rewrite mxE nth_table ?hn //= mvec_get // mul2n -addnn.
Qed.

Lemma table_gram : table_mx mvec (table N d 0) n.+1 = gramM.
Proof. by apply/matrixP => i j; rewrite table_mxE // mxE. Qed.

Lemma table_hank a : (a < d)%N -> table_mx mvec (table N d a.+1) n.+1 = hankM a.
Proof.
move=> ha; apply/matrixP => i j; rewrite table_mxE // mxE /table_target.
by rewrite (@madd_incr d) // size_mi_add -/(bas _) ?bas_size // -/(bas _) ?bas_size.
Qed.

Lemma bas_index x : size x = d -> (sumn x < N)%N -> exists2 i : 'I_n.+1, bas i = x & (index x basis = i).
Proof.
move=> hs hx; have hm : x \in basis by rewrite mem_blocks hs eqxx.
have hi : (index x basis < n.+1)%N by rewrite -hn index_mem.
by exists (Ordinal hi) => //; rewrite /bas nth_index.
Qed.

Lemma bas0 : bas 0 = nseq d 0%N.
Proof.
rewrite /bas nth0; case: (d) hd => [//|d' _]; case: (N) hN => [//|N' _].
by rewrite blocks_head -[0%N in LHS]/0%N; elim: (d') => [|m IH] //=; rewrite IH.
Qed.

Section Factor.
Variable L : 'M[R]_n.+1.
Hypothesis cL : is_chol L gramM.
Definition KK a := mult_matrix L (hankM a).

Lemma KK_sym a : symmetric (KK a).
Proof. exact: mult_matrix_sym cL (hankM_sym a). Qed.

Lemma maddA x y z : size x = size y -> size y = size z -> madd x (madd y z) = madd (madd x y) z.
Proof.
move=> h1 h2; rewrite -!maddE; apply: (@eq_from_nth _ 0%N); rewrite !size_mi_add //= ?h1 ?h2 ?size_mi_add ?h1 ?h2 //.
by move=> i hi; rewrite !nth_mi_add ?size_mi_add ?h1 ?h2 //; rewrite ?addnA.
Qed.

Lemma KK_shift a (i j : 'I_n.+1) : bas j = madd (bas i) (munit d a) ->
  KK a *m (L^T *m delta_mx i 0) = L^T *m delta_mx j 0 :> 'cV_n.+1.
Proof.
move=> h; apply: mult_shift cL _; rewrite -!colE; apply/colP => l; rewrite !mxE h maddA //.
  by rewrite !bas_size.
by rewrite size_munit bas_size.
Qed.

Lemma KK_word w : all (fun a => a < d)%N w -> (size w < N)%N ->
  exists2 j : 'I_n.+1, bas j = wcount d w &
  L 0 0 *: (mxword KK w *m e0 R n) = L^T *m delta_mx j 0.
Proof.
elim: w => [|a w IH] /= hw hs.
  exists 0; first by rewrite wcount0 bas0.
  by rewrite mul1mx -trigT_e0 //; case: cL.
move/andP: hw => [ha hw]; have [i bi ei] := IH hw (ltnW hs).
have [||j bj _] := @bas_index (wcount d (a :: w)); rewrite ?size_wcount ?sumn_wcount //= ?ha //.
exists j => //; rewrite -mulmxA scalemxAr ei (@KK_shift a i j) // bj bi.
by rewrite -cat1s wcount_cat wcount1 maddC.
Qed.

Lemma L00 : L 0 0 ^+ 2 = M (nseq d 0%N).
Proof.
have := congr1 (fun A : 'M_n.+1 => A 0 0) (let: And3 _ _ e := cL in e).
rewrite !mxE bas0 => e; have -> : nseq d 0%N = madd (nseq d 0%N) (nseq d 0%N).
  apply: (@eq_from_nth _ 0%N); rewrite -?maddE ?size_mi_add ?size_nseq // => i hi.
  by rewrite nth_mi_add ?size_nseq // nth_nseq hi.
rewrite -e (bigD1 0) //= mxE expr2 big1 ?addr0 // => i hi.
case: cL => /is_trig_mxP tL _ _; rewrite tL ?mul0r // lt0n.
by apply: contraNneq hi => h; apply/eqP/val_inj.
Qed.

Lemma L00_neq0 : L 0 0 != 0.
Proof. by case: cL => _ h _; rewrite gt_eqF. Qed.

Lemma KK_entry w : all (fun a => a < d)%N w -> (size w < 2 * N)%N ->
  mxword KK w 0 0 = M (wcount d w) / M (nseq d 0%N).
Proof.
case: (posnP (size w)) => [/size0nil -> _ _|h0 hw hs].
  by rewrite wcount0 divff -?L00 ?expf_neq0 ?L00_neq0 // mxE.
pose m := minn (size w).-1 N.-1.
have hm : (m < size w)%N by rewrite /m; lia.
have ew : w = take m w ++ nth 0%N w m :: drop m.+1 w by rewrite -drop_nth // cat_take_drop.
have hu : all (fun a => a < d)%N (rev (take m w)).
  by rewrite all_rev; move: hw; rewrite {1}ew all_cat => /andP [].
have /andP [ha hv] : (nth 0%N w m < d)%N && all (fun a => a < d)%N (drop m.+1 w).
  by move: hw; rewrite {1}ew all_cat /= => /andP [].
have [|i bi ei] := KK_word hu; first by rewrite size_rev size_take hm /m; lia.
have [|j bj ej] := KK_word hv; first by rewrite size_drop /m; lia.
have e1 : L 0 0 ^+ 2 * mxword KK w 0 0 = M (wcount d w).
  rewrite -(e0_entry (mxword KK w)) {1}ew mxword_cat /=.
  have -> : (e0 R n)^T *m (mxword KK (take m w) *m (KK (nth 0%N w m) *m mxword KK (drop m.+1 w))) *m e0 R n
     = (mxword KK (rev (take m w)) *m e0 R n)^T *m KK (nth 0%N w m) *m (mxword KK (drop m.+1 w) *m e0 R n).
    by rewrite trmx_mul mxword_rev ?revK ?mulmxA // => b _; exact: KK_sym.
  transitivity (((L 0 0 *: (mxword KK (rev (take m w)) *m e0 R n))^T *m KK (nth 0%N w m)
     *m (L 0 0 *: (mxword KK (drop m.+1 w) *m e0 R n))) 0 0).
    by rewrite trZmx -!scalemxAl -scalemxAr !mxlin expr2 mulrA.
  rewrite ei ej (mult_form _ _ _ cL) trmx_delta -rowE -colE !mxE bi bj wcount_rev.
  have -> : wcount d w = madd (wcount d (take m w)) (madd (munit d (nth 0%N w m)) (wcount d (drop m.+1 w))).
    by rewrite {1}ew -cat1s !wcount_cat wcount1.
  rewrite -maddA ?size_wcount ?size_munit //; congr (M (madd _ _)).
  exact: maddC.
by rewrite -e1 -L00 mulrC mulKf // expf_neq0 // L00_neq0.
Qed.
End Factor.
End Gram.
