(* Property-level lemmas about multi-indices, stated against MultiIndexSpec. *)
From mathcomp Require Import all_ssreflect all_algebra.
From mathcomp Require Import zify.
From Verif Require Import Prelude MultiIndexModel MultiIndexSpec MultiIndexProofs
  MultiIndexGramProofs NdIndexModel NdIndexProofs.
Set Implicit Arguments.
Unset Strict Implicit.
Unset Printing Implicit Defensive.

Lemma sizeof_cardinality_lem d u l (s : seq (seq nat)) :
  0 < d -> enumerates d l u s ->
  sizeof_multi_indices (Posz d) (Posz u) (Posz l) = Some (Posz (size s)).
Proof.
move=> hd hs; rewrite sizeofE ?hd //.
by rewrite (enumerates_size hs (blocks_enumerates d l u)).
Qed.

Lemma sizeof_empty_lem d (u l : nat) : u < l ->
  sizeof_multi_indices (Posz d) (Posz u) (Posz l) = Some (Posz 0).
Proof.
by move=> h; rewrite sizeofE; [rewrite (_ : u.+1 - l = 0) //; lia | lia].
Qed.

Lemma generate_enumerates_lem d u l : 0 < d -> l <= u ->
  exists2 s, generate_graded_lexico_multi_indices d u l = Some s
           & enumerates d l u s /\
             sizeof_multi_indices (Posz d) (Posz u) (Posz l) = Some (Posz (size s)).
Proof.
case: d => [//|d] _ h; exists (blocks d.+1 l (u.+1 - l)); first exact: generateE.
split; first exact: blocks_enumerates.
by rewrite sizeofE.
Qed.

Lemma generate_sorted_lem d u l s : l <= u ->
  generate_graded_lexico_multi_indices d u l = Some s -> glex_sorted s.
Proof.
case: d => [//|d] h; rewrite generateE // => -[<-]; exact: blocks_glex_sorted.
Qed.

Lemma indexof_generate_lem d u l s x : l <= u ->
  generate_graded_lexico_multi_indices d u l = Some s -> in_range d l u x ->
  exists2 p : nat, graded_lexico_indexof_multi_index x (Posz l) = Some (Posz p)
                 & p < size s /\ nth [::] s p = x.
Proof.
case: d => [//|d] h; rewrite generateE // => -[<-] /andP [/eqP hs /andP [h1 h2]].
exists (index x (blocks (size x) l (u.+1 - l))).
  apply: indexof_lowerE => //; last by rewrite hs.
  by rewrite subnKC // ltnW.
have hx : x \in blocks d.+1 l (u.+1 - l) by rewrite mem_blocks hs eqxx /=; lia.
by rewrite hs index_mem nth_index.
Qed.

Lemma generate_indexof_lem d u l s p : l <= u ->
  generate_graded_lexico_multi_indices d u l = Some s -> p < size s ->
  graded_lexico_indexof_multi_index (nth [::] s p) (Posz l) = Some (Posz p).
Proof.
case: d => [//|d] h; rewrite generateE // => -[<-] hp.
have := mem_nth [::] hp; rewrite mem_blocks => /and3P [/eqP hs h1 h2].
rewrite (@indexof_lowerE _ l (u.+1 - l)) // ?hs //.
by rewrite index_uniq ?uniq_blocks.
Qed.

Lemma glexb_asym x y : glexb x y -> ~ glex_lt y x.
Proof.
move=> h [h1|[h1 [i hi hj]]]; first by move: h; rewrite /glexb; lia.
move: h; rewrite /glexb h1 ltnn eqxx /= => h.
elim: x y i h hi hj {h1} => [|a x IH] [|b y] // [|i] /= /orP h hi hj.
- by case: h => [|/andP [/eqP]]; lia.
- have e := hj 0 isT; rewrite /= in e.
  case: h => [|/andP [_ h]]; first by rewrite e ltnn.
  by apply: (IH y i h hi) => j hji; have := hj j.+1 hji.
Qed.

Lemma indexof_monotone_lem x y p q : size x = size y ->
  find_index x = Some (Posz p) -> find_index y = Some (Posz q) ->
  (p < q <-> glex_lt x y).
Proof.
move=> hs; set n := (maxn (sumn x) (sumn y)).+1.
have hx : sumn x < n by rewrite ltnS leq_maxl.
have hy : sumn y < n by rewrite ltnS leq_maxr.
rewrite (indexofE hx) (indexofE hy) -hs => -[<-] [<-].
set b := blocks (size x) 0 n.
have mx : x \in b by rewrite mem_blocks eqxx.
have my : y \in b by rewrite mem_blocks hs eqxx.
have hb := @blocks_glex_sorted (size x) 0 n.
split=> [h|h].
  by have := hb _ _ h; rewrite index_mem => /(_ my); rewrite !nth_index.
rewrite ltnNge; apply/negP; rewrite leq_eqVlt => /orP [/eqP e|e].
  have exy : x = y by rewrite -(nth_index [::] mx) -e nth_index.
  move: h; rewrite exy => -[|[_ [i]]]; first by rewrite ltnn.
  by rewrite ltnn.
have := blocks_glexb (size x) 0 n; move/(pairwiseP [::])/(_ (index y b) (index x b)).
rewrite !inE !index_mem !nth_index // => /(_ my mx e) /glexb_asym; exact.
Qed.

Lemma gram_hankel_lem N d : 0 < N -> 0 < d ->
  exists basis full tables,
    [/\ generate_graded_lexico_multi_indices d (N - 1) 0 = Some basis,
        generate_graded_lexico_multi_indices d (2 * N - 1) 0 = Some full,
        gram_and_hankel_indices_graded_lexico N d = Some tables &
     [/\ size tables = d.+1,
        (forall k i, k <= d -> i < size basis ->
           size (nth [::] tables k) = size basis /\
           size (nth [::] (nth [::] tables k) i) = size basis),
        (forall k i j, k <= d -> i < size basis -> j < size basis ->
           exists2 p : nat,
             nth 0%R (nth [::] (nth [::] tables k) i) j = Posz p &
             p < size full /\
             forall a, nth 0 (nth [::] full p) a =
               nth 0 (nth [::] basis i) a + nth 0 (nth [::] basis j) a
               + (k == a.+1)) &
        (forall k i j, k <= d -> i < size basis -> j < size basis ->
           nth 0%R (nth [::] (nth [::] tables k) i) j =
           nth 0%R (nth [::] (nth [::] tables k) j) i)]].
Proof.
move=> hN hd; exists (blocks d 0 N), (blocks d 0 (2 * N)), [seq table N d k | k <- iota 0 d.+1].
have e1 : (N - 1).+1 - 0 = N by lia.
have e2 : (2 * N - 1).+1 - 0 = 2 * N by lia.
have ntab k : k <= d -> nth [::] [seq table N d k | k <- iota 0 d.+1] k = table N d k.
  by move=> hk; rewrite (nth_map 0) ?size_iota // nth_iota.
split.
- by case: d hd {ntab} => // d' _; rewrite generateE // e1.
- by case: d hd {ntab} => // d' _; rewrite generateE // e2.
- exact: gram_hankel_tables.
split.
- by rewrite size_map size_iota.
- by move=> k i hk hi; rewrite ntab // size_table size_table_row.
- move=> k i j hk hi hj; rewrite ntab // nth_table //.
  have [h1 h2] := table_target_props hk hi hj.
  have h3 : sumn (table_target (blocks d 0 N) k i j) < 2 * N by rewrite mul2n -addnn.
  have [h4 h5] := nth_rank h1 h3.
  exists (rank (table_target (blocks d 0 N) k i j)) => //; split=> // a.
  by rewrite h4 table_target_nth.
- move=> k i j hk hi hj; rewrite ntab // !nth_table //.
  by congr (Posz (rank _)); rewrite /table_target mi_addC.
Qed.

Section ExtractLem.
Variables (T : Type) (x0 : T) (d u : nat) (M : seq nat -> T) (full : seq (seq nat)).
Hypothesis hfull : generate_graded_lexico_multi_indices d u 0 = Some full.

Lemma fullE : 0 < d /\ full = blocks d 0 u.+1.
Proof.
case: (d) hfull => [//|d']; rewrite generateE // subn0 => -[<-]; by [].
Qed.

Lemma extract_moments_lem mi : in_range d 0 u mi ->
  extract_moments x0 [seq M x | x <- full] mi = Some (M mi).
Proof.
have [hd ->] := fullE; case/andP => /eqP hs /andP [_ hu].
exact: extract_momentsE.
Qed.

Lemma extract_mean_lem : 0 < u ->
  exists2 m, extract_mean x0 [seq M x | x <- full] d = Some m
  & size m = d /\ forall i, i < d ->
      nth x0 m i = M [seq (a == i : nat) | a <- iota 0 d].
Proof.
have [hd ->] := fullE => hu; rewrite extract_meanE //.
exists [seq M (unit_index d i) | i <- iota 0 d] => //.
rewrite size_map size_iota; split=> // i hi.
rewrite (nth_map 0) ?size_iota // nth_iota // add0n; congr M.
apply: (@eq_from_nth _ 0); first by rewrite size_unit_index // size_map size_iota.
move=> a; rewrite size_unit_index // => ha.
rewrite (nth_map 0) ?size_iota // nth_iota // add0n.
by rewrite unit_indexE nth_mi_incr nth_nseq if_same.
Qed.

Lemma extract_cov_lem : 1 < u ->
  exists2 c, extract_cov x0 [seq M x | x <- full] d = Some c
  & size c = d /\ forall i j, i < d -> j < d ->
      size (nth [::] c i) = d /\
      nth x0 (nth [::] c i) j =
      M [seq ((a == i : nat) + (a == j : nat)) | a <- iota 0 d].
Proof.
have [hd ->] := fullE => hu; rewrite extract_covE //; eexists; first by [].
rewrite size_map size_iota; split=> // i j hi hj.
rewrite (nth_map 0) ?size_iota // size_map size_iota; split=> //.
rewrite (nth_map 0) ?size_iota // !nth_iota // !add0n; congr M.
have hs : size (mi_incr (unit_index d i) j) = d.
  by rewrite size_mi_incr size_unit_index.
apply: (@eq_from_nth _ 0); first by rewrite hs size_map size_iota.
move=> a; rewrite hs => ha.
rewrite (nth_map 0) ?size_iota // nth_iota // add0n.
by rewrite nth_mi_incr unit_indexE nth_mi_incr nth_nseq if_same.
Qed.

Lemma marginalise_lem N k : 2 * N <= u.+1 -> k < d ->
  exists2 m, marginalise_moments x0 [seq M x | x <- full] d N k = Some m
  & size m = 2 * N /\ forall p, p < 2 * N ->
      nth x0 m p = M [seq (if a == k then p else 0) | a <- iota 0 d].
Proof.
have [hd ->] := fullE => hN hk; rewrite marginaliseE //; eexists; first by [].
rewrite size_map size_iota; split=> // p hp.
rewrite (nth_map 0) ?size_iota // nth_iota // add0n; congr M.
have hs : size (set_nth 0 (nseq d 0) k p) = d.
  by rewrite size_set_nth size_nseq (maxn_idPr _).
apply: (@eq_from_nth _ 0); first by rewrite hs size_map size_iota.
move=> a; rewrite hs => ha.
rewrite (nth_map 0) ?size_iota // nth_iota // add0n nth_set_nth /=.
by case: eqP => // _; rewrite nth_nseq if_same.
Qed.
End ExtractLem.

Lemma cartesian_indices_lem d n :
  [/\ uniq (nd_cartesian_prod_indices d n),
      size (nd_cartesian_prod_indices d n) = n ^ d &
      forall t, (t \in nd_cartesian_prod_indices d n) =
                (size t == d) && all (fun i => i < n) t].
Proof. by split; [exact: cartesian_uniq|exact: size_cartesian|exact: mem_cartesian]. Qed.

(* nd_cartesian_prod_2 does not return the Cartesian product. *)
Lemma cartesian_prod_2_bad :
  exists (x : seq (seq nat)) (t : seq nat),
    [/\ size x = 2, all (fun r => size r == 2) x,
        t \in nd_cartesian_prod 0 x (nd_cartesian_prod_indices 2 2) &
        t \notin nd_cartesian_prod_2 0 x 2].
Proof. by exists [:: [:: 1; 2]; [:: 3; 4]], [:: 1; 3]. Qed.
