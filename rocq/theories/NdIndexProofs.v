(* Lemmas about Cartesian products and moment extraction. *)
From mathcomp Require Import all_ssreflect all_algebra.
From mathcomp Require Import zify.
From Verif Require Import Prelude MultiIndexModel MultiIndexSpec MultiIndexProofs
  MultiIndexGramProofs NdIndexModel.
Set Implicit Arguments.
Unset Strict Implicit.
Unset Printing Implicit Defensive.

Lemma mem_product (T : eqType) (rs : seq (seq T)) t :
  (t \in itertools_product rs) =
  (size t == size rs) && all (fun p => p.1 \in p.2) (zip t rs).
Proof.
elim: rs t => [|r rs IH] [|a t] //=.
  by apply/negbTE/flatten_mapP => -[k _ /mapP []].
apply/flatten_mapP/idP => [[k hk /mapP [y]]|].
  by rewrite IH => /andP [h1 h2] [-> ->] /=; rewrite hk eqSS h1 h2.
rewrite eqSS => /and3P [h1 h2 h3]; exists a => //.
by apply/mapP; exists t => //; rewrite IH h1.
Qed.

Lemma product_uniq (T : eqType) (rs : seq (seq T)) :
  all uniq rs -> uniq (itertools_product rs).
Proof.
elim: rs => [|r rs IH] //= /andP [hr /IH {}IH].
apply: (@allpairs_uniq _ _ _ (fun x t => x :: t)) => // -[a x] [b y] _ _ /= [-> ->].
by [].
Qed.

Lemma size_product (T : eqType) (rs : seq (seq T)) :
  size (itertools_product rs) = \prod_(r <- rs) size r.
Proof.
elim: rs => [|r rs IH]; first by rewrite big_nil.
by rewrite big_cons /= (size_allpairs (fun x t => x :: t)) IH.
Qed.

Lemma mem_cartesian d n t :
  (t \in nd_cartesian_prod_indices d n) = (size t == d) && all (fun i => i < n) t.
Proof.
rewrite /nd_cartesian_prod_indices mem_product size_nseq.
case: eqP => //= hs; elim: t d hs => [|a t IH] d /= hs; first by rewrite -hs.
by case: d hs => [//|d] [hs] /=; rewrite mem_iota /= add0n IH.
Qed.

Lemma cartesian_uniq d n : uniq (nd_cartesian_prod_indices d n).
Proof. by apply: product_uniq; rewrite all_nseq iota_uniq orbT. Qed.

Lemma size_cartesian d n : size (nd_cartesian_prod_indices d n) = n ^ d.
Proof.
rewrite size_product big_nseq size_iota.
by elim: d => [|d IH] //=; rewrite IH expnS.
Qed.

(* Lexicographic order of the rows. *)
Lemma cartesian_lexb d n : pairwise lexb (nd_cartesian_prod_indices d n).
Proof.
rewrite /nd_cartesian_prod_indices.
elim: d => [|d IH] //=.
apply: (@pairwise_flatten_iota _ _ (fun k => [seq k :: t | t <- itertools_product (nseq d (iota 0 n))])).
  move=> k _; rewrite pairwise_map; apply: sub_pairwise IH => x y /= ->.
  by rewrite eqxx orbT.
by move=> k l x y _ hkl _ /mapP [x' _ ->] /mapP [y' _ ->] /=; rewrite hkl.
Qed.

Lemma cartesian_prodE (T : Type) (x0 : T) (x : seq (seq T)) d n r a :
  size x = d -> (forall b, b < d -> size (nth [::] x b) = n) ->
  r < n ^ d -> a < d ->
  nth x0 (nth [::] (nd_cartesian_prod x0 x (nd_cartesian_prod_indices d n)) r) a =
  nth x0 (nth [::] x a) (nth 0 (nth [::] (nd_cartesian_prod_indices d n) r) a).
Proof.
move=> hx hn hr ha.
have hr' : r < size (nd_cartesian_prod_indices d n) by rewrite size_cartesian.
rewrite /nd_cartesian_prod (nth_map [::]) // (nth_map 0) ?size_iota ?hx //.
rewrite nth_iota // add0n jget_nth // hn //.
have := mem_nth [::] hr'; rewrite mem_cartesian => /andP [/eqP hs /allP hall].
by apply: hall; apply: mem_nth; rewrite hs.
Qed.

(* ---------- Extraction ---------- *)
Section Extract.
Variables (T : Type) (x0 : T) (d u : nat) (M : seq nat -> T).
Hypothesis hd : 0 < d.
Let ms := [seq M x | x <- blocks d 0 u.+1].

Lemma extract_momentsE mi : size mi = d -> sumn mi <= u ->
  extract_moments x0 ms mi = Some (M mi).
Proof.
move=> hs hu; rewrite /extract_moments find_index_rank /=.
have [h1 h2] := nth_rank hs (n := u.+1) hu.
by rewrite jget_nth ?size_map // (nth_map [::]) // h1.
Qed.

Lemma unit_indexE i : unit_index d i = mi_incr (nseq d 0) i.
Proof. by rewrite /unit_index /mi_incr nth_nseq if_same. Qed.

Lemma size_unit_index i : i < d -> size (unit_index d i) = d.
Proof. by move=> h; rewrite unit_indexE size_mi_incr size_nseq. Qed.

Lemma sumn_unit_index i : i < d -> sumn (unit_index d i) = 1.
Proof. by move=> h; rewrite unit_indexE sumn_mi_incr ?size_nseq // sumn_nseq0. Qed.

Lemma all_some_map_in (U V : eqType) (W : Type) (f : U -> option W) (g : U -> W) (s : seq U) :
  {in s, forall x, f x = Some (g x)} -> all_some [seq f x | x <- s] = Some [seq g x | x <- s].
Proof.
elim: s => [|x s IH] //= h.
rewrite h ?mem_head //= IH // => y hy; apply: h.
by rewrite inE hy orbT.
Qed.

Lemma extract_meanE : 0 < u ->
  extract_mean x0 ms d = Some [seq M (unit_index d i) | i <- iota 0 d].
Proof.
move=> hu; apply: (@all_some_map_in _ nat_eqType) => i; rewrite mem_iota => /= hi.
by rewrite extract_momentsE ?size_unit_index ?sumn_unit_index.
Qed.

Lemma extract_covE : 1 < u ->
  extract_cov x0 ms d =
  Some [seq [seq M (mi_incr (unit_index d i) j) | j <- iota 0 d] | i <- iota 0 d].
Proof.
move=> hu; apply: (@all_some_map_in _ nat_eqType) => i; rewrite mem_iota => /= hi.
apply: (@all_some_map_in _ nat_eqType) => j; rewrite mem_iota => /= hj.
have hs := size_unit_index hi.
rewrite extract_momentsE ?size_mi_incr ?sumn_mi_incr ?hs //.
by rewrite sumn_unit_index.
Qed.

Lemma sumn_set_nseq n k p : k < n -> sumn (set_nth 0 (nseq n 0) k p) = p.
Proof.
elim: n k => [|n IH] [|k] //= h; first by rewrite sumn_nseq0 addn0.
by rewrite IH.
Qed.

Lemma marginaliseE N k : 2 * N <= u.+1 -> k < d ->
  marginalise_moments x0 ms d N k =
  Some [seq M (set_nth 0 (nseq d 0) k p) | p <- iota 0 (2 * N)].
Proof.
move=> hu hk; apply: (@all_some_map_in _ nat_eqType) => p; rewrite mem_iota => /= hp.
rewrite extract_momentsE ?sumn_set_nseq ?size_set_nth ?size_nseq ?(maxn_idPr _) //.
lia.
Qed.
End Extract.
