(* Properties C01 - C07: multi-indices, moment layout and Cartesian products. *)
From mathcomp Require Import all_ssreflect all_algebra.
From Verif Require Import Prelude MultiIndexModel MultiIndexSpec NdIndexModel MultiIndexMain NdCart2.
Set Implicit Arguments.
Unset Strict Implicit.
Unset Printing Implicit Defensive.

(* C01 *)
Theorem sizeof_is_cardinality d u l (s : seq (seq nat)) :
  0 < d -> enumerates d l u s ->
  sizeof_multi_indices (Posz d) (Posz u) (Posz l) = Some (Posz (size s)).
Proof. exact: sizeof_cardinality_lem. Qed.
Print Assumptions sizeof_is_cardinality.

Theorem sizeof_empty_range d (u l : nat) : u < l ->
  sizeof_multi_indices (Posz d) (Posz u) (Posz l) = Some (Posz 0).
Proof. exact: sizeof_empty_lem. Qed.
Print Assumptions sizeof_empty_range.

Example sizeof_is_cardinality_ex :
  exists s, enumerates 2 1 2 s /\ size s = 5 /\
            sizeof_multi_indices (Posz 2) (Posz 2) (Posz 1) = Some (Posz 5).
Proof.
exists [:: [:: 0; 1]; [:: 1; 0]; [:: 0; 2]; [:: 1; 1]; [:: 2; 0]].
split; last by [].
have [s [<-] [h _]] := @generate_enumerates_lem 2 2 1 isT isT; exact: h.
Qed.

(* C02 *)
Theorem generate_enumerates d u l : 0 < d -> l <= u ->
  exists2 s, generate_graded_lexico_multi_indices d u l = Some s
           & enumerates d l u s /\
             sizeof_multi_indices (Posz d) (Posz u) (Posz l) = Some (Posz (size s)).
Proof. exact: generate_enumerates_lem. Qed.
Print Assumptions generate_enumerates.

Example generate_enumerates_ex :
  generate_graded_lexico_multi_indices 3 2 2 =
  Some [:: [:: 0; 0; 2]; [:: 0; 1; 1]; [:: 0; 2; 0]; [:: 1; 0; 1]; [:: 1; 1; 0]; [:: 2; 0; 0]].
Proof. by []. Qed.

(* C03 *)
Theorem generate_glex_sorted d u l s : l <= u ->
  generate_graded_lexico_multi_indices d u l = Some s -> glex_sorted s.
Proof. exact: generate_sorted_lem. Qed.
Print Assumptions generate_glex_sorted.

Example generate_glex_sorted_ex :
  exists2 s, generate_graded_lexico_multi_indices 3 4 0 = Some s & size s = 35.
Proof. by eexists; first by vm_compute; reflexivity. Qed.

(* C04: position of every multi-index, in both directions, and monotonicity *)
Theorem indexof_is_position d u l s x : l <= u ->
  generate_graded_lexico_multi_indices d u l = Some s -> in_range d l u x ->
  exists2 p : nat, graded_lexico_indexof_multi_index x (Posz l) = Some (Posz p)
                 & p < size s /\ nth [::] s p = x.
Proof. exact: indexof_generate_lem. Qed.
Print Assumptions indexof_is_position.

Theorem indexof_of_row d u l s p : l <= u ->
  generate_graded_lexico_multi_indices d u l = Some s -> p < size s ->
  graded_lexico_indexof_multi_index (nth [::] s p) (Posz l) = Some (Posz p).
Proof. exact: generate_indexof_lem. Qed.
Print Assumptions indexof_of_row.

Theorem indexof_monotone x y p q : size x = size y ->
  find_index x = Some (Posz p) -> find_index y = Some (Posz q) ->
  (p < q <-> glex_lt x y).
Proof. exact: indexof_monotone_lem. Qed.
Print Assumptions indexof_monotone.

Example indexof_is_position_ex :
  in_range 3 1 4 [:: 1; 0; 2] /\
  graded_lexico_indexof_multi_index [:: 1; 0; 2] 1%R = Some (Posz 13) /\
  find_index [:: 1; 0; 2] = Some (Posz 14) /\ find_index [:: 1; 1; 1] = Some (Posz 15).
Proof. by []. Qed.

(* C05 *)
Theorem gram_hankel_tables_correct N d : 0 < N -> 0 < d ->
  exists basis full tables,
    [/\ generate_graded_lexico_multi_indices d (N - 1) 0 = Some basis,
        generate_graded_lexico_multi_indices d (2 * N - 1) 0 = Some full,
        gram_and_hankel_indices_graded_lexico N d = Some tables &
     [/\ size tables = d.+1,
        (forall k i, k <= d -> i < size basis ->
           size (nth [::] tables k) = size basis /\
           size (nth [::] (nth [::] tables k) i) = size basis),
        (forall k i j, k <= d -> i < size basis -> j < size basis ->
           exists2 p : nat,
             nth 0%R (nth [::] (nth [::] tables k) i) j = Posz p &
             p < size full /\
             forall a, nth 0 (nth [::] full p) a =
               nth 0 (nth [::] basis i) a + nth 0 (nth [::] basis j) a
               + (k == a.+1)) &
        (forall k i j, k <= d -> i < size basis -> j < size basis ->
           nth 0%R (nth [::] (nth [::] tables k) i) j =
           nth 0%R (nth [::] (nth [::] tables k) j) i)]].
Proof. exact: gram_hankel_lem. Qed.
Print Assumptions gram_hankel_tables_correct.

Example gram_hankel_tables_ex :
  gram_and_hankel_indices_graded_lexico 2 2 =
  Some [:: [:: [:: Posz 0; Posz 1; Posz 2]; [:: Posz 1; Posz 3; Posz 4];
               [:: Posz 2; Posz 4; Posz 5]];
           [:: [:: Posz 2; Posz 4; Posz 5]; [:: Posz 4; Posz 7; Posz 8];
               [:: Posz 5; Posz 8; Posz 9]];
           [:: [:: Posz 1; Posz 3; Posz 4]; [:: Posz 3; Posz 6; Posz 7];
               [:: Posz 4; Posz 7; Posz 8]]].
Proof. by []. Qed.

(* C06 *)
Theorem extract_moments_correct (T : Type) (x0 : T) d u (M : seq nat -> T) full mi :
  generate_graded_lexico_multi_indices d u 0 = Some full -> in_range d 0 u mi ->
  extract_moments x0 [seq M x | x <- full] mi = Some (M mi).
Proof. by move=> h; exact: (extract_moments_lem x0 M h). Qed.
Print Assumptions extract_moments_correct.

Theorem extract_mean_correct (T : Type) (x0 : T) d u (M : seq nat -> T) full :
  generate_graded_lexico_multi_indices d u 0 = Some full -> 0 < u ->
  exists2 m, extract_mean x0 [seq M x | x <- full] d = Some m
  & size m = d /\ forall i, i < d ->
      nth x0 m i = M [seq (a == i : nat) | a <- iota 0 d].
Proof. by move=> h; exact: (extract_mean_lem x0 M h). Qed.
Print Assumptions extract_mean_correct.

Theorem extract_cov_correct (T : Type) (x0 : T) d u (M : seq nat -> T) full :
  generate_graded_lexico_multi_indices d u 0 = Some full -> 1 < u ->
  exists2 c, extract_cov x0 [seq M x | x <- full] d = Some c
  & size c = d /\ forall i j, i < d -> j < d ->
      size (nth [::] c i) = d /\
      nth x0 (nth [::] c i) j =
      M [seq ((a == i : nat) + (a == j : nat)) | a <- iota 0 d].
Proof. by move=> h; exact: (extract_cov_lem x0 M h). Qed.
Print Assumptions extract_cov_correct.

Theorem marginalise_moments_correct (T : Type) (x0 : T) d u (M : seq nat -> T) full N k :
  generate_graded_lexico_multi_indices d u 0 = Some full -> 2 * N <= u.+1 -> k < d ->
  exists2 m, marginalise_moments x0 [seq M x | x <- full] d N k = Some m
  & size m = 2 * N /\ forall p, p < 2 * N ->
      nth x0 m p = M [seq (if a == k then p else 0) | a <- iota 0 d].
Proof. by move=> h; exact: (marginalise_lem x0 M h). Qed.
Print Assumptions marginalise_moments_correct.

Example extract_ex :
  exists full, generate_graded_lexico_multi_indices 2 3 0 = Some full /\
    extract_moments 0 [seq 10 * nth 0 x 0 + nth 0 x 1 | x <- full] [:: 2; 1] = Some 21 /\
    extract_mean 0 [seq 10 * nth 0 x 0 + nth 0 x 1 | x <- full] 2 = Some [:: 10; 1] /\
    extract_cov 0 [seq 10 * nth 0 x 0 + nth 0 x 1 | x <- full] 2 =
      Some [:: [:: 20; 11]; [:: 11; 2]] /\
    marginalise_moments 0 [seq 10 * nth 0 x 0 + nth 0 x 1 | x <- full] 2 2 0 =
      Some [:: 0; 10; 20; 30].
Proof. by eexists; split; first by vm_compute; reflexivity. Qed.

(* C07 *)
Theorem cartesian_indices_enumerate d n :
  [/\ uniq (nd_cartesian_prod_indices d n),
      size (nd_cartesian_prod_indices d n) = n ^ d &
      forall t, (t \in nd_cartesian_prod_indices d n) =
                (size t == d) && all (fun i => i < n) t].
Proof. exact: cartesian_indices_lem. Qed.
Print Assumptions cartesian_indices_enumerate.

Theorem cartesian_prod_entries (T : Type) (x0 : T) (x : seq (seq T)) d n r a :
  size x = d -> (forall b, b < d -> size (nth [::] x b) = n) ->
  r < n ^ d -> a < d ->
  nth x0 (nth [::] (nd_cartesian_prod x0 x (nd_cartesian_prod_indices d n)) r) a =
  nth x0 (nth [::] x a) (nth 0 (nth [::] (nd_cartesian_prod_indices d n) r) a).
Proof. exact: NdIndexProofs.cartesian_prodE. Qed.
Print Assumptions cartesian_prod_entries.

(* The unused variant nd_cartesian_prod_2 interleaves coordinates wrongly: a
   combination of the Cartesian product is missing from its output. *)
Theorem cartesian_prod_2_refuted :
  exists (x : seq (seq nat)) (t : seq nat),
    [/\ size x = 2, all (fun r => size r == 2) x,
        t \in nd_cartesian_prod 0 x (nd_cartesian_prod_indices 2 2) &
        t \notin nd_cartesian_prod_2 0 x 2].
Proof. exact: cartesian_prod_2_bad. Qed.
Print Assumptions cartesian_prod_2_refuted.

(* What it returns: with i the position in the flattened stack of the d meshgrid outputs and N = n ^ d, the entry is
   taken from row i / N of x, at the coordinate of the grid point i mod N, the first two coordinates exchanged. *)
Theorem cartesian_prod_2_entries (T : Type) (x0 : T) (x : seq (seq T)) d n r c : size x = d -> r < n ^ d -> c < d ->
  let i := r * d + c in
  let N := n ^ d in
  let swapped a := if d == 1 then a else if a == 0 then 1 else if a == 1 then 0 else a in
  nth x0 (nth [::] (nd_cartesian_prod_2 x0 x n) r) c =
  nth x0 (nth [::] x (i %/ N))
    (nth 0 (nth [::] (nd_cartesian_prod_indices d n) (i %% N)) (swapped (i %/ N))).
Proof. move=> sx; exact: cart2_entry. Qed.
Print Assumptions cartesian_prod_2_entries.

(* The part of C56 that holds: one row, or rows of one entry. *)
Theorem cartesian_prod_2_partial (T : Type) (x0 : T) (x : seq (seq T)) d n : size x = d -> 0 < d ->
  (forall a, a < d -> size (nth [::] x a) = n) -> d == 1 \/ n == 1 ->
  nd_cartesian_prod_2 x0 x n = nd_cartesian_prod x0 x (nd_cartesian_prod_indices d n).
Proof. exact: cart2_right. Qed.
Print Assumptions cartesian_prod_2_partial.

(* For every other shape it is wrong whenever the first two rows of x are disjoint: the first row it returns is not a
   combination. *)
Theorem cartesian_prod_2_wrong (T : eqType) (x0 : T) (x : seq (seq T)) d n : size x = d -> 1 < d -> 1 < n ->
  (forall a, a < d -> size (nth [::] x a) = n) ->
  (forall y, y \in nth [::] x 0 -> y \notin nth [::] x 1) ->
  nth [::] (nd_cartesian_prod_2 x0 x n) 0 \notin nd_cartesian_prod x0 x (nd_cartesian_prod_indices d n).
Proof. exact: cart2_wrong. Qed.
Print Assumptions cartesian_prod_2_wrong.

Example cartesian_prod_2_ex :
  nd_cartesian_prod_2 0 [:: [:: 5; 6]; [:: 7; 8]] 2 = [:: [:: 5; 6]; [:: 5; 6]; [:: 7; 7]; [:: 8; 8]].
Proof. by []. Qed.

Example cartesian_ex :
  nd_cartesian_prod 0 [:: [:: 5; 6]; [:: 7; 8]] (nd_cartesian_prod_indices 2 2) =
  [:: [:: 5; 7]; [:: 5; 8]; [:: 6; 7]; [:: 6; 8]].
Proof. by []. Qed.
