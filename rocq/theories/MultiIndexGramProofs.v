(* Gram/Hankel index tables: lemmas. *)
From mathcomp Require Import all_ssreflect all_algebra.
From mathcomp Require Import zify.
From Verif Require Import MultiIndexModel MultiIndexSpec MultiIndexProofs.
Set Implicit Arguments.
Unset Strict Implicit.
Unset Printing Implicit Defensive.
Import GRing.Theory Num.Theory.

Definition rank (x : seq nat) : nat := index x (blocks (size x) 0 (sumn x).+1).

Lemma find_index_rank x : find_index x = Some (Posz (rank x)).
Proof. exact: indexofE. Qed.

Lemma rank_index x n : sumn x < n -> rank x = index x (blocks (size x) 0 n).
Proof. by move=> h; rewrite /rank !index_blocks. Qed.

Lemma all_some_map (T U : Type) (f : T -> option U) (g : T -> U) s :
  (forall x, f x = Some (g x)) -> all_some [seq f x | x <- s] = Some [seq g x | x <- s].
Proof. by move=> h; elim: s => [|x s IH] //=; rewrite h IH. Qed.

Lemma find_tableE t :
  find_table t = Some [seq [seq Posz (rank x) | x <- row] | row <- t].
Proof.
rewrite /find_table.
apply: (@all_some_map _ _ (fun row => all_some [seq find_index mi | mi <- row])) => row.
by apply: all_some_map => x; rewrite find_index_rank.
Qed.

Lemma obindSome (T U : Type) (f : T -> option U) x : obind f (Some x) = f x.
Proof. by []. Qed.

Lemma gram_hankelE N d : 0 < N -> 0 < d ->
  gram_and_hankel_indices_graded_lexico N d =
  let basis := blocks d 0 N in
  let gram := [seq [seq mi_add x y | y <- basis] | x <- basis] in
  Some ([seq [seq Posz (rank x) | x <- row] | row <- gram]
        :: [seq [seq [seq Posz (rank (mi_incr x i)) | x <- row] | row <- gram]
           | i <- iota 0 d]).
Proof.
case: N => [//|N] _; case: d => [//|d] _.
rewrite /gram_and_hankel_indices_graded_lexico.
have -> : py_comb (Posz N.+1 - 1 + Posz d.+1)%R (Posz N.+1 - 1)%R = Some (Posz 'C(N + d.+1, N)).
  have -> : (Posz N.+1 - 1 + Posz d.+1)%R = Posz (N + d.+1) by lia.
  by have -> : (Posz N.+1 - 1)%R = Posz N by lia.
rewrite obindSome generateE // subn0 obindSome.
rewrite size_blocks -[in X in Posz X != _]bin_sub ?leq_addl // addnK eqxx [~~ true]/=.
set gram := [seq [seq mi_add x y | y <- _] | x <- _].
rewrite (@all_some_map _ _ _ (fun i => [seq [seq Posz (rank (mi_incr x i)) | x <- row]
  | row <- gram])) => [|i]; last first.
  rewrite find_tableE -map_comp; congr Some.
  by apply: eq_map => row /=; rewrite -map_comp.
by rewrite find_tableE obindSome.
Qed.

Lemma size_mi_add x y : size x = size y -> size (mi_add x y) = size x.
Proof. by move=> h; rewrite size_map size1_zip // h. Qed.

Lemma nth_mi_add x y i : size x = size y ->
  nth 0 (mi_add x y) i = nth 0 x i + nth 0 y i.
Proof.
move=> h; case: (ltnP i (size x)) => hi.
  by rewrite (nth_map (0, 0)) ?size1_zip -?h // nth_zip.
by rewrite !nth_default ?size_mi_add // -h.
Qed.

Lemma mi_addC x y : mi_add x y = mi_add y x.
Proof.
elim: x y => [|a x IH] [|b y] //.
by rewrite /mi_add /= -!/(mi_add _ _) addnC IH.
Qed.

Lemma sumn_mi_add x y : size x = size y -> sumn (mi_add x y) = sumn x + sumn y.
Proof.
elim: x y => [|a x IH] [|b y] // [h].
by rewrite /mi_add /= -/(mi_add _ _) IH // addnACA.
Qed.

Lemma size_mi_incr x i : i < size x -> size (mi_incr x i) = size x.
Proof. by move=> h; rewrite size_set_nth (maxn_idPr h). Qed.

Lemma nth_mi_incr x i j : nth 0 (mi_incr x i) j = nth 0 x j + (j == i).
Proof.
rewrite nth_set_nth /=; case: eqP => [->|_]; last by rewrite addn0.
by rewrite addn1.
Qed.

Lemma sumn_mi_incr x i : i < size x -> sumn (mi_incr x i) = (sumn x).+1.
Proof.
elim: x i => [|a x IH] [|i] // h.
by rewrite -[mi_incr _ _]/(a :: mi_incr x i) /= IH // addnS.
Qed.

Lemma nth_rank d x n : size x = d -> sumn x < n ->
  nth [::] (blocks d 0 n) (rank x) = x /\ rank x < size (blocks d 0 n).
Proof.
move=> <- hs; have hm : x \in blocks (size x) 0 n by rewrite mem_blocks eqxx.
by rewrite (rank_index hs) index_mem nth_index.
Qed.

(* The multi-index addressed by table k at (i, j). *)
Definition table_target (basis : seq (seq nat)) (k i j : nat) : seq nat :=
  let s := mi_add (nth [::] basis i) (nth [::] basis j) in
  if k is k'.+1 then mi_incr s k' else s.

Definition table (N d k : nat) : seq (seq int) :=
  let basis := blocks d 0 N in
  let gram := [seq [seq mi_add x y | y <- basis] | x <- basis] in
  if k is i.+1 then [seq [seq Posz (rank (mi_incr x i)) | x <- row] | row <- gram]
  else [seq [seq Posz (rank x) | x <- row] | row <- gram].

Lemma gram_hankel_tables N d : 0 < N -> 0 < d ->
  gram_and_hankel_indices_graded_lexico N d = Some [seq table N d k | k <- iota 0 d.+1].
Proof.
move=> hN hd; rewrite gram_hankelE // -[iota 0 d.+1]/(0 :: iota (1 + 0) d) map_cons; congr (Some (_ :: _)).
by rewrite iotaDl -map_comp.
Qed.

Lemma size_table N d k : size (table N d k) = size (blocks d 0 N).
Proof. by case: k => [|k]; rewrite /table !size_map. Qed.

Lemma size_table_row N d k i : i < size (blocks d 0 N) ->
  size (nth [::] (table N d k) i) = size (blocks d 0 N).
Proof.
move=> hi; case: k => [|k]; rewrite /table.
  by rewrite (nth_map [::]) ?size_map // (nth_map [::]) // !size_map.
by rewrite (nth_map [::]) ?size_map // (nth_map [::]) // !size_map.
Qed.

Lemma nth_table N d k i j :
  i < size (blocks d 0 N) -> j < size (blocks d 0 N) ->
  nth 0%R (nth [::] (table N d k) i) j = Posz (rank (table_target (blocks d 0 N) k i j)).
Proof.
move=> hi hj; case: k => [|k]; rewrite /table /table_target.
  rewrite (nth_map [::]) ?size_map // (nth_map [::]) // (nth_map [::]) ?size_map //.
  by rewrite (nth_map [::]).
rewrite (nth_map [::]) ?size_map // (nth_map [::]) // (nth_map [::]) ?size_map //.
by rewrite (nth_map [::]).
Qed.

Lemma basis_nth N d i : i < size (blocks d 0 N) ->
  size (nth [::] (blocks d 0 N) i) = d /\ sumn (nth [::] (blocks d 0 N) i) < N.
Proof.
by move=> hi; have := mem_nth [::] hi; rewrite mem_blocks => /and3P [/eqP ? _ ?].
Qed.

Lemma table_target_props N d k i j : k <= d ->
  i < size (blocks d 0 N) -> j < size (blocks d 0 N) ->
  let t := table_target (blocks d 0 N) k i j in
  size t = d /\ sumn t < N + N.
Proof.
move=> hk hi hj /=.
have [si ni] := basis_nth hi; have [sj nj] := basis_nth hj.
have sij : size (nth [::] (blocks d 0 N) i) = size (nth [::] (blocks d 0 N) j) by rewrite si sj.
case: k hk => [|k] hk; rewrite /table_target.
  by rewrite size_mi_add // sumn_mi_add // si; split => //; lia.
rewrite size_mi_incr ?sumn_mi_incr ?size_mi_add ?sumn_mi_add ?si //.
by split => //; lia.
Qed.

Lemma table_target_nth N d k i j a : k <= d ->
  i < size (blocks d 0 N) -> j < size (blocks d 0 N) ->
  nth 0 (table_target (blocks d 0 N) k i j) a =
  nth 0 (nth [::] (blocks d 0 N) i) a + nth 0 (nth [::] (blocks d 0 N) j) a
  + (k == a.+1).
Proof.
move=> hk hi hj.
have [si ni] := basis_nth hi; have [sj nj] := basis_nth hj.
have sij : size (nth [::] (blocks d 0 N) i) = size (nth [::] (blocks d 0 N) j) by rewrite si sj.
case: k hk => [|k] hk; rewrite /table_target ?nth_mi_incr nth_mi_add ?addn0 //.
by rewrite eqSS eq_sym.
Qed.
