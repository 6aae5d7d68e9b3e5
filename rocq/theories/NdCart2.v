(* When the alternative Cartesian product (multi_dims/quadratures.py:90-113) is right: lemmas. *)
From mathcomp Require Import all_ssreflect all_algebra.
From Verif Require Import Prelude MultiIndexModel NdIndexModel NdIndexProofs MultiIndexMain.
Set Implicit Arguments.
Unset Strict Implicit.
Unset Printing Implicit Defensive.

Section Cart2.
Variables (T : Type) (x0 : T).

Lemma size_rows_of d f (s : seq T) : size (rows_of d f s) = f.
Proof. by elim: f s => //= f IH s; rewrite IH. Qed.

Lemma size_row_of d f (s : seq T) r : r < f -> f * d <= size s -> size (nth [::] (rows_of d f s) r) = d.
Proof.
elim: f s r => // f IH s r; rewrite mulSn => hr hs.
have hd : d <= size s by apply: leq_trans hs; exact: leq_addr.
case: r hr => [|r] hr; first by rewrite /= size_takel.
by rewrite /= IH // size_drop leq_subRL.
Qed.

Lemma nth_rows_of d f (s : seq T) r c : r < f -> c < d -> f * d <= size s ->
  nth x0 (nth [::] (rows_of d f s) r) c = nth x0 s (r * d + c).
Proof.
elim: f s r => // f IH s r hr hc; rewrite mulSn => hs.
have hd : d <= size s by apply: leq_trans hs; exact: leq_addr.
case: r hr => [|r] hr; first by rewrite /= nth_take.
by rewrite /= IH // ?nth_drop ?mulSn ?addnA // size_drop leq_subRL.
Qed.

Lemma size_flat_blocks (f : nat -> seq T) m k d : (forall a, size (f a) = m) ->
  size (flatten [seq f a | a <- iota k d]) = d * m.
Proof. by move=> h; elim: d k => //= d IH k; rewrite size_cat h IH mulSn. Qed.

Lemma nth_flat_blocks (f : nat -> seq T) m k d i : (forall a, size (f a) = m) -> i < d * m ->
  nth x0 (flatten [seq f a | a <- iota k d]) i = nth x0 (f (k + i %/ m)) (i %% m).
Proof.
move=> h; elim: d k i => [|d IH] k i; first by rewrite mul0n.
move=> hi; rewrite /= nth_cat h; case: ltnP => him; first by rewrite divn_small // modn_small // addn0.
have m0 : 0 < m by case: (m) hi him => //; rewrite muln0.
rewrite IH; last by rewrite ltn_subLR // -mulSn.
rewrite -{3 4}(subnK him) divnDr ?dvdnn // divnn m0 addn1 -addSnnS; congr (nth _ _ _).
by rewrite modnDr.
Qed.

Variables (x : seq (seq T)) (d n : nat).
Hypothesis sx : size x = d.

Let N := n ^ d.
Let swapped a := if d == 1 then a else if a == 0 then 1 else if a == 1 then 0 else a.

Lemma cart2_entry r c : r < N -> c < d ->
  let i := r * d + c in
  nth x0 (nth [::] (nd_cartesian_prod_2 x0 x n) r) c =
  nth x0 (nth [::] x (i %/ N))
    (nth 0 (nth [::] (nd_cartesian_prod_indices d n) (i %% N)) (swapped (i %/ N))).
Proof.
move=> hr hc i; rewrite /nd_cartesian_prod_2 sx.
have sg : size (nd_cartesian_prod_indices d n) = N by rewrite size_cartesian.
have hi : i < d * N.
  rewrite mulnC; apply: (@leq_trans (r.+1 * d)); first by rewrite mulSn /i [d + _]addnC ltn_add2l.
  by rewrite leq_mul2r hr orbT.
set f := fun a => [seq nth x0 (nth [::] x a) (nth 0 t (if d == 1 then a else xy_axis a)) | t <- nd_cartesian_prod_indices d n].
have sf a : size (f a) = N by rewrite size_map sg.
rewrite nth_rows_of ?sg //; last by rewrite (size_flat_blocks _ _ sf) mulnC.
rewrite (@nth_flat_blocks f N) // add0n /f.
have N0 : 0 < N by exact: leq_ltn_trans hr.
rewrite (nth_map [::]) ?sg ?ltn_pmod // /swapped.
by case: eqP => // _; congr (nth _ _ (nth _ _ _)); case: (i %/ N) => [|[|k]].
Qed.

Lemma size_cart2 : size (nd_cartesian_prod_2 x0 x n) = N.
Proof. by rewrite size_rows_of sx size_cartesian. Qed.

Lemma size_cart2_row r : r < N -> size (nth [::] (nd_cartesian_prod_2 x0 x n) r) = d.
Proof.
move=> hr; have sg : size (nd_cartesian_prod_indices d n) = N by rewrite size_cartesian.
rewrite /nd_cartesian_prod_2 sx size_row_of ?sg // (@size_flat_blocks _ N) 1?mulnC // => a.
by rewrite size_map sg.
Qed.
End Cart2.

Section Right.
Variables (T : Type) (x0 : T).

Lemma cart2_right (x : seq (seq T)) d n : size x = d -> 0 < d -> (forall a, a < d -> size (nth [::] x a) = n) ->
  d == 1 \/ n == 1 ->
  nd_cartesian_prod_2 x0 x n = nd_cartesian_prod x0 x (nd_cartesian_prod_indices d n).
Proof.
move=> sx d0 hn h.
have sg : size (nd_cartesian_prod_indices d n) = n ^ d by rewrite size_cartesian.
have s2 := size_cart2 x0 n sx.
apply: (@eq_from_nth _ [::]); first by rewrite s2 size_map sg.
move=> r; rewrite s2 => hr.
have sr := size_cart2_row x0 sx hr.
apply: (@eq_from_nth _ x0); first by rewrite sr (nth_map [::]) ?sg // size_map size_iota sx.
move=> c; rewrite sr => hc; rewrite (cart2_entry _ sx) // (cartesian_prodE x0 sx hn hr hc).
case: h => /eqP h.
  move: sx hn hr hc; rewrite h => sx' hn hr hc; have -> : c = 0 by case: (c) hc.
  by rewrite muln1 addn0 /= divn_small // modn_small.
rewrite h exp1n in hr *; have -> : r = 0 by case: (r) hr.
rewrite mul0n add0n divn1 modn1 /=.
have e k : nth 0 (nth [::] (nd_cartesian_prod_indices d 1) 0) k = 0.
  have : all (fun i => i < 1) (nth [::] (nd_cartesian_prod_indices d 1) 0).
    by have := mem_nth [::] (s := nd_cartesian_prod_indices d 1) (n := 0); rewrite size_cartesian exp1n mem_cartesian => /(_ isT) /andP [].
  move=> /allP ha; case: (ltnP k (size (nth [::] (nd_cartesian_prod_indices d 1) 0))) => hk; last by rewrite nth_default.
  by have := ha _ (mem_nth 0 hk); case: nth.
by rewrite !e.
Qed.
End Right.

Section Wrong.
Variables (T : eqType) (x0 : T).

Lemma cart2_wrong (x : seq (seq T)) d n : size x = d -> 1 < d -> 1 < n ->
  (forall a, a < d -> size (nth [::] x a) = n) ->
  (forall y, y \in nth [::] x 0 -> y \notin nth [::] x 1) ->
  nth [::] (nd_cartesian_prod_2 x0 x n) 0 \notin nd_cartesian_prod x0 x (nd_cartesian_prod_indices d n).
Proof.
move=> sx d1 n1 hn disj.
have nd : d <= n ^ d by apply: ltnW; apply: ltn_expl.
have N0 : 0 < n ^ d by rewrite expn_gt0 ltnW.
have sg : size (nd_cartesian_prod_indices d n) = n ^ d by rewrite size_cartesian.
apply/negP => /(nthP [::]) [r]; rewrite size_map sg => hr e.
have := congr1 (fun s => nth x0 s 1) e; rewrite (cart2_entry _ sx) //.
have h1 : 1 < n ^ d by exact: leq_trans nd.
rewrite mul0n add0n divn_small // modn_small // (gtn_eqF d1) /=.
rewrite (cartesian_prodE x0 sx hn hr d1).
have hin p a : p < n ^ d -> a < d -> nth 0 (nth [::] (nd_cartesian_prod_indices d n) p) a < n.
  move=> hp ha; have : nth [::] (nd_cartesian_prod_indices d n) p \in nd_cartesian_prod_indices d n by rewrite mem_nth // sg.
  rewrite mem_cartesian => /andP [/eqP sp /allP hp']; apply: hp'; apply: mem_nth; by rewrite sp.
move=> e1; have := disj (nth x0 (nth [::] x 0) (nth 0 (nth [::] (nd_cartesian_prod_indices d n) 1) 1)).
rewrite mem_nth; last by rewrite hn ?hin // ltnW.
move=> /(_ isT) /negP; apply; rewrite -e1 mem_nth // hn ?hin //.
Qed.
End Wrong.
