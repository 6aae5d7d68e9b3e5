(* Proofs about resampling. *)
From mathcomp Require Import all_ssreflect all_algebra.
From mathcomp Require Import zify ring.
From Verif Require Import Prelude ResampleModel ResampleSpec.
Set Implicit Arguments.
Unset Strict Implicit.
Unset Printing Implicit Defensive.
Import Order.TTheory GRing.Theory Num.Theory.
Local Open Scope ring_scope.

Section Cumsum.
Variable R : rcfType.
Implicit Types (w vs : seq R).

Lemma size_cumsum_from (a : R) w : size (cumsum_from a w) = size w.
Proof. by elim: w a => //= x w IH a; rewrite IH. Qed.
Lemma size_cumsum w : size (cumsum w) = size w.
Proof. exact: size_cumsum_from. Qed.

Lemma nth_cumsum_from (a : R) w i : (i < size w)%N -> nth 0 (cumsum_from a w) i = a + cdf w i.+1.
Proof.
elim: w a i => [|x w IH] a [|i] //=; first by rewrite /cdf /= take0 big_seq1.
by rewrite ltnS => h; rewrite IH // /cdf /= big_cons addrA.
Qed.
Lemma nth_cumsum w i : (i < size w)%N -> nth 0 (cumsum w) i = cdf w i.+1.
Proof. by move=> h; rewrite nth_cumsum_from // add0r. Qed.

Lemma cdf0 w : cdf w 0 = 0.
Proof. by rewrite /cdf take0 big_nil. Qed.
Lemma cdfS w i : (i < size w)%N -> cdf w i.+1 = cdf w i + nth 0 w i.
Proof. by move=> h; rewrite /cdf (take_nth 0) // -cats1 big_cat big_seq1. Qed.
Lemma cdf_size w i : (size w <= i)%N -> cdf w i = \sum_(x <- w) x.
Proof. by move=> h; rewrite /cdf take_oversize. Qed.

Lemma cdf_le w i j : all (fun x => 0 <= x) w -> (i <= j)%N -> cdf w i <= cdf w j.
Proof.
move=> h; elim: j => [|j IH]; first by rewrite leqn0 => /eqP ->.
rewrite leq_eqVlt => /orP [/eqP -> //|]; rewrite ltnS => /IH hij; apply: (le_trans hij).
case: (ltnP j (size w)) => hj; last by rewrite !cdf_size // ltnW.
by rewrite cdfS // ler_addl; apply: (all_nthP 0 h).
Qed.

Lemma sorted_nth (s : seq R) : (forall i, (i.+1 < size s)%N -> nth 0 s i <= nth 0 s i.+1) -> sorted <=%R s.
Proof.
case: s => [//|x s] h; apply/(pathP 0) => i hi; exact: (h i hi).
Qed.

Lemma sorted_nth_lt (s : seq R) : (forall i, (i.+1 < size s)%N -> nth 0 s i < nth 0 s i.+1) -> sorted <%R s.
Proof.
case: s => [//|x s] h; apply/(pathP 0) => i hi; exact: (h i hi).
Qed.

Lemma cumsum_sorted w : all (fun x => 0 <= x) w -> sorted <=%R (cumsum w).
Proof.
move=> h; apply: sorted_nth => i; rewrite size_cumsum => hi.
by rewrite !nth_cumsum ?cdf_le // ltnW.
Qed.

Lemma inverse_cdf_le w v v' j j' : all (fun x => 0 <= x) w ->
  inverse_cdf w v j -> inverse_cdf w v' j' -> v <= v' -> (j <= j')%N.
Proof.
move=> h [h1 h2 h3] [h1' h2' h3'] hv; rewrite leqNgt; apply/negP => hj.
have := lt_le_trans h2 hv; rewrite ltNge => /negP; apply; apply: (le_trans h3').
exact: cdf_le.
Qed.

Lemma inverse_cdf_unique w v j j' : all (fun x => 0 <= x) w ->
  inverse_cdf w v j -> inverse_cdf w v j' -> j = j'.
Proof.
move=> h h1 h2; apply/eqP; rewrite eqn_leq.
by rewrite (inverse_cdf_le h h1 h2) // (inverse_cdf_le h h2 h1).
Qed.

Lemma inverse_cdf_pos w v j : inverse_cdf w v j -> 0 < nth 0 w j.
Proof. by case=> h1 h2 h3; have := lt_le_trans h2 h3; rewrite cdfS // ltr_addl. Qed.
End Cumsum.

Section Search.
Variable R : rcfType.
Variable ss : seq R -> R -> nat.
Hypothesis ssP : ss_left_spec ss.
Variable w : seq R.
Hypothesis hw : weight_vector w.
Let wpos : all (fun x => 0 <= x) w. Proof. by case: hw. Qed.
Let wsum : \sum_(x <- w) x = 1. Proof. by case: hw. Qed.

Lemma w_size : (0 < size w)%N.
Proof. by case: (w) wsum => //; rewrite big_nil => /eqP; rewrite eq_sym oner_eq0. Qed.

Lemma search_inverse v : 0 < v -> v <= 1 -> inverse_cdf w v (clip_index (size w) (ss (cumsum w) v)).
Proof.
move=> v0 v1; have [h1 h2 h3] := ssP v (cumsum_sorted wpos).
have hs := w_size; set i := ss _ _ in h1 h2 h3 *; rewrite size_cumsum in h1 h3.
have hi : (i < size w)%N.
  rewrite ltn_neqAle h1 andbT; apply/eqP => e.
  have := h2 (size w).-1; rewrite e prednK // leqnn => /(_ isT).
  by rewrite nth_cumsum ?prednK // cdf_size // wsum ltNge v1.
have ec : clip_index (size w) i = i by rewrite /clip_index; lia.
rewrite ec; split=> //; last by rewrite -nth_cumsum // h3 // leqnn.
case: (i) hi h2 => [|j] hj h2; first by rewrite cdf0.
by rewrite -nth_cumsum ?h2 // ltnW.
Qed.

Variable vs : seq R.
Hypothesis hvs : all (fun v => (0 < v) && (v <= 1)) vs.
Local Notation idx := (search_indices ss w vs).

Lemma size_search : size idx = size vs.
Proof. by rewrite size_map. Qed.

Lemma nth_search i : (i < size vs)%N -> inverse_cdf w (nth 0 vs i) (nth 0%N idx i).
Proof.
move=> h; rewrite (nth_map 0) //; have /andP [h1 h2] := all_nthP 0 hvs i h.
exact: search_inverse.
Qed.

Lemma search_sorted : sorted <=%R vs -> sorted leq idx.
Proof.
move=> hs; case e : idx => [//|x s]; rewrite -e.
suff h : forall i, (i.+1 < size idx)%N -> (nth 0 idx i <= nth 0 idx i.+1)%N.
  by rewrite e in h *; apply/(pathP 0%N) => i hi; exact: (h i hi).
move=> i; rewrite size_search => hi; have hi' := ltnW hi.
apply: (inverse_cdf_le wpos (nth_search hi') (nth_search hi)).
case: (vs) hs hi => [//|a t] hs hi; exact: (pathP 0 hs i hi).
Qed.

Lemma search_count j : (j < size w)%N ->
  count_mem j idx = count (fun v => (cdf w j < v) && (v <= cdf w j.+1)) vs.
Proof.
move=> hj; rewrite count_map; apply: eq_in_count => v hv /=.
have /andP [v0 v1] := allP hvs v hv; have h := search_inverse v0 v1.
apply/eqP/andP => [e|[h1 h2]]; first by rewrite -e; case: h.
by apply: (inverse_cdf_unique wpos h).
Qed.

Lemma search_count_diff j : (j < size w)%N ->
  (count_mem j idx + count (fun v => (v <= cdf w j)%R) vs = count (fun v => (v <= cdf w j.+1)%R) vs)%N.
Proof.
move=> hj; rewrite search_count //; have hle := cdf_le wpos (leqnSn j).
elim: (vs) => //= v s IH; rewrite -IH.
rewrite addnACA; congr (_ + _)%N.
case: (leP v (cdf w j)) => h /=; last by rewrite addn0.
by rewrite (le_trans h hle).
Qed.
End Search.

(* Counting thresholds. *)
Section Count.
Variables (p : nat -> bool).
Hypothesis hp : forall i, p i.+1 -> p i.

Lemma count_prefix n : let c := count p (iota 0 n) in
  (c <= n)%N /\ forall i, (i < n)%N -> p i = (i < c)%N.
Proof.
have dn i j : (i <= j)%N -> p j -> p i.
  elim: j => [|j IH]; first by rewrite leqn0 => /eqP ->.
  by rewrite leq_eqVlt => /orP [/eqP -> //|]; rewrite ltnS => h /hp; exact: IH.
move=> c; split; first by rewrite -[X in (_ <= X)%N](size_iota 0) count_size.
rewrite {}/c; elim: n => [//|n IH] i; rewrite (_ : iota 0 n.+1 = iota 0 n ++ [:: n]); last by rewrite -addn1 iotaD.
rewrite count_cat /= addn0.
set c := count _ _ in IH *; have hc : (c <= n)%N by rewrite -[X in (_ <= X)%N](size_iota 0) count_size.
rewrite ltnS leq_eqVlt => /orP [/eqP -> |hi].
  case e: (p n) => /=; last by rewrite addn0 ltnNge hc.
  suff -> : c = n by rewrite addn1 ltnS leqnn.
  rewrite /c (eq_in_count (a2 := predT)) ?count_predT ?size_iota // => k.
  by rewrite mem_iota add0n => /andP [_ hk]; rewrite (dn k n (ltnW hk) e).
rewrite IH //; case e: (p n); rewrite ?addn0 //.
suff -> : c = n by rewrite hi addn1 ltnS ltnW.
rewrite /c (eq_in_count (a2 := predT)) ?count_predT ?size_iota // => k.
by rewrite mem_iota add0n => /andP [_ hk]; rewrite (dn k n (ltnW hk) e).
Qed.
End Count.

Section Grid.
Variable R : rcfType.
Variables (n : nat) (g : nat -> R).
Hypothesis n0 : (0 < n)%N.
Hypothesis hg : forall i, 0 < g i < 1.
Definition grid_points : seq R := [seq (i%:R + g i) / n%:R | i <- iota 0 n].
Local Notation vs := grid_points.

Let nR0 : (0 : R) < n%:R. Proof. by rewrite ltr0n. Qed.

Lemma grid_step i j : (i < j)%N -> i%:R + g i < j%:R + g j.
Proof.
move=> hij; have /andP [_ h1] := hg i; have /andP [h0 _] := hg j.
apply: (lt_trans (y := i%:R + 1)); first by rewrite ltr_add2l.
by rewrite -mulrSr; apply: (le_lt_trans (y := j%:R)); rewrite ?ler_nat ?ltr_addl.
Qed.

Lemma grid_in : all (fun v => (0 < v) && (v <= 1)) vs.
Proof.
apply/allP => v /mapP [i]; rewrite mem_iota add0n => /andP [_ hi] ->.
have /andP [h0 h1] := hg i; rewrite divr_gt0 ?ltr_paddl ?ler0n //= ler_pdivr_mulr // mul1r.
by apply: (le_trans (y := i%:R + 1)); rewrite ?ler_add2l ?(ltW h1) // -mulrSr ler_nat.
Qed.

Lemma grid_sorted : sorted <%R vs.
Proof.
rewrite /vs sorted_map; case: (n) => [//|m]; apply/(pathP 0%N) => i; rewrite size_iota => hi /=.
rewrite -/(iota 0 m.+1) !nth_iota //; last by rewrite ltnW.
by rewrite ltr_pmul2r ?invr_gt0 ?ltr0n //; apply: grid_step; rewrite !add0n.
Qed.

Lemma size_grid : size vs = n. Proof. by rewrite size_map size_iota. Qed.

Lemma grid_count (t : R) : 0 <= t -> t <= 1 ->
  let c := count (fun v => v <= t) vs in
  [/\ c = 0%N \/ c.-1%:R + g c.-1 <= n%:R * t, c = n \/ n%:R * t < c%:R + g c & (c <= n)%N].
Proof.
move=> t0 t1; rewrite /vs count_map.
pose p i := i%:R + g i <= n%:R * t.
rewrite (eq_count (a2 := p)) => [|i]; last by rewrite /= /p ler_pdivr_mulr // mulrC.
have hp i : p i.+1 -> p i by move=> h; apply: le_trans h; apply/ltW/grid_step.
have [h1 h2] := count_prefix hp n; move: (count _ _) h1 h2 => c h1 h2; split=> //.
  case e: c => [|k]; first by left.
  by right; have := h2 k; rewrite e ltnSn /p /= => -> //; rewrite -e.
move: h1; rewrite leq_eqVlt => /orP [/eqP|hc]; first by left.
by right; rewrite ltNge; apply/negP => h; have := h2 c hc; rewrite ltnn /p h.
Qed.
End Grid.

Section Arith.
Variable R : rcfType.
Implicit Types x y a b u : R.

Lemma diff_lt1 x y a b u : x - u < a -> a <= x - u + 1 -> y - u < b -> b <= y - u + 1 ->
  `|b - a - (y - x)| < 1.
Proof.
move=> l1 l2 l3 l4; rewrite ltr_norml -subr_gt0 -[X in _ && X]subr_gt0; apply/andP; split.
  have := ltr_le_add l3 l2; rewrite -subr_gt0.
  set z := (X in 0 < X -> _); have -> : z = b - a - (y - x) - -1 by rewrite /z; ring.
  by [].
have := ltr_le_add l1 l4; rewrite -subr_gt0.
set z := (X in 0 < X -> _); have -> : z = 1 - (b - a - (y - x)) by rewrite /z; ring.
  by [].
Qed.

Lemma diff_lt2 x y a b : x - 1 < a -> a < x + 1 -> y - 1 < b -> b < y + 1 ->
  `|b - a - (y - x)| < 2%:R.
Proof.
move=> l1 l2 l3 l4; rewrite ltr_norml -subr_gt0 -[X in _ && X]subr_gt0; apply/andP; split.
  have := ltr_add l3 l2; rewrite -subr_gt0.
  set z := (X in 0 < X -> _); have -> : z = b - a - (y - x) - -2%:R by rewrite /z; ring.
  by [].
have := ltr_add l1 l4; rewrite -subr_gt0.
set z := (X in 0 < X -> _); have -> : z = 2%:R - (b - a - (y - x)) by rewrite /z; ring.
  by [].
Qed.
End Arith.

Section GridResample.
Variable R : rcfType.
Variable ss : seq R -> R -> nat.
Hypothesis ssP : ss_left_spec ss.
Variable w : seq R.
Hypothesis hw : weight_vector w.
Local Notation n := (size w).
Variable g : nat -> R.
Hypothesis hg : forall i, 0 < g i < 1.
Local Notation idx := (search_indices ss w (grid_points n g)).
Let n0 : (0 < n)%N. Proof. exact: w_size hw. Qed.

Lemma cdf_in j : 0 <= cdf w j <= 1.
Proof.
case: (hw) => h1 h2; apply/andP; split; first by rewrite -(cdf0 w) cdf_le.
rewrite -[X in _ <= X]h2 -(cdf_size (leqnn (size w))).
by case: (leqP j (size w)) => hj; [rewrite cdf_le|rewrite !cdf_size // ltnW].
Qed.

Lemma grid_count_index j : (j < n)%N ->
  exists c c' : nat, [/\ (count_mem j idx + c = c')%N,
    c = 0%N \/ c.-1%:R + g c.-1 <= n%:R * cdf w j, c = n \/ n%:R * cdf w j < c%:R + g c,
    c' = 0%N \/ c'.-1%:R + g c'.-1 <= n%:R * cdf w j.+1 &
    c' = n \/ n%:R * cdf w j.+1 < c'%:R + g c'].
Proof.
move=> hj; have /andP [a0 a1] := cdf_in j; have /andP [b0 b1] := cdf_in j.+1.
have [h1 h2 _] := grid_count n0 hg a0 a1; have [h3 h4 _] := grid_count n0 hg b0 b1.
eexists; eexists; split; [|exact: h1|exact: h2|exact: h3|exact: h4].
exact: (search_count_diff ssP hw (grid_in n0 hg) hj).
Qed.

(* count differs from n w_j by less than 1 for equal offsets, by less than 2 in general *)
Lemma grid_count_equal u j : (forall i, g i = u) -> (j < n)%N ->
  `|(count_mem j idx)%:R - n%:R * nth 0 w j| < 1.
Proof.
move=> hu hj; have [c [c' [e h1 h2 h3 h4]]] := grid_count_index hj.
have /andP [u0 u1] := hg 0; rewrite hu in u0 u1.
have /andP [a0 a1] := cdf_in j; have /andP [b0 b1] := cdf_in j.+1.
have -> : (count_mem j idx)%:R = c'%:R - c%:R :> R by rewrite -e natrD addrK.
have -> : n%:R * nth 0 w j = n%:R * cdf w j.+1 - n%:R * cdf w j.
  by rewrite cdfS // mulrDr addrC addKr.
have nR : (0 : R) <= n%:R by rewrite ler0n.
have l1 : n%:R * cdf w j - u < c%:R.
  case: h2 => [->|]; last by rewrite hu ltr_subl_addr.
  rewrite ltr_subl_addr; apply: (le_lt_trans (y := n%:R)); last by rewrite ltr_addl.
  by rewrite -[X in _ <= X]mulr1 ler_wpmul2l.
have l2 : c%:R <= n%:R * cdf w j - u + 1.
  case: h1 => [->|]; first by rewrite -addrA addr_ge0 ?mulr_ge0 // addrC subr_ge0 ltW.
  case: (c) => [|k] /=; rewrite hu.
    by move=> _; rewrite -addrA addr_ge0 ?mulr_ge0 // addrC subr_ge0 ltW.
  by rewrite mulrSr ler_add2r ler_subr_addr.
have l3 : n%:R * cdf w j.+1 - u < c'%:R.
  case: h4 => [->|]; last by rewrite hu ltr_subl_addr.
  rewrite ltr_subl_addr; apply: (le_lt_trans (y := n%:R)); last by rewrite ltr_addl.
  by rewrite -[X in _ <= X]mulr1 ler_wpmul2l.
have l4 : c'%:R <= n%:R * cdf w j.+1 - u + 1.
  case: h3 => [->|]; first by rewrite -addrA addr_ge0 ?mulr_ge0 // addrC subr_ge0 ltW.
  case: (c') => [|k] /=; rewrite hu.
    by move=> _; rewrite -addrA addr_ge0 ?mulr_ge0 // addrC subr_ge0 ltW.
  by rewrite mulrSr ler_add2r ler_subr_addr.
move: l1 l2 l3 l4; move: (n%:R * _) (n%:R * _) (c%:R) (c'%:R) => x y a b l1 l2 l3 l4.
exact: (diff_lt1 l1 l2 l3 l4).
Qed.

Lemma grid_count_any j : (j < n)%N -> `|(count_mem j idx)%:R - n%:R * nth 0 w j| < 2%:R.
Proof.
move=> hj; have [c [c' [e h1 h2 h3 h4]]] := grid_count_index hj.
have /andP [a0 a1] := cdf_in j; have /andP [b0 b1] := cdf_in j.+1.
have -> : (count_mem j idx)%:R = c'%:R - c%:R :> R by rewrite -e natrD addrK.
have -> : n%:R * nth 0 w j = n%:R * cdf w j.+1 - n%:R * cdf w j.
  by rewrite cdfS // mulrDr addrC addKr.
have nR : (0 : R) <= n%:R by rewrite ler0n.
have low (k : nat) (t : R) : t <= 1 -> k = n \/ n%:R * t < k%:R + g k -> n%:R * t - 1 < k%:R.
  move=> t1 [->|h]; rewrite ltr_subl_addr.
    apply: (le_lt_trans (y := n%:R)); last by rewrite ltr_addl ltr01.
    by rewrite -[X in _ <= X]mulr1 ler_wpmul2l.
  by apply: (lt_trans h); rewrite ltr_add2l; case/andP: (hg k).
have upp (k : nat) (t : R) : 0 <= t -> k = 0%N \/ k.-1%:R + g k.-1 <= n%:R * t -> k%:R < n%:R * t + 1.
  move=> t0 h; have p : 0 < n%:R * t + 1 by apply: ltr_paddl; rewrite ?ltr01 ?mulr_ge0.
  case: h => [->|] //; case: k => [|k] //= h.
  by rewrite mulrSr ltr_add2r; apply: lt_le_trans h; rewrite ltr_addl; case/andP: (hg k).
exact: (diff_lt2 (low _ _ a1 h2) (upp _ _ a0 h1) (low _ _ b1 h4) (upp _ _ b0 h3)).
Qed.
End GridResample.

Section Systematic.
Variable R : rcfType.
Variable ss : seq R -> R -> nat.
Hypothesis ssP : ss_left_spec ss.
Variable w : seq R.
Hypothesis hw : weight_vector w.
Local Notation n := (size w).

Lemma lt_sorted_le (s : seq R) : sorted <%R s -> sorted <=%R s.
Proof. by apply: sub_sorted => x y /ltW. Qed.

(* what the grid resamplers share *)
Lemma grid_valid (g : nat -> R) : (forall i, 0 < g i < 1) ->
  let idx := search_indices ss w (grid_points n g) in
  [/\ size idx = n, sorted leq idx,
      forall i, (i < n)%N -> inverse_cdf w ((i%:R + g i) / n%:R) (nth 0%N idx i)
    & forall j, j \in idx -> (j < n)%N /\ 0 < nth 0 w j].
Proof.
move=> hg idx; have n0 := w_size hw; have hin := grid_in n0 hg.
have hsz : size idx = n by rewrite size_search size_grid.
have hinv i : (i < n)%N -> inverse_cdf w ((i%:R + g i) / n%:R) (nth 0%N idx i).
  move=> hi; have := nth_search ssP hw hin (i := i); rewrite size_grid => /(_ hi).
  by rewrite (nth_map 0%N) ?size_iota // nth_iota.
split=> //; first by apply: search_sorted => //; apply/lt_sorted_le/grid_sorted.
move=> j /(nthP 0%N) [i]; rewrite hsz => hi <-; have h := hinv i hi.
by split; [case: h|apply: inverse_cdf_pos h].
Qed.

Lemma systematic_valid u : 0 < u < 1 ->
  [/\ size (systematic ss w u) = n, sorted leq (systematic ss w u),
      forall i, (i < n)%N -> inverse_cdf w ((i%:R + u) / n%:R) (nth 0%N (systematic ss w u) i),
      forall j, j \in systematic ss w u -> (j < n)%N /\ 0 < nth 0 w j
    & forall j, (j < n)%N -> `|(count_mem j (systematic ss w u))%:R - n%:R * nth 0 w j| < 1].
Proof.
move=> hu; have hg (i : nat) : 0 < (fun _ : nat => u) i < 1 by [].
have [h1 h2 h3 h4] := grid_valid hg; split=> // j hj.
exact: (grid_count_equal ssP hw hg (u := u)).
Qed.

Lemma stratified_points us : size us = n -> all (fun u => 0 < u < 1) us ->
  exists2 g : nat -> R, (forall i, 0 < g i < 1) &
    stratified ss w us = search_indices ss w (grid_points n g) /\
    (forall i, (i < n)%N -> g i = nth 0 us i).
Proof.
move=> hs hu; exists (fun i => if (i < n)%N then nth 0 us i else 1 / 2%:R).
  move=> i; case: ifP => hi; first by apply: (all_nthP 0 hu); rewrite hs.
  by rewrite divr_gt0 ?ltr01 ?ltr0n //= ltr_pdivr_mulr ?ltr0n // mul1r ltr1n.
split; last by move=> i ->.
congr (search_indices ss w _); apply/eq_in_map => i.
by rewrite mem_iota add0n => /andP [_ ->].
Qed.

Lemma stratified_valid us : size us = n -> all (fun u => 0 < u < 1) us ->
  [/\ size (stratified ss w us) = n, sorted leq (stratified ss w us),
      forall i, (i < n)%N -> inverse_cdf w ((i%:R + nth 0 us i) / n%:R) (nth 0%N (stratified ss w us) i),
      forall j, j \in stratified ss w us -> (j < n)%N /\ 0 < nth 0 w j
    & forall j, (j < n)%N -> `|(count_mem j (stratified ss w us))%:R - n%:R * nth 0 w j| < 2%:R].
Proof.
move=> hs hu; have [g hg [-> e]] := stratified_points hs hu.
have [h1 h2 h3 h4] := grid_valid hg; split=> // [i hi|j hj].
  by rewrite -e //; exact: h3.
exact: (grid_count_any ssP hw hg).
Qed.

(* equal weights: every particle survives *)
Lemma cdf_nseq m (a : R) i : (i <= m)%N -> cdf (nseq m a) i = i%:R * a.
Proof.
move=> h; rewrite /cdf take_nseq // big_nseq.
by elim: (i) => [|k IH]; rewrite ?mul0r //= IH mulrSr mulrDl mul1r addrC.
Qed.

(* ---- multinomial ---- *)
Variable log : R -> R.
Hypothesis log_lt0 : forall u, 0 < u < 1 -> log u < 0.

Lemma cdf_lt (e : seq R) i j : all (fun x => 0 < x) e -> (i < j)%N -> (i < size e)%N -> cdf e i < cdf e j.
Proof.
move=> h hij hi; apply: (lt_le_trans (y := cdf e i.+1)).
  by rewrite cdfS // ltr_addl; apply: (all_nthP 0 h).
by apply: cdf_le => //; apply: sub_all h => x /ltW.
Qed.

Lemma sorted_uniforms_valid us : (1 < size us)%N -> all (fun u => 0 < u < 1) us ->
  [/\ size (sorted_uniforms log us) = (size us).-1, sorted <%R (sorted_uniforms log us)
    & all (fun v => 0 < v < 1) (sorted_uniforms log us)].
Proof.
move=> hn hu; rewrite /sorted_uniforms; set e := [seq - log u | u <- us].
have he : all (fun x => 0 < x) e.
  by apply/allP => x /mapP [u hus ->]; rewrite oppr_gt0 log_lt0 //; apply: (allP hu).
have hse : size e = size us by rewrite size_map.
have hl : last 0 (cumsum e) = cdf e (size e).
  by rewrite -nth_last size_cumsum nth_cumsum ?prednK // hse ltnW.
have htot : 0 < cdf e (size e) by rewrite -(cdf0 e) cdf_lt // hse; lia.
set s := map _ _; have hs : size s = (size us).-1.
  by rewrite size_map size_takel size_cumsum ?hse //; lia.
have hnth i : (i < (size us).-1)%N -> nth 0 s i = cdf e i.+1 / cdf e (size e).
  move=> hi; rewrite (nth_map 0) ?hl; last by rewrite size_takel size_cumsum hse //; lia.
  by rewrite nth_take ?size_cumsum ?hse // nth_cumsum // hse; lia.
split=> //.
  apply: sorted_nth_lt => i hi; rewrite hs in hi.
  rewrite !hnth // ?ltr_pmul2r ?invr_gt0 //; last by lia.
  by apply: cdf_lt => //; rewrite hse; lia.
apply/(all_nthP 0) => i; rewrite hs => hi; rewrite hnth // divr_gt0 //=; last first.
  by rewrite -(cdf0 e) cdf_lt // hse; lia.
by rewrite ltr_pdivr_mulr // mul1r cdf_lt // hse; lia.
Qed.

Lemma multinomial_valid us : size us = n.+1 -> all (fun u => 0 < u < 1) us ->
  [/\ size (multinomial log ss w us) = n, sorted leq (multinomial log ss w us),
      forall i, (i < n)%N ->
        inverse_cdf w (nth 0 (sorted_uniforms log us) i) (nth 0%N (multinomial log ss w us) i)
    & forall j, j \in multinomial log ss w us -> (j < n)%N /\ 0 < nth 0 w j].
Proof.
move=> hs hu; have n0 := w_size hw; have hs1 : (1 < size us)%N by rewrite hs.
have [h1 h2 h3] := sorted_uniforms_valid hs1 hu; rewrite hs /= in h1.
have hin : all (fun v => (0 < v) && (v <= 1)) (sorted_uniforms log us).
  by apply: sub_all h3 => v /andP [-> /ltW ->].
have hinv i : (i < n)%N -> inverse_cdf w (nth 0 (sorted_uniforms log us) i)
    (nth 0%N (multinomial log ss w us) i).
  by move=> hi; apply: (nth_search ssP hw hin); rewrite h1.
have hsz : size (multinomial log ss w us) = n by rewrite size_search h1.
split=> //; first by apply: (search_sorted ssP hw hin); apply: lt_sorted_le.
move=> j /(nthP 0%N) [i]; rewrite hsz => hi <-; have h := hinv i hi.
by split; [case: h|apply: inverse_cdf_pos h].
Qed.
End Systematic.

Section EqualWeights.
Variable R : rcfType.
Variable ss : seq R -> R -> nat.
Hypothesis ssP : ss_left_spec ss.

Lemma nseq_weight m : (0 < m)%N -> weight_vector (nseq m (m%:R^-1 : R)).
Proof.
move=> hm; split; first by apply/allP => x /nseqP [-> _]; rewrite invr_ge0 ler0n.
have := cdf_nseq (m%:R^-1 : R) (leqnn m); rewrite /cdf take_oversize ?size_nseq // => ->.
by rewrite divff // pnatr_eq0 -lt0n.
Qed.

Lemma equal_inverse m (u : R) i : (i < m)%N -> 0 < u < 1 ->
  inverse_cdf (nseq m (m%:R^-1)) ((i%:R + u) / m%:R) i.
Proof.
move=> hi /andP [u0 u1]; have m0 : 0 < (m%:R : R) by rewrite ltr0n; lia.
rewrite /inverse_cdf size_nseq (cdf_nseq _ (ltnW hi)) (cdf_nseq _ hi); split=> //.
  by rewrite ltr_pmul2r ?invr_gt0 // ltr_addl.
by rewrite ler_pmul2r ?invr_gt0 // mulrSr ler_add2l ltW.
Qed.

Lemma systematic_equal m (u : R) : (0 < m)%N -> 0 < u < 1 ->
  systematic ss (nseq m (m%:R^-1)) u = iota 0 m.
Proof.
move=> hm hu; have hw := nseq_weight hm; have [h1 _ h3 _ _] := systematic_valid ssP hw hu.
rewrite size_nseq in h1 h3.
apply: (@eq_from_nth _ 0%N); rewrite h1 ?size_iota // => i hi.
rewrite nth_iota // add0n; have := equal_inverse hi hu; have := h3 i hi.
by apply: inverse_cdf_unique; case: hw.
Qed.

Lemma stratified_equal m us : (0 < m)%N -> size us = m -> all (fun u : R => 0 < u < 1) us ->
  stratified ss (nseq m (m%:R^-1)) us = iota 0 m.
Proof.
move=> hm hs hu; have hw := nseq_weight hm.
have hs' : size us = size (nseq m (m%:R^-1 : R)) by rewrite size_nseq.
have [h1 _ h3 _ _] := stratified_valid ssP hw hs' hu.
rewrite size_nseq in h1 h3.
apply: (@eq_from_nth _ 0%N); rewrite h1 ?size_iota // => i hi.
have hui : 0 < nth 0 us i < 1 by apply: (all_nthP 0 hu); rewrite hs.
rewrite nth_iota // add0n; have := equal_inverse hi hui; have := h3 i hi.
by apply: inverse_cdf_unique; case: hw.
Qed.
End EqualWeights.
