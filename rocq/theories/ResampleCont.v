(* Continuity of continuous_resampling and of the bootstrap filter that uses it. *)
From mathcomp Require Import all_ssreflect all_algebra.
From mathcomp Require Import zify ring.
From Verif Require Import Prelude ResampleModel ResampleSpec ResampleProofs ResampleConti NearSpec.
Set Implicit Arguments.
Unset Strict Implicit.
Unset Printing Implicit Defensive.
Import Order.TTheory GRing.Theory Num.Theory.
Local Open Scope ring_scope.

Section Clamped.
Variable R : rcfType.
Variable ss : seq R -> R -> nat.
Hypothesis ssP : ss_right_spec ss.
Variable eps : R.
Hypothesis eps0 : 0 <= eps.

(* linear interpolation without a search: every interval contributes its increment times the
   fraction of it that lies below z *)
Definition lininterp (xp fp : seq R) (z : R) : R :=
  fp`_0 + \sum_(0 <= i < (size xp).-1) (fp`_i.+1 - fp`_i) * clamp ((z - xp`_i) / (xp`_i.+1 - xp`_i)).

Lemma clamp0 (x : R) : x <= 0 -> clamp x = 0.
Proof.
by rewrite /clamp le_eqVlt => /orP [/eqP ->|->] //; rewrite ltxx ltNge ler01.
Qed.
Lemma clamp1 (x : R) : 1 <= x -> clamp x = 1.
Proof.
rewrite /clamp => h; rewrite ltNge (le_trans ler01 h) /=.
by case: (ltP 1 x) => // h'; apply/eqP; rewrite eq_le h h'.
Qed.
Lemma clamp_id (x : R) : 0 <= x <= 1 -> clamp x = x.
Proof. by rewrite /clamp => /andP [h1 h2]; rewrite ltNge h1 /= ltNge h2. Qed.

Section Search.
Variables xp fp : seq R.
Hypothesis hsz : size fp = size xp.
Hypothesis hfp : sorted <=%R fp.
Hypothesis gaps : forall i, (i.+1 < size xp)%N -> eps < xp`_i.+1 - xp`_i.
Local Notation n := (size xp).

Lemma xp_sorted : sorted <=%R xp.
Proof.
by apply: sorted_nth => i /gaps h; rewrite -subr_ge0; apply: ltW; exact: le_lt_trans h.
Qed.
Lemma gap0 i : (i.+1 < n)%N -> 0 < xp`_i.+1 - xp`_i.
Proof. by move=> /gaps; exact: le_lt_trans. Qed.

(* the terms below, at and above an interval *)
Lemma lin_below i z : (i.+1 < n)%N -> xp`_i.+1 <= z -> clamp ((z - xp`_i) / (xp`_i.+1 - xp`_i)) = 1.
Proof. by move=> hi hz; apply: clamp1; rewrite ler_pdivl_mulr ?gap0 // mul1r ler_add2r. Qed.
Lemma lin_above i z : (i.+1 < n)%N -> z <= xp`_i -> clamp ((z - xp`_i) / (xp`_i.+1 - xp`_i)) = 0.
Proof.
move=> hi hz; apply: clamp0; rewrite ler_pdivr_mulr ?gap0 // mul0r subr_le0 //.
Qed.
Lemma lin_in i z : (i.+1 < n)%N -> xp`_i <= z <= xp`_i.+1 ->
  clamp ((z - xp`_i) / (xp`_i.+1 - xp`_i)) = (z - xp`_i) / (xp`_i.+1 - xp`_i).
Proof.
move=> hi /andP [h1 h2]; apply: clamp_id; rewrite divr_ge0 ?subr_ge0 ?(ltW (gap0 hi)) //=; last first.
  by rewrite -subr_ge0 ltW // gap0.
by rewrite ler_pdivr_mulr ?gap0 // mul1r ler_add2r.
Qed.
Lemma fp_tele k : fp`_0 + \sum_(0 <= i < k) (fp`_i.+1 - fp`_i) = fp`_k.
Proof. by rewrite telescope_sumr // addrC subrK. Qed.

(* the value when z lies in interval k *)
Lemma lin_piece k z : (k.+1 < n)%N -> xp`_k <= z <= xp`_k.+1 ->
  lininterp xp fp z = fp`_k + (z - xp`_k) / (xp`_k.+1 - xp`_k) * (fp`_k.+1 - fp`_k).
Proof.
move=> hk /andP [h1 h2]; have hn : (k.+1 <= n.-1)%N by lia.
rewrite /lininterp (big_cat_nat _ _ _ (leq0n k.+1) hn) /= big_nat_recr //=.
rewrite (eq_big_nat _ _ (F2 := fun i => fp`_i.+1 - fp`_i)); last first.
  move=> i /andP [_ hi]; rewrite lin_below ?mulr1 //; first lia.
  by apply: le_trans h1; apply: (sorted_le_nth xp_sorted); lia.
have -> : \sum_(k.+1 <= i < n.-1) (fp`_i.+1 - fp`_i) * clamp ((z - xp`_i) / (xp`_i.+1 - xp`_i)) = 0.
  rewrite big_nat_cond big1 // => i /andP [/andP [hi hi'] _]; rewrite lin_above ?mulr0 //; first lia.
  by apply: (le_trans h2); apply: (sorted_le_nth xp_sorted); lia.
by rewrite addr0 addrA fp_tele lin_in ?h1 ?h2 // mulrC.
Qed.
Lemma lin_low z : (1 < n)%N -> z <= xp`_0 -> lininterp xp fp z = fp`_0.
Proof.
move=> n2 hz; rewrite /lininterp big_nat_cond big1 ?addr0 // => i /andP [/andP [_ hi] _].
rewrite lin_above ?mulr0 //; first lia.
by apply: (le_trans hz); apply: (sorted_le_nth xp_sorted); lia.
Qed.
Lemma lin_high z : (1 < n)%N -> xp`_n.-1 <= z -> lininterp xp fp z = fp`_n.-1.
Proof.
move=> n2 hz; rewrite /lininterp (eq_big_nat _ _ (F2 := fun i => fp`_i.+1 - fp`_i)) ?fp_tele //.
move=> i /andP [_ hi]; rewrite lin_below ?mulr1 //; first lia.
by apply: le_trans hz; apply: (sorted_le_nth xp_sorted); lia.
Qed.

Lemma interp_lin z : (0 < n)%N -> interp ss eps xp fp z = lininterp xp fp z.
Proof.
rewrite leq_eqVlt => /orP [/eqP e|n2].
  by rewrite (interp_one ss eps0) // /lininterp -e big_nil addr0.
case: (interp_piece ssP eps0 hsz xp_sorted hfp n2 z) => [[hz ->]|[hz ->]|[h1 h2 ->]].
- by rewrite lin_low // ltW.
- by rewrite lin_high // ltW.
have hr := idx_range ss n2 z; move: h1 h2 hr; set k := interp_index _ _ _; case: k => [//|k] /= h1 h2 hk.
by rewrite leNgt gaps //= (@lin_piece k) // h1 h2.
Qed.
End Search.

(* ---- the resampled value as a function of the sorted pairs (sample, weight) ---- *)
Definition mids (ws : seq R) : seq R := [seq cdf ws i + ws`_i / 2%:R | i <- iota 0 (size ws)].
Definition resampled (ps : seq (R * R)) (z : R) : R := lininterp (mids (unzip2 ps)) (unzip1 ps) z.
Definition sortpairs (s w : seq R) (p : seq nat) : seq (R * R) := [seq (s`_i, w`_i) | i <- p].

Lemma size_mids (ws : seq R) : size (mids ws) = size ws.
Proof. by rewrite size_map size_iota. Qed.
Lemma nth_mids (ws : seq R) i : (i < size ws)%N -> (mids ws)`_i = cdf ws i + ws`_i / 2%:R.
Proof. by move=> hi; rewrite (nth_map 0%N) ?size_iota // nth_iota. Qed.
Lemma mids_gap (ws : seq R) i : (i.+1 < size ws)%N -> (mids ws)`_i.+1 - (mids ws)`_i = (ws`_i + ws`_i.+1) / 2%:R.
Proof.
move=> hi; rewrite !nth_mids ?(ltnW hi) //.
rewrite cdfS ?(ltnW hi) //; move: (cdf _ _) (ws`_i) (ws`_i.+1) => *; by field.
Qed.

Lemma conti_resampled (samples weights : seq R) m us i : size weights = size samples -> (0 < size samples)%N ->
  all (fun w => eps < w) weights -> (i < m)%N ->
  (continuous_resampling ss eps samples weights m us)`_i
  = resampled (sortpairs samples weights (argsort samples)) ((us`_i + i%:R) / m%:R).
Proof.
move=> hw n0 hp hi; rewrite nth_conti // /resampled /sortpairs /unzip1 /unzip2 -!map_comp.
have wp : all (fun x => 0 <= x) weights by apply: sub_all hp => x h; apply: ltW; exact: le_lt_trans h.
have ssz := size_cs samples weights.
have e : take (size (cumsum (avg_n_nplusone [seq weights`_i | i <- argsort samples]))).-1
    (cumsum (avg_n_nplusone [seq weights`_i | i <- argsort samples])) = mids [seq weights`_i | i <- argsort samples].
  apply: (@eq_from_nth _ 0); first by rewrite ssz size_mids size_map size_argsort.
  move=> j; rewrite ssz => hj; by rewrite nth_cs // nth_mids // size_map size_argsort.
have sm : size (mids [seq weights`_i | i <- argsort samples]) = size samples by rewrite size_mids size_map size_argsort.
rewrite e interp_lin ?sm //; first by rewrite size_map size_argsort.
- exact: sorted_samples.
move=> j hj; rewrite mids_gap ?size_map ?size_argsort // !(nth_map 0%N) ?size_argsort ?(ltnW hj) //.
have hg k : (k < size samples)%N -> eps < weights`_(nth 0%N (argsort samples) k).
  by move=> hk; apply: (all_nthP 0 hp); rewrite hw argsort_ltn.
rewrite ltr_pdivl_mulr ?ltr0n // mulr_natr mulr2n; apply: ltr_add; apply: hg => //; exact: ltnW.
Qed.

(* two orders that sort the samples give the same pairs when equal samples have equal weights *)
Lemma sortpairs_eq (s w : seq R) (p q : seq nat) : perm_eq p q ->
  sorted <=%R [seq s`_i | i <- p] -> sorted <=%R [seq s`_i | i <- q] ->
  (forall i j, i \in p -> j \in p -> s`_i = s`_j -> w`_i = w`_j) ->
  sortpairs s w p = sortpairs s w q.
Proof.
move=> hpq hp hq ties; pose le2 (a b : R * R) := (a.1 < b.1) || (a == b).
have srt r : perm_eq r p -> sorted <=%R [seq s`_i | i <- r] -> sorted le2 (sortpairs s w r).
  move=> hr; rewrite /sortpairs !sorted_map => h.
  apply: (@sub_in_sorted _ (mem r) _ _ _ r _ h); last by apply/allP.
  move=> i j hi hj; rewrite /relpre /le2 /= => hle; move: hle; rewrite le_eqVlt => /orP [/eqP e|->] //.
  by rewrite e (ties i j) ?eqxx ?orbT // -(perm_mem hr).
apply: (@sorted_eq _ le2).
- move=> b a c /orP [h1|/eqP -> //] /orP [h2|/eqP <-]; rewrite /le2 ?h1 //.
  by rewrite (lt_trans h1 h2).
- move=> a b /andP [/orP [h1|/eqP //] /orP [h2|/eqP -> //]].
  by have := lt_trans h1 h2; rewrite ltxx.
- exact: srt.
- by apply: srt => //; rewrite perm_sym.
exact: perm_map.
Qed.

Section Family.
Variables (T : Type) (t0 : T) (near : (T -> Prop) -> Prop).
Hypothesis nP : nearness t0 near.
Local Notation tends := (tends t0 near).

Lemma cdfE (ws : seq R) i : (i <= size ws)%N -> cdf ws i = \sum_(0 <= k < i) ws`_k.
Proof.
move=> hi; rewrite /cdf (big_nth 0) size_takel //; apply: eq_big_nat => k /andP [_ hk].
by rewrite nth_take.
Qed.

Section Pairs.
Variables (s w : T -> seq R) (n : nat).
Hypotheses (sn : forall t, size (s t) = n) (wn : forall t, size (w t) = n).
Hypotheses (st : forall i, (i < n)%N -> tends (fun t => (s t)`_i)).
Hypotheses (wt : forall i, (i < n)%N -> tends (fun t => (w t)`_i)).
Hypothesis wp : forall i, (i < n)%N -> eps < (w t0)`_i.

Lemma out_tends (v : T -> seq R) : (forall t, size (v t) = n) -> (forall i, (i < n)%N -> tends (fun t => (v t)`_i)) ->
  forall i, tends (fun t => (v t)`_i).
Proof.
move=> vn vt i; case: (ltnP i n) => hi; first exact: vt.
by apply: (tends_ext nP) (tends_const nP 0); apply: (near_all nP) => t; rewrite nth_default // vn.
Qed.

(* in a fixed order the resampled value tends to its value at t0 *)
Lemma resampled_tends (p : seq nat) z : (0 < size p)%N -> all (fun i => i < n)%N p ->
  tends (fun t => resampled (sortpairs (s t) (w t) p) z).
Proof.
move=> p0 hp; have st' := out_tends sn st; have wt' := out_tends wn wt.
pose c t i := \sum_(0 <= k < i) (w t)`_(nth 0%N p k) + (w t)`_(nth 0%N p i) / 2%:R.
have ct i : tends (fun t => c t i).
  apply: (tends_add nP); first exact: (tends_sum nP).
  by apply: (tends_mul nP); [exact: wt'|exact: (tends_const nP)].
have g t i : (i.+1 < size p)%N -> c t i.+1 - c t i = ((w t)`_(nth 0%N p i) + (w t)`_(nth 0%N p i.+1)) / 2%:R.
  move=> hi; rewrite /c big_nat_recr //=; move: (\sum_(_ <= _ < _) _) ((w t)`_(nth 0%N p i)) ((w t)`_(nth 0%N p i.+1)) => *.
  by field.
apply: (tends_ext nP (f := fun t => (s t)`_(nth 0%N p 0) + \sum_(i <- index_iota 0 (size p).-1)
  ((s t)`_(nth 0%N p i.+1) - (s t)`_(nth 0%N p i)) * (if (i.+1 < size p)%N then clamp ((z - c t i) / (c t i.+1 - c t i)) else 0))).
  apply: (near_all nP) => t; rewrite /resampled /lininterp /sortpairs /unzip1 /unzip2 -!map_comp size_mids size_map.
  rewrite (nth_map 0%N) //=; congr (_ + _); apply: eq_big_nat => i /andP [_ hi].
  have hi1 : (i.+1 < size p)%N by lia.
  have em k : (k < size p)%N -> (mids [seq (snd \o (fun i0 : nat => ((s t)`_i0, (w t)`_i0))) i | i <- p])`_k = c t k.
    move=> hk; rewrite nth_mids ?size_map // cdfE ?size_map ?(ltnW hk) // (nth_map 0%N) //=; congr (_ + _).
    by apply: eq_big_nat => l /andP [_ hl]; rewrite (nth_map 0%N) //; exact: ltn_trans hk.
  by have hi0 := ltnW hi1; rewrite hi1 !em // !(nth_map 0%N).
apply: (tends_add nP); first exact: st'.
apply: (tends_sum nP) => i; apply: (tends_mul nP); first by apply: (tends_sub nP); exact: st'.
case hi: (i.+1 < size p)%N; last exact: (tends_const nP).
apply: (tends_clamp nP); apply: (tends_div nP).
- by apply: (tends_sub nP); [exact: (tends_const nP)|exact: ct].
- by apply: (tends_sub nP); exact: ct.
rewrite g // gt_eqF // divr_gt0 ?ltr0n // addr_gt0 //; apply: (le_lt_trans eps0); apply: wp; apply: (all_nthP 0%N hp) => //.
exact: ltnW.
Qed.

(* equal samples have equal weights at t0 *)
Hypothesis ties : forall i j, (i < n)%N -> (j < n)%N -> (s t0)`_i = (s t0)`_j -> (w t0)`_i = (w t0)`_j.
Hypothesis n0 : (0 < n)%N.

Lemma conti_tends m us i : (i < m)%N ->
  tends (fun t => (continuous_resampling ss eps (s t) (w t) m us)`_i).
Proof.
move=> hi e e0; set z := (us`_i + i%:R) / m%:R.
have perms p : perm_eq p (iota 0 n) -> (0 < size p)%N /\ all (fun i => i < n)%N p.
  move=> h; rewrite (perm_size h) size_iota; split=> //; apply/allP => j.
  by rewrite (perm_mem h) mem_iota add0n.
have A : near (fun t => forall p, p \in permutations (iota 0 n) ->
    `|resampled (sortpairs (s t) (w t) p) z - resampled (sortpairs (s t0) (w t0) p) z| < e).
  apply: (near_seq nP) => p; rewrite mem_permutations => /perms [h1 h2]; exact: resampled_tends.
have B : near (fun t => forall j, j \in iota 0 n -> forall k, k \in iota 0 n -> (s t0)`_j < (s t0)`_k -> (s t)`_j < (s t)`_k).
  apply: (near_seq nP) => j; rewrite mem_iota add0n => /andP [_ hj].
  apply: (near_seq nP) => k; rewrite mem_iota add0n => /andP [_ hk].
  case: (ltP (s t0)`_j (s t0)`_k) => h; last by apply: (near_all nP).
  by apply: (near_sub nP) (tends_lt2 nP (st hj) (st hk) h).
have C : near (fun t => forall j, j \in iota 0 n -> eps < (w t)`_j).
  apply: (near_seq nP) => j; rewrite mem_iota add0n => /andP [_ hj].
  exact: (tends_gt nP (wt hj) (wp hj)).
apply: (near_sub nP) (near_and nP A (near_and nP B C)) => t [hA [hB hC]].
have sz u : size (w u) = size (s u) by rewrite sn wn.
have big u : (forall j, j \in iota 0 n -> eps < (w u)`_j) -> all (fun x => eps < x) (w u).
  by move=> h; apply/(all_nthP 0) => j; rewrite wn => hj; apply: h; rewrite mem_iota.
rewrite !conti_resampled ?sn //; [|exact: big (near_pt nP C)|exact: big].
have per u : perm_eq (argsort (s u)) (iota 0 n) by rewrite -(sn u) argsort_perm.
rewrite (@sortpairs_eq (s t0) (w t0) (argsort (s t0)) (argsort (s t))).
- by apply: hA; rewrite mem_permutations.
- by apply: (perm_trans (per t0)); rewrite perm_sym.
- exact: sorted_samples.
- have := sorted_samples (s t); rewrite !sorted_map => h.
  apply: (@sub_in_sorted _ (mem (iota 0 n)) _ _ _ _ _ h); last by apply/allP => j; rewrite (perm_mem (per t)).
  move=> j k hj hk /=; rewrite /relpre /=; case: (leP (s t0)`_j (s t0)`_k) => // /(hB k hk j hj).
  by rewrite ltNge => /negbTE ->.
by move=> j k; rewrite !(perm_mem (per t0)) !mem_iota !add0n => /andP [_ hj] /andP [_ hk]; exact: ties.
Qed.
End Pairs.
End Family.
End Clamped.
