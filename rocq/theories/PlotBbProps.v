(* Properties C135, C136: the frames and histograms of plot_benes_bernoulli_estimation.py. *)
From mathcomp Require Import all_ssreflect all_algebra.
From mathcomp Require Import ring.
From Verif Require Import Prelude SsModel PlotBbModel PlotBb.
Set Implicit Arguments.
Unset Strict Implicit.
Unset Printing Implicit Defensive.
Import Order.TTheory GRing.Theory Num.Theory.
Local Open Scope ring_scope.

(* C135: every frame shows step k of the results at the time dt (k + 1) of measurement k; the drawn steps are the
   multiples of step and the last one, in increasing order. *)
Theorem frames_at_their_times (R : rcfType) (A : Type) (a0 : A) (res : seq A) (dt : R) (T step : nat) :
  (1 < T)%N -> (0 < step)%N -> size res = T ->
  let ts := linspace dt (dt * T%:R) T in
  bb_last_bars_time ts T = dt * T%:R /\
  exists ks, [/\ bb_frames a0 res ts T step = [seq (dt * k.+1%:R, nth a0 res k) | k <- ks], sorted leq ks, last 0%N ks = T.-1
    & forall k, (k \in ks) = (k < T)%N && ((step %| k)%N || (k == T.-1))].
Proof. exact: frames_spec. Qed.
Print Assumptions frames_at_their_times.

(* the script's T and step *)
Example frames_ex (R : rcfType) : exists ks,
  bb_frames 0%N (iota 0 100) (bb_ts R) bb_T 20 = [seq (ss_dt R * k.+1%:R, k) | k <- ks] /\ ks = [:: 0; 20; 40; 60; 80; 99]%N.
Proof.
exists [:: 0; 20; 40; 60; 80; 99]%N; split=> //.
have t k : (k < 100)%N -> jget 0 (bb_ts R) k = ss_dt R * k.+1%:R.
  by move=> hk; rewrite jget_nth ?size_map ?size_iota // linspace_ts.
have l : last 0 (bb_ts R) = ss_dt R * 100%:R.
  by rewrite -nth_last size_map size_iota linspace_ts.
by rewrite /bb_frames l; change ((100 + 20.-1) %/ 20)%N with 5%N; rewrite /= !t.
Qed.

(* C136, what holds: every sample is counted in exactly one bin, the drawn area is one, and the bars are the bins
   moved to the right by half a bin. *)
Theorem histogram_bars_partial (R : rcfType) (samples : seq R) (bins : nat) : (0 < size samples)%N -> (0 < bins)%N ->
  [/\ {in samples, forall x, exists! i, (i < bins)%N && in_bin samples bins i x},
      sumn [seq hist_count samples bins i | i <- iota 0 bins] = size samples,
      \sum_(q <- hist_bars samples bins) (q.1.2 - q.1.1) * q.2 = 1
    & forall i, (i < bins)%N ->
        let w := hist_edge samples bins 1 - hist_edge samples bins 0 in
        let q := nth (0, 0, 0) (hist_bars samples bins) i in
        0 < w /\ (q.1.1, q.1.2) = (hist_edge samples bins i + w / 2%:R, hist_edge samples bins i.+1 + w / 2%:R)].
Proof.
move=> s0 b0; split; [exact: bin_unique|exact: count_total|exact: bars_area|exact: bars_shift].
Qed.

(* C136, what fails: unless all samples are equal, the smallest one lies left of every bar. *)
Theorem histogram_misses_smallest (R : rcfType) (samples : seq R) (bins : nat) :
  (0 < size samples)%N -> (0 < bins)%N -> hist_lo samples != hist_hi samples ->
  hist_lo samples \in samples /\ all (fun q => hist_lo samples < q.1.1) (hist_bars samples bins).
Proof. by move=> s0 b0 ne; split; [have [] := lo_hi s0|exact: lo_missed]. Qed.

Theorem histogram_bars_cover_refuted (R : rcfType) : exists samples : seq R, exists2 x,
  x \in samples & forall q, q \in hist_bars samples 20 -> ~~ (q.1.1 <= x <= q.1.2).
Proof.
exists [:: 0; 1]; have h : hist_lo ([:: 0; 1] : seq R) != hist_hi [:: 0; 1].
  rewrite /hist_lo /hist_hi /=.
  rewrite (min_r ler01) minxx (max_l ler01) (max_r ler01).
  by rewrite eq_sym oner_eq0.
have [h1 h2] := histogram_misses_smallest (samples := [:: 0; 1]) (bins := 20) isT isT h.
by exists (hist_lo [:: 0; 1]) => // q /(allP h2) hq; rewrite negb_and -ltNge hq.
Qed.
(* the hypotheses hold for the two samples 0 and 1 and the script's 20 bins *)
Example histogram_ex (R : rcfType) : let s := [:: 0; 1] : seq R in
  [/\ (0 < size s)%N, hist_lo s != hist_hi s & hist_edge s 20 1 = 20%:R^-1].
Proof.
have [lo hi] : hist_lo ([:: 0; 1] : seq R) = 0 /\ hist_hi ([:: 0; 1] : seq R) = 1.
  by rewrite /hist_lo /hist_hi /= (min_r ler01) minxx (max_l ler01) (max_r ler01).
by split=> //; rewrite /hist_edge /hist_range lo hi eq_sym oner_eq0 // subr0 add0r !mul1r.
Qed.
Print Assumptions histogram_bars_partial.
Print Assumptions histogram_misses_smallest.
Print Assumptions histogram_bars_cover_refuted.
