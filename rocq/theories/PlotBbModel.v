(* Model of reproduce_paper_plots/plot_benes_bernoulli_estimation.py: the time steps that are drawn and their labels
   (lines 143-172), np.histogram as it is called there (lines 153 and 163), and the bars that are drawn from it (lines 154
   and 164).  Matplotlib's bar(x, height, width) centres each bar at its x.  The filters and the characteristic functions are
   those of the other models; contours, colours, and axis labels are not modelled. *)
From mathcomp Require Import all_ssreflect all_algebra.
From Verif Require Import Prelude SsModel.
Set Implicit Arguments.
Unset Strict Implicit.
Unset Printing Implicit Defensive.
Import Order.TTheory GRing.Theory Num.Theory.
Local Open Scope ring_scope.

Section PlotBb.
Variable R : rcfType.

(* lines 143-164: in the loop over k in range(0, T, step) the arrays and ts are read at k; after it the arrays are read at T
   and the time is ts[-1] or ts[T].  res is one of the arrays true_pdfs, cmss, means, samples; jax arrays clamp the index. *)
Definition bb_frames (A : Type) (a0 : A) (res : seq A) (ts : seq R) (T step : nat) : seq (R * A) :=
  [seq (jget 0 ts (step * j), jget a0 res (step * j)) | j <- iota 0 ((T + step.-1) %/ step)]
  ++ [:: (last 0 ts, jget a0 res T)].
Definition bb_last_bars_time (ts : seq R) (T : nat) : R := jget 0 ts T.

(* np.histogram(samples, bins=bins): the range of the samples, widened by 1/2 on both sides if it is a point *)
Definition hist_lo (samples : seq R) : R := foldr Num.min (head 0 samples) samples.
Definition hist_hi (samples : seq R) : R := foldr Num.max (head 0 samples) samples.
Definition hist_range (samples : seq R) : R * R :=
  let: (lo, hi) := (hist_lo samples, hist_hi samples) in
  if lo == hi then (lo - 2%:R^-1, hi + 2%:R^-1) else (lo, hi).
Definition hist_edge (samples : seq R) (bins i : nat) : R :=
  let: (lo, hi) := hist_range samples in lo + (hi - lo) * (i%:R / bins%:R).
(* all bins are half-open but the last *)
Definition in_bin (samples : seq R) (bins i : nat) (x : R) : bool :=
  (hist_edge samples bins i <= x) &&
  (if i.+1 == bins then x <= hist_edge samples bins i.+1 else x < hist_edge samples bins i.+1).
Definition hist_count (samples : seq R) (bins i : nat) : nat := count (in_bin samples bins i) samples.
(* density=True *)
Definition hist_density (samples : seq R) (bins i : nat) : R :=
  (hist_count samples bins i)%:R / (hist_edge samples bins i.+1 - hist_edge samples bins i)
  / (sumn [seq hist_count samples bins j | j <- iota 0 bins])%:R.

(* ax.bar(bin_edges[1:], hist, width=bin_edges[1] - bin_edges[0]): left end, right end, height *)
Definition hist_bars (samples : seq R) (bins : nat) : seq (R * R * R) :=
  let width := hist_edge samples bins 1 - hist_edge samples bins 0 in
  [seq (hist_edge samples bins i.+1 - width / 2%:R, hist_edge samples bins i.+1 + width / 2%:R,
        hist_density samples bins i) | i <- iota 0 bins].
End PlotBb.
