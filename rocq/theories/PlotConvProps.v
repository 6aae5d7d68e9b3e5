(* Properties C137, C138: the statistics and slices of plot_convergence.py. *)
From mathcomp Require Import all_ssreflect all_algebra.
From mathcomp Require Import zify.
From Verif Require Import Prelude SsModel PlotBb PlotConvModel PlotConv.
Set Implicit Arguments.
Unset Strict Implicit.
Unset Printing Implicit Defensive.
Import Order.TTheory GRing.Theory Num.Theory.
Local Open Scope ring_scope.

(* C137: the curve of the moment filter in N shows at each N the statistic that the line of the particle filter shows:
   the mean over all runs and times, and twice the standard deviation of the means of the runs. *)
Theorem convergence_same_statistic (R : rcfType) (runs T : nat) (results : nat -> seq (seq R)) : (0 < T)%N ->
  (forall N, (2 <= N < 16)%N -> size (results N) = runs /\ all (fun row => size row == T) (results N)) ->
  conv_curve runs results = Some [seq (N, pf_line (results N)) | N <- iota 2 14].
Proof. exact: curve_ok. Qed.

(* the statistic, written out *)
Theorem convergence_statistic (R : rcfType) (errs : seq (seq R)) (T : nat) : (0 < T)%N ->
  all (fun row => size row == T) errs ->
  let m := (\sum_(row <- errs) \sum_(x <- row) x) / (size errs * T)%:R in
  let v := (\sum_(row <- errs) ((\sum_(x <- row) x) / T%:R - m) ^+ 2) / (size errs)%:R in
  pf_line errs = (m, m - 2%:R * Num.sqrt v, m + 2%:R * Num.sqrt v).
Proof. exact: pf_line_spec. Qed.

(* the curve in time shows at dt (k + 1) the mean over the runs of the errors of step k *)
Theorem convergence_time_curve (R : rcfType) (dt : R) (errs : seq (seq R)) (T : nat) : (1 < T)%N ->
  time_curve (linspace dt (dt * T%:R) T) errs T
  = [seq (dt * k.+1%:R, (\sum_(row <- errs) nth 0 row k) / (size errs)%:R) | k <- iota 0 T].
Proof. exact: time_curve_spec. Qed.

(* files of a single run are drawn, without an error and with a band of width zero *)
Theorem convergence_single_run (R : rcfType) (runs : nat) (results : nat -> seq (seq R)) : (1 < runs)%N ->
  (forall N, (2 <= N < 16)%N -> size (results N) = 1%N) ->
  conv_curve runs results = Some [seq (N, let m := np_mean (head [::] (results N)) in (m, m, m)) | N <- iota 2 14].
Proof. exact: curve_one. Qed.

(* files with another number of runs stop the script, unless it is one *)
Theorem convergence_wrong_runs (R : rcfType) (runs : nat) (results : nat -> seq (seq R)) (N : nat) :
  (2 <= N < 16)%N -> size (results N) != runs -> size (results N) != 1%N -> conv_curve runs results = None.
Proof. exact: curve_bad. Qed.

(* the mean of the curve in time is the value of the curve in N *)
Theorem convergence_time_mean (R : rcfType) (errs : seq (seq R)) (T : nat) : (0 < T)%N ->
  all (fun row => size row == T) errs ->
  np_mean [seq np_mean (column errs k) | k <- iota 0 T] = (pf_line errs).1.1.
Proof. exact: mean_time. Qed.

(* C138: every violin shows the errors of step k at its time dt (k + 1), for the steps 19, 39, ... before the last *)
Theorem convergence_violins (R : rcfType) (dt : R) (errs : seq (seq R)) (T : nat) : (1 < T)%N ->
  exists2 ks, violins (linspace dt (dt * T%:R) T) errs T = [seq (dt * k.+1%:R, column errs k) | k <- ks]
  & forall k, (k \in ks) = [&& (19 <= k)%N, (k.+1 < T)%N & (20 %| k - 19)%N].
Proof. by move=> hT; have [h1 h2] := violins_spec dt errs hT; exists (neg_slice 19 1 20 T). Qed.

(* so the final time of the script, which is the 100th step, has no violin *)
Theorem convergence_violins_last_refuted (R : rcfType) : exists (dt : R) (errs : seq (seq R)),
  0 < dt /\ dt * 100%:R \notin [seq v.1 | v <- violins (linspace dt (dt * 100%:R) 100) errs 100].
Proof.
exists 1, [::]; split; first exact: ltr01.
have [ks -> hk] := @convergence_violins R 1 [::] 100 isT.
rewrite -map_comp; apply/mapP => -[k]; rewrite hk => /and3P [_ h _] /=; rewrite !mul1r => /eqP.
by rewrite eqr_nat => /eqP e; move: h; rewrite -e.
Qed.

(* The band on the logarithmic axis: its lower end is positive exactly if the variance of the runs is below a quarter of
   the squared mean ... *)
Theorem convergence_band_partial (R : rcfType) (errs : seq (seq R)) : 0 <= (pf_line errs).1.1 ->
  let run_means := [seq np_mean row | row <- errs] in
  (0 < (pf_line errs).1.2) = (4%:R * np_mean [seq (x - np_mean run_means) ^+ 2 | x <- run_means] < (pf_line errs).1.1 ^+ 2).
Proof. by move=> h /=; rewrite -std_sq -band_pos // std_ge0. Qed.

(* ... and there are non-negative errors, for every number of runs above one, for which it is negative *)
Theorem convergence_band_log_refuted (R : rcfType) (n : nat) : exists errs : seq (seq R),
  [/\ size errs = n.+2, all (fun row => size row == 1%N) errs, all (fun row => all (fun x => 0 <= x) row) errs
    & (pf_line errs).1.2 < 0].
Proof. exact: band_neg. Qed.

Example convergence_ex (R : rcfType) : let errs := [:: [:: 1; 3%:R]; [:: 2%:R; 2%:R]] : seq (seq R) in
  [/\ all (fun row => size row == 2%N) errs, conv_curve 2 (fun _ => errs) <> None & (pf_line errs).1.1 = 2%:R].
Proof.
split=> //.
rewrite /pf_line /np_mean /= addr0 -[1]/(1%:R) -!natrD.
have -> : (1 + (3 + (2 + 2)) = 2 * 4)%N by [].
by rewrite natrM mulfK // pnatr_eq0.
Qed.
Print Assumptions convergence_same_statistic.
Print Assumptions convergence_statistic.
Print Assumptions convergence_time_curve.
Print Assumptions convergence_single_run.
Print Assumptions convergence_wrong_runs.
Print Assumptions convergence_time_mean.
Print Assumptions convergence_violins.
Print Assumptions convergence_violins_last_refuted.
Print Assumptions convergence_band_partial.
Print Assumptions convergence_band_log_refuted.
