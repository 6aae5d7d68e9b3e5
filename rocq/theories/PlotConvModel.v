(* Model of the statistics and the slices of reproduce_paper_plots/plot_convergence.py (lines 36-60 and 81-139).  A result file
   holds errs_means and errs_variances, arrays of shape (runs, T); both are treated alike, hence errs below.  NaN, file
   access and drawing are not modelled; the axes of lines 111 and 133 are logarithmic. *)
From mathcomp Require Import all_ssreflect all_algebra.
From Verif Require Import Prelude.
Set Implicit Arguments.
Unset Strict Implicit.
Unset Printing Implicit Defensive.
Import Order.TTheory GRing.Theory Num.Theory.
Local Open Scope ring_scope.

Section PlotConv.
Variable R : rcfType.

(* np.mean and np.std (ddof = 0) of an array *)
Definition np_mean (s : seq R) : R := jsum s / (size s)%:R.
Definition np_std (s : seq R) : R := Num.sqrt (np_mean [seq (x - np_mean s) ^+ 2 | x <- s]).

(* errs[:, k] *)
Definition column (errs : seq (seq R)) (k : nat) : seq R := [seq nth 0 row k | row <- errs].

(* the indices of the slice start:-e:step of an axis of length T, for 0 < e <= T *)
Definition neg_slice (start e step T : nat) : seq nat :=
  [seq (start + step * j)%N | j <- iota 0 ((T - e - start + step.-1) %/ step)].

(* lines 43 and 55: np.mean(errs, axis=0) against ts *)
Definition time_curve (ts : seq R) (errs : seq (seq R)) (T : nat) : seq (R * R) :=
  zip ts [seq np_mean (column errs k) | k <- iota 0 T].
(* lines 44 and 56: violinplot(errs[:, 19:-1:20], positions=ts[19:-1:20]) *)
Definition violins (ts : seq R) (errs : seq (seq R)) (T : nat) : seq (R * seq R) :=
  zip [seq nth 0 ts k | k <- neg_slice 19 1 20 (size ts)] [seq column errs k | k <- neg_slice 19 1 20 T].

(* lines 81, 82, 88, 89: vals has runs rows (10000 in the script); numpy broadcasts an array of length one into the column and
   raises ValueError, here None, for other lengths *)
Definition assign_column (runs : nat) (v : seq R) : option (seq R) :=
  if size v == runs then Some v else if v is [:: x] then Some (nseq runs x) else None.
Fixpoint assign_columns (runs : nat) (vs : seq (seq R)) : option (seq (seq R)) :=
  if vs is v :: vs' then
    obind (fun c => omap (cons c) (assign_columns runs vs')) (assign_column runs v)
  else Some [::].
(* line 83-89: results N is the array of the file of N; the columns of vals *)
Definition conv_vals (runs : nat) (results : nat -> seq (seq R)) : option (seq (seq R)) :=
  assign_columns runs [seq [seq np_mean row | row <- results N] | N <- iota 2 14].
(* lines 91-94 and 114-117: abscissa, curve, lower and upper end of the band *)
Definition band (m s : R) : R * R * R := (m, m - 2%:R * s, m + 2%:R * s).
Definition conv_curve (runs : nat) (results : nat -> seq (seq R)) : option (seq (nat * (R * R * R))) :=
  omap (fun vals => zip (iota 2 14) [seq band (np_mean c) (np_std c) | c <- vals]) (conv_vals runs results).
(* lines 98-103 and 121-125: the line of the particle filter; np.mean without axis flattens *)
Definition pf_line (errs : seq (seq R)) : R * R * R :=
  band (np_mean (flatten errs)) (np_std [seq np_mean row | row <- errs]).
End PlotConv.
