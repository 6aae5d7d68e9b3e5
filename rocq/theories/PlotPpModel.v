(* Model of reproduce_paper_plots/plot_prey_predator_estimation.py: the means, covariances and bands drawn at one time; the arrays
   over time are handled entry by entry.  The drawing is not modelled. *)
From mathcomp Require Import all_ssreflect all_algebra.
From Verif Require Import Prelude MultiIndexModel NdIndexModel.
Set Implicit Arguments.
Unset Strict Implicit.
Unset Printing Implicit Defensive.
Import Order.TTheory GRing.Theory Num.Theory.
Local Open Scope ring_scope.

Section Pp.
Variable R : rcfType.

(* lines 65-68, mode 'raw': means from the raw moments, second moments minus the outer product of the means *)
Definition pe_raw (d : nat) (rms : seq R) : option (seq R * seq (seq R)) :=
  if (extract_mean 0 rms d, extract_cov 0 rms d) is (Some m, Some c)
  then Some (m, [seq [seq nth 0 (nth [::] c i) j - nth 0 m i * nth 0 m j | j <- iota 0 d] | i <- iota 0 d])
  else None.

(* lines 69-71, mode 'central': the filter returns the means *)
Definition pe_central (d : nat) (cms mean : seq R) : option (seq R * seq (seq R)) :=
  omap (pair mean) (extract_cov 0 cms d).

(* lines 87-89 and 98-100: lower and upper end of the band of the state k *)
Definition pe_band (k : nat) (mc : seq R * seq (seq R)) : R * R :=
  let m := nth 0 mc.1 k in
  let v := nth 0 (nth [::] mc.2 k) k in
  (m - 196%:R / 100%:R * Num.sqrt v, m + 196%:R / 100%:R * Num.sqrt v).
End Pp.
