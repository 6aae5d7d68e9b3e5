(* Model of mfs/one_dim/moments.py, lines 31-306, of partial_bell, complete_bell and
   hermite_probabilist (mfs/utils.py, lines 252-337) and of GaussianSum1D.new
   (mfs/utils.py, lines 58-74).

   Simplifications: real numbers are exact; variance ** (q / 2) is modelled by
   sqrt(variance) ** q, which is the same for variance >= 0 (the code yields NaN for
   a negative variance and odd q, and the theorems assume variance >= 0). *)
From mathcomp Require Import all_ssreflect all_algebra.
From Verif Require Import Prelude.
Set Implicit Arguments.
Unset Strict Implicit.
Unset Printing Implicit Defensive.
Import Order.TTheory GRing.Theory Num.Theory.
Local Open Scope ring_scope.

(* mfs/utils.py, lines 252-282. *)
Fixpoint partial_bell (R : ringType) (n k : nat) (xs : seq R) : R :=
  match k with
  | 0%N => if n == 0%N then 1 else 0
  | k'.+1 =>
      if n == 0%N then 0
      else jsum [seq 'C(n.-1, i.-1)%:R * jget 0 xs i.-1 * partial_bell (n - i)%N k' xs
                | i <- iota 1 (n.+1 - k'.+1)%N]
  end.

(* mfs/utils.py, lines 285-308. *)
Definition complete_bell (R : ringType) (n : nat) (xs : seq R) : R :=
  if n == 0%N then 1 else jsum [seq partial_bell n k xs | k <- iota 1 n].

(* mfs/utils.py, lines 311-337. *)
Fixpoint hermite_probabilist (R : ringType) (n : nat) (x : R) : R :=
  match n with
  | 0%N => 1
  | 1%N => x
  | (n'.+1 as m).+1 =>
      x * hermite_probabilist m x - n'.+1%:R * hermite_probabilist n' x
  end.

Section Moments.
Variable R : rcfType.
Implicit Types (mean variance scale x : R) (rms cms sms : seq R).

(* scipy.special.factorial2(n, exact=True) for n = q - 1 >= -1; (-1)!! = 1. *)
Fixpoint factorial2_pred (q : nat) : nat :=
  match q with 0%N | 1%N => 1%N | q'.+2 => (q'.+1 * factorial2_pred q')%N end.

(* lines 31-38 *)
Definition central_moment_of_normal variance (p : nat) : R :=
  if ~~ odd p then Num.sqrt variance ^+ p * (factorial2_pred p)%:R else 0.

(* lines 41-67 *)
Definition raw_moment_of_standard_normal (p : nat) : R :=
  if ~~ odd p then (p`!)%:R / (2%:R ^+ p./2 * (p./2`!)%:R) else 0.

(* lines 70-74 *)
Definition raw_moment_of_normal mean variance (p : nat) : R :=
  jsum [seq 'C(p, m)%:R * mean ^+ m * Num.sqrt variance ^+ (p - m)
            * raw_moment_of_standard_normal (p - m) | m <- iota 0 p.+1].

(* lines 86-101; bn_coeffs[n, j] is the lower Pascal triangle of lines 77-83. *)
Definition raw_to_central rms : seq R :=
  [seq jsum [seq (if (j <= n)%N
                  then 'C(n, j)%:R * (-1) ^+ (n - j) * jget 0 rms j * jget 0 rms 1 ^+ (n - j)
                  else 0) | j <- iota 0 (size rms)]
  | n <- iota 0 (size rms)].

(* lines 104-123 *)
Definition central_to_raw cms mean : seq R :=
  [seq jsum [seq (if (j <= n)%N
                  then 'C(n, j)%:R * jget 0 cms j * mean ^+ (n - j)
                  else 0) | j <- iota 0 (size cms)]
  | n <- iota 0 (size cms)].

(* elementwise a * b and a / b of arrays of the same shape *)
Definition jmul (a b : seq R) : seq R := [seq p.1 * p.2 | p <- zip a b].
Definition jdiv (a b : seq R) : seq R := [seq p.1 / p.2 | p <- zip a b].

(* lines 126-132 *)
Definition raw_to_scaled rms (scale : option R) : seq R :=
  let s := if scale is Some s then s
           else Num.sqrt (jget 0 rms 2 - jget 0 rms 1 ^+ 2) in
  jdiv (raw_to_central rms) [seq s ^+ n | n <- iota 0 (size rms)].

(* lines 135-138 *)
Definition scaled_to_central sms scale : seq R :=
  jmul sms [seq scale ^+ n | n <- iota 0 (size sms)].

(* Lines 182-219 and 222-255 share one body, given the conditional mean and variance
   at a state: mv x = (x + drift x * dt, dispersion x ** 2 * dt) for Euler, and
   tme.mean_and_cov(...) for the TME version. *)
Section CondNormal.
Variables (mv : R -> R * R) (N : nat).
Let num_moments := (2 * N)%N.

(* lines 188-193 and 227-231 *)
Definition normal_cond_raw (x : R) (n : nat) : R :=
  let (cond_mean, cond_var) := mv x in
  jget 0 [seq raw_moment_of_normal cond_mean cond_var p | p <- iota 0 num_moments] n.

(* lines 195-200 and 233-237 *)
Definition normal_cond_central (x : R) (n : nat) mean : R :=
  let (cond_mean, cond_var) := mv x in
  jget 0 [seq raw_moment_of_normal (cond_mean - mean) cond_var p | p <- iota 0 num_moments] n.

(* lines 202-208 and 239-244: one factor s for every order n *)
Definition normal_cond_scaled (x : R) (n : nat) mean scale : R :=
  let (cond_mean, cond_var) := mv x in
  let s := jprod [seq scale ^+ i | i <- iota 0 num_moments] in
  jget 0 [seq raw_moment_of_normal (cond_mean - mean) cond_var p | p <- iota 0 num_moments] n / s.
End CondNormal.

(* lines 228, 235, 242, 250-252: the Euler--Maruyama mean and variance *)
Definition euler_mean_var (drift dispersion : R -> R) (dt : R) (x : R) : R * R :=
  (x + drift x * dt, dispersion x ^+ 2 * dt).

(* lines 222-255 *)
Definition euler_cond_raw drift dispersion dt N :=
  normal_cond_raw (euler_mean_var drift dispersion dt) N.
Definition euler_cond_central drift dispersion dt N :=
  normal_cond_central (euler_mean_var drift dispersion dt) N.
Definition euler_cond_scaled drift dispersion dt N :=
  normal_cond_scaled (euler_mean_var drift dispersion dt) N.
Definition euler_cond_mean drift dispersion dt (x : R) :=
  (euler_mean_var drift dispersion dt x).1.

(* lines 141-179; tme_expectation phi x stands for
   squeeze(tme.expectation(phi, x, dt, drift, dispersion, order=tme_order)). *)
Section CondTme.
Variable tme_expectation : (R -> R) -> R -> R.
Definition tme_cond_raw (x : R) (n : nat) : R := tme_expectation (fun u => u ^+ n) x.
Definition tme_cond_central (x : R) (n : nat) mean : R :=
  tme_expectation (fun u => (u - mean) ^+ n) x.
Definition tme_cond_scaled (x : R) (n : nat) mean scale : R :=
  tme_expectation (fun u => ((u - mean) / scale) ^+ n) x.
Definition tme_cond_mean (x : R) : R := tme_expectation (fun u => u) x.
End CondTme.

(* lines 295-306; nth_cumulant is only called with n >= 1. *)
Definition nth_cumulant sms mean scale (n : nat) : R :=
  if n == 1%N then (if mean == 0 then jget 0 sms 1 else mean)
  else jsum [seq (-1) ^+ k.-1 * (k.-1`!)%:R
                 * partial_bell n k (behead (scaled_to_central sms scale)) | k <- iota 1 n].

Definition sms_to_cumulants sms mean scale : seq R :=
  [seq nth_cumulant sms mean scale n | n <- iota 1 (size sms).-1].

(* mfs/utils.py, lines 39-74 (constructor). *)
Record gaussian_sum1d := GaussianSum1D {
  gs_mean : R; gs_variance : R; gs_rms : seq R; gs_cms : seq R; gs_scms : seq R }.

Definition gaussian_sum1d_new (means variances weights : seq R) (N : nat) : gaussian_sum1d :=
  let centre := jsum (jmul means weights) in
  let rms := [seq jsum [seq raw_moment_of_normal t.1.1 t.1.2 p * t.2
                       | t <- zip (zip means variances) weights] | p <- iota 0 (2 * N)%N] in
  let cms := [seq jsum [seq raw_moment_of_normal (t.1.1 - centre) t.1.2 p * t.2
                       | t <- zip (zip means variances) weights] | p <- iota 0 (2 * N)%N] in
  let variance := jget 0 cms 2 in
  let scms := jdiv cms [seq Num.sqrt variance ^+ n | n <- iota 0 (2 * N)%N] in
  GaussianSum1D centre variance rms cms scms.
End Moments.
