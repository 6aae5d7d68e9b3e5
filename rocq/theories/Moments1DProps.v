(* Properties C17 - C22 and the one-dimensional part of C37. *)
From mathcomp Require Import all_ssreflect all_algebra.
From mathcomp Require Import ring.
From Verif Require Import Prelude QuadSpec Moments1DModel Moments1DSpec.
From Verif Require Import Moments1DProofs Moments1DConv BellProofs.
Set Implicit Arguments.
Unset Strict Implicit.
Unset Printing Implicit Defensive.
Import Order.TTheory GRing.Theory Num.Theory.
Local Open Scope ring_scope.

Section Props.
Variable R : rcfType.

(* C17 *)
Theorem standard_normal_double_factorial (k : nat) :
  raw_moment_of_standard_normal R k.*2 = \prod_(i < k) (i.*2.+1)%:R /\
  raw_moment_of_standard_normal R k.*2.+1 = 0.
Proof. exact: (conj (std_double_fact R k) (std_odd R k)). Qed.

Theorem normal_moments_recursion (m v : R) : 0 <= v ->
  gaussian_recursion (raw_moment_of_normal m v) m v.
Proof. exact: raw_normal_gauss. Qed.

Theorem normal_recursion_characterises (M : nat -> R) (m v : R) :
  gaussian_recursion M m v -> forall p, M p = gauss_moment m v p.
Proof. exact: gaussian_unique. Qed.

Theorem normal_central_is_raw_at_zero (v : R) (p : nat) :
  central_moment_of_normal v p = raw_moment_of_normal 0 v p.
Proof. exact: central_normalE. Qed.

Theorem normal_central_moments (m v c : R) (n : nat) : 0 <= v ->
  raw_moment_of_normal (m - c) v n = central_moment (gauss_moment m v) c n.
Proof. exact: normal_central. Qed.

Example normal_ex : raw_moment_of_normal (1 : R) 4%:R 2 = 5%:R.
Proof.
have h0 : 0 <= (4%:R : R) by rewrite ler0n.
have [h1 h2 h3] := normal_moments_recursion 1 h0.
by rewrite h3 h1 h2; ring.
Qed.

(* C18 *)
Theorem raw_to_central_correct (rms ws xs : seq R) :
  (forall k, (k < size rms)%N -> rms`_k = discrete_moment ws xs k) ->
  forall n, (n < size rms)%N ->
  (raw_to_central rms)`_n = \sum_(q <- zip ws xs) q.1 * (q.2 - rms`_1) ^+ n.
Proof. exact: raw_to_central_discrete. Qed.

Theorem raw_to_central_functional (rms : seq R) (n : nat) : (n < size rms)%N ->
  (raw_to_central rms)`_n = central_moment (nth 0 rms) rms`_1 n.
Proof. exact: raw_to_centralE. Qed.

Theorem central_to_raw_correct (cms : seq R) (mean : R) (ws xs : seq R) :
  (forall k, (k < size cms)%N -> cms`_k = \sum_(q <- zip ws xs) q.1 * (q.2 - mean) ^+ k) ->
  forall n, (n < size cms)%N -> (central_to_raw cms mean)`_n = discrete_moment ws xs n.
Proof. exact: central_to_raw_discrete. Qed.

Theorem raw_central_round_trip (rms : seq R) : central_to_raw (raw_to_central rms) rms`_1 = rms.
Proof. exact: raw_central_raw. Qed.

Theorem central_raw_round_trip (cms : seq R) (mean : R) : cms`_0 = 1 -> cms`_1 = 0 ->
  raw_to_central (central_to_raw cms mean) = cms.
Proof. exact: central_raw_central. Qed.

Theorem conversions_keep_size (rms : seq R) (mean : R) (s : option R) :
  [/\ size (raw_to_central rms) = size rms, size (central_to_raw rms mean) = size rms
    & size (raw_to_scaled rms s) = size rms].
Proof. exact: (And3 (size_raw_to_central _) (size_central_to_raw _ _) (size_raw_to_scaled _ _)). Qed.

(* the two-point law 1/2 at 0, 1/2 at 2 *)
Example conversions_ex :
  forall k, (k < 3)%N -> ([:: 1; 1; 2%:R] : seq R)`_k
    = discrete_moment [:: 1 / 2%:R; 1 / 2%:R] [:: 0; 2%:R] k.
Proof.
move=> k hk; rewrite /discrete_moment /= !big_cons big_nil /=.
by case: k hk => [|[|[|k]]] //= _; rewrite ?expr0 ?expr1 ?expr2; field.
Qed.

(* C19 *)
Theorem raw_to_scaled_correct (rms : seq R) (s : R) (n : nat) : (n < size rms)%N ->
  (raw_to_scaled rms (Some s))`_n = scaled_moment (nth 0 rms) rms`_1 s n.
Proof. exact: raw_to_scaledE. Qed.

Theorem raw_to_scaled_default_is_std (rms : seq R) : (2 < size rms)%N ->
  raw_to_scaled rms None = raw_to_scaled rms (Some (Num.sqrt (rms`_2 - rms`_1 ^+ 2))).
Proof. exact: raw_to_scaled_default. Qed.

Theorem raw_to_scaled_standardised (rms : seq R) : (2 < size rms)%N -> rms`_0 = 1 ->
  0 < rms`_2 - rms`_1 ^+ 2 ->
  [/\ (raw_to_scaled rms None)`_0 = 1, (raw_to_scaled rms None)`_1 = 0
    & (raw_to_scaled rms None)`_2 = 1].
Proof. exact: raw_to_scaled_normalised. Qed.

Theorem scaled_to_central_correct (sms : seq R) (s : R) (n : nat) : (n < size sms)%N ->
  (scaled_to_central sms s)`_n = sms`_n * s ^+ n.
Proof. exact: scaled_to_centralE. Qed.

Theorem scaled_central_round_trip (rms : seq R) (s : R) : s != 0 ->
  scaled_to_central (raw_to_scaled rms (Some s)) s = raw_to_central rms.
Proof. exact: scaled_to_central_inverse. Qed.

Example scaled_ex : 0 < ([:: 1; 1; 5%:R] : seq R)`_2 - ([:: 1; 1; 5%:R] : seq R)`_1 ^+ 2.
Proof. by rewrite /= expr1n subr_gt0 ltr1n. Qed.

(* C20 *)
Theorem euler_raw_moments drift dispersion (dt : R) (N : nat) (x : R) (n : nat) :
  0 <= dt -> (n < 2 * N)%N ->
  euler_cond_raw drift dispersion dt N x n =
  gauss_moment (x + drift x * dt) (dispersion x ^+ 2 * dt) n.
Proof. exact: euler_rawE. Qed.

Theorem euler_central_moments drift dispersion (dt : R) (N : nat) (x : R) (n : nat) (c : R) :
  0 <= dt -> (n < 2 * N)%N ->
  euler_cond_central drift dispersion dt N x n c =
  central_moment (gauss_moment (x + drift x * dt) (dispersion x ^+ 2 * dt)) c n.
Proof. exact: euler_centralE. Qed.

(* What the third function computes: the central moment over scale^(N (2N - 1)). *)
Theorem euler_scaled_moments_partial drift dispersion (dt : R) (N : nat) (x : R) (n : nat) (c s : R) :
  0 <= dt -> (n < 2 * N)%N ->
  euler_cond_scaled drift dispersion dt N x n c s =
  central_moment (gauss_moment (x + drift x * dt) (dispersion x ^+ 2 * dt)) c n / s ^+ 'C(2 * N, 2).
Proof. exact: euler_scaledE. Qed.

(* The full statement, euler_cond_scaled ... x n c s = scaled_moment (gauss_moment ...) c s n
   for every n < 2 N and s != 0, is false for every model as soon as s > 1. *)
Theorem euler_scaled_moments_always_wrong drift dispersion (dt : R) (N : nat) (x c s : R) :
  0 <= dt -> (0 < N)%N -> 1 < s ->
  euler_cond_scaled drift dispersion dt N x 0 c s
  != scaled_moment (gauss_moment (x + drift x * dt) (dispersion x ^+ 2 * dt)) c s 0.
Proof. exact: euler_scaled_wrong. Qed.

Theorem euler_scaled_moments_refuted :
  exists (drift dispersion : R -> R) (dt : R) (N : nat) (x : R) (n : nat) (c s : R),
  [/\ 0 < dt, (n < 2 * N)%N, 0 < s
    & euler_cond_scaled drift dispersion dt N x n c s
      <> scaled_moment (gauss_moment (x + drift x * dt) (dispersion x ^+ 2 * dt)) c s n].
Proof.
exists (fun=> 0), (fun=> 1), 1, 1%N, 0, 0%N, 0, 2%:R; split=> //; rewrite ?ltr01 ?ltr0n //.
by apply/eqP/euler_scaled_moments_always_wrong; rewrite ?ler01 ?ltr1n.
Qed.

(* The expansion-based (TME) moments agree with one another for every linear expectation. *)
Theorem tme_moments_agree (E : (R -> R) -> R -> R) (x : R) (L : {linear {poly R} -> R^o}) (c s : R) (n : nat) :
  (forall p : {poly R}, E (fun u => p.[u]) x = L p) ->
  (forall f g : R -> R, f =1 g -> E f x = E g x) ->
  tme_cond_central E x n c = central_moment (tme_cond_raw E x) c n /\
  tme_cond_scaled E x n c s = scaled_moment (tme_cond_raw E x) c s n.
Proof. by move=> h1 h2; exact: (conj (tme_centralE c n h1 h2) (tme_scaledE c s n h1 h2)). Qed.

Example euler_ex : euler_cond_central (fun x => - x) (fun=> 1) (1 / 2%:R : R) 2 1 2 0 = 3%:R / 4%:R.
Proof.
rewrite euler_central_moments ?divr_ge0 ?ler01 ?ler0n // central2.
have [h0 h1 h2] := gauss_momentP (1 + -1 * (1 / 2%:R) : R) (1 ^+ 2 * (1 / 2%:R)).
by rewrite h2 h1 h0; field.
Qed.

(* C21 *)
Theorem cumulants_of_raw (rms : seq R) : rms`_0 = 1 ->
  is_cumulants (nth 0 rms) (fun j => (sms_to_cumulants rms 0 1)`_j.-1) (size rms).-1.
Proof. exact: cumulants_raw. Qed.

Theorem cumulants_of_scaled (sms : seq R) (mean scale : R) : sms`_0 = 1 -> sms`_1 = 0 ->
  is_cumulants (fun n => mom_functional (nth 0 sms) ((mean%:P + scale *: 'X) ^+ n))
    (fun j => (sms_to_cumulants sms mean scale)`_j.-1) (size sms).-1.
Proof. exact: cumulants_scaled. Qed.

Theorem cumulants_give_moments (m : nat -> R) (ks : seq R) : m 0%N = 1 ->
  is_cumulants m (fun j => ks`_j.-1) (size ks) ->
  forall n, (n <= size ks)%N -> complete_bell n ks = m n.
Proof. exact: bell_of_cumulants. Qed.

Theorem cumulants_determined (m k k' : nat -> R) (N : nat) : m 0%N = 1 ->
  is_cumulants m k N -> is_cumulants m k' N -> forall n, (0 < n <= N)%N -> k n = k' n.
Proof. exact: cumulants_unique. Qed.

(* second cumulant = variance *)
Example cumulants_ex (a b : R) : (sms_to_cumulants [:: 1; a; b] 0 1)`_1 = b - a ^+ 2.
Proof.
have h := @cumulants_of_raw [:: 1; a; b] erefl.
have := h 1%N isT; have := h 0%N isT; rewrite !big_ord_recl !big_ord0 /= /bump /= !bin0 binn.
by move: (nth_cumulant _ _ _ 1) (nth_cumulant _ _ _ 2) => x y -> ->; ring.
Qed.

(* C22 *)
Theorem partial_bell_coefficient (xs : seq R) (n k : nat) : (n.+1 - k <= size xs)%N ->
  partial_bell n k xs = (n`!)%:R / (k`!)%:R * (bell_series (fun j => xs`_j.-1) n ^+ k)`_n.
Proof. exact: partial_bell_coef. Qed.

Theorem complete_bell_is_sum (xs : seq R) (n : nat) :
  complete_bell n xs = \sum_(k < n.+1) partial_bell n k xs.
Proof. exact: complete_bell_sum. Qed.

Theorem complete_bell_recursion (xs : seq R) (n : nat) : (n < size xs)%N ->
  complete_bell n.+1 xs = \sum_(i < n.+1) 'C(n, i)%:R * complete_bell (n - i)%N xs * xs`_i.
Proof. exact: complete_bell_rec. Qed.

Example bell_ex (a b c : R) : complete_bell 3 [:: a; b; c] = a ^+ 3 + 3%:R * a * b + c.
Proof.
have e0 : complete_bell 0 [:: a; b; c] = 1 by [].
have e1 : complete_bell 1 [:: a; b; c] = a.
  by rewrite complete_bell_recursion // big_ord_recl big_ord0 /= bin0 e0; ring.
have e2 : complete_bell 2 [:: a; b; c] = a ^+ 2 + b.
  by rewrite complete_bell_recursion // !big_ord_recl big_ord0 /= /bump /= bin0 binn e0 e1; ring.
rewrite complete_bell_recursion // !big_ord_recl big_ord0 /= /bump /= bin0 bin1 binn.
by rewrite -[(2 - 0)%N]/2%N -[(2 - (1 + 0))%N]/1%N -[(2 - (1 + (1 + 0)))%N]/0%N e0 e1 e2; ring.
Qed.

(* C37, one-dimensional Gaussian sums *)
Section GaussianSum.
Variables (means variances weights : seq R) (N : nat).
Let g := gaussian_sum1d_new means variances weights N.

Theorem gaussian_sum1d_consistent :
  all (fun v => 0 <= v) variances ->
  size means = size variances /\ size weights = size means -> jsum weights = 1 -> (1 < N)%N ->
  [/\ forall p, (p < 2 * N)%N -> (gs_rms g)`_p =
        \sum_(t <- zip (zip means variances) weights) gauss_moment t.1.1 t.1.2 p * t.2,
      gs_cms g = raw_to_central (gs_rms g),
      gs_scms g = raw_to_scaled (gs_rms g) None,
      gs_variance g = (gs_cms g)`_2
    & gs_variance g = \sum_(t <- zip (zip means variances) weights) t.2 * (t.1.2 + t.1.1 ^+ 2)
                      - (gs_mean g) ^+ 2].
Proof.
move=> hv hs hw hN; have N0 : (0 < N)%N by apply: ltnW.
split; [by move=> p; exact: gs_rmsE|exact: gs_cms_conv|exact: gs_scms_conv|exact: gs_variance_cms|exact: gs_varianceE].
Qed.

(* With N = 1 (two moments) cms[2] is read out of bounds: the stored variance is 0. *)
Theorem gaussian_sum1d_single_order_variance_is_zero :
  all (fun v => 0 <= v) variances ->
  size means = size variances /\ size weights = size means -> jsum weights = 1 -> N = 1%N ->
  gs_variance g = 0.
Proof. move=> hv hs hw hN; apply: gs_variance_N1 => //; by rewrite hN. Qed.
End GaussianSum.

Example gaussian_sum1d_ex : jsum ([:: 1 / 3%:R; 2%:R / 3%:R] : seq R) = 1.
Proof. by rewrite jsumE !big_cons big_nil; field. Qed.
End Props.

Print Assumptions standard_normal_double_factorial.
Print Assumptions normal_moments_recursion.
Print Assumptions normal_recursion_characterises.
Print Assumptions normal_central_is_raw_at_zero.
Print Assumptions normal_central_moments.
Print Assumptions raw_to_central_correct.
Print Assumptions raw_to_central_functional.
Print Assumptions central_to_raw_correct.
Print Assumptions raw_central_round_trip.
Print Assumptions central_raw_round_trip.
Print Assumptions conversions_keep_size.
Print Assumptions raw_to_scaled_correct.
Print Assumptions raw_to_scaled_default_is_std.
Print Assumptions raw_to_scaled_standardised.
Print Assumptions scaled_to_central_correct.
Print Assumptions scaled_central_round_trip.
Print Assumptions euler_raw_moments.
Print Assumptions euler_central_moments.
Print Assumptions euler_scaled_moments_partial.
Print Assumptions euler_scaled_moments_always_wrong.
Print Assumptions euler_scaled_moments_refuted.
Print Assumptions tme_moments_agree.
Print Assumptions cumulants_of_raw.
Print Assumptions cumulants_of_scaled.
Print Assumptions cumulants_give_moments.
Print Assumptions cumulants_determined.
Print Assumptions partial_bell_coefficient.
Print Assumptions complete_bell_is_sum.
Print Assumptions complete_bell_recursion.
Print Assumptions gaussian_sum1d_consistent.
Print Assumptions gaussian_sum1d_single_order_variance_is_zero.
