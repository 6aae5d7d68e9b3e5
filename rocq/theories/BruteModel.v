(* Model of mfs/classical_filters_smoothers/brute_force.py (lines 26-136): filtering densities on
   a grid of the line.

   jax.grad, jax.scipy.stats.norm.pdf, jnp.sqrt, tme.mean_and_cov (squeezed, for a scalar state)
   and Python's int on strings are arguments.  An exception is a value of bf_result; jax.lax.scan
   traces its body even when ys is empty, so the exceptions do not depend on ys. *)
From Coq Require Import String Ascii.
From mathcomp Require Import all_ssreflect all_algebra.
From Verif Require Import Prelude.
Set Implicit Arguments.
Unset Strict Implicit.
Unset Printing Implicit Defensive.
Import Order.TTheory GRing.Theory Num.Theory.
Local Open Scope ring_scope.

(* Python's sub in s *)
Fixpoint contains (sub s : string) : bool :=
  String.prefix sub s || (if s is String _ s' then contains sub s' else false).

(* s.split('-')[-1] *)
Definition dash : ascii := "-"%char.
Fixpoint has_dash (s : string) : bool :=
  if s is String c s' then Ascii.eqb c dash || has_dash s' else false.
Fixpoint last_segment (s : string) : string :=
  if s is String c s' then
    if has_dash s' then last_segment s' else if Ascii.eqb c dash then s' else s
  else EmptyString.

Inductive bf_result (A : Type) : Type :=
| BfOk of A
| BfNotImplementedError
| BfNameError       (* m and scale are unbound in integrate_transition *)
| BfValueError.     (* int(...) *)
Arguments BfNotImplementedError {A}.
Arguments BfNameError {A}.
Arguments BfValueError {A}.

(* what lines 69-78 leave behind *)
Inductive bf_stats (A : Type) : Type := BfStats of A | BfUnbound | BfIntError.
Arguments BfUnbound {A}.
Arguments BfIntError {A}.

Section BruteForce.
Variable R : rcfType.
Variable grad : (R -> R) -> R -> R.
Variable norm_pdf : R -> R -> R -> R.
Variable sqrt_ : R -> R.
Variable tme_mean_and_cov : R -> int -> R -> R * R.   (* ddt, order, x *)
Variable py_int : string -> option int.
Variable Y : Type.

(* jnp.gradient(ps, dx): one-sided differences at the ends, central ones inside *)
Definition jgradient (ps : seq R) (dx : R) : seq R :=
  let n := size ps in
  [seq if i == 0%N then (nth 0 ps 1 - nth 0 ps 0) / dx
       else if i == n.-1 then (nth 0 ps i - nth 0 ps i.-1) / dx
       else (nth 0 ps i.+1 - nth 0 ps i.-1) / (2%:R * dx) | i <- iota 0 n].

Variables (drift dispersion : R -> R) (measurement_cond_pdf : Y -> seq R -> seq R).
Variables (xs : seq R) (dt : R) (integration_steps : nat).

(* lines 66-67 *)
Definition bf_dx : R := jget 0 xs 1 - jget 0 xs 0.
Definition bf_ddt : R := dt / integration_steps%:R.

(* lines 69-78: m and scale *)
Definition stats_euler : seq R * seq R :=
  ([seq x + drift x * bf_ddt | x <- xs], [seq dispersion x * sqrt_ bf_ddt | x <- xs]).
Definition stats_tme (order : int) : seq R * seq R :=
  ([seq (tme_mean_and_cov bf_ddt order x).1 | x <- xs],
   [seq sqrt_ (tme_mean_and_cov bf_ddt order x).2 | x <- xs]).
Definition bf_method_stats (pred_method : string) : bf_stats (seq R * seq R) :=
  if String.eqb pred_method "chapman-euler" then BfStats stats_euler
  else if contains "chapman-tme" pred_method then
    (if py_int (last_segment pred_method) is Some order then BfStats (stats_tme order) else BfIntError)
  else BfUnbound.

(* lines 80-81 *)
Definition bf_gamma (x : R) : R := dispersion x ^+ 2.

(* lines 83-86 *)
Definition integrate_transition (st : seq R * seq R) (x : R) (ps : seq R) : R :=
  trapz [seq norm_pdf x t.1.1 t.1.2 * t.2 | t <- zip (zip st.1 st.2) ps] xs.

(* lines 92-101 *)
Definition kolmogorov_fwd_opt (ps : seq R) : seq R :=
  let d1 := jgradient ps bf_dx in
  let d2 := jgradient (jgradient ps bf_dx) bf_dx in
  [seq (let x := nth 0 xs i in
        let part1 := - (grad drift x * nth 0 ps i + drift x * nth 0 d1 i) in
        part1 + (1 / 2%:R) * (grad (grad bf_gamma) x * nth 0 ps i
          + 2%:R * grad bf_gamma x * nth 0 d1 i + bf_gamma x * nth 0 d2 i))
  | i <- iota 0 (size xs)].

(* lines 103-104 *)
Definition bf_euler (ps : seq R) : seq R :=
  [seq p.1 + p.2 * bf_ddt | p <- zip ps (kolmogorov_fwd_opt ps)].

(* lines 106-112 and 114-120; jax.lax.scan over jnp.arange(integration_steps) without outputs *)
Definition pred_kolmogorov (ps : seq R) : seq R := iter integration_steps bf_euler ps.
Definition pred_chapman (st : seq R * seq R) (ps : seq R) : seq R :=
  iter integration_steps (fun q => [seq integrate_transition st x q | x <- xs]) ps.

(* line 133 *)
Definition bf_update (y : Y) (ps : seq R) : seq R :=
  let l := [seq p.1 * p.2 | p <- zip (measurement_cond_pdf y xs) ps] in
  [seq v / trapz l xs | v <- l].

(* lines 122-136 *)
Definition bf_run (pred : seq R -> seq R) (init_ps : seq R) (ys : seq Y) : seq (seq R) :=
  (scan (fun ps y => let ps := bf_update y (pred ps) in (ps, ps)) init_ps ys).2.

Definition brute_force_filter (init_ps : seq R) (ys : seq Y) (pred_method : string)
  : bf_result (seq (seq R)) :=
  match bf_method_stats pred_method with
  | BfIntError => BfValueError
  | st =>
    if String.eqb pred_method "kolmogorov" then BfOk (bf_run pred_kolmogorov init_ps ys)
    else if contains "chapman" pred_method then
      (if st is BfStats s then BfOk (bf_run (pred_chapman s) init_ps ys) else BfNameError)
    else BfNotImplementedError
  end.
End BruteForce.
