(* Properties of the grid filter brute_force_filter. *)
From Coq Require Import String Ascii.
From mathcomp Require Import all_ssreflect all_algebra.
From mathcomp Require Import zify ring.
From Verif Require Import Prelude SmcProofs BruteModel BruteProofs.
Set Implicit Arguments.
Unset Strict Implicit.
Unset Printing Implicit Defensive.
Import Order.TTheory GRing.Theory Num.Theory.
Local Open Scope ring_scope.

(* C52: with the method 'chapman-euler' the filter alternates trapezoidal Chapman--Kolmogorov
   steps with the Euler--Maruyama transition density and Bayes' rule; each density
   integrates to one. *)
Theorem brute_force_chapman_euler (R : rcfType) (grad : (R -> R) -> R -> R) (norm_pdf : R -> R -> R -> R)
    (sqrt_ : R -> R) (tme : R -> int -> R -> R * R) (py_int : string -> option int) (Y : Type) (y0 : Y)
    (drift dispersion : R -> R) (pdf : Y -> seq R -> seq R) (xs : seq R) (dt : R) (k : nat)
    (init : seq R) (ys : seq Y) :
  (forall y s, size (pdf y s) = size s) -> size init = size xs ->
  exists sol, brute_force_filter grad norm_pdf sqrt_ tme py_int drift dispersion pdf xs dt k init ys
                "chapman-euler" = BfOk sol /\
  size sol = size ys /\
  forall t, (t < size ys)%N -> exists q : nat -> seq R,
    let lik j := nth 0 (pdf (nth y0 ys t) xs) j in
    let Z := trapezoid xs (fun j => lik j * nth 0 (q k) j) in
    [/\ q 0%N = (if t is t'.+1 then nth [::] sol t' else init),
        forall s i, (i < size xs)%N -> nth 0 (q s.+1) i = trapezoid xs (fun j =>
          norm_pdf (nth 0 xs i) (nth 0 xs j + drift (nth 0 xs j) * (dt / k%:R))
            (dispersion (nth 0 xs j) * sqrt_ (dt / k%:R)) * nth 0 (q s) j),
        forall i, (i < size xs)%N -> nth 0 (nth [::] sol t) i = lik i * nth 0 (q k) i / Z
      & Z != 0 -> trapezoid xs (nth 0 (nth [::] sol t)) = 1].
Proof.
move=> h1 h2; eexists; split; first exact: run_euler.
exact: (chapman_run y0 h1 norm_pdf k (fun x => x + drift x * (dt / k%:R))
  (fun x => dispersion x * sqrt_ (dt / k%:R)) ys h2).
Qed.
Print Assumptions brute_force_chapman_euler.

(* The same for 'chapman-tme-?', with the TME mean and covariance of order ?. *)
Theorem brute_force_chapman_tme (R : rcfType) (grad : (R -> R) -> R -> R) (norm_pdf : R -> R -> R -> R)
    (sqrt_ : R -> R) (tme : R -> int -> R -> R * R) (py_int : string -> option int) (Y : Type) (y0 : Y)
    (drift dispersion : R -> R) (pdf : Y -> seq R -> seq R) (xs : seq R) (dt : R) (k : nat)
    (init : seq R) (ys : seq Y) (digits : string) (order : int) :
  ~~ has_dash digits -> py_int digits = Some order ->
  (forall y s, size (pdf y s) = size s) -> size init = size xs ->
  exists sol, brute_force_filter grad norm_pdf sqrt_ tme py_int drift dispersion pdf xs dt k init ys
                (append "chapman-tme-" digits) = BfOk sol /\
  size sol = size ys /\
  forall t, (t < size ys)%N -> exists q : nat -> seq R,
    let lik j := nth 0 (pdf (nth y0 ys t) xs) j in
    let Z := trapezoid xs (fun j => lik j * nth 0 (q k) j) in
    [/\ q 0%N = (if t is t'.+1 then nth [::] sol t' else init),
        forall s i, (i < size xs)%N -> nth 0 (q s.+1) i = trapezoid xs (fun j =>
          norm_pdf (nth 0 xs i) (tme (dt / k%:R) order (nth 0 xs j)).1
            (sqrt_ (tme (dt / k%:R) order (nth 0 xs j)).2) * nth 0 (q s) j),
        forall i, (i < size xs)%N -> nth 0 (nth [::] sol t) i = lik i * nth 0 (q k) i / Z
      & Z != 0 -> trapezoid xs (nth 0 (nth [::] sol t)) = 1].
Proof.
move=> hd ho h1 h2; eexists; split; first by apply: run_tme; [exact: hd|exact: ho].
exact: (chapman_run y0 h1 norm_pdf k (fun x => (tme (dt / k%:R) order x).1)
  (fun x => sqrt_ (tme (dt / k%:R) order x).2) ys h2).
Qed.
Print Assumptions brute_force_chapman_tme.

(* C52: the densities of the Chapman methods are non-negative. *)
Theorem brute_force_chapman_nonneg (R : rcfType) (grad : (R -> R) -> R -> R) (norm_pdf : R -> R -> R -> R)
    (sqrt_ : R -> R) (tme : R -> int -> R -> R * R) (py_int : string -> option int) (Y : Type)
    (drift dispersion : R -> R) (pdf : Y -> seq R -> seq R) (xs : seq R) (dt : R) (k : nat)
    (init : seq R) (ys : seq Y) (method : string) sol :
  (forall y s, size (pdf y s) = size s) -> size init = size xs ->
  sorted <=%R xs -> (forall x m s, 0 <= norm_pdf x m s) ->
  (forall y s, all (fun v => 0 <= v) (pdf y s)) -> all (fun v => 0 <= v) init ->
  method <> "kolmogorov"%string ->
  brute_force_filter grad norm_pdf sqrt_ tme py_int drift dispersion pdf xs dt k init ys method = BfOk sol ->
  forall ps, ps \in sol -> all (fun v => 0 <= v) ps.
Proof. exact: chapman_nonneg. Qed.
Print Assumptions brute_force_chapman_nonneg.

(* C52: the method 'kolmogorov' takes explicit Euler steps with the operator of C71; each
   density integrates to one. *)
Theorem brute_force_kolmogorov (R : rcfType) (grad : (R -> R) -> R -> R) (norm_pdf : R -> R -> R -> R)
    (sqrt_ : R -> R) (tme : R -> int -> R -> R * R) (py_int : string -> option int) (Y : Type) (y0 : Y)
    (drift dispersion : R -> R) (pdf : Y -> seq R -> seq R) (xs : seq R) (dt : R) (k : nat)
    (init : seq R) (ys : seq Y) :
  (forall y s, size (pdf y s) = size s) -> size init = size xs ->
  exists sol, brute_force_filter grad norm_pdf sqrt_ tme py_int drift dispersion pdf xs dt k init ys
                "kolmogorov" = BfOk sol /\
  size sol = size ys /\
  forall t, (t < size ys)%N -> exists q : nat -> seq R,
    let lik j := nth 0 (pdf (nth y0 ys t) xs) j in
    let Z := trapezoid xs (fun j => lik j * nth 0 (q k) j) in
    [/\ q 0%N = (if t is t'.+1 then nth [::] sol t' else init),
        forall s i, (i < size xs)%N -> nth 0 (q s.+1) i = nth 0 (q s) i +
          nth 0 (kolmogorov_fwd_opt grad drift dispersion xs (q s)) i * (dt / k%:R),
        forall i, (i < size xs)%N -> nth 0 (nth [::] sol t) i = lik i * nth 0 (q k) i / Z
      & Z != 0 -> trapezoid xs (nth 0 (nth [::] sol t)) = 1].
Proof.
by move=> h1 h2; eexists; split; [exact: run_kolmogorov|exact: kolmogorov_run].
Qed.
Print Assumptions brute_force_kolmogorov.

(* C52: whatever the method, multiples of the likelihood and of the initial density do not matter. *)
Theorem brute_force_scale_invariant (R : rcfType) (grad : (R -> R) -> R -> R) (norm_pdf : R -> R -> R -> R)
    (sqrt_ : R -> R) (tme : R -> int -> R -> R * R) (py_int : string -> option int) (Y : Type)
    (drift dispersion : R -> R) (pdf : Y -> seq R -> seq R) (xs : seq R) (dt : R) (k : nat)
    (init : seq R) (ys : seq Y) (method : string) (c : Y -> R) (a : R) :
  (forall y, c y != 0) -> a != 0 ->
  let run f p := brute_force_filter grad norm_pdf sqrt_ tme py_int drift dispersion f xs dt k p ys method in
  run (fun y s => [seq c y * v | v <- pdf y s]) init = run pdf init /\
  run pdf [seq a * v | v <- init] = run pdf init.
Proof. by move=> hc ha run; split; [exact: scale_any|exact: homog_any]. Qed.
Print Assumptions brute_force_scale_invariant.

(* C52: what is accepted and what is rejected. *)
Theorem brute_force_methods (R : rcfType) (grad : (R -> R) -> R -> R) (norm_pdf : R -> R -> R -> R)
    (sqrt_ : R -> R) (tme : R -> int -> R -> R * R) (py_int : string -> option int) (Y : Type)
    (drift dispersion : R -> R) (pdf : Y -> seq R -> seq R) (xs : seq R) (dt : R) (k : nat)
    (init : seq R) (ys : seq Y) :
  let run := brute_force_filter grad norm_pdf sqrt_ tme py_int drift dispersion pdf xs dt k init ys in
  [/\ forall method, method <> "kolmogorov"%string -> contains "chapman" method = false ->
        run method = BfNotImplementedError,
      exists sol, run "kolmogorov"%string = BfOk sol,
      exists sol, run "chapman-euler"%string = BfOk sol
    & forall digits, ~~ has_dash digits ->
        if py_int digits is Some _ then exists sol, run (append "chapman-tme-" digits) = BfOk sol
        else run (append "chapman-tme-" digits) = BfValueError].
Proof. exact: methods_all. Qed.
Print Assumptions brute_force_methods.

(* C70: an unknown method whose name contains 'chapman' is not rejected by NotImplementedError. *)
Theorem brute_force_unknown_chapman_refuted (R : rcfType) (grad : (R -> R) -> R -> R)
    (norm_pdf : R -> R -> R -> R) (sqrt_ : R -> R) (tme : R -> int -> R -> R * R)
    (py_int : string -> option int) (Y : Type)
    (drift dispersion : R -> R) (pdf : Y -> seq R -> seq R) (xs : seq R) (dt : R) (k : nat)
    (init : seq R) (ys : seq Y) :
  exists method, [/\ method <> "kolmogorov"%string, method <> "chapman-euler"%string,
    contains "chapman-tme" method = false
  & brute_force_filter grad norm_pdf sqrt_ tme py_int drift dispersion pdf xs dt k init ys method
    = BfNameError].
Proof. by exists "chapman-milstein"%string; split. Qed.
Print Assumptions brute_force_unknown_chapman_refuted.

(* C71: the discretised Kolmogorov operator is the Fokker--Planck operator on quadratic
   densities, away from the boundary, for polynomial drift A and dispersion B. *)
Theorem kolmogorov_operator_exact (R : rcfType) (grad : (R -> R) -> R -> R) (drift dispersion : R -> R)
    (xs : seq R) (x0 h : R) (p A B : {poly R}) (i : nat) :
  (forall j, (j < size xs)%N -> nth 0 xs j = x0 + j%:R * h) -> h != 0 -> (size p <= 3)%N ->
  (forall x, drift x = A.[x]) -> (forall x, dispersion x = B.[x]) ->
  grad_at grad A -> grad_at grad (B ^+ 2) -> grad_at grad (B ^+ 2)^`() ->
  (1 < i)%N -> (i.+2 < size xs)%N ->
  nth 0 (kolmogorov_fwd_opt grad drift dispersion xs [seq p.[x] | x <- xs]) i =
  (- (A * p)^`() + (2%:R^-1)%:P * (B ^+ 2 * p)^`()^`()).[nth 0 xs i].
Proof. by move=> h1 h2 h3 h4 h5 h6 h7 h8 h9 h10; exact: (fwd_exact h1 h2 h3 h4 h5 h6 h7 h8 h9 h10). Qed.
Print Assumptions kolmogorov_operator_exact.

(* ---- examples ---- *)
Section Examples.
Variable R : rcfType.

(* the central difference differentiates quadratics *)
Example grad_ex (p : {poly R}) : (size p <= 3)%N ->
  grad_at (fun f x => (f (x + 1) - f (x - 1)) / 2%:R) p.
Proof. exact: grad_ref. Qed.

(* an Ornstein--Uhlenbeck model meets the hypotheses of kolmogorov_operator_exact *)
Example kolmogorov_ex :
  let grad (f : R -> R) x := (f (x + 1) - f (x - 1)) / 2%:R in
  let A : {poly R} := - 'X in
  let B : {poly R} := 1 in
  [/\ grad_at grad A, grad_at grad (B ^+ 2), grad_at grad (B ^+ 2)^`()
    & forall j, (j < 5)%N -> nth 0 [seq (i%:R : R) | i <- iota 0 5] j = 0 + j%:R * 1].
Proof. exact: kolmogorov_hyp. Qed.

(* one step on the grid 0, 1 with a flat transition density *)
Example brute_ex (py_int : string -> option int) :
  let run := brute_force_filter (fun (f : R -> R) => f) (fun _ _ _ => 1) id (fun _ _ _ => (0, 1)) py_int
    (fun _ => 0) (fun _ => 1) (fun (_ : unit) (s : seq R) => s) [:: 0; 1] 1 1 [:: 1; 1] [:: tt] in
  run "chapman-euler"%string = BfOk [:: [:: 0; 2%:R]] /\
  trapezoid ([:: 0; 1] : seq R) (fun j => nth 0 [:: 0; 2%:R] j) = 1.
Proof. exact: brute_run. Qed.
End Examples.
