(* Model of mfs/one_dim/pdf_approximations.py.

   exp, log and pi are arguments.  The derivatives d_cgf, dd_cgf of saddle_point
   (automatic differentiation) only enter the final exponential factor and are not
   modelled; the saddle point s itself is. *)
From mathcomp Require Import all_ssreflect all_algebra.
From Verif Require Import Prelude Moments1DModel.
Set Implicit Arguments.
Unset Strict Implicit.
Unset Printing Implicit Defensive.
Import Order.TTheory GRing.Theory Num.Theory.
Local Open Scope ring_scope.

Section Pdf.
Variable R : rcfType.
Variables (exp log : R -> R) (pi : R).

(* lines 80-81 *)
Definition gc_base (mean variance x : R) : R :=
  1 / Num.sqrt (2%:R * pi * variance) * exp (- (x - mean) ^+ 2 / 2%:R / variance).

(* the sum of lines 85-88; variance ** (j / 2) is sqrt(variance) ** j *)
Definition gc_series (cumulants : seq R) (x : R) : R :=
  let order := size cumulants in
  let mean := jget 0 cumulants 0 in
  let variance := jget 0 cumulants 1 in
  let bell_input := [:: 0; 0] ++ drop 2 cumulants in
  let h := (x - mean) / Num.sqrt variance in
  jsum [seq complete_bell j (take j bell_input)
            / ((j`!)%:R * Num.sqrt variance ^+ j) * hermite_probabilist j h
       | j <- iota 0 order.+1].

(* lines 56-90 *)
Definition gram_charlier (cumulants : seq R) (x : R) : R :=
  gc_base (jget 0 cumulants 0) (jget 0 cumulants 1) x * gc_series cumulants x.

(* lines 117-121; placeholder[k - 2 i] *)
Definition legendre_comb (k : nat) (placeholder : seq R) : R :=
  jsum [seq (-1) ^+ i * 2%:R ^- k * ((2 * k - 2 * i)`!)%:R
            / ((i`!)%:R * ((k - i)`!)%:R * ((k - 2 * i)`!)%:R)
            * jget 0 placeholder (k - 2 * i)
       | i <- iota 0 (k./2).+1].

(* lines 123-124 *)
Definition legendre (k : nat) (x : R) : R :=
  legendre_comb k [seq x ^+ i | i <- iota 0 k.+1].

(* lines 126-127 *)
Definition legendre_coeff (rms : seq R) (k : nat) : R :=
  (2 * k + 1)%:R / 2%:R * legendre_comb k rms.

(* lines 98-134 *)
Definition legendre_poly_expansion (rms : seq R) (a b : R) (x : R) : R :=
  2%:R / (b - a)
  * jsum [seq legendre_coeff rms k * legendre k ((2%:R * x - (a + b)) / (b - a))
         | k <- iota 0 (size rms)].

(* lines 137-160 *)
Definition truncated_cgf (z : R) (ms : seq R) (mean scale : R) : R :=
  z * mean + log (jsum [seq (z * scale) ^+ n / (n`!)%:R * jget 0 ms n | n <- iota 0 (size ms)]).

(* line 170: coefficients, highest order first *)
Definition sms_poly (sms : seq R) : seq R :=
  rev [seq jget 0 sms n / (n`!)%:R | n <- iota 0 (size sms)].

(* jnp.polyder on highest-first coefficients *)
Definition polyder (p : seq R) : seq R :=
  [seq (size p - 1 - i)%:R * p`_i | i <- iota 0 (size p - 1)%N].

(* jnp.polyadd: the shorter operand is padded with leading zeros *)
Definition polyadd (p q : seq R) : seq R :=
  let n := maxn (size p) (size q) in
  let pad s := nseq (n - size s)%N 0 ++ s in
  [seq t.1 + t.2 | t <- zip (pad p) (pad q)].

(* jnp.argmin: first index of the minimum *)
Fixpoint argmin_from (best : R) (bi i : nat) (s : seq R) : nat :=
  match s with
  | [::] => bi
  | x :: s' => if x < best then argmin_from x i i.+1 s' else argmin_from best bi i.+1 s'
  end.
Definition argmin (s : seq R) : nat :=
  match s with [::] => 0%N | x :: s' => argmin_from x 0 1 s' end.

(* lines 178-180 for a real array: every entry has imaginary part 0 < 1e-8 *)
Definition find_nearest_real_root (roots : seq R) (p : R) : R :=
  jget 0 roots (argmin [seq `|r - p| | r <- roots]).

(* line 184, highest order first *)
Definition saddle_equation_poly (sms : seq R) (mean scale x : R) : seq R :=
  polyadd [seq (mean - x) * c | c <- sms_poly sms]
          [seq scale * c | c <- polyder (sms_poly sms)].

(* lines 185-186: the saddle point s of pdf(x); the coefficients are passed as roots *)
Definition saddle_s (sms : seq R) (mean scale x : R) : R :=
  find_nearest_real_root (saddle_equation_poly sms mean scale x)
                         ((x - mean) / scale ^+ 2) / scale.
End Pdf.
