(* Sigma-point rules: mfs/classical_filters_smoothers/quadratures.py:110-194 and 232-272.
   The record SigmaPoints, gen_sigma_points and expectation are in GfsModel.  np.roots and
   np.pi enter as arguments. *)
From mathcomp Require Import all_ssreflect all_algebra.
From Verif Require Import Prelude GfsModel.
Set Implicit Arguments.
Unset Strict Implicit.
Unset Printing Implicit Defensive.
Import Order.TTheory GRing.Theory Num.Theory.
Local Open Scope ring_scope.

Section Sigma.
Variable R : rcfType.

(* quadratures.py:110-134 _gen_hermite_poly_coeff: coefficients from highest to lowest;
   the loop over i = 2, ..., order appends 2 append(H[i-1], 0) - 2 (i-1) pad(H[i-2], (2, 0)) *)
Definition np_sub (a b : seq R) : seq R := [seq p.1 - p.2 | p <- zip a b].
Definition hermite_next (H : seq (seq R)) (i : nat) : seq (seq R) :=
  rcons H (np_sub [seq 2%:R * x | x <- rcons (nth [::] H (i - 1)) 0]
                  [seq 2%:R * (i - 1)%:R * x | x <- 0 :: 0 :: nth [::] H (i - 2)]).
Definition gen_hermite_poly_coeff (order : nat) : seq (seq R) :=
  foldl hermite_next [:: [:: 1]; [:: 2%:R; 0]] (iota 2 (order - 1)).

(* np.polyval(c, x): coefficients from highest to lowest *)
Definition polyval (c : seq R) (x : R) : R := foldl (fun acc a => acc * x + a) 0 c.

(* quadratures.py:136-148 cubature: the rows of sqrt(d) concatenate([eye(d), -eye(d)]) *)
Definition cubature (d : nat) : sigma_points R d :=
  let n_points := (2 * d)%N in
  SigmaPoints
    [seq 1 / n_points%:R | _ <- iota 0 n_points]
    [seq Num.sqrt d%:R *: x | x <- [seq (row i 1%:M)^T | i <- enum 'I_d]
                                   ++ [seq (row i (- 1%:M))^T | i <- enum 'I_d]].

(* quadratures.py:150-152 unscented: raises NotImplementedError *)
Definition unscented (d : nat) (alpha beta lam : R) : option (sigma_points R d) := None.

Variable roots : seq R -> seq R.   (* np.roots *)
Variable pi : R.                   (* np.pi *)

(* quadratures.py:172-178: the one-dimensional weights *)
Definition gh_weights_1d (order : nat) (hermite_coeff : seq (seq R)) (hermite_roots : seq R)
  : seq R :=
  [seq 2%:R ^+ (order - 1) * (order`!)%:R * Num.sqrt pi /
       (order%:R ^+ 2 * polyval (nth [::] hermite_coeff (order - 1)) (nth 0 hermite_roots i) ^+ 2)
  | i <- iota 0 order].

(* quadratures.py:180-188: row d - i - 1 of the roll table, shifted to zero-based indices:
   blocks 0, ..., order - 1 of length order^(d - i - 1), tiled order^i times *)
Definition gh_base (d order i : nat) : seq nat :=
  flatten [seq nseq (order ^ (d - i - 1)) j | j <- iota 0 order].
Definition gh_table_row (d order r : nat) : seq nat :=
  let i := (d - r - 1)%N in flatten (nseq (order ^ i) (gh_base d order i)).

(* quadratures.py:154-194 gauss_hermite: point c has coordinates
   sqrt(2) hermite_roots[table[r, c]], weight pi^(-d/2) prod_r w_1d[table[r, c]] *)
Definition gauss_hermite (d order : nat) : sigma_points R d :=
  let n_points := (order ^ d)%N in
  let hermite_coeff := gen_hermite_poly_coeff order in
  let hermite_roots := rev (roots (last [::] hermite_coeff)) in
  let w_1d := gh_weights_1d order hermite_coeff hermite_roots in
  let table := fun (r : 'I_d) c => nth 0%N (gh_table_row d order r) c in
  let s := 1 / Num.sqrt pi ^+ d in
  SigmaPoints
    [seq s * \prod_(r < d) nth 0 w_1d (table r c) | c <- iota 0 n_points]
    [seq \col_(r < d) (Num.sqrt 2%:R * nth 0 hermite_roots (table r c)) | c <- iota 0 n_points].

(* quadratures.py:232-272 gaussian_expectation; func is vectorised over the points.  The
   reshape of force_shape=True does not change the data. *)
Definition gaussian_expectation (d order : nat) a b (ms : seq 'cV[R]_d) (chol_vs : seq 'M[R]_d)
    (func : seq 'cV[R]_d -> seq 'M[R]_(a, b)) : seq 'M[R]_(a, b) :=
  let sgps := gauss_hermite d order in
  [seq expectation_from_nodes sgps func (gen_sigma_points sgps p.1 p.2) | p <- zip ms chol_vs].
End Sigma.
