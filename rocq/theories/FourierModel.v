(* Model of the characteristic functions, mfs/one_dim/moments.py lines 309-343, and of
   inverse_fourier, mfs/one_dim/pdf_approximations.py lines 192-212. *)
From mathcomp Require Import all_ssreflect all_algebra.
From mathcomp Require Import complex.
From Verif Require Import Prelude QuadModel.
Set Implicit Arguments.
Unset Strict Implicit.
Unset Printing Implicit Defensive.
Import Order.TTheory GRing.Theory Num.Theory.
Local Open Scope ring_scope.

Section Fourier.
Variable R : rcfType.
Variable chol : forall n, 'M[R]_n -> 'M[R]_n.
Variable eigh : forall n, 'M[R]_n -> 'M[R]_n * 'rV[R]_n.
(* jnp.exp on complex numbers, and math.pi *)
Variable cexp : R[i] -> R[i].
Variable pi : R.
Local Notation cx x := (real_complex R x).

(* moments.py 336-337; None as in moment_quadrature *)
Definition characteristic_fn (z : R) (ms : seq R) (mean scale : R) : option R[i] :=
  if moment_quadrature chol eigh ms mean scale false is Some (weights, nodes)
  then Some (jsum [seq p.1 * cx p.2 | p <- zip [seq cexp ('i%C * cx z * cx x) | x <- nodes] weights])
  else None.

(* moments.py 340-343 *)
Definition characteristic_from_pdf (z : R) (ps xs : seq R) : R[i] :=
  trapz [seq cexp ('i%C * cx z * cx p.1) * cx p.2 | p <- zip xs ps] [seq cx x | x <- xs].

(* pdf_approximations.py 212 *)
Definition inverse_fourier (x : R) (cfs : seq R[i]) (zs : seq R) : R :=
  complex.Re (trapz [seq cexp (- 'i%C * cx x * cx p.1) * p.2 | p <- zip zs cfs] [seq cx z | z <- zs])
    / (2%:R * pi).
End Fourier.
