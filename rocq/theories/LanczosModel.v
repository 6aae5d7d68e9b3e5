(* Model of lanczos and lanczos_ritz, mfs/utils.py lines 340-428. *)
From mathcomp Require Import all_ssreflect all_algebra.
From Verif Require Import Prelude.
Set Implicit Arguments.
Unset Strict Implicit.
Unset Printing Implicit Defensive.
Import Order.TTheory GRing.Theory Num.Theory.
Local Open Scope ring_scope.

Section Lanczos.
Variable R : rcfType.
(* jax.lax.linalg.eigh; sort_eigenvalues only changes the order of the eigenpairs *)
Variable eigh : forall n, 'M[R]_n -> 'M[R]_n * 'rV[R]_n.

(* jnp.dot and jnp.sum(w ** 2) *)
Definition dotv n (u v : 'cV[R]_n) : R := \sum_i u i 0 * v i 0.
Definition norm2 n (w : 'cV[R]_n) : R := Num.sqrt (\sum_i w i 0 ^+ 2).

Section Body.
Variables (n : nat) (a : 'M[R]_n).

(* lines 373-382 *)
Definition lanczos_body (carry : 'cV[R]_n * 'cV[R]_n) (_ : nat) :
    ('cV[R]_n * 'cV[R]_n) * ('cV[R]_n * R * R) :=
  let (v_, w) := carry in
  let beta := norm2 w in
  let v := beta^-1 *: w in
  let wp := a *m v in
  let alpha := dotv wp v in
  let w := wp - alpha *: v - beta *: v_ in
  ((v, w), (v, alpha, beta)).

(* lines 384-389; m >= 1 (jnp.arange(m - 1) is empty for m = 0, too); the columns of V, the
   diagonal and the off-diagonal *)
Definition lanczos (v0 : 'cV[R]_n) (m : nat) : seq 'cV[R]_n * seq R * seq R :=
  let wp0 := a *m v0 in
  let alpha0 := dotv wp0 v0 in
  let w0 := wp0 - alpha0 *: v0 in
  let out := (scan lanczos_body (v0, w0) (iota 0 m.-1)).2 in
  (v0 :: [seq o.1.1 | o <- out], alpha0 :: [seq o.1.2 | o <- out], [seq o.2 | o <- out]).
End Body.

(* jnp.vstack([v0, vs]).T *)
Definition columns n m (vs : seq 'cV[R]_n) : 'M[R]_(n, m) := \matrix_(i, j) nth 0 vs j i 0.

(* line 426: jnp.diag(alphas) + jnp.diag(betas, k=-1) + jnp.diag(betas, k=1) *)
Definition tridiag m (alphas betas : seq R) : 'M[R]_m :=
  \matrix_(i, j) ((if i == j :> nat then nth 0 alphas i else 0)
    + (if i == j.+1 :> nat then nth 0 betas j else 0)
    + (if i.+1 == j :> nat then nth 0 betas i else 0)).

(* lines 420-428; None is the NotImplementedError; pre_eigenvectors[0, :] needs m >= 1 *)
Definition lanczos_ritz n (a : 'M[R]_n) (v0 : 'cV[R]_n) (m : nat) (eigh_tridiagonal : bool) :
    option ('M[R]_(n, m.+1) * 'rV[R]_m.+1) :=
  if eigh_tridiagonal then None else
  let norm := norm2 v0 in
  let: (vs, alphas, betas) := lanczos a (norm^-1 *: v0) m.+1 in
  let V := columns m.+1 vs in
  let: (U, lam) := eigh (tridiag m.+1 alphas betas) in
  Some (\matrix_(i, j) (\sum_k V i k * U k j * (U 0 j * norm)), lam).
End Lanczos.
