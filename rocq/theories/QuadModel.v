(* Model of mfs/one_dim/quadtures.py. *)
From mathcomp Require Import all_ssreflect all_algebra.
From Verif Require Import Prelude LinAlgSpec LdlModel.
Set Implicit Arguments.
Unset Strict Implicit.
Unset Printing Implicit Defensive.
Import Order.TTheory GRing.Theory Num.Theory.
Local Open Scope ring_scope.

Section Quad.
Variable R : rcfType.
(* jax.lax.linalg.cholesky and jax.lax.linalg.eigh (eigenvectors as columns, eigenvalues).
   The flag sort_nodes only changes the order in which eigh lists the eigenpairs: it is
   part of the eigh argument. *)
Variable chol : forall n, 'M[R]_n -> 'M[R]_n.
Variable eigh : forall n, 'M[R]_n -> 'M[R]_n * 'rV[R]_n.

(* quadtures.py 59-60: hankel_indices(n), entry (i, j) of the two index tables. *)
Definition hankel_inds (i j : nat) : nat * nat := (i + j, (i + j).+1)%N.

(* quadtures.py 124-125: G, H = ms[G_inds], ms[H_inds]. *)
Definition hankel_G (ms : seq R) n : 'M[R]_n := \matrix_(i, j) jget 0 ms (hankel_inds i j).1.
Definition hankel_H (ms : seq R) n : 'M[R]_n := \matrix_(i, j) jget 0 ms (hankel_inds i j).2.

(* quadtures.py 128-129: the two triangular solves. *)
Definition mult_matrix n (L H : 'M[R]_n) : 'M[R]_n :=
  tsolve_right_lower_t L (tsolve_left_lower L H).

(* quadtures.py 131-133: weights eigen_vectors[0, :] ** 2 and nodes. *)
Definition nodes_of n (VL : 'M[R]_n.+1 * 'rV[R]_n.+1) (mean scale : R) : seq R * seq R :=
  ([seq VL.1 0 i ^+ 2 | i <- enum 'I_n.+1],
   [seq scale * VL.2 0 i + mean | i <- enum 'I_n.+1]).

(* quadtures.py 83-133: moment_quadrature. With fewer than two moments the Gram matrix is
   empty and eigen_vectors[0, :] has no row to read: None. *)
Definition moment_quadrature (ms : seq R) (mean scale : R) (use_ldl : bool)
  : option (seq R * seq R) :=
  match (size ms)./2 with
  | 0%N => None
  | n'.+1 =>
      let G := hankel_G ms n'.+1 in
      let H := hankel_H ms n'.+1 in
      let L := if use_ldl then ldl_chol G None else chol G in
      Some (nodes_of (eigh (mult_matrix L H)) mean scale)
  end.

(* quadtures.py 72-76: the Jacobi matrix of size n - 1, from the upper factor Rm (n by n).
   betas[i] = r[i+1] / r[i]; alphas[0] = R[0,1] / R[0,0];
   alphas[i] = R[i,i+1] / r[i] - R[i-1,i] / r[i-1]. *)
Definition gw_rm n (Rm : 'M[R]_n.+2) (i j : nat) : R := Rm (inord i) (inord j).
Definition gw_beta n (Rm : 'M[R]_n.+2) (i : nat) : R := gw_rm Rm i.+1 i.+1 / gw_rm Rm i i.
Definition gw_alpha n (Rm : 'M[R]_n.+2) (i : nat) : R :=
  if i is i'.+1
  then gw_rm Rm i i.+1 / gw_rm Rm i i - gw_rm Rm i' i / gw_rm Rm i' i'
  else gw_rm Rm 0 1 / gw_rm Rm 0 0.
Definition gw_jacobi n (Rm : 'M[R]_n.+2) : 'M[R]_n.+1 :=
  \matrix_(i, j)
   (if (i == j :> nat) then gw_alpha Rm i
    else if (i == j.+1 :> nat) then gw_beta Rm j
    else if (j == i.+1 :> nat) then gw_beta Rm i
    else 0).

(* quadtures.py 63-80: _gauss_quadrature_golub_welsch. It needs at least four moments:
   for fewer, R[0, 1] does not exist (None). *)
Definition gauss_quadrature_golub_welsch (sms : seq R) (mean scale : R)
  : option (seq R * seq R) :=
  match (size sms)./2 with
  | n'.+2 =>
      let Rm := (chol (hankel_G sms n'.+2))^T in
      Some (nodes_of (eigh (gw_jacobi Rm)) mean scale)
  | _ => None
  end.

(* quadtures.py 151-183: taylor_quadrature; [derivs r x] is the r-th derivative of the
   integrand returned by make_derivatives (136-148). *)
Definition taylor_quadrature (derivs : nat -> R -> R) (cms : seq R) (mean : R) (order : nat) : R :=
  foldl (fun res r => res + derivs r mean * jget 0 cms r / (r`!)%:R)
        (derivs 0%N mean) (iota 1 order).

(* The way every caller uses a rule: einsum of weights and integrand values. *)
Definition expect (ws xs : seq R) (f : R -> R) : R :=
  jsum [seq p.1 * f p.2 | p <- zip ws xs].
End Quad.
