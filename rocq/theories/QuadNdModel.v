(* Model of moment_quadrature_nd (mfs/multi_dims/quadratures.py). *)
From mathcomp Require Import all_ssreflect all_algebra.
From Verif Require Import Prelude MultiIndexModel NdIndexModel LinAlgSpec LdlModel QuadModel.
Set Implicit Arguments.
Unset Strict Implicit.
Unset Printing Implicit Defensive.
Import Order.TTheory GRing.Theory Num.Theory.
Local Open Scope ring_scope.

Section QuadNd.
Variable R : rcfType.
(* jax.lax.linalg.cholesky and jax.lax.linalg.eigh, as in QuadModel. *)
Variable chol : forall n, 'M[R]_n -> 'M[R]_n.
Variable eigh : forall n, 'M[R]_n -> 'M[R]_n * 'rV[R]_n.

(* quadratures.py 151-152: ms[inds[k]], one n by n table of indices into ms. *)
Definition table_mx (ms : seq R) (table : seq (seq int)) n : 'M[R]_n :=
  \matrix_(i, j) jget 0 ms (absz (nth 0 (nth [::] table i) j)).

(* quadratures.py 166: combs_eigvals = nd_cartesian_prod(eigvals, combs_inds); one list
   of eigenvalues per axis. *)
Definition combs_eigvals n (eigs : seq ('M[R]_n * 'rV[R]_n)) (combs : seq (seq nat))
  : seq (seq R) :=
  nd_cartesian_prod 0 [seq [seq (VL : 'M[R]_n * 'rV[R]_n).2 0 i | i <- enum 'I_n] | VL <- eigs] combs.

(* quadratures.py 167 with the three-dimensional branch (line 80) of nd_cartesian_prod:
   combs_eigvectors[r, l, a] = eigvectors[a, l, combs_inds[r, a]]. Row r is modelled by
   the list over a of the columns combs_eigvectors[r, :, a]. *)
Definition combs_eigvectors n (eigs : seq ('M[R]_n * 'rV[R]_n)) (combs : seq (seq nat))
  : seq (seq 'cV[R]_n) :=
  nd_cartesian_prod 0 [seq [seq col i (VL : 'M[R]_n * 'rV[R]_n).1 | i <- enum 'I_n] | VL <- eigs] combs.

(* quadratures.py 169-170 for one r: the product over k of the inner products of
   consecutive eigenvectors, times the first entries of the first and of the last one. *)
Definition chained_weight n (cv : seq 'cV[R]_n.+1) : R :=
  jprod [seq (\sum_(l < n.+1) nth 0 cv k l 0 * nth 0 cv k.+1 l 0) | k <- iota 0 (size cv).-1]
  * nth 0 cv 0 0 0 * nth 0 cv (size cv).-1 0 0.

(* quadratures.py 172-178: the nodes; a scale without a mean is ignored. *)
Definition place_nodes (mean scale : option (seq R)) (x : seq R) : seq R :=
  match mean, scale with
  | None, _ => x
  | Some m, None => [seq nth 0 x a + nth 0 m a | a <- iota 0 (size x)]
  | Some m, Some s => [seq nth 0 x a * nth 0 s a + nth 0 m a | a <- iota 0 (size x)]
  end.

(* quadratures.py 120-178. With no axis (d = 0) or an empty basis the code reads a row or
   column that does not exist: None. *)
Definition moment_quadrature_nd (ms : seq R) (inds : seq (seq (seq int)))
    (mean scale : option (seq R)) (use_ldl : bool) : option (seq R * seq (seq R)) :=
  let d := (size inds).-1 in
  match d, size (nth [::] inds 0) with
  | d'.+1, n'.+1 =>
      let G := table_mx ms (nth [::] inds 0) n'.+1 in
      let L := if use_ldl then ldl_chol G None else chol G in
      let eigs := [seq eigh (mult_matrix L (table_mx ms t n'.+1)) | t <- behead inds] in
      let combs := nd_cartesian_prod_indices d n'.+1 in
      Some ([seq chained_weight cv | cv <- combs_eigvectors eigs combs],
            [seq place_nodes mean scale x | x <- combs_eigvals eigs combs])
  | _, _ => None
  end.

(* The way every caller uses a rule: einsum of weights and integrand values at the nodes. *)
Definition expect_nd (ws : seq R) (xs : seq (seq R)) (f : seq R -> R) : R :=
  jsum [seq p.1 * f p.2 | p <- zip ws xs].
End QuadNd.
