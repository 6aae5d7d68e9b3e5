(* Model of the Cartesian-product helpers of mfs/multi_dims/quadratures.py and of the
   moment extraction helpers of mfs/multi_dims/moments.py. *)
From mathcomp Require Import all_ssreflect all_algebra.
From Verif Require Import Prelude MultiIndexModel.
Set Implicit Arguments.
Unset Strict Implicit.
Unset Printing Implicit Defensive.

(* itertools.product over ranges: rightmost coordinate varies fastest. *)
Fixpoint itertools_product (T : Type) (ranges : seq (seq T)) : seq (seq T) :=
  match ranges with
  | [::] => [:: [::]]
  | r :: rs => flatten [seq [seq x :: t | t <- itertools_product rs] | x <- r]
  end.

(* multi_dims/quadratures.py:29-48 nd_cartesian_prod_indices. *)
Definition nd_cartesian_prod_indices (d n : nat) : seq (seq nat) :=
  itertools_product (nseq d (iota 0 n)).

(* multi_dims/quadratures.py:51-87 nd_cartesian_prod for a two-dimensional x given as
   the list of its d rows.  x.T[inds] has entry [r, p, q] = x[q, inds[r, p]] and the
   diagonal over the last two axes keeps p = q (line 76). *)
Definition nd_cartesian_prod (T : Type) (x0 : T) (x : seq (seq T)) (inds : seq (seq nat))
  : seq (seq T) :=
  [seq [seq jget x0 (nth [::] x a) (nth 0 ind a) | a <- iota 0 (size x)] | ind <- inds].

(* jnp.reshape(-1, d) of a flat array into rows of d entries (row-major). *)
Fixpoint rows_of (T : Type) (d fuel : nat) (flat : seq T) : seq (seq T) :=
  if fuel is f.+1 then take d flat :: rows_of d f (drop d flat) else [::].

(* multi_dims/quadratures.py:90-113 nd_cartesian_prod_2.  jnp.meshgrid with its default
   'xy' indexing exchanges the roles of the first two axes: the a-th output at grid
   position t is x[a, t_{sigma a}] where sigma swaps 0 and 1.  jnp.array stacks the d
   outputs along a new first axis and the result is reshaped to (-1, d). *)
Definition xy_axis (a : nat) : nat := match a with 0 => 1 | 1 => 0 | _ => a end.
Definition nd_cartesian_prod_2 (T : Type) (x0 : T) (x : seq (seq T)) (n : nat)
  : seq (seq T) :=
  let d := size x in
  let axis a := if d == 1 then a else xy_axis a in
  let grid := nd_cartesian_prod_indices d n in
  let flat :=
    flatten [seq [seq nth x0 (nth [::] x a) (nth 0 t (axis a)) | t <- grid]
            | a <- iota 0 d] in
  rows_of d (size grid) flat.

Section Extract.
Variables (T : Type) (x0 : T).

(* multi_dims/moments.py:184-199 extract_moments (one multi-index, last axis). *)
Definition extract_moments (ms : seq T) (mi : seq nat) : option T :=
  omap (fun i : int => jget x0 ms `|i|%N) (find_index mi).

(* multi_dims/moments.py:219-224: [0] * d with entry i set to 1. *)
Definition unit_index (d i : nat) : seq nat := set_nth 0 (nseq d 0) i 1.

(* multi_dims/moments.py:202-225 extract_mean. *)
Definition extract_mean (ms : seq T) (d : nat) : option (seq T) :=
  all_some [seq extract_moments ms (unit_index d i) | i <- iota 0 d].

(* multi_dims/moments.py:228-254 extract_cov. *)
Definition extract_cov (ms : seq T) (d : nat) : option (seq (seq T)) :=
  all_some [seq all_some [seq extract_moments ms (mi_incr (unit_index d i) j)
                         | j <- iota 0 d]
           | i <- iota 0 d].

(* multi_dims/moments.py:482-504 marginalise_moments. *)
Definition marginalise_moments (ms : seq T) (d N var_axis : nat) : option (seq T) :=
  all_some [seq extract_moments ms (set_nth 0 (nseq d 0) var_axis p)
           | p <- iota 0 (2 * N)].
End Extract.
