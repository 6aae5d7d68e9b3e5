(* Model of mfs/utils.py: ldl (495-523) and ldl_chol (526-538). *)
From mathcomp Require Import all_ssreflect all_algebra.
Set Implicit Arguments.
Unset Strict Implicit.
Unset Printing Implicit Defensive.
Import Order.TTheory GRing.Theory Num.Theory.
Local Open Scope ring_scope.

Section Ldl.
Variable R : rcfType.
Variable n : nat.
(* The matrix is n.+1 by n.+1: on an empty matrix the Python code fails at mat[0, 0]. *)
Implicit Types (mat l : 'M[R]_n.+1) (d : 'rV[R]_n.+1).

(* utils.py 515: l = eye(n).at[1:, 0].set(mat[1:, 0] / mat[0, 0]). *)
Definition ldl_l0 mat : 'M[R]_n.+1 :=
  \matrix_(i, j) (if (j == 0%N :> nat) && (0 < i)%N then mat i 0 / mat 0 0 else (i == j)%:R).

(* utils.py 516: d = ones((n,)) * mat[0, 0]. *)
Definition ldl_d0 mat : 'rV[R]_n.+1 := \row_i (1 * mat 0 0).

(* utils.py 518: v = l[j, :j] * d[:j], entry k < j. *)
Definition ldl_v l d (j k : 'I_n.+1) : R := l j k * d 0 k.

(* utils.py 519: _d = mat[j, j] - dot(l[j, :j], v). *)
Definition ldl_pivot mat l d (j : 'I_n.+1) : R :=
  mat j j - \sum_(k < n.+1 | (k < j)%N) l j k * ldl_v l d j k.

(* utils.py 518-521: one iteration of the loop body. *)
Definition ldl_body mat (ld : 'M[R]_n.+1 * 'rV[R]_n.+1) (j : 'I_n.+1) :=
  let: (l, d) := ld in
  let dj := ldl_pivot mat l d j in
  let d' := \row_i (if i == j then dj else d 0 i) in
  let l' := \matrix_(i, k)
    (if (k == j) && (j < i)%N
     then (mat i j - \sum_(k' < n.+1 | (k' < j)%N) l i k' * ldl_v l d j k') / dj
     else l i k) in
  (l', d').

(* utils.py 514-522: the loop runs over j in range(1, n). *)
Definition ldl mat : 'M[R]_n.+1 * 'rV[R]_n.+1 :=
  foldl (fun ld j => ldl_body mat ld (inord j)) (ldl_l0 mat, ldl_d0 mat) (iota 1 n).

(* jnp.linalg.norm(mat, 'fro') *)
Definition fro_norm mat : R := Num.sqrt (\sum_i \sum_j mat i j ^+ 2).

(* utils.py 526-538; [eps = None] selects 1e-8 * ||mat||_F. *)
Definition ldl_chol mat (eps : option R) : 'M[R]_n.+1 :=
  let e := if eps is Some e then e else (10%:R ^+ 8)^-1 * fro_norm mat in
  let: (l, d) := ldl mat in
  \matrix_(i, j) (l i j * (if d 0 j < 0 then e else Num.sqrt (d 0 j))).
End Ldl.
