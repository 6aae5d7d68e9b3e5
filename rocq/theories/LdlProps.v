(* Properties C15 and C16: LDL factorisation and the LDL-based Cholesky factor. *)
From mathcomp Require Import all_ssreflect all_algebra.
From Verif Require Import LinAlgSpec LdlModel LdlProofs LdlEps SmallMx.
Set Implicit Arguments.
Unset Strict Implicit.
Unset Printing Implicit Defensive.
Import Order.TTheory GRing.Theory Num.Theory.
Local Open Scope ring_scope.

(* C15: the factors reproduce A. The last pivot may be zero. *)
Theorem ldl_correct (R : rcfType) n (A : 'M[R]_n.+1) :
  symmetric A -> (forall i : 'I_n.+1, (i < n)%N -> (ldl A).2 0 i != 0) ->
  [/\ is_trig_mx (ldl A).1, forall i, (ldl A).1 i i = 1
    & (ldl A).1 *m diag_mx (ldl A).2 *m (ldl A).1^T = A].
Proof.
by move=> sA hd; split; [exact: ldl_trig | exact: ldl_diag | exact: ldl_sound].
Qed.
Print Assumptions ldl_correct.

(* C15: it is the only such factorisation. *)
Theorem ldl_unique (R : rcfType) n (A l : 'M[R]_n.+1) (d : 'rV[R]_n.+1) :
  (forall i j : 'I_n.+1, (i <= j)%N -> l i j = (i == j)%:R) ->
  (forall i : 'I_n.+1, (i < n)%N -> d 0 i != 0) ->
  l *m diag_mx d *m l^T = A -> ldl A = (l, d).
Proof. exact: ldl_complete. Qed.
Print Assumptions ldl_unique.

(* C15: the pivots decide positive definiteness. *)
Theorem ldl_pivots_iff_posdef (R : rcfType) n (A : 'M[R]_n.+1) :
  symmetric A -> (posdef A <-> forall i, 0 < (ldl A).2 0 i).
Proof. exact: ldl_posdef_iff. Qed.
Print Assumptions ldl_pivots_iff_posdef.

Example ldl_correct_ex (R : rcfType) :
  let A := mx2 (2%:R : R) 1 1 2%:R in
  [/\ symmetric A, posdef A & forall i : 'I_2, (i < 1)%N -> (ldl A).2 0 i != 0].
Proof.
have pA : posdef (mx2 (2%:R : R) 1 1 2%:R).
  by apply: mx2_posdef; rewrite ?ltr0n // expr1n -natrM subr_gt0 ltr1n.
split=> //; first exact: mx2_sym.
by move=> i _; rewrite gt_eqF // ldl_pivots_of_posdef.
Qed.

(* C16: on positive definite matrices ldl_chol is the Cholesky factor, whatever eps. *)
Theorem ldl_chol_correct (R : rcfType) n (A : 'M[R]_n.+1) (eps : option R) :
  posdef A -> is_chol (ldl_chol A eps) A.
Proof. exact: ldl_chol_is_chol. Qed.
Print Assumptions ldl_chol_correct.

(* C16: on every symmetric matrix without zero leading pivot, R R^T >= A. *)
Theorem ldl_chol_completion (R : rcfType) n (A : 'M[R]_n.+1) (eps : option R) :
  symmetric A -> (forall i : 'I_n.+1, (i < n)%N -> (ldl A).2 0 i != 0) ->
  loewner A (ldl_chol A eps *m (ldl_chol A eps)^T).
Proof. exact: ldl_chol_dominates. Qed.
Print Assumptions ldl_chol_completion.

(* C16: the default eps is 1e-8 times the Frobenius norm: its square is 1e-16 tr(A A^T).  The columns of R are those of
   the unit lower triangular factor, times the root of the pivot where it is not negative and times eps elsewhere. *)
Theorem ldl_chol_columns (R : rcfType) n (A : 'M[R]_n.+1) (eps : R) i j :
  ldl_chol A (Some eps) i j = (ldl A).1 i j * (if (ldl A).2 0 j < 0 then eps else Num.sqrt ((ldl A).2 0 j)).
Proof. by rewrite /ldl_chol; case: (ldl A) => l d; rewrite mxE. Qed.

Theorem ldl_chol_default_eps (R : rcfType) n (A : 'M[R]_n.+1) :
  exists2 e : R, 0 <= e /\ e ^+ 2 * 10%:R ^+ 16 = \tr (A *m A^T) & ldl_chol A None = ldl_chol A (Some e).
Proof. exact: ldl_chol_default. Qed.
Print Assumptions ldl_chol_columns.
Print Assumptions ldl_chol_default_eps.

(* C16: any library Cholesky gives the same factor. *)
Theorem ldl_chol_eq_chol (R : rcfType) n (chol : forall n, 'M[R]_n -> 'M[R]_n)
    (A : 'M[R]_n.+1) (eps : option R) :
  chol_spec chol -> posdef A -> ldl_chol A eps = chol _ A.
Proof. exact: ldl_chol_eq. Qed.
Print Assumptions ldl_chol_eq_chol.

Example ldl_chol_ex (R : rcfType) :
  exists chol : forall n, 'M[R]_n -> 'M[R]_n, chol_spec chol.
Proof. by exists (@chol_ref R); exact: chol_ref_spec. Qed.

(* An indefinite matrix meeting the hypotheses of the completion theorem. *)
Example ldl_chol_completion_ex (R : rcfType) :
  let A := mx2 (- 1 : R) 2%:R 2%:R 1 in
  symmetric A /\ forall i : 'I_2, (i < 1)%N -> (ldl A).2 0 i != 0.
Proof.
split; first exact: mx2_sym.
move=> i hi; have -> : i = 0 by apply: val_inj; case: i hi => [[|]].
by have [-> _] := ldl_col (mx2 (- 1 : R) 2%:R 2%:R 1) 0; rewrite big_pred0 // subr0 mxE oppr_eq0 oner_eq0.
Qed.
