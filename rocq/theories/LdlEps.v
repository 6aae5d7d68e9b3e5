(* The default regularisation of ldl_chol: proofs. *)
From mathcomp Require Import all_ssreflect all_algebra.
From Verif Require Import LinAlgSpec LdlModel.
Set Implicit Arguments.
Unset Strict Implicit.
Unset Printing Implicit Defensive.
Import Order.TTheory GRing.Theory Num.Theory.
Local Open Scope ring_scope.

Lemma ldl_chol_default (R : rcfType) n (A : 'M[R]_n.+1) :
  exists2 e : R, 0 <= e /\ e ^+ 2 * 10%:R ^+ 16 = \tr (A *m A^T) & ldl_chol A None = ldl_chol A (Some e).
Proof.
exists ((10%:R ^+ 8)^-1 * fro_norm A) => //; split.
  by rewrite mulr_ge0 ?sqrtr_ge0 // invr_ge0 exprn_ge0 ?ler0n.
have s0 : 0 <= \sum_i \sum_j A i j ^+ 2 by apply: sumr_ge0 => i _; apply: sumr_ge0 => j _; exact: sqr_ge0.
have t0 : (10%:R : R) != 0 by rewrite pnatr_eq0.
rewrite exprMn sqr_sqrtr // mulrAC exprVn -exprM mulVf ?expf_neq0 // mul1r.
rewrite /mxtrace; apply: eq_bigr => i _; rewrite mxE; apply: eq_bigr => j _.
by rewrite mxE expr2.
Qed.
