(* Two-by-two matrices used in the examples. *)
From mathcomp Require Import all_ssreflect all_algebra.
From mathcomp Require Import ring zify.
From Verif Require Import LinAlgSpec LinAlgProofs.
Set Implicit Arguments.
Unset Strict Implicit.
Unset Printing Implicit Defensive.
Import Order.TTheory GRing.Theory Num.Theory.
Local Open Scope ring_scope.

Section Small.
Variable R : rcfType.

Definition mx2 (a b c d : R) : 'M[R]_2 :=
  \matrix_(i, j) (if i == 0 then (if j == 0 then a else b) else (if j == 0 then c else d)).

Lemma mx2_sym a b d : symmetric (mx2 a b b d).
Proof. by apply/matrixP => i j; rewrite !mxE; case: (i == 0); case: (j == 0). Qed.

Lemma qform_mx2 a b d u :
  qform (mx2 a b b d) u = a * u 0 0 ^+ 2 + 2%:R * b * u 0 0 * u 1 0 + d * u 1 0 ^+ 2.
Proof.
rewrite qform_sum !big_ord_recl !big_ord0.
have -> : lift ord0 ord0 = 1 :> 'I_2 by apply: val_inj.
rewrite -[ord0]/(0 : 'I_2) ![mx2 _ _ _ _ _ _]mxE /=; mring.
Qed.

Lemma mx2_posdef a b d : 0 < a -> 0 < a * d - b ^+ 2 -> posdef (mx2 a b b d).
Proof.
move=> ha hdet; split; first exact: mx2_sym.
move=> u un0; rewrite qform_mx2.
have an0 : a != 0 by rewrite gt_eqF.
have -> : a * u 0 0 ^+ 2 + 2%:R * b * u 0 0 * u 1 0 + d * u 1 0 ^+ 2 =
   a * (u 0 0 + b / a * u 1 0) ^+ 2 + (a * d - b ^+ 2) / a * u 1 0 ^+ 2.
  by gen_entries; field.
case: (eqVneq (u 1 0) 0) => [e1|n1].
  have n0 : u 0 0 != 0.
    apply: contraNneq un0 => e0; apply/eqP/colP => i; rewrite mxE.
    case: i => [[|[|i]]] hi //; [rewrite -[RHS]e0|rewrite -[RHS]e1]; by congr (u _ _); apply: val_inj.
  by rewrite e1 mulr0 addr0 expr0n /= mulr0 addr0 mulr_gt0 // lt_def sqrf_eq0 n0 sqr_ge0.
apply: ltr_paddl; first by rewrite mulr_ge0 ?sqr_ge0 // ltW.
by rewrite mulr_gt0 ?divr_gt0 // lt_def sqrf_eq0 n1 sqr_ge0.
Qed.
End Small.
