(* C140: in dimension one the densities of GaussianSumND are those of GaussianSum1D. *)
From mathcomp Require Import all_ssreflect all_algebra.
From mathcomp Require Import ring.
From Verif Require Import Prelude LinAlgSpec LinAlgProofs ConvModel ConvProofs SsModel SsProofs GsPdfModel GsPdf.
Set Implicit Arguments.
Unset Strict Implicit.
Unset Printing Implicit Defensive.
Import Order.TTheory GRing.Theory Num.Theory.
Local Open Scope ring_scope.

Section P.
Variable R : rcfType.
Variables (exp log : R -> R) (pi : R).
Hypothesis eA : exp_add exp.
Hypothesis eP : exp_spec exp.
Hypothesis lP : log_spec exp log.
Hypothesis pi0 : 0 < pi.
Variable chol : forall n, 'M[R]_n -> 'M[R]_n.
Hypothesis cholP : chol_spec chol.

Lemma qform1 (a z : R) : qform (a%:M : 'M_1) (z%:M : 'M_1) = a * z ^+ 2.
Proof. by rewrite /qform tr_scalar_mx -!scalar_mxM mxE eqxx mulr1n mulrAC mulrC expr2. Qed.

Lemma posdef1 (v : R) : 0 < v -> posdef (v%:M : 'M_1).
Proof.
move=> v0; split; first by rewrite /symmetric tr_scalar_mx.
move=> u u0; have -> : u = (u 0 0)%:M by apply/matrixP => i j; rewrite !ord1 mxE eqxx mulr1n.
rewrite qform1 mulr_gt0 // exprn_even_gt0 //=; apply: contraNneq u0 => e.
by apply/eqP/matrixP => i j; rewrite !ord1 e mxE.
Qed.

Theorem gsn_pdf_dim1 (means variances weights xs : seq R) : size means = size weights -> size variances = size weights ->
  all (fun v => 0 < v) variances ->
  [seq gsn_pdf exp log pi chol [seq (m%:M : 'cV[R]_1) | m <- means] [seq (v%:M : 'M[R]_1) | v <- variances] weights (x%:M) | x <- xs]
  = gs1_pdf exp log pi means variances weights xs.
Proof.
move=> s1 s2 pv; rewrite gs1_pdfE //; apply: eq_map => x; rewrite (gsn_pdfE eA eP lP pi0 cholP) ?size_map //; last first.
  by move=> C /mapP [v hv ->]; apply: posdef1; apply: (allP pv).
have zm (A B C D : Type) (f : A -> C) (g : B -> D) (u : seq A) (w : seq B) : zip (map f u) (map g w) = [seq (f p.1, g p.2) | p <- zip u w].
  by elim: u w => [|y u ih] [|z w] //=; rewrite ih.
rewrite zm -{1}[weights]map_id zm big_map big_seq [RHS]big_seq; apply: eq_bigr => t ht /=.
have v0 : 0 < t.1.2.
  have h : t.1 \in zip means variances by rewrite -(@unzip1_zip _ _ (zip means variances) weights) ?size_zip ?s1 ?s2 ?minnn // map_f.
  by apply: (allP pv); rewrite -(@unzip2_zip _ _ means variances) ?s1 ?s2 // map_f.
congr (_ * (exp _ / Num.sqrt _)); last by rewrite expr1 det_scalar1.
rewrite invmx_scalar -raddfB /= qform1; field; by rewrite lt0r_neq0 // pnatr_eq0.
Qed.
End P.
Print Assumptions gsn_pdf_dim1.

(* the premises hold of one component *)
Example gsn_pdf_dim1_ex (R : rcfType) : all (fun v : R => 0 < v) [:: 2%:R] /\ posdef ((2%:R)%:M : 'M[R]_1).
Proof. by split; [rewrite /= ltr0n|apply: posdef1; rewrite ltr0n]. Qed.
