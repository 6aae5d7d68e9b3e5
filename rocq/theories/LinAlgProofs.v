(* Linear algebra over a real closed field: uniqueness of Cholesky factors, spectral
   theorem, functional calculus. *)
From mathcomp Require Import all_ssreflect all_algebra.
From mathcomp Require Import complex.
From mathcomp Require Import ring zify.
From Verif Require Import LinAlgSpec.
Set Implicit Arguments.
Unset Strict Implicit.
Unset Printing Implicit Defensive.
Import Order.TTheory GRing.Theory Num.Theory.
Local Open Scope ring_scope.

(* ring/field with matrix entries as atoms *)
Ltac gen_entries := repeat match goal with
  | |- context [@fun_of_matrix ?T ?m ?n ?A ?i ?j] =>
      let x := fresh "x" in move: (@fun_of_matrix T m n A i j) => x
  end.
Ltac mring := gen_entries; ring.

Section Entries.
Variables (R : ringType) (m n : nat).
Implicit Types A B : 'M[R]_(m, n).
Lemma mxaddE A B i j : (A + B) i j = A i j + B i j. Proof. by rewrite mxE. Qed.
Lemma mxoppE A i j : (- A) i j = - A i j. Proof. by rewrite mxE. Qed.
Lemma mxscaleE a A i j : (a *: A) i j = a * A i j. Proof. by rewrite mxE. Qed.
Lemma trZmx a A : (a *: A)^T = a *: A^T.
Proof. by apply/matrixP => i j; rewrite !mxE. Qed.
End Entries.
Definition mxlin := (mxaddE, mxoppE, mxscaleE).

Section Dot.
Variable R : rcfType.

Lemma dotE n (u v : 'cV[R]_n) : (u^T *m v) 0 0 = \sum_i u i 0 * v i 0.
Proof. by rewrite mxE; apply: eq_bigr => i _; rewrite mxE. Qed.

Lemma dot_ge0 n (u : 'cV[R]_n) : 0 <= (u^T *m u) 0 0.
Proof. by rewrite dotE; apply: sumr_ge0 => i _; rewrite -expr2 sqr_ge0. Qed.

Lemma dot_eq0 n (u : 'cV[R]_n) : ((u^T *m u) 0 0 == 0) = (u == 0).
Proof.
apply/eqP/eqP => [h|->]; last by rewrite mulmx0 mxE.
apply/colP => i; rewrite mxE; apply/eqP; rewrite -sqrf_eq0.
move: h; rewrite dotE => /eqP; rewrite psumr_eq0; last first.
  by move=> j _; rewrite -expr2 sqr_ge0.
by move=> /allP /(_ i (mem_index_enum i)) /=; rewrite -expr2.
Qed.

Lemma dot_gt0 n (u : 'cV[R]_n) : u != 0 -> 0 < (u^T *m u) 0 0.
Proof. by move=> h; rewrite lt_def dot_eq0 h dot_ge0. Qed.

Lemma diag_mulE m n (l : 'rV[R]_m) (U : 'M[R]_(m, n)) i j :
  (diag_mx l *m U) i j = l 0 i * U i j.
Proof. by rewrite mul_diag_mx mxE. Qed.

Lemma mul_diagE m n (l : 'rV[R]_n) (U : 'M[R]_(m, n)) i j :
  (U *m diag_mx l) i j = U i j * l 0 j.
Proof. by rewrite mul_mx_diag mxE. Qed.

Lemma mx11_scal (A : 'M[R]_1) : A = (A 0 0)%:M.
Proof. by apply/matrixP => i j; rewrite !ord1 mxE eqxx mulr1n. Qed.

Lemma qform_congr n m (A : 'M[R]_n) (B : 'M[R]_(n, m)) u :
  qform (B^T *m A *m B) u = qform A (B *m u).
Proof. by rewrite /qform trmx_mul !mulmxA. Qed.

Lemma qformD n (A B : 'M[R]_n) u : qform (A + B) u = qform A u + qform B u.
Proof. by rewrite /qform mulmxDr mulmxDl mxE. Qed.

Lemma qformB n (A B : 'M[R]_n) u : qform (A - B) u = qform A u - qform B u.
Proof. by rewrite /qform mulmxBr mulmxBl !mxE. Qed.

Lemma qformZ n a (A : 'M[R]_n) u : qform (a *: A) u = a * qform A u.
Proof. by rewrite /qform -scalemxAr -scalemxAl mxE. Qed.

Lemma qform_sum n (A : 'M[R]_n) (u : 'cV[R]_n) :
  qform A u = \sum_i \sum_j u i 0 * A i j * u j 0.
Proof.
rewrite /qform mxE.
under eq_bigr do rewrite mxE big_distrl /=.
rewrite exchange_big /=; apply: eq_bigr => i _; apply: eq_bigr => j _.
by rewrite mxE.
Qed.

Lemma qform_self n (B : 'M[R]_n) u : qform (B *m B^T) u = ((B^T *m u)^T *m (B^T *m u)) 0 0.
Proof. by rewrite /qform trmx_mul trmxK !mulmxA. Qed.
End Dot.

Section Trig.
Variable R : rcfType.

Lemma trig_mul n (A B : 'M[R]_n) : is_trig_mx A -> is_trig_mx B -> is_trig_mx (A *m B).
Proof.
move=> /is_trig_mxP hA /is_trig_mxP hB; apply/is_trig_mxP => i j lij.
rewrite mxE big1 // => k _; case: (ltnP i k) => h; first by rewrite hA ?mul0r.
by rewrite hB ?mulr0 //; exact: leq_ltn_trans h lij.
Qed.

Lemma trig_mul_diag n (A B : 'M[R]_n) i : is_trig_mx A -> is_trig_mx B ->
  (A *m B) i i = A i i * B i i.
Proof.
move=> /is_trig_mxP hA /is_trig_mxP hB; rewrite mxE (bigD1 i) //= big1 ?addr0 // => k hk.
case: (ltngtP i k) => h; first by rewrite hA ?mul0r.
  by rewrite hB ?mulr0.
by case/eqP: hk; apply: val_inj.
Qed.

Lemma tril_id n (A : 'M[R]_n) : is_trig_mx A -> tril A = A.
Proof.
move=> /is_trig_mxP hA; apply/matrixP => i j; rewrite mxE; case: leqP => // h.
by rewrite hA.
Qed.

Lemma trig_unit n (A : 'M[R]_n) : is_trig_mx A -> (forall i, 0 < A i i) -> A \in unitmx.
Proof.
move=> hA hp; rewrite unitmxE det_trig // unitfE.
by apply/prodf_neq0 => i _; rewrite gt_eqF.
Qed.

Lemma chol_unit n (L A : 'M[R]_n) : is_chol L A -> L \in unitmx.
Proof. by case=> h1 h2 _; exact: trig_unit. Qed.

(* Uniqueness of the Cholesky factor. *)
Lemma chol_unique n (L M A : 'M[R]_n) : is_chol L A -> is_chol M A -> L = M.
Proof.
move=> [/is_trig_mxP tL pL eL] [/is_trig_mxP tM pM eM].
have hj : forall m (j : 'I_n), (j < m)%N -> forall i, L i j = M i j.
  elim=> [|m IH] j //; rewrite ltnS => hjm.
  have IHj (k : 'I_n) i : (k < j)%N -> L i k = M i k.
    by move=> h; apply: IH; exact: leq_trans h hjm.
  have entry (X : 'M[R]_n) i : (forall a b : 'I_n, (a < b)%N -> X a b = 0) ->
      (X *m X^T) i j = \sum_(k < n | (k < j)%N) X i k * X j k + X i j * X j j.
    move=> tX; rewrite mxE (bigID (fun k : 'I_n => (k < j)%N)) /=; congr (_ + _).
      by apply: eq_bigr => k _; rewrite mxE.
    rewrite (bigD1 j) ?ltnn //= big1 ?addr0; first by rewrite mxE.
    move=> k /andP [h1 h2]; rewrite mxE [X j k]tX ?mulr0 //.
    by rewrite ltn_neqAle eq_sym h2 leqNgt h1.
  have eqs i : L i j * L j j = M i j * M j j.
    have := congr1 (fun X : 'M_n => X i j) (etrans eL (esym eM)).
    rewrite !entry // => /eqP.
    have -> : \sum_(k < n | (k < j)%N) L i k * L j k = \sum_(k < n | (k < j)%N) M i k * M j k.
      by apply: eq_bigr => k hk; rewrite !IHj.
    by move/eqP/addrI.
  have djj : L j j = M j j.
    apply/eqP; rewrite -(@eqr_expn2 _ 2) ?(ltW (pL j)) ?(ltW (pM j)) // !expr2.
    by apply/eqP; exact: eqs.
  move=> i; have := eqs i; rewrite djj => /mulIf; apply.
  by rewrite gt_eqF.
by apply/matrixP => i j; apply: (hj j.+1).
Qed.

Lemma chol_posdef n (L A : 'M[R]_n) : is_chol L A -> posdef A.
Proof.
move=> hL; have uL := chol_unit hL; case: hL => [_ _ eA].
split=> [|u hu]; first by rewrite /symmetric -eA trmx_mul trmxK.
rewrite -eA qform_self; apply: dot_gt0; apply: contraNneq hu => h.
have := congr1 (mulmx (invmx L^T)) h.
by rewrite mulmxA mulVmx ?unitmx_tr // mul1mx mulmx0 => ->.
Qed.

Lemma posdef_congr n (A B : 'M[R]_n) : posdef A -> B \in unitmx -> posdef (B^T *m A *m B).
Proof.
move=> [sA pA] uB; split=> [|u hu].
  by rewrite /symmetric !trmx_mul trmxK sA mulmxA.
rewrite qform_congr; apply: pA; apply: contraNneq hu => h.
by have := congr1 (mulmx (invmx B)) h; rewrite mulmxA mulVmx // mul1mx mulmx0 => ->.
Qed.

Lemma posdef_unit n (A : 'M[R]_n) : posdef A -> A \in unitmx.
Proof.
move=> [sA pA]; rewrite -row_free_unit -kermx_eq0; apply/rowV0P => v.
rewrite sub_kermx => /eqP hv; apply/eqP; apply: contraTT isT => nv.
have : v^T != 0 by rewrite trmx_eq0.
by move/pA; rewrite /qform trmxK hv mul0mx mxE ltxx.
Qed.
End Trig.
