(* Bayes' rule and the Loewner order for the linear Gaussian update. *)
From mathcomp Require Import all_ssreflect all_algebra ring.
From Verif Require Import Prelude LinAlgSpec LinAlgProofs GfsModel GfsSpec.
Set Implicit Arguments.
Unset Strict Implicit.
Unset Printing Implicit Defensive.
Import Order.TTheory GRing.Theory Num.Theory.
Local Open Scope ring_scope.

Section PosDef.
Variable R : rcfType.

Lemma posdef_sym n (A : 'M[R]_n) : posdef A -> A^T = A. Proof. by case. Qed.
Lemma posdef_semi n (A : 'M[R]_n) : posdef A -> possemidef A.
Proof.
case=> s p; split=> // u; have [->|h] := eqVneq u 0; last exact: ltW (p _ h).
by rewrite /qform mulmx0 mxE.
Qed.
Lemma semi_congr n m (A : 'M[R]_n) (B : 'M[R]_(m, n)) :
  possemidef A -> possemidef (B *m A *m B^T).
Proof.
case=> s p; split=> [|u]; first by rewrite /symmetric !trmx_mul trmxK s mulmxA.
have := qform_congr A B^T u; rewrite trmxK => ->; exact: p.
Qed.
Lemma semi_add n (A B : 'M[R]_n) : possemidef A -> possemidef B -> possemidef (A + B).
Proof.
move=> [sA pA] [sB pB]; split=> [|u]; first by rewrite /symmetric linearD /= sA sB.
by rewrite qformD addr_ge0.
Qed.
Lemma semi_pos_add n (A B : 'M[R]_n) : possemidef A -> posdef B -> posdef (A + B).
Proof.
move=> [sA pA] [sB pB]; split=> [|u hu]; first by rewrite /symmetric linearD /= sA sB.
by rewrite qformD ltr_paddl // pB.
Qed.
Lemma qform_inv n (A : 'M[R]_n) u : posdef A ->
  qform (invmx A) u = qform A (invmx A *m u).
Proof.
move=> pA; have uA := posdef_unit pA.
by rewrite /qform trmx_mul trmx_inv (posdef_sym pA) !mulmxA mulmxKV.
Qed.
Lemma posdef_inv n (A : 'M[R]_n) : posdef A -> posdef (invmx A).
Proof.
move=> pA; have uA := posdef_unit pA; split.
  by rewrite /symmetric trmx_inv (posdef_sym pA).
move=> u hu; rewrite qform_inv //; apply: (proj2 pA).
by apply: contra hu => /eqP h; rewrite -[u](mulKVmx uA) h mulmx0.
Qed.
Lemma posdef_det n (A : 'M[R]_n) (chol : forall n, 'M[R]_n -> 'M[R]_n) :
  chol_spec chol -> posdef A -> 0 < \det A.
Proof.
move=> hc pA; case: (hc _ _ pA) => t p <-.
by rewrite det_mulmx det_tr det_trig // -expr2 exprn_gt0 // prodr_gt0.
Qed.

Lemma invmx_mul n (A B : 'M[R]_n) : A \in unitmx -> B \in unitmx ->
  invmx (A *m B) = invmx B *m invmx A.
Proof.
move=> uA uB; have u : A *m B \in unitmx by rewrite unitmx_mul uA uB.
have e : A *m B *m (invmx B *m invmx A) = 1%:M by rewrite mulmxA mulmxK // mulmxV.
by rewrite -[RHS](mulKmx u) e mulmx1.
Qed.

(* det (1 - A B) = det (1 - B A) *)
Lemma sylvester m n (A : 'M[R]_(m, n)) (B : 'M[R]_(n, m)) :
  \det (1%:M - A *m B) = \det (1%:M - B *m A).
Proof.
have h1 : block_mx 1%:M A B 1%:M
        = block_mx 1%:M 0 B 1%:M *m block_mx 1%:M A 0 (1%:M - B *m A).
  by rewrite mulmx_block !mul1mx ?mul0mx ?mulmx1 ?mulmx0 ?addr0 addrC subrK.
have h2 : block_mx 1%:M A B 1%:M
        = block_mx (1%:M - A *m B) A 0 1%:M *m block_mx 1%:M 0 B 1%:M.
  by rewrite mulmx_block ?mul1mx ?mul0mx ?mulmx1 ?mulmx0 ?addr0 ?add0r subrK.
have := congr1 determinant (etrans (esym h1) h2).
by rewrite !det_mulmx !det_lblock !det_ublock !det1 !mul1r !mulr1.
Qed.
End PosDef.

Section Square.
Variable R : rcfType.
Lemma tr00 (M : 'M[R]_1) : M^T 0 0 = M 0 0. Proof. by rewrite mxE. Qed.
Lemma qform2 n (M : 'M[R]_n) (u v : 'cV[R]_n) : M^T = M ->
  qform M (u - v) = qform M u - 2%:R * (u^T *m M *m v) 0 0 + qform M v.
Proof.
move=> sM; rewrite /qform [(u - v)^T]linearB /= !mulmxBl !mulmxBr !mxlin.
have -> : (v^T *m M *m u) 0 0 = (u^T *m M *m v) 0 0.
  by rewrite -tr00 !trmx_mul trmxK sM mulmxA.
by move: ((u^T *m M *m u) 0 0) ((u^T *m M *m v) 0 0) ((v^T *m M *m v) 0 0) => a b c; ring.
Qed.

Lemma complete_square_gen dx dy (A : 'M[R]_(dy, dx)) (iP iP' : 'M[R]_dx) (iQ iS : 'M[R]_dy)
    (K : 'M[R]_(dx, dy)) (e : 'cV[R]_dy) (d : 'cV[R]_dx) :
  iQ^T = iQ -> iP'^T = iP' -> iP' *m K = A^T *m iQ -> K^T *m (A^T *m iQ) + iS = iQ ->
  iP' = iP + A^T *m iQ *m A ->
  qform iQ (e - A *m d) + qform iP d = qform iS e + qform iP' (d - K *m e).
Proof.
move=> sQi sPi hK hQ hP; rewrite !qform2 //.
have -> : qform iQ (A *m d) = qform (A^T *m iQ *m A) d.
  by rewrite /qform trmx_mul !mulmxA.
have -> : qform iP' (K *m e) = qform iQ e - qform iS e.
  rewrite -qformB -hQ addrK /qform trmx_mul -!mulmxA.
  by rewrite [iP' *m _]mulmxA hK !mulmxA.
have -> : (d^T *m iP' *m (K *m e)) 0 0 = (e^T *m iQ *m (A *m d)) 0 0.
  rewrite -!mulmxA [iP' *m _]mulmxA hK.
  by rewrite -[RHS]tr00 !trmx_mul trmxK sQi !mulmxA.
rewrite hP [qform (_ + _) d]qformD.
move: (qform iQ e) (_ 0 0) (qform iP d) (qform iS e) (qform (_ *m A) d) => a b c p s.
by ring.
Qed.
End Square.

(* The textbook update: S = A P A^T + Q, K = P A^T S^-1. *)
Section Bayes.
Variable R : rcfType.
Variables (dx dy : nat) (A : 'M[R]_(dy, dx)) (P : 'M[R]_dx) (Q : 'M[R]_dy).
Definition innov : 'M[R]_dy := A *m P *m A^T + Q.
Definition gain : 'M[R]_(dx, dy) := P *m A^T *m invmx innov.
Definition postcov : 'M[R]_dx := P - gain *m innov *m gain^T.
Local Notation S := innov.
Local Notation K := gain.
Local Notation P' := postcov.

Hypothesis sP : P^T = P.
Hypothesis pQ : posdef Q.

Section Semi.
Hypothesis pP : possemidef P.
Lemma innov_posdef : posdef S.
Proof. by apply: semi_pos_add => //; apply: semi_congr. Qed.
End Semi.

Hypothesis uS : S \in unitmx.
Hypothesis sS : S^T = S.

Lemma gainS : K *m S = P *m A^T. Proof. by rewrite /gain mulmxKV. Qed.
Lemma gainT : K^T = invmx S *m A *m P.
Proof. by rewrite /gain !trmx_mul trmx_inv sS trmxK sP mulmxA. Qed.
Lemma postcovE : P' = P - K *m A *m P.
Proof. by rewrite /postcov gainS gainT /gain !mulmxA. Qed.
Lemma postcov_sym : P'^T = P'.
Proof. by rewrite /postcov linearB /= sP trmx_mul trmxK [(K *m S)^T]trmx_mul sS mulmxA. Qed.
Lemma APA : A *m P *m A^T = S - Q. Proof. by rewrite /innov addrK. Qed.

(* Joseph's form *)
Lemma joseph : P' = (1%:M - K *m A) *m P *m (1%:M - K *m A)^T + K *m Q *m K^T.
Proof.
have -> : (1%:M - K *m A) *m P = P' by rewrite mulmxBl mul1mx postcovE.
rewrite linearB /= trmx1 trmx_mul mulmxBr mulmx1 -addrA [X in _ = _ + X]addrC.
have -> : P' *m (A^T *m K^T) = K *m Q *m K^T; last by rewrite subrr addr0.
rewrite mulmxA; congr (_ *m _).
rewrite postcovE mulmxBl -gainS -!mulmxA [A *m _]mulmxA APA.
by rewrite -!mulmxBr opprB addrC subrK.
Qed.
Lemma postcov_semi_gen : possemidef Q -> possemidef P -> possemidef P'.
Proof. by move=> sQ pP; rewrite joseph; apply: semi_add; apply: semi_congr. Qed.
Lemma postcov_semi : possemidef P -> possemidef P'.
Proof. by apply: postcov_semi_gen; apply: posdef_semi. Qed.
Lemma postcov_shrink : possemidef P -> loewner P' P.
Proof.
move=> pP; rewrite /loewner /postcov opprB addrC subrK; apply: semi_congr.
by apply: posdef_semi; apply: innov_posdef.
Qed.

Hypothesis uP : P \in unitmx.
Let uQ : Q \in unitmx := posdef_unit pQ.

Lemma postcov_inv : P' *m (invmx P + A^T *m invmx Q *m A) = 1%:M.
Proof.
rewrite mulmxDr postcovE !mulmxBl mulmxV // mulmxK //.
rewrite -[1%:M in RHS]addr0 -addrA; congr (_ + _).
rewrite -[K *m A *m P *m _]mulmxA -[K *m A *m _]mulmxA.
rewrite [A *m (P *m _)]mulmxA.
have -> : A *m P *m (A^T *m invmx Q *m A) = S *m invmx Q *m A - A.
  by rewrite !mulmxA APA mulmxBl mulmxV // mulmxBl mul1mx.
rewrite mulmxBr opprB !mulmxA gainS.
by rewrite [X in _ + X]addrC subrK addNr.
Qed.
Lemma postcov_unit : P' \in unitmx. Proof. by have /mulmx1_unit[] := postcov_inv. Qed.
Lemma inv_postcov : invmx P' = invmx P + A^T *m invmx Q *m A.
Proof.
by rewrite -[RHS](mulKmx postcov_unit) postcov_inv mulmx1.
Qed.
Lemma postcov_gain : invmx P' *m K = A^T *m invmx Q.
Proof.
have -> : K = P' *m (A^T *m invmx Q); last by rewrite mulKmx // postcov_unit.
rewrite postcovE mulmxBl mulmxA -gainS -!mulmxA [A *m (P *m _)]mulmxA [A *m P *m _]mulmxA.
by rewrite APA -!mulmxBr -mulmxBl opprB addrC subrK mulmxV // mulmx1 mulmxA.
Qed.
Lemma invQ_split : K^T *m (A^T *m invmx Q) + invmx S = invmx Q.
Proof.
rewrite gainT -!mulmxA [A *m (P *m _)]mulmxA [A *m P *m _]mulmxA APA mulmxBl mulmxV //.
by rewrite mulmxBr mulmx1 mulKmx // subrK.
Qed.

Lemma complete_square (e : 'cV[R]_dy) (d : 'cV[R]_dx) :
  qform (invmx Q) (e - A *m d) + qform (invmx P) d
  = qform (invmx S) e + qform (invmx P') (d - K *m e).
Proof.
apply: complete_square_gen; first by rewrite trmx_inv (posdef_sym pQ).
- by rewrite trmx_inv postcov_sym.
- exact: postcov_gain.
- exact: invQ_split.
- exact: inv_postcov.
Qed.

Lemma bayes_det : \det Q * \det P = \det S * \det P'.
Proof.
have -> : P' = P *m (1%:M - A^T *m (invmx S *m A *m P)).
  by rewrite postcovE mulmxBr mulmx1 /gain !mulmxA.
rewrite det_mulmx sylvester.
have -> : 1%:M - invmx S *m A *m P *m A^T = invmx S *m Q.
  have -> : invmx S *m A *m P *m A^T = invmx S *m (S - Q) by rewrite -APA 2!mulmxA.
  by rewrite mulmxBr mulVmx // opprB addrC subrK.
have h : \det S != 0 by move: uS; rewrite unitmxE unitfE.
by rewrite det_mulmx det_inv [RHS]mulrCA mulVKf // mulrC.
Qed.

Lemma postcov_posdef : posdef P -> posdef P'.
Proof.
move=> pP; rewrite -[P']invmxK inv_postcov; apply: posdef_inv.
rewrite addrC; apply: semi_pos_add; last exact: posdef_inv.
by rewrite -{2}[A]trmxK; apply: semi_congr; apply: posdef_semi; apply: posdef_inv.
Qed.
End Bayes.
