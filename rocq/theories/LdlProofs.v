(* Correctness of the LDL factorisation and of the LDL-based Cholesky factor. *)
From mathcomp Require Import all_ssreflect all_algebra.
From mathcomp Require Import ring zify.
From Verif Require Import LinAlgSpec LinAlgProofs LdlModel.
Set Implicit Arguments.
Unset Strict Implicit.
Unset Printing Implicit Defensive.
Import Order.TTheory GRing.Theory Num.Theory.
Local Open Scope ring_scope.

Lemma foldl_iota_inv (T : Type) (P : nat -> T -> Prop) (f : T -> nat -> T) a m x :
  P a x -> (forall j y, (a <= j < a + m)%N -> P j y -> P j.+1 (f y j)) ->
  P (a + m)%N (foldl f x (iota a m)).
Proof.
elim: m a x => [|m IH] a x h0 hS; first by rewrite addn0.
rewrite /= addnS -addSn; apply: IH.
  by apply: hS => //; rewrite leqnn -addSnnS leq_addr.
by move=> j y hj; apply: hS; lia.
Qed.

Section Ldl.
Variable R : rcfType.
Variable n : nat.
Implicit Types (A l : 'M[R]_n.+1) (d : 'rV[R]_n.+1) (i j k : 'I_n.+1).

(* The column equations satisfied by the result. *)
Definition col_eq A l d j : Prop :=
  d 0 j = A j j - \sum_(k < n.+1 | (k < j)%N) l j k * (l j k * d 0 k) /\
  forall i, (j < i)%N ->
    l i j = (A i j - \sum_(k < n.+1 | (k < j)%N) l i k * (l j k * d 0 k)) / d 0 j.

Definition ldl_inv A (m : nat) (ld : 'M[R]_n.+1 * 'rV[R]_n.+1) : Prop :=
  [/\ forall i j, (i <= j)%N -> ld.1 i j = (i == j)%:R,
      forall i j, (m <= j)%N -> ld.1 i j = (i == j)%:R
    & forall j, (j < m)%N -> col_eq A ld.1 ld.2 j].

Lemma ldl_inv0 A : ldl_inv A 1 (ldl_l0 A, ldl_d0 A).
Proof.
split=> /= [i j hij|i j hj|j hj].
- rewrite mxE; case: (eqVneq (nat_of_ord j) 0%N) => // hj0.
  by have -> : (0 < i)%N = false by lia.
- by rewrite mxE; case: (eqVneq (nat_of_ord j) 0%N) => // hj0; lia.
have -> : j = 0 by apply: val_inj; move: hj; rewrite ltnS leqn0 => /eqP.
split=> [|i hi].
  by rewrite big_pred0 // subr0 mxE mul1r.
by rewrite big_pred0 // subr0 !mxE /= hi mul1r.
Qed.

Lemma ldl_invS A j ld : (0 < j)%N -> ldl_inv A j ld -> ldl_inv A j.+1 (ldl_body A ld j).
Proof.
case: ld => l d hj [h1 h2 h3] /=; rewrite /= in h1 h2 h3.
set l' := (X in (X, _)); set d' := (X in (_, X)).
have lE i k : k != j -> l' i k = l i k by move=> hk; rewrite mxE (negbTE hk).
have dE k : k != j -> d' 0 k = d 0 k by move=> hk; rewrite mxE (negbTE hk).
have lt_neq k m : (k < m <= j)%N -> k != j.
  by move=> h; apply: contraTneq h => ->; lia.
split=> /= [i k hik|i k hk|k hk].
- rewrite mxE; case: (eqVneq k j) => [ek|_] /=; last exact: h1.
  by subst k; rewrite ltnNge hik /=; exact: h1.
- rewrite mxE; have -> : (k == j) = false by apply/eqP => e; subst k; lia.
  by rewrite /=; apply: h2; lia.
have sums i k' : (k' <= j)%N -> \sum_(k0 < n.+1 | (k0 < k')%N) l' i k0 * (l' k' k0 * d' 0 k0) =
   \sum_(k0 < n.+1 | (k0 < k')%N) l i k0 * (l k' k0 * d 0 k0).
  by move=> hk'; apply: eq_bigr => k0 hk0; rewrite !lE ?dE //; apply: (lt_neq k0 k'); rewrite hk0.
rewrite ltnS in hk; case: (eqVneq k j) => [ek|nk].
  subst k; split=> [|i hi]; rewrite sums //.
    by rewrite mxE eqxx.
  by rewrite !mxE !eqxx hi.
have hkj : (k < j)%N by rewrite ltn_neqAle nk hk.
have [e1 e2] := h3 _ hkj.
by split=> [|i hi]; rewrite sums // ?lE ?dE //; exact: e2.
Qed.

Lemma ldl_invP A : ldl_inv A n.+1 (ldl A).
Proof.
rewrite -add1n; apply: foldl_iota_inv; first exact: ldl_inv0.
move=> j ld /andP [h1 h2] hinv.
have e : val (inord j : 'I_n.+1) = j by rewrite /= inordK //; lia.
by have := @ldl_invS A (inord j) ld; rewrite e; apply.
Qed.

Lemma ldl_unit_lower A i j : (i <= j)%N -> (ldl A).1 i j = (i == j)%:R.
Proof. by case: (ldl_invP A) => h _ _; exact: h. Qed.

Lemma ldl_col A j : col_eq A (ldl A).1 (ldl A).2 j.
Proof. by case: (ldl_invP A) => _ _; apply. Qed.

Lemma ldl_trig A : is_trig_mx (ldl A).1.
Proof.
apply/is_trig_mxP => i j lij; rewrite ldl_unit_lower 1?ltnW //.
by case: eqP => // e; rewrite e ltnn in lij.
Qed.

Lemma ldl_diag A i : (ldl A).1 i i = 1.
Proof. by rewrite ldl_unit_lower // eqxx. Qed.

(* Entries of l diag(d) l^T for unit lower-triangular l. *)
Lemma ldlt_entry l d i j : (forall a b : 'I_n.+1, (a <= b)%N -> l a b = (a == b)%:R) ->
  (l *m diag_mx d *m l^T) i j =
  \sum_(k < n.+1 | (k < j)%N) l i k * (l j k * d 0 k) + l i j * d 0 j.
Proof.
move=> hl; rewrite mxE (bigID (fun k : 'I_n.+1 => (k < j)%N)) /=; congr (_ + _).
  by apply: eq_bigr => k _; rewrite mul_diagE [l^T _ _]mxE -mulrA [d _ _ * _]mulrC.
rewrite (bigD1 j) ?ltnn //= big1 ?addr0.
  by rewrite mul_diagE [l^T _ _]mxE [l j j]hl // eqxx mulr1.
move=> k /andP [h1 h2]; have -> : l^T k j = 0; last by rewrite mulr0.
by rewrite mxE (hl j k) 1?leqNgt // eq_sym (negbTE h2).
Qed.

Lemma ldl_sound A : symmetric A -> (forall i, (i < n)%N -> (ldl A).2 0 i != 0) ->
  (ldl A).1 *m diag_mx (ldl A).2 *m (ldl A).1^T = A.
Proof.
move=> sA hd; set l := (ldl A).1; set d := (ldl A).2.
have low i j : (j <= i)%N -> (l *m diag_mx d *m l^T) i j = A i j.
  move=> hij; rewrite ldlt_entry; last exact: ldl_unit_lower.
  have [e1 e2] := ldl_col A j.
  case: (eqVneq i j) => [->|nij]; first by rewrite ldl_diag mul1r {2}/d e1 addrC subrK.
  have lt : (j < i)%N by rewrite ltn_neqAle eq_sym nij hij.
  have hj : (ldl A).2 0 j != 0 by apply: hd; have := ltn_ord i; lia.
  by rewrite {2}/l e2 // divfK // addrC subrK.
apply/matrixP => i j; case: (leqP j i) => [|/ltnW] h; first exact: low.
have sym : (l *m diag_mx d *m l^T)^T = l *m diag_mx d *m l^T.
  by rewrite !trmx_mul trmxK tr_diag_mx mulmxA.
by rewrite -sym mxE low // -[in RHS]sA mxE.
Qed.

(* Any other LDL factorisation with non-zero leading pivots is the one returned. *)
Lemma ldl_complete A l d :
  (forall i j, (i <= j)%N -> l i j = (i == j)%:R) -> (forall i, (i < n)%N -> d 0 i != 0) ->
  l *m diag_mx d *m l^T = A -> ldl A = (l, d).
Proof.
move=> hl hd eA.
have col m j : (j < m)%N -> d 0 j = (ldl A).2 0 j /\ forall i, l i j = (ldl A).1 i j.
  elim: m j => [|m IH] j //; rewrite ltnS => hjm.
  have [e1 e2] := ldl_col A j.
  have IHk k : (k < j)%N -> d 0 k = (ldl A).2 0 k /\ forall i, l i k = (ldl A).1 i k.
    by move=> h; apply: IH; lia.
  have sums i : \sum_(k < n.+1 | (k < j)%N) l i k * (l j k * d 0 k) =
     \sum_(k < n.+1 | (k < j)%N) (ldl A).1 i k * ((ldl A).1 j k * (ldl A).2 0 k).
    by apply: eq_bigr => k hk; have [-> h] := IHk k hk; rewrite !h.
  have dj : d 0 j = (ldl A).2 0 j.
    have := ldlt_entry d j j hl; rewrite eA (hl j j) // eqxx mul1r sums e1 => ->.
    by rewrite addrC addKr.
  split=> // i; case: (leqP i j) => hij; first by rewrite (hl i j) // ldl_unit_lower.
  have nz : d 0 j != 0 by apply: hd; have := ltn_ord i; lia.
  have := ldlt_entry d i j hl; rewrite eA sums (e2 i hij) -dj => ->.
  by rewrite addrC addKr mulfK.
rewrite [ldl A]surjective_pairing; congr (_, _).
  by apply/matrixP => i j; have [_ ->] := col n.+1 j (ltn_ord j).
by apply/rowP => j; have [->] := col n.+1 j (ltn_ord j).
Qed.

Lemma ldl_lunit A : (ldl A).1 \in unitmx.
Proof. by apply: trig_unit; [exact: ldl_trig | move=> i; rewrite ldl_diag ltr01]. Qed.

Lemma qform_diag d (u : 'cV[R]_n.+1) : qform (diag_mx d) u = \sum_i d 0 i * u i 0 ^+ 2.
Proof.
rewrite /qform mxE; apply: eq_bigr => i _.
by rewrite mul_diagE [u^T _ _]mxE; mring.
Qed.
End Ldl.

Section Existence.
Variable R : rcfType.

(* Existence of a Cholesky factor, by induction on the size. *)
Lemma chol_exists n (A : 'M[R]_n) : posdef A -> exists L, is_chol L A.
Proof.
elim: n A => [|n IH] A.
  move=> _; exists 0; split; [by apply/is_trig_mxP => -[]|by case|].
  by apply/matrixP => -[].
rewrite -[n.+1]/(1 + n)%N in A * => pA; have [sA qA] := pA.
set a := ulsubmx A 0 0; set b := dlsubmx A; set C := drsubmx A.
have ulA : ulsubmx A = a%:M by rewrite [LHS]mx11_scal.
have AE : A = block_mx a%:M b^T b C.
  by rewrite -[LHS]submxK ulA; congr block_mx; rewrite /b trmx_dlsub sA.
have sC : C^T = C by rewrite /C trmx_drsub sA.
have qE x (u : 'cV[R]_n) : qform A (col_mx x%:M u) =
   x * x * a + x *+ 2 * (b^T *m u) 0 0 + qform C u.
  rewrite /qform AE tr_col_mx tr_scalar_mx mul_row_block mul_row_col !mulmxDl.
  rewrite !mul_scalar_mx !mul_mx_scalar -!scalemxAl -!mulmxA !mxlin mxE eqxx mulr1n.
  have -> : (u^T *m b) 0 0 = (b^T *m u) 0 0.
    by rewrite -[u^T *m b]trmxK trmx_mul trmxK mxE.
  rewrite mulmxA; ring.
have a0 : 0 < a.
  have := qA (col_mx 1%:M 0); rewrite qE mulmx0 /qform mulmx0 !mxE !(mulr0, addr0, mul1r).
  apply; apply/eqP => /(congr1 usubmx); rewrite col_mxKu => /matrixP /(_ 0 0).
  by rewrite !mxE /= => /eqP; rewrite oner_eq0.
pose S := C - a^-1 *: (b *m b^T).
have pS : posdef S.
  split; first by rewrite /symmetric /S linearB /= linearZ /= trmx_mul trmxK sC.
  move=> u un0; pose c := (b^T *m u) 0 0.
  have : col_mx (- (c / a))%:M u != 0.
    by apply: contraNneq un0 => /(congr1 dsubmx); rewrite col_mxKd => ->; rewrite linear0.
  move/qA; rewrite qE -/c.
  suff -> : - (c / a) * - (c / a) * a + - (c / a) *+ 2 * c + qform C u = qform S u by [].
  rewrite /S qformB qformZ.
  have -> : qform (b *m b^T) u = c * c.
    rewrite /qform mulmxA -mulmxA mxE big_ord_recl big_ord0 addr0; congr (_ * _).
    by rewrite -[u^T *m b]trmxK trmx_mul trmxK mxE.
  by field; rewrite gt_eqF.
have [L' [tL' pL' eL']] := IH S pS.
pose s := Num.sqrt a.
have s0 : 0 < s by rewrite sqrtr_gt0.
have ss : s * s = a by rewrite -expr2 sqr_sqrtr ?ltW.
exists (block_mx s%:M 0 (s^-1 *: b) L'); split.
- rewrite is_trig_block_mx // eqxx tL' /= andbT.
  by apply/is_trig_mxP => i j; rewrite !ord1.
- move=> i; rewrite -(splitK i); case: (split i) => k /=.
    by rewrite block_mxEul !ord1 mxE eqxx.
  by rewrite block_mxEdr.
rewrite AE tr_block_mx mulmx_block !trmx0 tr_scalar_mx !(mulmx0, mul0mx, addr0).
rewrite -scalar_mxM ss linearZ /= -!scalemxAl -!scalemxAr mul_scalar_mx mul_mx_scalar.
rewrite !scalerA mulVf ?gt_eqF // !scale1r eL' /S; congr block_mx.
by rewrite -invfM ss addrC subrK.
Qed.

Definition is_cholb n (A L : 'M[R]_n) : bool :=
  [&& is_trig_mx L, [forall i, 0 < L i i] & L *m L^T == A].

Lemma is_cholP n (A L : 'M[R]_n) : reflect (is_chol L A) (is_cholb A L).
Proof.
apply: (iffP and3P) => [[h1 /forallP h2 /eqP h3]|[h1 h2 h3]]; split=> //.
- exact/forallP.
- exact/eqP.
Qed.

Definition has_cholb n (A : 'M[R]_n) : Prop := exists L, is_cholb A L.
End Existence.

Section Chol.
Variable R : rcfType.
Variable n : nat.
Implicit Types (A l : 'M[R]_n.+1) (i : 'I_n.+1).

Lemma ldl_pivots_of_posdef A : posdef A -> forall i, 0 < (ldl A).2 0 i.
Proof.
move=> /chol_exists [L [tL pL eL]].
pose l : 'M[R]_n.+1 := \matrix_(i, j) (L i j / L j j).
pose d : 'rV[R]_n.+1 := \row_j (L j j ^+ 2).
have lnz j : L j j != 0 by rewrite gt_eqF.
suff -> : ldl A = (l, d) by move=> i /=; rewrite mxE exprn_gt0.
apply: ldl_complete.
- move=> i j hij; rewrite mxE; case: (eqVneq i j) => [->|nij]; first by rewrite divff.
  have lt : (i < j)%N by rewrite ltn_neqAle nij.
  by move/is_trig_mxP: tL => ->; rewrite // mul0r.
- by move=> i _; rewrite mxE sqrf_eq0.
rewrite -eL; apply/matrixP => i j; rewrite !mxE; apply: eq_bigr => k _.
by rewrite mul_mx_diag !mxE; have := lnz k; gen_entries => h; field; rewrite h.
Qed.

Lemma ldl_posdef_iff A : symmetric A ->
  (posdef A <-> forall i, 0 < (ldl A).2 0 i).
Proof.
move=> sA; split; first exact: ldl_pivots_of_posdef.
move=> hd.
rewrite -(ldl_sound sA); last by move=> i _; rewrite gt_eqF.
rewrite -{1}[(ldl A).1]trmxK; apply: posdef_congr; last by rewrite unitmx_tr ldl_lunit.
split; first by rewrite /symmetric tr_diag_mx.
move=> u un0; rewrite qform_diag.
have [i hi] : exists i, u i 0 != 0.
  apply/existsP; apply: contraR un0; rewrite negb_exists => /forallP h.
  by apply/eqP/colP => i; rewrite mxE; apply/eqP; have := h i; rewrite negbK.
rewrite (bigD1 i) //= ltr_paddr //.
  by apply: sumr_ge0 => k _; rewrite mulr_ge0 ?sqr_ge0 // ltW.
by rewrite mulr_gt0 // lt_def sqr_ge0 sqrf_eq0 hi.
Qed.

Lemma ldl_cholE A eps : ldl_chol A eps =
  \matrix_(i, j) ((ldl A).1 i j *
     (if (ldl A).2 0 j < 0 then (if eps is Some e then e else (10%:R ^+ 8)^-1 * fro_norm A)
      else Num.sqrt ((ldl A).2 0 j))).
Proof. by rewrite /ldl_chol; case: (ldl A). Qed.

Lemma ldl_chol_is_chol A eps : posdef A -> is_chol (ldl_chol A eps) A.
Proof.
move=> pA; have hd := ldl_pivots_of_posdef pA; have [sA _] := pA.
have nd j : (ldl A).2 0 j < 0 = false by apply/negbTE; rewrite -leNgt ltW.
split.
- apply/is_trig_mxP => i j hij; rewrite ldl_cholE mxE.
  by move/is_trig_mxP: (ldl_trig A) => ->; rewrite // mul0r.
- by move=> i; rewrite ldl_cholE mxE ldl_diag mul1r nd sqrtr_gt0.
rewrite -[RHS](ldl_sound sA); last by move=> i _; rewrite gt_eqF.
apply/matrixP => i j; rewrite ldl_cholE !mxE; apply: eq_bigr => k _.
rewrite mul_mx_diag !mxE nd -[in RHS](sqr_sqrtr (ltW (hd k))); mring.
Qed.

(* Completion: for non-zero pivots the product dominates A. *)
Lemma ldl_chol_dominates A eps : symmetric A -> (forall i, (i < n)%N -> (ldl A).2 0 i != 0) ->
  loewner A (ldl_chol A eps *m (ldl_chol A eps)^T).
Proof.
move=> sA hd; set e : R := if eps is Some e then e else (10%:R ^+ 8)^-1 * fro_norm A.
pose w : 'rV[R]_n.+1 := \row_j (if (ldl A).2 0 j < 0 then e ^+ 2 - (ldl A).2 0 j else 0).
have E : ldl_chol A eps *m (ldl_chol A eps)^T - A = (ldl A).1 *m diag_mx w *m (ldl A).1^T.
  rewrite -[X in _ - X](ldl_sound sA hd); apply/matrixP => i j.
  rewrite ldl_cholE -/e mxaddE mxoppE !mxE -sumrB; apply: eq_bigr => k _.
  rewrite !mul_mx_diag !mxE; case: ifP => [_|hk]; first by mring.
  have hk' : 0 <= (ldl A).2 0 k by rewrite leNgt hk.
  by rewrite -[X in _ - _ * X * _](sqr_sqrtr hk'); mring.
rewrite /loewner E; split.
  by rewrite /symmetric !trmx_mul trmxK tr_diag_mx mulmxA.
move=> u; rewrite -{1}[(ldl A).1]trmxK qform_congr qform_diag.
apply: sumr_ge0 => i _; rewrite mulr_ge0 ?sqr_ge0 // mxE; case: ifP => // h.
by rewrite subr_ge0 (le_trans (ltW h)) ?sqr_ge0.
Qed.

Lemma ldl_chol_eq (chol : forall n, 'M[R]_n -> 'M[R]_n) A eps :
  chol_spec chol -> posdef A -> ldl_chol A eps = chol _ A.
Proof. by move=> hc pA; apply: chol_unique (hc _ A pA); exact: ldl_chol_is_chol. Qed.

End Chol.

Section CholRef.
Variable R : rcfType.

(* A library Cholesky exists. *)
Definition chol_ref n : 'M[R]_n -> 'M[R]_n :=
  match n with 0 => id | _ => fun A => ldl_chol A None end.

Lemma chol_ref_spec : chol_spec chol_ref.
Proof.
move=> [|n] A pA /=; last exact: ldl_chol_is_chol.
by split; [apply/is_trig_mxP => -[]|case|apply/matrixP => -[]].
Qed.
End CholRef.
