(* The vector-measurement branch of _linear_update and _log_mvn_pdf: shape error, wrong
   gain, wrong density. *)
From mathcomp Require Import all_ssreflect all_algebra ring.
From Verif Require Import Prelude LinAlgSpec LinAlgProofs SmallMx LdlProofs GfsModel GfsSpec GfsProofs GfsKf.
Set Implicit Arguments.
Unset Strict Implicit.
Unset Printing Implicit Defensive.
Import Order.TTheory GRing.Theory Num.Theory.
Local Open Scope ring_scope.

Section Vec.
Variable R : rcfType.
Variable chol : forall n, 'M[R]_n -> 'M[R]_n.
Variables (log : R -> R) (pi : R).

Lemma tsolve_checked_same n m (a : 'M[R]_n) (b : 'M[R]_(m, n)) :
  tsolve_checked a b = Some (tsolve_default a b).
Proof. by rewrite /tsolve_checked; case: eqP => // e; rewrite castmx_id. Qed.

Lemma tsolve_checked_raise n m k (a : 'M[R]_n) (b : 'M[R]_(m, k)) : n <> k ->
  tsolve_checked a b = None.
Proof. by move=> h; rewrite /tsolve_checked; case: eqP. Qed.

Lemma linear_update_vec dx dy : dy <> 1%N ->
  @linear_update R chol log pi dx dy = @linear_update_vector R chol log pi dx dy.
Proof. by case: dy => [|[|dy]]. Qed.

Lemma kf_shape_error_lem dx dy (F Sigma : 'M[R]_dx) (H : 'M[R]_(dy, dx)) (Xi : 'M[R]_dy)
    m0 v0 y ys : dy <> 1%N -> dy <> dx ->
  kf chol log pi F Sigma H Xi m0 v0 (y :: ys) = None.
Proof.
move=> h1 h2; rewrite /kf /run_filter /= linear_update_vec //.
by rewrite /linear_update_vector tsolve_checked_raise.
Qed.

(* triu of a lower-triangular matrix is its diagonal. *)
Lemma triu_trig n (L : 'M[R]_n) : is_trig_mx L -> triu L = diag_mx (\row_i L i i).
Proof.
move=> /is_trig_mxP t; apply/matrixP => i j; rewrite !mxE.
have [->|h] := eqVneq i j; first by rewrite leqnn mulr1n.
case: ifP => hij; last by [].
by rewrite mulr0n t // ltn_neqAle hij andbT.
Qed.

Lemma linear_update_sq n (mp : 'cV[R]_n) (vp : 'M[R]_n) (H : 'M[R]_n) pred (Xi : 'M[R]_n) y :
  n <> 1%N ->
  linear_update chol log pi mp vp H pred Xi y
  = let K := (tsolve_default (chol (innov H vp Xi)) (H *m vp))^T in
    Some (mp + K *m (y - pred), vp - K *m innov H vp Xi *m K^T,
          - log_mvn_pdf log pi y pred (chol (innov H vp Xi))).
Proof. by move=> h; rewrite linear_update_vec // /linear_update_vector tsolve_checked_same. Qed.

Lemma kf_sq1 n (F Sigma H Xi : 'M[R]_n) m0 v0 y : n <> 1%N ->
  kf chol log pi F Sigma H Xi m0 v0 [:: y]
  = let mp := F *m m0 in let vp := F *m v0 *m F^T + Sigma in
    let K := (tsolve_default (chol (innov H vp Xi)) (H *m vp))^T in
    Some ([:: mp + K *m (y - H *m mp)], [:: vp - K *m innov H vp Xi *m K^T],
          [:: 0 - log_mvn_pdf log pi y (H *m mp) (chol (innov H vp Xi))]).
Proof. by move=> h; rewrite /kf /run_filter /filter_body /= linear_update_sq. Qed.

Hypothesis hchol : chol_spec chol.

Lemma diag_unit n (l : 'rV[R]_n) : (forall i, 0 < l 0 i) -> diag_mx l \in unitmx.
Proof. by move=> h; apply: trig_unit => [|i]; rewrite ?diag_mx_is_trig // mxE eqxx mulr1n. Qed.

Lemma qform_inj n (A B : 'M[R]_n) : A^T = A -> B^T = B ->
  (forall u, qform A u = qform B u) -> A = B.
Proof.
move=> sA sB h; apply/matrixP => i j.
have e (M : 'M[R]_n) : M^T = M ->
  qform M (delta_mx i 0 - delta_mx j 0)
  = qform M (delta_mx i 0) - 2%:R * M i j + qform M (delta_mx j 0).
  move=> sM; rewrite qform2 //; congr (_ - _ * _ + _).
  by rewrite trmx_delta -rowE -colE !mxE.
have := e _ sA; rewrite !h (e _ sB) => /addIr /addrI /oppr_inj e2.
by apply/esym; apply: (mulfI _ e2); rewrite pnatr_eq0.
Qed.

Lemma bayes_unique dx dy (A : 'M[R]_(dy, dx)) c Q m P y m1 P1 m2 P2 :
  bayes_rule A c Q m P y m1 P1 -> bayes_rule A c Q m P y m2 P2 -> m1 = m2 /\ P1 = P2.
Proof.
move=> [p1 h1 _] [p2 h2 _].
have h x : qform (invmx P1) (x - m1) = qform (invmx P2) (x - m2).
  by apply: (@addrI _ (qform (invmx (A *m P *m A^T + Q)) (y - (A *m m + c)))); rewrite -h1 -h2.
have em : m1 = m2.
  have := h m1; rewrite subrr {1}/qform mulmx0 mxE => e.
  apply/eqP; rewrite -subr_eq0; apply/eqP; apply: contra_eq e => hn.
  by rewrite eq_sym gt_eqF //; apply: (proj2 (posdef_inv p2)).
split=> //.
have hq u : qform (invmx P1) u = qform (invmx P2) u.
  by have := h (u + m1); rewrite addrK em addrK.
rewrite -[P1]invmxK -[P2]invmxK; congr (invmx _).
by apply: qform_inj hq; rewrite trmx_inv posdef_sym.
Qed.

(* The gain of the vector branch can be right only when the innovation covariance has
   determinant one. *)
Lemma vector_gain_wrong n (vp H Xi : 'M[R]_n) :
  posdef vp -> posdef Xi -> H \in unitmx ->
  (tsolve_default (chol (innov H vp Xi)) (H *m vp))^T = gain H vp Xi ->
  \det (innov H vp Xi) = 1.
Proof.
move=> pv pX uH; have pS := innov_posdef H pX (posdef_semi pv).
move: pS; rewrite /gain; move: (innov _ _ _) => S pS.
have [t p LL] := hchol pS; move: (chol S) t p LL => L t p LL; have uS := posdef_unit pS.
pose D := diag_mx (\row_i L i i).
have uD : D \in unitmx by apply: diag_unit => i; rewrite mxE.
rewrite /tsolve_default triu_trig // -/D => e.
have := congr1 determinant e.
rewrite !det_mulmx det_tr !det_mulmx !det_inv det_tr [\det vp * _]mulrC => h.
have n0 : \det H * \det vp != 0.
  by rewrite mulf_neq0 // -unitfE -unitmxE // posdef_unit.
have eD : \det D = \det S by apply: invr_inj; apply: (mulfI n0 h).
have eL : \det D = \det L by rewrite det_diag det_trig //; apply: eq_bigr => i _; rewrite mxE.
move: eD; rewrite eL -LL det_mulmx det_tr => /esym e2.
have l0 : \det L != 0 by rewrite -unitfE -unitmxE trig_unit.
by rewrite -{3}[\det L]mulr1 in e2; rewrite (mulfI l0 e2) mulr1.
Qed.

Lemma kf_vector_wrong_lem n (F Sigma H Xi : 'M[R]_n) m0 v0 :
  n <> 1%N -> H \in unitmx -> posdef Xi -> posdef (F *m v0 *m F^T + Sigma) ->
  \det (H *m (F *m v0 *m F^T + Sigma) *m H^T + Xi) <> 1 ->
  exists y m' v' e, kf chol log pi F Sigma H Xi m0 v0 [:: y] = Some ([:: m'], [:: v'], [:: e]) /\
    ~ bayes_rule H 0 Xi (F *m m0) (F *m v0 *m F^T + Sigma) y m' v'.
Proof.
move=> n1 uH pX pv hd; set vp := _ + _ in pv hd *.
set K := (tsolve_default (chol (innov H vp Xi)) (H *m vp))^T.
have hK : K != gain H vp Xi.
  by apply/eqP => e; apply: hd; apply: (vector_gain_wrong pv pX uH e).
have [u hu] : exists u : 'cV[R]_n, K *m u != gain H vp Xi *m u.
  have [/existsP[i hi]|] := boolP [exists i, col i K != col i (gain H vp Xi)].
    by exists (delta_mx i 0); rewrite -!colE.
  rewrite negb_exists => /forallP h; case/negP: hK; apply/eqP/matrixP => i j.
  by have := h j; rewrite negbK => /eqP /matrixP /(_ i 0); rewrite !mxE.
pose y := H *m (F *m m0) + u.
have ey : y - H *m (F *m m0) = u by rewrite /y addrC addKr.
exists y; rewrite kf_sq1 //= -/vp -/K.
do 3!eexists; split; first by reflexivity.
move=> hb; have hx := textbook_bayes H 0 (F *m m0) y pv pX.
have [e _] := bayes_unique hb hx.
by move: e; rewrite addr0 ey => /addrI /eqP; rewrite (negPf hu).
Qed.
End Vec.

Section LogMvn.
Variable R : rcfType.
Variables (log : R -> R) (pi : R).
Hypothesis hlog : log_spec log.
Hypothesis pi0 : 0 < pi.

Lemma log1 : log 1 = 0.
Proof. by apply: (@addrI _ (log 1)); rewrite addr0 -hlog ?mulr1 // ltr01. Qed.

Lemma log_prod n (a : 'I_n -> R) : (forall i, 0 < a i) ->
  0 < \prod_i a i /\ log (\prod_i a i) = \sum_i log (a i).
Proof.
move=> h; apply: (big_rec2 (fun x y => 0 < x /\ log x = y)); first by rewrite ltr01 log1.
by move=> i x y _ [p e]; rewrite mulr_gt0 // hlog // e.
Qed.

Lemma log_det n (L : 'M[R]_n) : is_trig_mx L -> (forall i, 0 < L i i) ->
  2%:R * (\sum_i log (Num.sqrt (2%:R * pi) * L i i)) = log ((2%:R * pi) ^+ n * \det (L *m L^T)).
Proof.
move=> t p; have q : 0 < 2%:R * pi by rewrite mulr_gt0 ?ltr0n.
have s0 : 0 < Num.sqrt (2%:R * pi) by rewrite sqrtr_gt0.
rewrite mulr_sumr; transitivity (\sum_i log (2%:R * pi * L i i ^+ 2)).
  apply: eq_bigr => i _; rewrite mulrDl mul1r -hlog ?mulr_gt0 //; congr (log _).
  by rewrite -expr2 exprMn sqr_sqrtr // ltW.
rewrite -(proj2 (log_prod _)); last by move=> i; rewrite mulr_gt0 // exprn_gt0.
rewrite big_split /= prodr_const card_ord det_mulmx det_tr det_trig //.
by rewrite -expr2 -prodrXl.
Qed.

(* _log_mvn_pdf is right when the Cholesky factor is diagonal. *)
Lemma log_mvn_diag n (x mu : 'cV[R]_n) (L S : 'M[R]_n) : is_chol L S -> is_diag_mx L ->
  log_mvn_pdf log pi x mu L = log_gauss log pi x mu S.
Proof.
move=> [t p e] d; rewrite /log_mvn_pdf /log_gauss log_det // e; congr (_ * (_ + _)).
have dL : L = diag_mx (\row_i L i i).
  apply/matrixP => i j; rewrite !mxE; case: (eqVneq i j) => [->|h]; rewrite ?mulr1n // mulr0n.
  by move/is_diag_mxP: d; apply.
have tL : triu L = L by rewrite triu_trig // -dL.
have sL : L^T = L by rewrite dL tr_diag_mx.
have uL : L \in unitmx by apply: trig_unit.
rewrite /tsolve_default tL /qform -e.
by rewrite trmx_mul trmxK trmx_inv sL invmx_mul // !mulmxA.
Qed.

Lemma chol11 (L S : 'M[R]_1) (x mu : 'cV[R]_1) : is_chol L S ->
  log_mvn_pdf log pi x mu L = log_gauss log pi x mu S.
Proof.
move=> h; apply: log_mvn_diag => //; apply/is_diag_mxP => i j.
by rewrite !ord1 eqxx.
Qed.
End LogMvn.

Section Witness.
Variable R : rcfType.
Variable chol : forall n, 'M[R]_n -> 'M[R]_n.
Variables (log : R -> R) (pi : R).
Hypothesis hchol : chol_spec chol.

Lemma scalar_posdef n (a : R) : 0 < a -> posdef (a%:M : 'M[R]_n).
Proof.
move=> h; split; first by rewrite /symmetric tr_scalar_mx.
by move=> u hu; rewrite /qform mul_mx_scalar -scalemxAl mxlin mulr_gt0 // dot_gt0.
Qed.

Lemma chol_scalar n (a : R) : 0 < a -> chol (a ^+ 2)%:M = a%:M :> 'M[R]_n.
Proof.
move=> h; apply: (chol_unique (A := (a ^+ 2)%:M)).
  by apply: hchol; apply: scalar_posdef; rewrite exprn_gt0.
split=> [|i|]; first exact: scalar_mx_is_trig.
  by rewrite mxE eqxx mulr1n.
by rewrite tr_scalar_mx -scalar_mxM.
Qed.

Lemma triu_scalar n (a : R) : triu (a%:M : 'M[R]_n) = a%:M.
Proof.
by apply/matrixP => i j; rewrite !mxE; case: (eqVneq i j) => [->|h]; rewrite ?leqnn // mulr0n if_same.
Qed.

(* Two independent random walks observed directly: F = H = Sigma = v0 = 1, Xi = 2. *)
Lemma kf_vector_negative (y : 'cV[R]_2) :
  exists e, kf chol log pi 1%:M 1%:M 1%:M (2%:R)%:M 0 1%:M [:: y]
            = Some ([:: y], [:: (- 2%:R)%:M], [:: e]).
Proof.
rewrite kf_sq1 //.
have -> : 1%:M *m 1%:M *m 1%:M^T + 1%:M = (2%:R)%:M :> 'M[R]_2.
  by rewrite trmx1 !mulmx1 -raddfD.
cbv zeta.
have -> : innov 1%:M (2%:R)%:M (2%:R)%:M = (2%:R ^+ 2)%:M :> 'M[R]_2.
  by rewrite /innov trmx1 mul1mx mulmx1 -raddfD /= -natrD -natrX.
rewrite chol_scalar ?ltr0n // /tsolve_default triu_scalar invmx_scalar !mul1mx -scalar_mxM.
rewrite mulfV ?pnatr_eq0 // !trmx1 !mul1mx !mulmx1 subr0 add0r; eexists; congr (Some ([:: _], [:: _], [:: _])).
  by rewrite add0r.
by rewrite -raddfB /=; congr (_%:M); ring.
Qed.

Lemma not_semi_neg n : ~ possemidef ((- 2%:R)%:M : 'M[R]_n.+1).
Proof.
case=> _ /(_ (delta_mx 0 0)); rewrite /qform mul_mx_scalar -scalemxAl mxlin trmx_delta mul_delta_mx mxE eqxx mulr1.
by rewrite oppr_ge0 lern0.
Qed.

(* Correlated S = [1 1; 1 2] with factor [1 0; 1 1]. *)
Definition Lw : 'M[R]_2 := mx2 1 0 1 1.
Definition Sw : 'M[R]_2 := mx2 1 1 1 2%:R.
Lemma Lw_chol : is_chol Lw Sw.
Proof.
split.
- by apply/is_trig_mxP => -[[|[|i]] hi] [[|[|j]] hj] //= _; rewrite mxE.
- by move=> i; rewrite mxE; case: (i == 0); rewrite ltr01.
- apply/matrixP => i j; rewrite !mxE !big_ord_recl big_ord0 !mxE /=.
  by case: (i == 0); case: (j == 0); rewrite ?mulr1 ?mulr0 ?addr0 // -?natrD ?add0r.
Qed.
Definition iSw : 'M[R]_2 := mx2 2%:R (-1) (-1) 1.
Lemma Sw_inv : invmx Sw = iSw.
Proof.
have h : Sw *m iSw = 1%:M.
  apply/matrixP => i j; rewrite !mxE !big_ord_recl big_ord0 !mxE /=.
  case: i => [[|[|i]] hi] //; case: j => [[|[|j]] hj] //=; ring.
have /mulmx1_unit[u _] := h.
by rewrite -[RHS](mulKmx u) h mulmx1.
Qed.
Definition xw : 'cV[R]_2 := \col_i (i == 0)%:R.

Lemma log_mvn_wrong : log_spec log -> 0 < pi ->
  log_mvn_pdf log pi xw 0 Lw <> log_gauss log pi xw 0 Sw.
Proof.
move=> hlog pi0; have [t p e] := Lw_chol.
rewrite /log_mvn_pdf /log_gauss log_det // e.
move=> h; have {}h := mulfI _ h.
have n0 : - (2%:R : R)^-1 != 0 by rewrite oppr_eq0 invr_eq0 pnatr_eq0.
move: (h n0) => /addIr; rewrite Sw_inv qform_mx2 subr0 /tsolve_default triu_trig //.
have -> : \row_i Lw i i = const_mx 1 by apply/rowP => i; rewrite !mxE; case: (i == 0).
rewrite diag_const_mx invmx1 mulmx1 trmxK !mxE !big_ord_recl big_ord0 !mxE /=.
rewrite !(mulr0, mulr1, addr0, expr1n) => /eqP.
by rewrite expr0n /= mulr0 addr0 eq_sym -subr_eq0 -{2}[1]/(1%:R) -natrB // pnatr_eq0.
Qed.
End Witness.
