(* The Kalman filter: the scalar-measurement branch is the textbook update; runs of a
   filter as trajectories; the vector-measurement branch. *)
From mathcomp Require Import all_ssreflect all_algebra ring.
From Verif Require Import Prelude LinAlgSpec LinAlgProofs SmallMx LdlProofs GfsModel GfsSpec GfsProofs.
Set Implicit Arguments.
Unset Strict Implicit.
Unset Printing Implicit Defensive.
Import Order.TTheory GRing.Theory Num.Theory.
Local Open Scope ring_scope.

(* The successive states of a recursion driven by the measurements. *)
Fixpoint traj (S Y : Type) (step : S -> Y -> S) (s : S) (ys : seq Y) : seq S :=
  if ys is y :: ys' then step s y :: traj step (step s y) ys' else [::].

Lemma size_traj S Y (step : S -> Y -> S) s ys : size (traj step s ys) = size ys.
Proof. by elim: ys s => //= y ys IH s; rewrite IH. Qed.

Section Runs.
Variable R : rcfType.
Variables (dx dy : nat).
Implicit Types (m : 'cV[R]_dx) (v : 'M[R]_dx) (y : 'cV[R]_dy).
Local Notation state := ('cV[R]_dx * 'M[R]_dx * R)%type.

Definition fstep (predict : 'cV[R]_dx -> 'M[R]_dx -> 'cV[R]_dx * 'M[R]_dx)
    (upd : 'cV[R]_dx -> 'M[R]_dx -> 'cV[R]_dy -> state) (s : state) y : state :=
  let p := predict s.1.1 s.1.2 in
  let u := upd p.1 p.2 y in (u.1.1, u.1.2, s.2 + u.2).

Definition outputs (outs : seq state) : seq 'cV[R]_dx * seq 'M[R]_dx * seq R :=
  ([seq o.1.1 | o <- outs], [seq o.1.2 | o <- outs], [seq o.2 | o <- outs]).

(* A run whose update never raises on the covariances that satisfy the invariant I. *)
Lemma run_filterE (I : 'M[R]_dx -> Prop) predict update upd m0 v0 ys :
  (forall m v y, I v -> let p := predict m v in
     update p.1 p.2 y = Some (upd p.1 p.2 y) /\ I (upd p.1 p.2 y).1.2) ->
  I v0 ->
  run_filter predict update m0 v0 ys
  = Some (outputs (traj (fstep predict upd) (m0, v0, 0) ys)).
Proof.
move=> h I0; rewrite /run_filter.
have -> : oscan (filter_body predict update) (m0, v0, 0) ys
        = Some (last (m0, v0, 0) (traj (fstep predict upd) (m0, v0, 0) ys),
                traj (fstep predict upd) (m0, v0, 0) ys); last by [].
elim: ys m0 v0 0 I0 => [|y ys IH] m0 v0 e0 I0 //=.
have [hu hI] := h m0 v0 y I0.
move: hu hI; rewrite [fstep _ _ _ _]/fstep /=; case: (predict m0 v0) => mp vp /= -> hI.
case: (upd mp vp y) hI => [[m' v'] inc] /= hI.
by rewrite (IH _ _ _ hI).
Qed.

Lemma run_filter_ext (I : 'M[R]_dx -> Prop) predict predict' update update' m0 v0 ys :
  (forall m v, I v -> predict m v = predict' m v) ->
  (forall m v y, I v -> let p := predict' m v in update p.1 p.2 y = update' p.1 p.2 y) ->
  (forall m v y r, I v -> let p := predict' m v in update' p.1 p.2 y = Some r -> I r.1.2) ->
  I v0 ->
  run_filter predict update m0 v0 ys = run_filter predict' update' m0 v0 ys.
Proof.
move=> hp hu hI I0; rewrite /run_filter.
have -> // : oscan (filter_body predict update) (m0, v0, 0) ys
        = oscan (filter_body predict' update') (m0, v0, 0) ys.
elim: ys m0 v0 0 I0 => [|y ys IH] m0 v0 e0 I0 //=.
rewrite (hp _ _ I0); move: (hu m0 v0 y I0) (hI m0 v0 y).
case: (predict' m0 v0) => mp vp /= ->.
case: (update' mp vp y) => // [[[m' v'] inc]] /= h.
by rewrite (IH _ _ _ (h _ I0 (erefl _))).
Qed.
End Runs.

Section Scalar.
Variable R : rcfType.
Variables (log : R -> R) (pi : R).

Lemma inv11 (A : 'M[R]_1) : invmx A = (A 0 0)^-1%:M.
Proof.
by rewrite [in LHS](mx11_scal A) invmx_scalar.
Qed.

Lemma qform11 (A : 'M[R]_1) (u : 'cV[R]_1) : qform A u = A 0 0 * u 0 0 ^+ 2.
Proof.
rewrite /qform !mxE big_ord1 !mxE big_ord1 !mxE.
by move: (A 0 0) (u 0 0) => a b; ring.
Qed.

Lemma posdef11 (A : 'M[R]_1) : posdef A -> 0 < A 0 0.
Proof.
case=> _ /(_ 1%:M); rewrite qform11 !mxE expr1n mulr1; apply.
by apply/eqP => /matrixP /(_ 0 0); rewrite !mxE => /eqP; rewrite oner_eq0.
Qed.

Lemma log_normal_pdfE (x mu : 'cV[R]_1) (S : 'M[R]_1) : 0 < S 0 0 ->
  log_normal_pdf log pi (x 0 0) (mu 0 0) (S 0 0) = log_gauss log pi x mu S.
Proof.
move=> h; rewrite /log_normal_pdf /log_gauss sqr_sqrtr ?ltW // inv11 qform11 !mxE mulr1n.
rewrite expr1 det_mx11 [_ + log _]addrC invrN mulrN mulNr.
congr (- _); rewrite mulrC; congr (_ * (_ + _)).
by rewrite mulrC.
Qed.

Lemma linear_update_scalarE dx (mp : 'cV[R]_dx) (vp : 'M[R]_dx) (H : 'M[R]_(1, dx))
    (pred : 'cV[R]_1) (Xi : 'M[R]_1) (y : 'cV[R]_1) :
  0 < (innov H vp Xi) 0 0 ->
  linear_update_scalar log pi mp vp H pred Xi y
  = Some (mp + gain H vp Xi *m (y - pred), postcov H vp Xi,
          - log_gauss log pi y pred (innov H vp Xi)).
Proof.
move=> h; rewrite /linear_update_scalar -/(innov H vp Xi) log_normal_pdfE //.
have -> // : \matrix_(i, j) ((vp *m H^T) i j / (innov H vp Xi) 0 0) = gain H vp Xi.
apply/matrixP => i j; rewrite /gain inv11 mul_mx_scalar !mxE mulrC.
by rewrite -[RHS]/(_ * _).
Qed.
End Scalar.

Section Textbook.
Variable R : rcfType.
Variables (dx dy : nat) (A : 'M[R]_(dy, dx)) (c : 'cV[R]_dy) (P : 'M[R]_dx) (Q : 'M[R]_dy).

Lemma textbook_bayes (m : 'cV[R]_dx) (y : 'cV[R]_dy) : posdef P -> posdef Q ->
  bayes_rule A c Q m P y (m + gain A P Q *m (y - (A *m m + c))) (postcov A P Q).
Proof.
move=> pP pQ; have sP := posdef_sym pP; have uP := posdef_unit pP.
have pS := innov_posdef A pQ (posdef_semi pP).
have uS := posdef_unit pS; have sS := posdef_sym pS.
split; first exact: postcov_posdef.
  move=> x; set e := y - (A *m m + c).
  have -> : y - (A *m x + c) = e - A *m (x - m).
    rewrite /e mulmxBr; apply/matrixP => i j; rewrite !mxlin.
    by move: (y i j) ((A *m x) i j) ((A *m m) i j) (c i j) => ????; ring.
  by rewrite complete_square // opprD addrA.
exact: bayes_det.
Qed.
End Textbook.

Lemma chain_traj S Y (step : S -> Y -> S) (rel : S -> Y -> S -> Prop) (I : S -> Prop) s ys :
  (forall s y, I s -> rel s y (step s y) /\ I (step s y)) -> I s ->
  chain_of rel s ys (traj step s ys).
Proof.
move=> h; elim: ys s => //= y ys IH s Is.
by have [h1 h2] := h _ y Is; split=> //; apply: IH.
Qed.

Section Kf.
Variable R : rcfType.
Variable chol : forall n, 'M[R]_n -> 'M[R]_n.
Variables (log : R -> R) (pi : R).
Variables (dx : nat) (F Sigma : 'M[R]_dx) (H : 'M[R]_(1, dx)) (Xi : 'M[R]_1).

Definition kf_upd (mp : 'cV[R]_dx) (vp : 'M[R]_dx) (y : 'cV[R]_1) :=
  (mp + gain H vp Xi *m (y - H *m mp), postcov H vp Xi,
   - log_gauss log pi y (H *m mp) (innov H vp Xi)).
Definition kf_traj m0 v0 ys := traj (fstep (linear_predict F Sigma) kf_upd) (m0, v0, 0) ys.

Hypothesis pSigma : possemidef Sigma.
Hypothesis pXi : posdef Xi.

Lemma predict_semi (v : 'M[R]_dx) : possemidef v -> possemidef (F *m v *m F^T + Sigma).
Proof. by move=> pv; apply: semi_add => //; apply: semi_congr. Qed.

Lemma kfE m0 v0 ys : possemidef v0 ->
  kf chol log pi F Sigma H Xi m0 v0 ys = Some (outputs (kf_traj m0 v0 ys)).
Proof.
move=> p0; apply: (@run_filterE _ _ _ (@possemidef R dx)) => // m v y pv /=.
have pp := predict_semi pv; have pS := innov_posdef H pXi pp.
split; first by rewrite linear_update_scalarE //; apply: posdef11.
by apply: postcov_semi => //; [exact: (proj1 pp)|exact: posdef_unit|exact: posdef_sym].
Qed.

Lemma kf_exact_lem m0 v0 ys :
  posdef v0 -> (forall v, posdef v -> posdef (F *m v *m F^T + Sigma)) ->
  chain_of (exact_step log pi F 0 Sigma H 0 Xi) (m0, v0, 0) ys (kf_traj m0 v0 ys).
Proof.
move=> p0 hp; apply: (@chain_traj _ _ _ _ (fun s => posdef s.1.2)) => // -[[m v] e] y /= pv.
have pp := hp _ pv; have [pP' _ _] := textbook_bayes H 0 (F *m m) y pp pXi.
split=> //; rewrite /exact_step /= !addr0.
split=> //.
by have := textbook_bayes H 0 (F *m m) y pp pXi; rewrite addr0.
Qed.

(* Every covariance is positive semi-definite and below its prediction. *)
Definition cov_step (s : 'cV[R]_dx * 'M[R]_dx * R) (y : 'cV[R]_1) (s' : 'cV[R]_dx * 'M[R]_dx * R) :=
  possemidef s'.1.2 /\ loewner s'.1.2 (F *m s.1.2 *m F^T + Sigma).

Lemma kf_cov_lem m0 v0 ys : possemidef v0 ->
  chain_of cov_step (m0, v0, 0) ys (kf_traj m0 v0 ys).
Proof.
move=> p0; apply: (@chain_traj _ _ _ _ (fun s => possemidef s.1.2)) => // -[[m v] e] y /= pv.
have pp := predict_semi pv; have pS := innov_posdef H pXi pp.
have hP : possemidef (postcov H (F *m v *m F^T + Sigma) Xi).
  by apply: postcov_semi => //; [exact: (proj1 pp)|exact: posdef_unit|exact: posdef_sym].
by split=> //; split=> //=; apply: postcov_shrink.
Qed.

Lemma kf_cov_indep m0 m0' v0 ys ys' : size ys = size ys' ->
  [seq s.1.2 | s <- kf_traj m0 v0 ys] = [seq s.1.2 | s <- kf_traj m0' v0 ys'].
Proof.
rewrite /kf_traj; elim: ys ys' m0 m0' v0 {1}0 {2}0 => [|y ys IH] [|y' ys'] m0 m0' v0 e e' //= [hs].
by congr (_ :: _); apply: IH.
Qed.
End Kf.
