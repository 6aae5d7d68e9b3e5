(* The direction of the sigma-point update for a scalar state and a scalar measurement. *)
From mathcomp Require Import all_ssreflect all_algebra.
From mathcomp Require Import ring zify.
From Verif Require Import Prelude LinAlgSpec LinAlgProofs QuadModel SsModel SsProofs GfsModel GfsSpec GfsProofs GfsKf SgpNl GfsVec.
From Verif Require Import SigmaModel DardelModel DardelGauss.
Set Implicit Arguments.
Unset Strict Implicit.
Unset Printing Implicit Defensive.
Import Order.TTheory GRing.Theory Num.Theory.
Local Open Scope ring_scope.

Lemma chain_impl (S Y : Type) (r r' : S -> Y -> S -> Prop) : (forall s y s', r s y s' -> r' s y s') ->
  forall s ys outs, chain_of r s ys outs -> chain_of r' s ys outs.
Proof. by move=> h s ys; elim: ys s => [|y ys IH] s [|o os] //= [h1 h2]; split; [exact: h|exact: IH]. Qed.

Section Track.
Variable R : rcfType.
Variables (w : seq R) (xi : seq 'cV[R]_1).
Hypothesis hsg : sg_rule w xi.
Hypothesis w0 : forall p, p \in zip w xi -> 0 <= p.1.

(* The covariance of the state and a strictly increasing function of it is positive. *)
Lemma wcov_mono (h : 'cV[R]_1 -> 'cV[R]_1) (m : 'cV[R]_1) (L : 'M[R]_1) :
  (forall x x' : 'cV[R]_1, x 0 0 < x' 0 0 -> h x 0 0 < h x' 0 0) -> 0 < L 0 0 ->
  0 < wcov w xi (fun z => m + L *m z) (fun z => h (m + L *m z)) 0 0.
Proof.
move=> hm L0; rewrite /wcov (Eaff hsg).
set Eh := wmean _ _ (fun z => h _).
have Lz z : (L *m z) 0 0 = L 0 0 * z 0 0 by rewrite mxE big_ord1.
have hc a b : (h (vec1 a) 0 0 < h (vec1 b) 0 0) = (a < b).
  have key u v : u < v -> h (vec1 u) 0 0 < h (vec1 v) 0 0 by move=> uv; apply: hm; rewrite !mxE.
  by case: (ltrgtP a b) => [/key ->//|/key/lt_gtF//|->]; rewrite ltxx.
have g0 x : (m 0 0 + L 0 0 * x) - m 0 0 = L 0 0 * x by rewrite addrC addKr.
have := @rule_pos _ w xi hsg w0 (fun x => L 0 0 * x * (h (vec1 (m 0 0 + L 0 0 * x)) 0 0 - h (vec1 (m 0 0)) 0 0)).
have -> : \sum_(p <- zip w xi) p.1 * (L 0 0 * p.2 0 0 * (h (vec1 (m 0 0 + L 0 0 * p.2 0 0)) 0 0 - h (vec1 (m 0 0)) 0 0))
   = wmean w xi (fun z => (m + L *m z - m) *m (h (m + L *m z) - Eh)^T) 0 0.
  rewrite /wmean summxE.
  pose c := L 0 0 * (Eh 0 0 - h (vec1 (m 0 0)) 0 0).
  transitivity (\sum_(p <- zip w xi) (p.1 *: ((m + L *m p.2 - m) *m (h (m + L *m p.2) - Eh)^T)) 0 0
    + c * (\sum_(p <- zip w xi) p.1 * p.2 0 0)); last by rewrite (ruleX hsg) mulr0 addr0.
  rewrite mulr_sumr -big_split; apply: eq_bigr => p _ /=.
  have -> : (m + L *m p.2 - m) = L *m p.2 by rewrite addrC addKr.
  have -> : vec1 (m 0 0 + L 0 0 * p.2 0 0) = m + L *m p.2.
    by apply/matrixP => i j; rewrite !ord1 !mxE big_ord1 mulr1n.
  have -> : (p.1 *: (L *m p.2 *m (h (m + L *m p.2) - Eh)^T)) 0 0
    = p.1 * (L 0 0 * p.2 0 0 * (h (m + L *m p.2) 0 0 - Eh 0 0)).
    by rewrite [LHS]mxE [X in _ * X]mxE big_ord1 Lz [X in _ * (_ * X)]mxE [X in _ * (_ * X)]mxE [X in _ * (_ * (_ + X))]mxE.
  rewrite /c; move: (h _ 0 0) (h _ 0 0) (Eh 0 0) (L 0 0) (p.1) (p.2 0 0) => a b e l q r.
  by ring.
apply=> [x|x x0].
  case: (ltrgtP x 0) => [x0|x0|->]; last by rewrite mulr0 mul0r.
    by rewrite mulr_le0 ?mulr_ge0_le0 ?(ltW L0) ?(ltW x0) // subr_le0 ltW // hc gtr_addl pmulr_rlt0.
  by rewrite mulr_ge0 ?mulr_ge0 ?(ltW L0) ?(ltW x0) // subr_ge0 ltW // hc ltr_addl mulr_gt0.
case: (ltrgtP x 0) x0 => // x0 _.
  by rewrite nmulr_rgt0 ?pmulr_rlt0 // subr_lt0 hc gtr_addl pmulr_rlt0.
by rewrite mulr_gt0 ?mulr_gt0 // subr_gt0 hc ltr_addl mulr_gt0.
Qed.

Lemma wmean_gt (g : 'cV[R]_1 -> 'cV[R]_1) a : (forall z, a < g z 0 0) -> a < wmean w xi g 0 0.
Proof.
move=> h; rewrite -subr_gt0.
have -> : wmean w xi g 0 0 - a = wmean w xi (fun z => (g z 0 0 - a)%:M : 'M[R]_1) 0 0.
  have e z : (g z 0 0 - a)%:M = g z + - (a%:M : 'M[R]_1).
    by apply/matrixP => i j; rewrite !ord1 !mxE !eqxx mulr1n.
  by rewrite (Eext _ _ e) Eadd (Econst hsg) [RHS]mxE [X in _ = _ + X]mxE [X in _ = _ - X]mxE eqxx mulr1n.
by apply: posdef11; apply: (E_posdef hsg w0) => z; apply: scalar_posdef; rewrite subr_gt0.
Qed.
Lemma wmean_lt (g : 'cV[R]_1 -> 'cV[R]_1) a : (forall z, g z 0 0 < a) -> wmean w xi g 0 0 < a.
Proof.
move=> h; have := @wmean_gt (fun z => - g z) (- a); rewrite Eopp mxE ltr_opp2; apply=> z.
by rewrite mxE ltr_opp2.
Qed.

(* one step moves the mean in the direction of the innovation *)
Definition tracking_step (f : 'cV[R]_1 -> 'cV[R]_1) (Sigma : 'cV[R]_1 -> 'M[R]_1) (h : 'cV[R]_1 -> 'cV[R]_1)
    (s : 'cV[R]_1 * 'M[R]_1) (y : 'cV[R]_1) (s' : 'cV[R]_1 * 'M[R]_1) : Prop :=
  exists L L', let p := sigma_moments w xi f Sigma s.1 L in
    let predicted := wmean w xi (fun z => h (p.1 + L' *m z)) in
    [/\ is_chol L s.2, is_chol L' p.2 &
        Num.sg ((s'.1 - p.1) 0 0) = Num.sg ((y - predicted) 0 0)].

Lemma sigma_tracks f Sigma (h : 'cV[R]_1 -> 'cV[R]_1) Xi s y s' :
  (forall x x' : 'cV[R]_1, x 0 0 < x' 0 0 -> h x 0 0 < h x' 0 0) ->
  sigma_step w xi f Sigma h Xi s y s' -> tracking_step f Sigma h s y s'.
Proof.
move=> hm [L [L' /= [hL hL' pq [K eK KC] _]]]; exists L, L'; split=> //; rewrite eK.
have C0 := wcov_mono (sigma_moments w xi f Sigma s.1 L).1 hm (let: And3 _ d _ := hL' in d 0).
rewrite /sigma_moments /= in C0 *; move: eK KC C0 pq.
set P := wmean w xi _; set Q := wmean w xi (fun z => h _); set S := _ + wmean w xi (fun z => Xi _).
move=> _ <- C0 pq; have q0 := posdef11 pq.
have K0 : 0 < K 0 0 by move: C0; rewrite mxE big_ord1 pmulr_lgt0.
have -> : (P + K *m (y - Q) - P) 0 0 = K 0 0 * (y - Q) 0 0 by rewrite [P + _]addrC addrK mxE big_ord1.
by rewrite sgrM gtr0_sg // mul1r.
Qed.
End Track.
