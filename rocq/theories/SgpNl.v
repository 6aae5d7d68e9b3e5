(* The sigma-point filters on nonlinear models. *)
From mathcomp Require Import all_ssreflect all_algebra ring.
From Verif Require Import Prelude LinAlgSpec LinAlgProofs LdlProofs SmallMx GfsModel GfsSpec GfsProofs GfsKf GfsVec GfsRts GfsMap GfsSgp GfsSgpRun.
Set Implicit Arguments.
Unset Strict Implicit.
Unset Printing Implicit Defensive.
Import Order.TTheory GRing.Theory Num.Theory.
Local Open Scope ring_scope.

Section Spec.
Variable R : rcfType.
Variables (dx : nat) (w : seq R) (xi : seq 'cV[R]_dx).

(* The mean of g over the discrete law that puts weight w_i on xi_i. *)
Definition wmean a b (g : 'cV[R]_dx -> 'M[R]_(a, b)) : 'M[R]_(a, b) :=
  \sum_(p <- zip w xi) p.1 *: g p.2.
Definition wcov a b (g : 'cV[R]_dx -> 'cV[R]_a) (k : 'cV[R]_dx -> 'cV[R]_b) : 'M[R]_(a, b) :=
  wmean (fun z => (g z - wmean g) *m (k z - wmean k)^T).

(* Mean and covariance of a vector whose law given z is N(f (m + L z), Sigma (m + L z)), z drawn
   from the discrete law. *)
Definition sigma_moments a (f : 'cV[R]_dx -> 'cV[R]_a) (Sigma : 'cV[R]_dx -> 'M[R]_a)
    (m : 'cV[R]_dx) (L : 'M[R]_dx) : 'cV[R]_a * 'M[R]_a :=
  let fz := fun z => f (m + L *m z) in
  (wmean fz, wcov fz fz + wmean (fun z => Sigma (m + L *m z))).

(* One step: predict with the points of N(m, v), then the best linear estimate of the state from
   y with the points of the predicted law. *)
Definition sigma_step dy (f : 'cV[R]_dx -> 'cV[R]_dx) (Sigma : 'cV[R]_dx -> 'M[R]_dx)
    (h : 'cV[R]_dx -> 'cV[R]_dy) (Xi : 'cV[R]_dx -> 'M[R]_dy)
    (s : 'cV[R]_dx * 'M[R]_dx) (y : 'cV[R]_dy) (s' : 'cV[R]_dx * 'M[R]_dx) : Prop :=
  exists L L', let p := sigma_moments f Sigma s.1 L in let q := sigma_moments h Xi p.1 L' in
  let C := wcov (fun z => p.1 + L' *m z) (fun z => h (p.1 + L' *m z)) in
  [/\ is_chol L s.2, is_chol L' p.2, posdef q.2,
      exists2 K, s'.1 = p.1 + K *m (y - q.1) & K *m q.2 = C
    & posdef s'.2 /\ (exists K, s'.2 = p.2 - K *m C^T - C *m K^T + K *m q.2 *m K^T) /\
      forall K, loewner s'.2 (p.2 - K *m C^T - C *m K^T + K *m q.2 *m K^T)].
End Spec.

Section Moments.
Variable R : rcfType.
Variables (dx : nat) (w : seq R) (xi : seq 'cV[R]_dx).
Hypothesis hsg : sg_rule w xi.
Local Notation E := (wmean w xi).

Lemma Econst a b (A : 'M[R]_(a, b)) : E (fun=> A) = A.
Proof. by case: hsg => _ h _ _; rewrite /wmean -scaler_suml h scale1r. Qed.
Lemma Eadd a b (f g : 'cV[R]_dx -> 'M[R]_(a, b)) : E (fun z => f z + g z) = E f + E g.
Proof. by rewrite /wmean -big_split /=; apply: eq_bigr => p _; rewrite scalerDr. Qed.
Lemma Eopp a b (f : 'cV[R]_dx -> 'M[R]_(a, b)) : E (fun z => - f z) = - E f.
Proof. by rewrite /wmean -sumrN; apply: eq_bigr => p _; rewrite scalerN. Qed.
Lemma Emull a b c (A : 'M[R]_(a, b)) (f : 'cV[R]_dx -> 'M[R]_(b, c)) : E (fun z => A *m f z) = A *m E f.
Proof. by rewrite /wmean mulmx_sumr; apply: eq_bigr => p _; rewrite scalemxAr. Qed.
Lemma Emulr a b c (f : 'cV[R]_dx -> 'M[R]_(a, b)) (A : 'M[R]_(b, c)) : E (fun z => f z *m A) = E f *m A.
Proof. by rewrite /wmean mulmx_suml; apply: eq_bigr => p _; rewrite scalemxAl. Qed.
Lemma Etr a b (f : 'cV[R]_dx -> 'M[R]_(a, b)) : E (fun z => (f z)^T) = (E f)^T.
Proof. by rewrite /wmean linear_sum; apply: eq_bigr => p _; rewrite linearZ. Qed.
Lemma Eext a b (f g : 'cV[R]_dx -> 'M[R]_(a, b)) : (forall z, f z = g z) -> E f = E g.
Proof. by move=> h; apply: eq_bigr => p _; rewrite h. Qed.
Lemma Eid : E id = 0. Proof. by case: hsg. Qed.
Lemma Eaff (m : 'cV[R]_dx) (L : 'M[R]_dx) : E (fun z => m + L *m z) = m.
Proof. by rewrite Eadd Econst Emull Eid mulmx0 addr0. Qed.

Lemma wcovE a b (g : 'cV[R]_dx -> 'cV[R]_a) (k : 'cV[R]_dx -> 'cV[R]_b) :
  wcov w xi g k = E (fun z => g z *m (k z)^T) - E g *m (E k)^T.
Proof.
rewrite /wcov (Eext (g := fun z => g z *m (k z)^T + (- (E g *m (k z)^T) + (- (g z *m (E k)^T) + E g *m (E k)^T)))).
  rewrite !Eadd !Eopp Emull Emulr Econst Etr; congr (_ + _).
  by rewrite addNr addr0.
move=> z; rewrite [(k z - _)^T]linearB /= mulmxBl !mulmxBr opprB -!addrA; congr (_ + _).
by rewrite addrA [RHS]addrC.
Qed.

Lemma wcov_pts (m : 'cV[R]_dx) (L : 'M[R]_dx) :
  wcov w xi (fun z => m + L *m z) (fun z => m + L *m z) = L *m L^T.
Proof.
rewrite /wcov Eaff (Eext (g := fun z => L *m (z *m z^T) *m L^T)).
  by rewrite Emulr Emull; case: hsg => _ _ _ h; rewrite [E _]h mulmx1.
by move=> z; rewrite addrC addKr trmx_mul !mulmxA.
Qed.

Lemma wcov_tr a b (g : 'cV[R]_dx -> 'cV[R]_a) (k : 'cV[R]_dx -> 'cV[R]_b) :
  (wcov w xi g k)^T = wcov w xi k g.
Proof. by rewrite /wcov -Etr; apply: Eext => z; rewrite trmx_mul trmxK. Qed.

Lemma wcov_lin a b c (g : 'cV[R]_dx -> 'cV[R]_a) (k : 'cV[R]_dx -> 'cV[R]_b) (K : 'M[R]_(a, b))
    (l : 'cV[R]_dx -> 'cV[R]_c) :
  wcov w xi (fun z => g z - K *m k z) l = wcov w xi g l - K *m wcov w xi k l.
Proof.
rewrite /wcov.
rewrite -[X in _ - X](Emull K (fun z => (k z - E k) *m (l z - E l)^T)).
rewrite -[X in _ + X](Eopp (fun z => K *m ((k z - E k) *m (l z - E l)^T))).
rewrite -[RHS](Eadd (fun z => (g z - E g) *m (l z - E l)^T)); apply: Eext => z.
rewrite Eadd Eopp Emull mulmxA -mulmxBl mulmxBr; congr (_ *m _).
by rewrite opprD addrACA opprD.
Qed.

(* covariance of g - K k *)
Lemma wcov_lin2 a b (g : 'cV[R]_dx -> 'cV[R]_a) (k : 'cV[R]_dx -> 'cV[R]_b) (K : 'M[R]_(a, b)) :
  let e := fun z => g z - K *m k z in
  wcov w xi e e = wcov w xi g g - K *m (wcov w xi g k)^T - wcov w xi g k *m K^T + K *m wcov w xi k k *m K^T.
Proof.
move=> e; rewrite /e wcov_lin -[wcov w xi g e]wcov_tr -[wcov w xi k e]wcov_tr /e !wcov_lin.
rewrite ![(_ - _)^T]linearB /= !trmx_mul !wcov_tr mulmxBr mulmxA opprB.
move: (_ *m _) (_ *m _) (_ *m _) => A B C; move: (wcov w xi g g) => D.
by apply/matrixP => i j; rewrite !mxE; move: (A i j) (B i j) (C i j) (D i j) => *; ring.
Qed.

Section Pos.
Hypothesis w0 : forall p, p \in zip w xi -> 0 <= p.1.

Lemma wcov_qform a (g : 'cV[R]_dx -> 'cV[R]_a) u :
  qform (wcov w xi g g) u = \sum_(p <- zip w xi) p.1 * ((u^T *m (g p.2 - E g)) 0 0) ^+ 2.
Proof.
rewrite /wcov {1}/wmean /qform mulmx_sumr mulmx_suml summxE; apply: eq_bigr => p _.
rewrite -scalemxAr -scalemxAl [LHS]mxE; congr (_ * _); move: (g p.2 - E g) => x.
rewrite -!mulmxA mulmxA mxE big_ord1 expr2; congr (_ * _).
by rewrite -tr00 trmx_mul trmxK.
Qed.

Lemma wcov_semi a (g : 'cV[R]_dx -> 'cV[R]_a) : possemidef (wcov w xi g g).
Proof.
split; first by rewrite /symmetric wcov_tr.
move=> u; rewrite wcov_qform big_seq; apply: sumr_ge0 => p hp.
by rewrite mulr_ge0 ?w0 ?sqr_ge0.
Qed.

Lemma E_posdef a (S : 'cV[R]_dx -> 'M[R]_a) : (forall z, posdef (S z)) -> posdef (E S).
Proof.
move=> pS; split; first by rewrite /symmetric -Etr; apply: Eext => z; case: (pS z).
move=> u u0; have -> : qform (E S) u = \sum_(p <- zip w xi) p.1 * qform (S p.2) u.
  rewrite /qform /wmean mulmx_sumr mulmx_suml summxE; apply: eq_bigr => p _.
  by rewrite -scalemxAr -scalemxAl [LHS]mxE.
have hge p : p \in zip w xi -> 0 <= p.1 * qform (S p.2) u.
  by move=> hp; rewrite mulr_ge0 ?w0 // ltW //; case: (pS p.2) => _; apply.
rewrite lt_def big_seq sumr_ge0 //.
rewrite andbT -big_seq; apply/eqP => h0; case: hsg => _ h1 _ _.
suff : \sum_(p <- zip w xi) p.1 = 0 by rewrite h1 => /eqP; rewrite oner_eq0.
rewrite big_seq; apply: big1 => p hp.
have : p.1 * qform (S p.2) u = 0.
  move: h0; rewrite big_seq => /eqP; rewrite psumr_eq0 => [/allP /(_ p hp)|q /hge //].
  by rewrite hp => /eqP.
by move/eqP; rewrite mulf_eq0 => /orP [/eqP //|/eqP q0]; have := (pS p.2).2 u u0; rewrite q0 ltxx.
Qed.

Lemma moments_posdef a (f : 'cV[R]_dx -> 'cV[R]_a) (Sigma : 'cV[R]_dx -> 'M[R]_a) m L :
  (forall x, posdef (Sigma x)) -> posdef (sigma_moments w xi f Sigma m L).2.
Proof. by move=> pS; apply: semi_pos_add; [exact: wcov_semi|apply: E_posdef]. Qed.

(* The joint law is positive definite, so every residual covariance is. *)
Lemma residual_posdef dy (h : 'cV[R]_dx -> 'cV[R]_dy) (Xi : 'M[R]_dy) m L v K :
  is_chol L v -> posdef Xi ->
  let g := fun z => m + L *m z in let k := fun z => h (m + L *m z) in
  posdef (v - K *m (wcov w xi g k)^T - wcov w xi g k *m K^T + K *m (wcov w xi k k + Xi) *m K^T).
Proof.
move=> hL pX g k; have pv := chol_posdef hL; case: (hL) => _ _ hv.
have -> : v = wcov w xi g g by rewrite wcov_pts hv.
rewrite mulmxDr mulmxDl addrA -wcov_lin2; set e := fun z => _.
have sX : possemidef (K *m Xi *m K^T) by apply: semi_congr; apply: posdef_semi.
have se := wcov_semi e.
have [s1 h1] := semi_add se sX; split=> // u u0; rewrite lt_def h1 andbT; apply/eqP.
rewrite qformD => q0; have q1 := se.2 u; have q2 := sX.2 u.
have e1 : qform (wcov w xi e e) u = 0.
  by apply/eqP; rewrite eq_le q1 andbT -q0 ler_addl.
have e2 : qform (K *m Xi *m K^T) u = 0.
  by apply/eqP; rewrite eq_le q2 andbT -q0 ler_addr.
have k0 : K^T *m u = 0.
  apply/eqP; apply: contraT => n0; have := pX.2 _ n0.
  by rewrite /qform trmx_mul trmxK !mulmxA; rewrite /qform !mulmxA in e2; rewrite e2 ltxx.
have uK : u^T *m K = 0 by rewrite -[LHS]trmxK trmx_mul trmxK k0 trmx0.
have : qform v u = 0.
  rewrite -hv -(wcov_pts m L) wcov_qform -[RHS]e1 wcov_qform; apply: eq_bigr => p _.
  congr (_ * _ ^+ 2); congr ((_ : 'M_1) 0 0).
  have -> : E e = E g - K *m E k by rewrite /e (Eadd g) (Eopp (fun z => K *m k z)) Emull.
  rewrite -/(g p.2) -/g /e opprB !mulmxDr !mulmxN !mulmxA uK !mul0mx oppr0 addr0.
  by rewrite sub0r.
by move=> v0; have := pv.2 u u0; rewrite v0 ltxx.
Qed.
End Pos.
End Moments.

(* The best linear estimate. *)
Section Blue.
Variable R : rcfType.
Variables (dx dy : nat) (P : 'M[R]_dx) (S : 'M[R]_dy) (C : 'M[R]_(dx, dy)).
Hypothesis pS : posdef S.
Let K0 := C *m invmx S.
Definition err_cov (K : 'M[R]_(dx, dy)) := P - K *m C^T - C *m K^T + K *m S *m K^T.

Lemma gainC : K0 *m S = C. Proof. by rewrite mulmxKV ?posdef_unit. Qed.
Lemma blueE : P - K0 *m S *m K0^T = err_cov K0.
Proof.
rewrite /err_cov gainC; have -> : K0 *m C^T = C *m K0^T.
  by rewrite -{1}gainC trmx_mul (posdef_sym pS) mulmxA gainC.
by rewrite subrK.
Qed.
Lemma blue_opt K : loewner (P - K0 *m S *m K0^T) (err_cov K).
Proof.
rewrite /loewner; have -> : err_cov K - (P - K0 *m S *m K0^T) = (K - K0) *m S *m (K - K0)^T.
  rewrite /err_cov mulmxBl gainC [(K - K0)^T]linearB /= mulmxBl !mulmxBr.
  have -> : K *m S *m K0^T = K *m C^T.
    by rewrite -mulmxA -[X in S *m X^T]/(K0) -{1}(posdef_sym pS) -trmx_mul gainC.
  move: (K *m C^T) (C *m K^T) (K *m S *m K^T) (C *m K0^T) => A1 A2 A3 A4.
  by apply/matrixP => i j; rewrite !mxE; move: (P i j) (A1 i j) (A2 i j) (A3 i j) (A4 i j) => *; ring.
by apply: semi_congr; apply: posdef_semi.
Qed.
End Blue.

(* The code's uncentred sums are the centred moments. *)
Section Run.
Variable R : rcfType.
Variable chol : forall n, 'M[R]_n -> 'M[R]_n.
Hypothesis hchol : chol_spec chol.
Variables (log : R -> R) (pi : R).
Variables (dx : nat) (sg : sigma_points R dx).
Local Notation w := (sg_w sg).
Local Notation xi := (sg_xi sg).
Hypothesis hsg : sg_rule w xi.
Local Notation E := (wmean w xi).

Lemma expE a b (g : 'cV[R]_dx -> 'M[R]_(a, b)) m L :
  sg_expectation sg [seq g x | x <- gen_sigma_points sg m L] = E (fun z => g (m + L *m z)).
Proof. by rewrite -map_comp sg_expectationE. Qed.

Lemma exp_outer a b (g : 'cV[R]_dx -> 'cV[R]_a) (k : 'cV[R]_dx -> 'cV[R]_b) m L :
  let chi := gen_sigma_points sg m L in
  sg_expectation sg (vectorised_outer [seq g x | x <- chi] [seq k x | x <- chi])
  = E (fun z => g (m + L *m z) *m (k (m + L *m z))^T).
Proof. by move=> chi; rewrite outer_map (expE (fun x => g x *m (k x)^T)). Qed.

Lemma exp_outer_add a (g : 'cV[R]_dx -> 'cV[R]_a) (S : 'cV[R]_dx -> 'M[R]_a) m L :
  let chi := gen_sigma_points sg m L in
  sg_expectation sg [seq p.1 + p.2 | p <- zip (vectorised_outer [seq g x | x <- chi] [seq g x | x <- chi])
                                              [seq S x | x <- chi]]
  = E (fun z => g (m + L *m z) *m (g (m + L *m z))^T) + E (fun z => S (m + L *m z)).
Proof.
move=> chi; rewrite outer_map zip_map -map_comp.
by rewrite (expE (fun x => g x *m (g x)^T + S x)) (Eadd w xi (fun z => g (m + L *m z) *m (g (m + L *m z))^T)).
Qed.

Section Predict.
Variables (f : 'cV[R]_dx -> R -> 'cV[R]_dx * 'M[R]_dx) (t : R).

Lemma nl_predictionE m v :
  let p := sigma_moments w xi (fun x => (f x t).1) (fun x => (f x t).2) m (chol v) in
  let r := sgp_prediction chol sg f t m v in (r.1.1.1, r.1.1.2) = p.
Proof.
rewrite /sgp_prediction /sigma_moments /= (expE (fun x => (f x t).1)) exp_outer_add; congr pair.
by rewrite (wcovE hsg) addrAC.
Qed.

Lemma nl_smootherE m v ms vs :
  let fz := fun z => (f (m + chol v *m z) t).1 in
  let p := sigma_moments w xi (fun x => (f x t).1) (fun x => (f x t).2) m (chol v) in
  posdef p.2 ->
  let G := wcov w xi (fun z => m + chol v *m z) fz *m invmx p.2 in
  sgp_smoother_body chol f sg t m v ms vs = (m + G *m (ms - p.1), v + G *m (vs - p.2) *m G^T).
Proof.
move=> fz p pp G; have e := nl_predictionE m v; rewrite -/p /= in e.
have e1 : p.1 = E fz by [].
rewrite /sgp_smoother_body /sgp_prediction in e *; move: e => /=.
set mp' := sg_expectation _ _; set vp' := _ - mp' *m _ => e.
have -> : vp' = p.2 by rewrite -e.
have -> : mp' = p.1 by rewrite -e.
have hD : sg_expectation sg (vectorised_outer (gen_sigma_points sg m (chol v))
    [seq (f x t).1 | x <- gen_sigma_points sg m (chol v)]) - m *m p.1^T
    = wcov w xi (fun z => m + chol v *m z) fz.
  rewrite -[X in vectorised_outer X _]map_id (exp_outer id (fun x => (f x t).1)).
  by rewrite (wcovE hsg) (Eaff hsg) e1.
by rewrite smoother_sharedE // trmxK hD.
Qed.
End Predict.

Section Update.
Variables (dy : nat) (h : 'cV[R]_dx -> 'cV[R]_dy * 'M[R]_dy).
Local Notation hm := (fun x => (h x).1).
Local Notation hX := (fun x => (h x).2).

Definition nl_upd m v y :=
  let q := sigma_moments w xi hm hX m (chol v) in
  let C := wcov w xi (fun z => m + chol v *m z) (fun z => hm (m + chol v *m z)) in
  let K := C *m invmx q.2 in
  (m + K *m (y - q.1), v - K *m q.2 *m K^T, - log_mvn_pdf log pi y q.1 (chol q.2)).

Lemma nl_updateE m v y (const : bool) :
  (const -> forall x x', hX x = hX x') ->
  posdef (sigma_moments w xi hm hX m (chol v)).2 ->
  sgp_update chol log pi sg h m v y const = nl_upd m v y.
Proof.
move=> hc pq; rewrite /sgp_update /nl_upd.
set q := sigma_moments _ _ _ _ _ _ in pq *; set Cc := wcov _ _ _ _.
have e1 : sg_expectation sg [seq hm x | x <- gen_sigma_points sg m (chol v)] = q.1.
  by rewrite (expE hm).
have e2 : sg_expectation sg (vectorised_outer (gen_sigma_points sg m (chol v))
             [seq hm x | x <- gen_sigma_points sg m (chol v)]) - m *m q.1^T = Cc.
  rewrite -[X in vectorised_outer X _]map_id (exp_outer id hm) /Cc (wcovE hsg) (Eaff hsg).
  by rewrite /q /sigma_moments.
have e3 : (if const then sg_expectation sg (vectorised_outer
               [seq hm x | x <- gen_sigma_points sg m (chol v)]
               [seq hm x | x <- gen_sigma_points sg m (chol v)]) - q.1 *m q.1^T
               + nth 0 [seq hX x | x <- gen_sigma_points sg m (chol v)] 0
            else sg_expectation sg [seq p.1 + p.2 | p <- zip (vectorised_outer
               [seq hm x | x <- gen_sigma_points sg m (chol v)]
               [seq hm x | x <- gen_sigma_points sg m (chol v)])
               [seq hX x | x <- gen_sigma_points sg m (chol v)]] - q.1 *m q.1^T) = q.2.
  rewrite (exp_outer_add hm hX) (exp_outer hm hm); case: const hc => hc; last first.
    by rewrite addrAC -(wcovE hsg).
  rewrite -(wcovE hsg) /q /sigma_moments /=; congr (_ + _).
  have [x0 ->] : exists x0, nth 0 [seq hX x | x <- gen_sigma_points sg m (chol v)] 0 = hX x0.
    by have := xi_neq0 hsg; rewrite /gen_sigma_points; case: (xi) => [|x0 xs] //= _; eexists.
  by rewrite -[LHS](Econst hsg); apply: Eext => z; exact: hc.
by rewrite e1 e2 e3 (cho_solve_lowerE hchol _ pq) trmx_mul trmxK trmx_inv (posdef_sym pq).
Qed.
End Update.

Variables (dy : nat) (t : R) (f : 'cV[R]_dx -> R -> 'cV[R]_dx * 'M[R]_dx).
Variable h : 'cV[R]_dx -> 'cV[R]_dy * 'M[R]_dy.
Hypothesis w0 : forall p, p \in zip w xi -> 0 <= p.1.
Hypothesis pS : forall x, posdef (f x t).2.
Hypothesis pX : forall x, posdef (h x).2.
Variable const : bool.
Hypothesis hc : const -> forall x x', (h x).2 = (h x').2.

Lemma nl_predE m v :
  (let: (mp, vp, _, _) := sgp_prediction chol sg f t m v in (mp, vp))
  = sigma_moments w xi (fun x => (f x t).1) (fun x => (f x t).2) m (chol v).
Proof. by rewrite -nl_predictionE; case: (sgp_prediction _ _ _ _ _ _) => [[[? ?] ?] ?]. Qed.

Lemma nl_upd_posdef m v y : posdef v -> posdef (nl_upd h m v y).1.2.
Proof.
move=> pv; rewrite /nl_upd /=.
have pq := moments_posdef hsg w0 (fun x => (h x).1) m (chol v) pX.
rewrite (blueE _ _ pq); apply: (residual_posdef hsg w0); first exact: hchol.
exact: (E_posdef hsg w0).
Qed.

Lemma nl_step_ok s y : posdef s.1.2 ->
  let s' := fstep (fun m v => sigma_moments w xi (fun x => (f x t).1) (fun x => (f x t).2) m (chol v))
              (nl_upd h) s y in
  sigma_step w xi (fun x => (f x t).1) (fun x => (f x t).2) (fun x => (h x).1) (fun x => (h x).2)
    s.1 y s'.1.
Proof.
case: s => [[m v] l] pv s'.
pose p := sigma_moments w xi (fun x => (f x t).1) (fun x => (f x t).2) m (chol v).
have pp : posdef p.2 by apply: (moments_posdef hsg w0).
pose q := sigma_moments w xi (fun x => (h x).1) (fun x => (h x).2) p.1 (chol p.2).
pose Cc := wcov w xi (fun z => p.1 + chol p.2 *m z) (fun z => (h (p.1 + chol p.2 *m z)).1).
have pq : posdef q.2 by apply: (moments_posdef hsg w0).
have hp : posdef s'.1.2 by exact: (nl_upd_posdef p.1 y pp).
exists (chol v), (chol p.2); split; [exact: hchol|exact: hchol|exact: pq| |].
  by exists (Cc *m invmx q.2) => //; rewrite gainC.
split; first exact: hp.
have e2 : s'.1.2 = p.2 - Cc *m invmx q.2 *m q.2 *m (Cc *m invmx q.2)^T by [].
split; last by move=> K; rewrite e2; exact: blue_opt.
by exists (Cc *m invmx q.2); rewrite e2; exact: blueE.
Qed.

Lemma nl_filterE m0 v0 ys : posdef v0 ->
  sgp_filter chol log pi f h sg m0 v0 t ys const
  = Some (outputs (traj (fstep (fun m v => sigma_moments w xi (fun x => (f x t).1) (fun x => (f x t).2) m (chol v))
                          (nl_upd h)) (m0, v0, 0) ys)).
Proof.
move=> p0; rewrite /sgp_filter.
have hU m v y : posdef v -> Some (sgp_update chol log pi sg h m v y const) = Some (nl_upd h m v y).
  by move=> pv; rewrite nl_updateE //; apply: (moments_posdef hsg w0).
transitivity (run_filter (fun m v => sigma_moments w xi (fun x => (f x t).1) (fun x => (f x t).2) m (chol v))
  (fun mp vp y => Some (sgp_update chol log pi sg h mp vp y const)) m0 v0 ys).
  by apply: (@run_filter_ext _ _ _ (fun=> True)) => // m v _; rewrite nl_predE.
apply: (@run_filterE _ _ _ (@posdef R dx)) => // m v y pv /=.
have pp : posdef (sigma_moments w xi (fun x => (f x t).1) (fun x => (f x t).2) m (chol v)).2.
  exact: (moments_posdef hsg w0).
by split; [apply: hU|apply: nl_upd_posdef].
Qed.

Local Notation step := (fstep (fun m v => sigma_moments w xi (fun x => (f x t).1)
        (fun x => (f x t).2) m (chol v)) (nl_upd h)).

Lemma nl_fstep_posdef s y : posdef (step s y).1.2.
Proof.
have pp := moments_posdef hsg w0 (fun x => (f x t).1) s.1.1 (chol s.1.2) pS.
exact: (nl_upd_posdef _ y pp).
Qed.

Lemma nl_chain s ys : posdef s.1.2 ->
  chain_of (sigma_step w xi (fun x => (f x t).1) (fun x => (f x t).2) (fun x => (h x).1) (fun x => (h x).2))
    s.1 ys [seq o.1 | o <- traj step s ys].
Proof.
elim: ys s => [|y ys IH] s p0 //; split; first exact: nl_step_ok.
exact: IH (nl_fstep_posdef s y).
Qed.

End Run.

(* One Euler-Maruyama step of the discrete filter expands into the continuous-discrete one. *)
Section CdNl.
Variable R : rcfType.
Variable chol : forall n, 'M[R]_n -> 'M[R]_n.
Hypothesis hchol : chol_spec chol.
Variables (d dw : nat) (sg : sigma_points R d).
Local Notation w := (sg_w sg).
Local Notation xi := (sg_xi sg).
Hypothesis hsg : sg_rule w xi.
Variables (drift : 'cV[R]_d -> 'cV[R]_d) (B : 'M[R]_(d, dw)).

Lemma cd_nl_sharedE m v : let g := fun z => m + chol v *m z in let k := fun z => drift (m + chol v *m z) in
  cd_sgp_shared chol sg drift B m v = (wmean w xi k, wcov w xi g k + wcov w xi k g + B *m B^T).
Proof.
move=> g k; rewrite /cd_sgp_shared (expE sg drift).
have e : sg_expectation sg (vectorised_outer [seq x - m | x <- gen_sigma_points sg m (chol v)]
           [seq drift x | x <- gen_sigma_points sg m (chol v)]) = wcov w xi g k.
  rewrite (exp_outer sg (fun x => x - m) drift) (wcovE hsg) (Eaff hsg).
  by rewrite -Etr -Emull -Eopp -Eadd; apply: Eext => z; rewrite mulmxBl.
by rewrite e wcov_tr.
Qed.

Lemma cd_nl_euler t m v : posdef v ->
  let ode := cd_sgp_shared chol sg drift B m v in
  let k := fun z => drift (m + chol v *m z) in
  let r := sgp_prediction chol sg (fun x t => (x + t *: drift x, t *: (B *m B^T))) t m v in
  (r.1.1.1, r.1.1.2) = (m + t *: ode.1, v + t *: ode.2 + t ^+ 2 *: wcov w xi k k).
Proof.
move=> pv ode k r; rewrite /r nl_predictionE // /ode cd_nl_sharedE /sigma_moments /=.
pose g := fun z => m + chol v *m z; have -> : m + t *: wmean w xi k = wmean w xi (fun z => g z + t *: k z).
  by rewrite (Eadd w xi g) (Eaff hsg) /wmean scaler_sumr; congr (_ + _); apply: eq_bigr => p _; rewrite !scalerA mulrC.
congr pair; rewrite (Econst hsg) -/k -/g.
have eK z : g z + t *: k z = g z - ((- t)%:M : 'M[R]_d) *m k z.
  by rewrite mul_scalar_mx scaleNr opprK.
have e1 : wcov w xi (fun z => g z + t *: k z) (fun z => g z + t *: k z)
    = wcov w xi (fun z => g z - ((- t)%:M : 'M[R]_d) *m k z) (fun z => g z - ((- t)%:M : 'M[R]_d) *m k z).
  rewrite /wcov; apply: Eext => z; rewrite !eK.
  by rewrite (Eext w xi eK).
have [_ _ vE] := hchol pv.
rewrite -/(g _) e1 (wcov_lin2 w xi g k) wcov_tr /g (wcov_pts hsg) vE -/g tr_scalar_mx.
rewrite !mul_scalar_mx !mul_mx_scalar !scaleNr !opprK scalerN opprK scalerA -expr2 !scalerDr.
move: (t *: _) (t *: _) (t *: _) (t ^+ 2 *: _) => A1 A2 A3 A4.
by apply/matrixP => i j; rewrite !mxE; move: (v i j) (A1 i j) (A2 i j) (A3 i j) (A4 i j) => *; ring.
Qed.
End CdNl.

(* A smoother as a recurrence over positions. *)
Section SmoothNth.
Variable R : rcfType.
Variable d : nat.
Local Notation state := ('cV[R]_d * 'M[R]_d)%type.
Variable body : 'cV[R]_d -> 'M[R]_d -> 'cV[R]_d -> 'M[R]_d -> state.

Lemma smooth_nth (x : state) hs z k : (k < size hs)%N ->
  let r := smooth body x hs in
  nth z r k = body (nth z (x :: hs) k).1 (nth z (x :: hs) k).2 (nth z r k.+1).1 (nth z r k.+1).2.
Proof.
elim: hs x k => [|x' hs IH] x [|k] //= hk.
  by rewrite !nth0; case: (smooth body x' hs) (size_smooth body x' hs).
exact: IH.
Qed.

Lemma run_smoother_nth mfs vfs : (0 < size vfs)%N -> size mfs = size vfs ->
  let r := run_smoother body mfs vfs in
  [/\ size r.1 = size mfs, size r.2 = size vfs, last 0 r.1 = last 0 mfs, last 0 r.2 = last 0 vfs
    & forall k, (k.+1 < size vfs)%N ->
      (nth 0 r.1 k, nth 0 r.2 k) = body (nth 0 mfs k) (nth 0 vfs k) (nth 0 r.1 k.+1) (nth 0 r.2 k.+1)].
Proof.
move=> n0 e; pose hs := zip mfs vfs.
have e1 : mfs = [seq s.1 | s <- hs] by rewrite -[RHS]/(unzip1 hs) unzip1_zip ?e.
have e2 : vfs = [seq s.2 | s <- hs] by rewrite -[RHS]/(unzip2 hs) unzip2_zip ?e.
have n1 : (0 < size hs)%N by rewrite size_zip e minnn.
rewrite e1 e2; clearbody hs; clear n0 e e1 e2 mfs vfs; case: hs n1 => // x hs _ r.
have rE : r = ([seq s.1 | s <- smooth body x hs], [seq s.2 | s <- smooth body x hs]).
  by rewrite /r run_smootherE.
rewrite rE /= !size_map size_smooth; clearbody r; clear r rE.
have lst (T : Type) (f : state -> T) z :
    last z [seq f s | s <- smooth body x hs] = last (f x) [seq f s | s <- hs].
  rewrite last_map -(last_smooth body x hs x).
  by case: (smooth body x hs) (size_smooth body x hs) => //= a r _; rewrite last_map.
split=> //; rewrite ?lst // => k; rewrite ltnS => hk.
have hk1 : (k < (size hs).+1)%N by rewrite ltnS ltnW.
have nE (T : Type) (f : state -> T) z j : (j <= size hs)%N ->
    nth z [seq f s | s <- smooth body x hs] j = f (nth x (smooth body x hs) j).
  by move=> hj; rewrite (nth_map x) // size_smooth ltnS.
have oE (T : Type) (f : state -> T) z : nth z (f x :: [seq f s | s <- hs]) k = f (nth x (x :: hs) k).
  by rewrite -[_ :: _]/[seq f s | s <- x :: hs] (nth_map x).
rewrite !nE ?(ltnW hk) // !oE -surjective_pairing; exact: smooth_nth.
Qed.
End SmoothNth.
