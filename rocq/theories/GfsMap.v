(* The Kalman filter followed by the RTS smoother computes the marginals and the mode of
   the posterior over trajectories. *)
From mathcomp Require Import all_ssreflect all_algebra ring.
From Verif Require Import Prelude LinAlgSpec LinAlgProofs SmallMx LdlProofs GfsModel GfsSpec GfsProofs GfsKf GfsVec GfsRts.
Set Implicit Arguments.
Unset Strict Implicit.
Unset Printing Implicit Defensive.
Import Order.TTheory GRing.Theory Num.Theory.
Local Open Scope ring_scope.

Section Map.
Variable R : rcfType.
Variables (dx dy : nat).
Variables (F Sigma : 'M[R]_dx) (H : 'M[R]_(dy, dx)) (Xi : 'M[R]_dy).
Hypothesis pSigma : posdef Sigma.
Hypothesis pXi : posdef Xi.
Variable chol : forall n, 'M[R]_n -> 'M[R]_n.
Hypothesis hchol : chol_spec chol.
Local Notation state := ('cV[R]_dx * 'M[R]_dx)%type.
Local Notation predv := (@predv R dx F Sigma).
Local Notation q A u := (qform (invmx A) u).

Definition tpred (s : state) : state := (F *m s.1, predv s.2).
Definition tupd (p : state) (y : 'cV[R]_dy) : state :=
  (p.1 + gain H p.2 Xi *m (y - H *m p.1), postcov H p.2 Xi).
Definition tstep (s : state) y : state := tupd (tpred s) y.
Local Notation sm := (smooth (rts_body chol F Sigma)).

Lemma predv_posdef v : possemidef v -> posdef (predv v).
Proof. by move=> h; apply: semi_pos_add => //; apply: semi_congr. Qed.
Lemma predv_posdef' v : posdef v -> posdef (predv v).
Proof. by move=> /posdef_semi; apply: predv_posdef. Qed.

Lemma cs n m (A : 'M[R]_(m, n)) (P : 'M[R]_n) (Q : 'M[R]_m) e d : posdef P -> posdef Q ->
  q Q (e - A *m d) + q P d = q (innov A P Q) e + q (postcov A P Q) (d - gain A P Q *m e).
Proof.
move=> pP pQ; have pS := innov_posdef A pQ (posdef_semi pP).
by apply: complete_square => //; rewrite ?posdef_sym ?posdef_unit.
Qed.
Lemma pc_posdef n m (A : 'M[R]_(m, n)) (P : 'M[R]_n) (Q : 'M[R]_m) : posdef P -> posdef Q ->
  posdef (postcov A P Q).
Proof.
move=> pP pQ; have pS := innov_posdef A pQ (posdef_semi pP).
by apply: postcov_posdef => //; rewrite ?posdef_sym ?posdef_unit.
Qed.

Lemma q_ge0 n (A : 'M[R]_n) u : posdef A -> 0 <= q A u.
Proof. by move=> h; apply: (proj2 (posdef_semi (posdef_inv h))). Qed.
Lemma q_eq0 n (A : 'M[R]_n) u : posdef A -> q A u = 0 -> u = 0.
Proof.
move=> h e; apply/eqP; apply: contra_eqT e => hu.
by rewrite gt_eqF //; apply: (proj2 (posdef_inv h)).
Qed.
Lemma q0 n (A : 'M[R]_n) : q A 0 = 0.
Proof. by rewrite /qform mulmx0 mxE. Qed.

(* One measurement. *)
Lemma upd_split (p : state) y x : posdef p.2 ->
  q p.2 (x - p.1) + q Xi (y - H *m x)
  = q (innov H p.2 Xi) (y - H *m p.1) + q (tupd p y).2 (x - (tupd p y).1).
Proof.
move=> pp; have := cs H (y - H *m p.1) (x - p.1) pp pXi.
have -> : y - H *m p.1 - H *m (x - p.1) = y - H *m x.
  by rewrite mulmxBr opprB addrA subrK.
by move=> e; rewrite addrC e /= opprD addrA.
Qed.

(* One transition. *)
Lemma pred_split (s : state) x x' : posdef s.2 ->
  q s.2 (x - s.1) + q Sigma (x' - F *m x)
  = q (predv s.2) (x' - F *m s.1)
    + q (postcov F s.2 Sigma) (x - (s.1 + gain F s.2 Sigma *m (x' - F *m s.1))).
Proof.
move=> pp; have := cs F (x' - F *m s.1) (x - s.1) pp pSigma.
have -> : x' - F *m s.1 - F *m (x - s.1) = x' - F *m x.
  by rewrite mulmxBr opprB addrA subrK.
by move=> e; rewrite addrC e /= opprD addrA.
Qed.

Definition cost (s : state) ys (x : 'cV[R]_dx) xs := q s.2 (x - s.1) + traj_cost F Sigma H Xi x ys xs.
Definition bk (s : state) (x' : 'cV[R]_dx) := s.1 + gain F s.2 Sigma *m (x' - F *m s.1).

Lemma cost_split (s : state) y ys x x' xs : posdef s.2 ->
  cost s (y :: ys) x (x' :: xs)
  = q (postcov F s.2 Sigma) (x - bk s x')
    + q (innov H (predv s.2) Xi) (y - H *m (F *m s.1))
    + cost (tstep s y) ys x' xs.
Proof.
move=> ps; rewrite /cost /= !addrA pred_split //.
have := @upd_split (tpred s) y x' (predv_posdef' ps) => /= e.
rewrite [q (predv s.2) _ + _]addrC -[_ + q (predv s.2) _ + _]addrA e.
by rewrite !addrA.
Qed.

Lemma tstep_posdef s y : posdef s.2 -> posdef (tstep s y).2.
Proof. by move=> h; apply: pc_posdef => //; apply: predv_posdef'. Qed.

Lemma sm_head (s x' : state) hs : posdef s.2 -> let r := head x' (sm x' hs) in
  sm s (x' :: hs) = (bk s r.1, postcov F s.2 Sigma + gain F s.2 Sigma *m r.2 *m (gain F s.2 Sigma)^T)
                    :: sm x' hs.
Proof.
move=> ps; rewrite smooth_cons; congr (_ :: _); rewrite rts_bodyE //.
  exact: posdef_semi.
exact: predv_posdef'.
Qed.

(* the mode *)
Lemma map_mode ys s : posdef s.2 -> exists c,
  let zs := [seq z.1 | z <- sm s (traj tstep s ys)] in
  (cost s ys (head 0 zs) (behead zs) = c) /\
  forall x xs, size xs = size ys ->
    c <= cost s ys x xs /\ (cost s ys x xs = c -> x :: xs = zs).
Proof.
elim: ys s => [|y ys IH] s ps.
  exists 0; split; first by rewrite /cost /= subrr q0 addr0.
  move=> x [] //= _; rewrite /cost /= addr0; split; first exact: q_ge0.
  by move=> /(q_eq0 ps) /eqP; rewrite subr_eq0 => /eqP ->.
have [c [e h]] := IH _ (tstep_posdef y ps).
set k := q (innov H (predv s.2) Xi) (y - H *m (F *m s.1)).
have pC := pc_posdef F ps pSigma.
exists (k + c) => zs; rewrite /zs [traj _ _ _]/= sm_head //.
move: e h; set r := sm _ _ => /= e h.
have er : r = head (tstep s y) r :: behead r.
  by rewrite /r; case: (traj _ _ _) => // *; rewrite smooth_cons.
split.
  rewrite [in LHS]er map_cons cost_split // subrr q0 add0r -/k; congr (_ + _).
  by rewrite -[in RHS]e er.
move=> x [//|x' xs] [hs]; rewrite cost_split // -/k.
have [h1 h2] := h x' xs hs.
split; first by rewrite -addrA ler_paddl ?q_ge0 // ler_add2l.
move=> e2.
have e3 : cost (tstep s y) ys x' xs = c.
  apply: le_anti; rewrite h1 andbT.
  by rewrite -(ler_add2l k) -e2 -addrA ler_addr q_ge0.
have e4 : q (postcov F s.2 Sigma) (x - bk s x') = 0.
  by apply: (@addIr _ (k + c)); rewrite add0r addrA -{1}e3.
have {}h2 := h2 e3; rewrite h2; congr (_ :: _).
move/(q_eq0 pC): e4 => /eqP; rewrite subr_eq0 => /eqP ->.
by congr (bk s _); move: h2; rewrite er /= => -[].
Qed.

Definition prof (J : 'cV[R]_dx -> seq 'cV[R]_dx -> R) T k (m : 'cV[R]_dx) (v : 'M[R]_dx) :=
  posdef v /\ exists c,
    (forall x xs, size xs = T -> c + q v (nth 0 (x :: xs) k - m) <= J x xs) /\
    (forall z, exists x xs, [/\ size xs = T, nth 0 (x :: xs) k = z & J x xs = c + q v (z - m)]).

Lemma sm_cons s ys : sm s (traj tstep s ys)
  = head s (sm s (traj tstep s ys)) :: behead (sm s (traj tstep s ys)).
Proof. by case: ys => // *; rewrite /= smooth_cons. Qed.

Lemma head_prof ys s : posdef s.2 ->
  let r := head s (sm s (traj tstep s ys)) in prof (cost s ys) (size ys) 0 r.1 r.2.
Proof.
elim: ys s => [|y ys IH] s ps.
  split=> //; exists 0; rewrite /cost /=; split.
    by move=> x [] //= _; rewrite add0r addr0.
  by move=> z; exists z, [::]; rewrite add0r addr0.
have pt := tstep_posdef y ps; have := IH _ pt; set r := head _ _ => -[pr [c [h1 h2]]].
rewrite [traj _ _ _]/= sm_head // -/r.
set C := postcov F s.2 Sigma; set G := gain F s.2 Sigma.
have er : head (tstep s y) (sm (tstep s y) (traj tstep (tstep s y) ys)) = r by [].
have pC : posdef C := pc_posdef F ps pSigma.
set k := q (innov H (predv s.2) Xi) (y - H *m (F *m s.1)).
have eV : C + G *m r.2 *m G^T = innov G r.2 C by rewrite /innov addrC.
cbv zeta; rewrite [(_, _).1]/= [(_, _).2]/= eV.
have pV : posdef (innov G r.2 C) by apply: innov_posdef => //; apply: posdef_semi.
have main x x' : q C (x - bk s x') + (c + q r.2 (x' - r.1))
    = c + q (innov G r.2 C) (x - bk s r.1)
      + q (postcov G r.2 C) (x' - (r.1 + gain G r.2 C *m (x - bk s r.1))).
  have := cs G (x - bk s r.1) (x' - r.1) pr pC.
  have -> : x - bk s r.1 - G *m (x' - r.1) = x - bk s x'.
    rewrite /bk -/G !mulmxBr; apply/matrixP => i j; rewrite !mxlin.
    by move: (x i j) (s.1 i j) ((_ *m _) i j) ((_ *m _) i j) ((_ *m _) i j) => *; ring.
  by move=> e; rewrite addrCA e addrA opprD addrA.
split=> //; exists (k + c); split.
  move=> x [//|x' xs] [hs]; rewrite cost_split // -/k -/C nth_cons0.
  have h := h1 x' xs hs; rewrite nth_cons0 in h.
  move: (cost _ _ _ _) h => J h.
  apply: (@le_trans _ _ (k + (q C (x - bk s x') + (c + q r.2 (x' - r.1))))).
    by rewrite -addrA ler_add2l main ler_addl; apply: q_ge0; apply: pc_posdef.
  by rewrite [X in _ <= X + _]addrC -addrA !ler_add2l.
move=> x; pose x' := r.1 + gain G r.2 C *m (x - bk s r.1).
have [x1 [xs [hs hx e]]] := h2 x'; rewrite nth_cons0 in hx; rewrite hx in e.
exists x, (x' :: xs); split=> //=; first by rewrite hs.
rewrite cost_split // -/k -/C e addrAC main -/x' subrr q0 addr0.
by rewrite addrC addrA.
Qed.

Lemma all_prof ys s k : posdef s.2 -> (k <= size ys)%N ->
  let r := nth s (sm s (traj tstep s ys)) k in prof (cost s ys) (size ys) k r.1 r.2.
Proof.
elim: k ys s => [|k IH] ys s ps hk.
  by rewrite nth0; apply: head_prof.
case: ys hk => [//|y ys] hk; have pt := tstep_posdef y ps.
have := IH ys _ pt hk.
rewrite [traj _ _ _]/= sm_head // nth_consS (set_nth_default (tstep s y)) ?size_smooth ?size_traj //.
move: (nth _ _ _) => r [pr [c [h1 h2]]]; split=> //.
set k0 := q (innov H (predv s.2) Xi) (y - H *m (F *m s.1)).
have pC := pc_posdef F ps pSigma.
exists (k0 + c); split.
  move=> x [//|x' xs] [hs]; rewrite cost_split // -/k0 nth_consS -!addrA.
  by rewrite ler_paddl ?q_ge0 // ler_add2l h1.
move=> z; have [x' [xs [hs hx e]]] := h2 z.
exists (bk s x'), (x' :: xs); split; rewrite /= ?hs //.
by rewrite cost_split // subrr q0 add0r -/k0 e addrA.
Qed.

(* From the predicted state of the first measurement. *)
Lemma post_cost0 (p : state) y ys x xs : posdef p.2 ->
  posterior_cost F Sigma H Xi p.1 p.2 (y :: ys) (x :: xs)
  = q (innov H p.2 Xi) (y - H *m p.1) + cost (tupd p y) ys x xs.
Proof. by move=> pp; rewrite /= upd_split // /cost addrA. Qed.

Lemma rts_marginal_lem (s0 : state) y ys k : possemidef s0.2 -> (k <= size ys)%N ->
  let s1 := tstep s0 y in
  let r := nth s1 (sm s1 (traj tstep s1 ys)) k in
  gauss_marginal (posterior_cost F Sigma H Xi (F *m s0.1) (predv s0.2) (y :: ys))
    (size ys).+1 k r.1 r.2.
Proof.
move=> p0 hk s1 r; have pp := predv_posdef p0.
have p1 : posdef s1.2 by apply: pc_posdef.
have [pr [c [h1 h2]]] := all_prof p1 hk; split=> //.
exists (q (innov H (predv s0.2) Xi) (y - H *m (F *m s0.1)) + c); split.
  move=> [//|x xs] [hs]; have := @post_cost0 (tpred s0) y ys x xs pp => /= ->.
  by rewrite -addrA ler_add2l h1.
move=> z; have [x [xs [hs hx e]]] := h2 z; exists (x :: xs); split; rewrite /= ?hs //.
by have := @post_cost0 (tpred s0) y ys x xs pp => /= ->; rewrite -addrA -e.
Qed.

Lemma rts_mode_lem (s0 : state) y ys : possemidef s0.2 ->
  let s1 := tstep s0 y in
  unique_minimiser (posterior_cost F Sigma H Xi (F *m s0.1) (predv s0.2) (y :: ys))
    (size ys).+1 [seq z.1 | z <- sm s1 (traj tstep s1 ys)].
Proof.
move=> p0 s1; have pp := predv_posdef p0; have p1 : posdef s1.2 by apply: pc_posdef.
have sz : size [seq z.1 | z <- sm s1 (traj tstep s1 ys)] = (size ys).+1.
  by rewrite size_map size_smooth size_traj.
split=> // -[//|x xs] [hs].
have [c [e h]] := map_mode ys p1; have [h1 h2] := h x xs hs.
move: e h1 h2 sz; case: [seq _ | _ <- _] => [//|z zs] /= e h1 h2 _.
have pcE x0 xs0 : _ := @post_cost0 (tpred s0) y ys x0 xs0 pp; rewrite /= in pcE; rewrite !pcE.
by split; [rewrite ler_add2l e|move=> /addrI; rewrite e].
Qed.
End Map.
