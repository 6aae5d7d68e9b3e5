(* Smoothers: the reverse scan as a recursion over the history, the Loewner order. *)
From mathcomp Require Import all_ssreflect all_algebra ring.
From Verif Require Import Prelude LinAlgSpec LinAlgProofs SmallMx LdlProofs GfsModel GfsSpec GfsProofs GfsKf GfsVec.
Set Implicit Arguments.
Unset Strict Implicit.
Unset Printing Implicit Defensive.
Import Order.TTheory GRing.Theory Num.Theory.
Local Open Scope ring_scope.

Section Cho.
Variable R : rcfType.
Variable chol : forall n, 'M[R]_n -> 'M[R]_n.
Hypothesis hchol : chol_spec chol.

Lemma triu_tr n (L : 'M[R]_n) : triu L^T = (tril L)^T.
Proof. by apply/matrixP => i j; rewrite !mxE. Qed.

Lemma cho_solve_lowerE n m (S : 'M[R]_n) (b : 'M[R]_(n, m)) : posdef S ->
  cho_solve_lower (chol S) b = invmx S *m b.
Proof.
move=> pS; have [t p e] := hchol pS.
rewrite /cho_solve_lower tril_id // mulmxA -invmx_mul ?e ?unitmx_tr //; exact: trig_unit.
Qed.

Lemma cho_solve_upperE n m (S : 'M[R]_n) (b : 'M[R]_(n, m)) : posdef S ->
  cho_solve_upper (cho_factor chol S) b = invmx S *m b.
Proof.
move=> pS; have [t p e] := hchol pS.
rewrite /cho_solve_upper /cho_factor triu_tr tril_id // trmxK mulmxA -invmx_mul ?e ?unitmx_tr //;
exact: trig_unit.
Qed.

Lemma smoother_sharedE d (DT : 'M[R]_d) mf vf mp (vp : 'M[R]_d) ms vs : posdef vp ->
  gaussian_smoother_shared chol DT mf vf mp vp ms vs
  = let G := DT^T *m invmx vp in (mf + G *m (ms - mp), vf + G *m (vs - vp) *m G^T).
Proof.
move=> pv; rewrite /gaussian_smoother_shared cho_solve_upperE // trmx_mul trmx_inv.
by rewrite (posdef_sym pv).
Qed.
End Cho.

Section Smooth.
Variable R : rcfType.
Variable d : nat.
Local Notation state := ('cV[R]_d * 'M[R]_d)%type.
Variable body : 'cV[R]_d -> 'M[R]_d -> 'cV[R]_d -> 'M[R]_d -> state.

(* The history smoothed from its end: the last state is kept. *)
Fixpoint smooth (x : state) (hs : seq state) : seq state :=
  match hs with
  | [::] => [:: x]
  | x' :: hs' =>
      let r := smooth x' hs' in
      let s := head x' r in body x.1 x.2 s.1 s.2 :: r
  end.

Lemma smooth_cons x x' hs :
  smooth x (x' :: hs)
  = body x.1 x.2 (head x' (smooth x' hs)).1 (head x' (smooth x' hs)).2 :: smooth x' hs.
Proof. by []. Qed.
Lemma nth_cons0 (T : Type) (x a : T) r : nth x (a :: r) 0 = a. Proof. by []. Qed.
Lemma nth_consS (T : Type) (x a : T) r k : nth x (a :: r) k.+1 = nth x r k. Proof. by []. Qed.

Lemma size_smooth x hs : size (smooth x hs) = (size hs).+1.
Proof. by elim: hs x => //= x' hs IH x; rewrite IH. Qed.

Lemma last_smooth x hs z : last z (smooth x hs) = last x hs.
Proof. by elim: hs x z => //= x' hs IH x z; rewrite IH. Qed.

Let sb := fun (carry elem : state) =>
    let r := body elem.1 elem.2 carry.1 carry.2 in (r, r).

Lemma scan_rcons (S X O : Type) (b : S -> X -> S * O) s xs x :
  scan b s (rcons xs x)
  = let r := scan b s xs in let q := b r.1 x in (q.1, rcons r.2 q.2).
Proof.
elim: xs s => [|z xs IH] s /=; first by case: (b s x).
by case: (b s z) => s1 o; rewrite IH /=; case: (scan b s1 xs).
Qed.

Lemma scan_smooth x hs :
  scan_reverse sb (last x hs) (belast x hs)
  = (head x (smooth x hs), belast (head x (smooth x hs)) (behead (smooth x hs))).
Proof.
rewrite /scan_reverse; elim: hs x => [|x' hs IH] x //=.
rewrite rev_cons scan_rcons /=.
have := IH x' => -[e1 e2].
rewrite e1 rev_rcons e2 /=.
case: (smooth x' hs) (size_smooth x' hs) => // a r _ /=.
Qed.

Lemma run_smootherE x hs :
  run_smoother body [seq s.1 | s <- x :: hs] [seq s.2 | s <- x :: hs]
  = ([seq s.1 | s <- smooth x hs], [seq s.2 | s <- smooth x hs]).
Proof.
rewrite /run_smoother /stack_smoothing_results.
have tk (T : Type) (f : state -> T) :
    take (size [seq f s | s <- x :: hs]).-1 [seq f s | s <- x :: hs] = [seq f s | s <- belast x hs].
  by rewrite size_map lastI map_rcons size_rcons /= -cats1 take_size_cat ?size_map.
have lt (T : Type) (f : state -> T) z : last z [seq f s | s <- x :: hs] = f (last x hs).
  by rewrite /= last_map.
rewrite !tk !lt.
rewrite -[zip _ _]/(zip (unzip1 (belast x hs)) (unzip2 (belast x hs))) zip_unzip.
rewrite -[((last x hs).1, _)]surjective_pairing -/sb scan_smooth.
rewrite -!map_rcons.
have e : rcons (belast (head x (smooth x hs)) (behead (smooth x hs))) (last x hs) = smooth x hs.
  rewrite -(last_smooth x hs x); case: (smooth x hs) (size_smooth x hs) => // a r _ /=.
  by rewrite -lastI.
by rewrite e.
Qed.
End Smooth.

Lemma smooth_ext (R : rcfType) d (I : 'M[R]_d -> Prop)
    (b b' : 'cV[R]_d -> 'M[R]_d -> 'cV[R]_d -> 'M[R]_d -> 'cV[R]_d * 'M[R]_d) x hs :
  (forall m v ms vs, I v -> b m v ms vs = b' m v ms vs) ->
  (forall s, s \in x :: hs -> I s.2) -> smooth b x hs = smooth b' x hs.
Proof.
move=> h; elim: hs x => [|x' hs IH] x hI //=.
rewrite IH ?h //; first by apply: hI; rewrite inE eqxx.
by move=> s hs'; apply: hI; rewrite inE hs' orbT.
Qed.

Arguments rts_body : simpl never.

Section Rts.
Variable R : rcfType.
Variable chol : forall n, 'M[R]_n -> 'M[R]_n.
Hypothesis hchol : chol_spec chol.
Variables (d : nat) (F Sigma : 'M[R]_d).
Local Notation state := ('cV[R]_d * 'M[R]_d)%type.

Hypothesis sSigma : possemidef Sigma.

Definition predv (v : 'M[R]_d) := F *m v *m F^T + Sigma.

Lemma rts_bodyE mf vf ms vs : possemidef vf -> posdef (predv vf) ->
  rts_body chol F Sigma mf vf ms vs
  = (mf + gain F vf Sigma *m (ms - F *m mf),
     postcov F vf Sigma + gain F vf Sigma *m vs *m (gain F vf Sigma)^T).
Proof.
move=> sv pv; rewrite /rts_body smoother_sharedE //.
have -> : (F *m vf)^T *m invmx (F *m vf *m F^T + Sigma) = gain F vf Sigma.
  by rewrite /gain trmx_mul (proj1 sv).
cbv zeta; congr (_, _); rewrite /postcov -/(innov F vf Sigma).
by rewrite mulmxBr mulmxBl addrCA [RHS]addrC.
Qed.

(* The relation between consecutive filtering covariances that kf guarantees. *)
Fixpoint cov_ok (v : 'M[R]_d) (hs : seq state) : Prop :=
  if hs is x :: hs' then loewner x.2 (predv v) /\ cov_ok x.2 hs' else True.

Lemma rts_cov_lem x hs :
  (forall s, s \in x :: hs -> possemidef s.2 /\ posdef (predv s.2)) -> cov_ok x.2 hs ->
  forall k, (k <= size hs)%N ->
    possemidef (nth x (smooth (rts_body chol F Sigma) x hs) k).2 /\
    loewner (nth x (smooth (rts_body chol F Sigma) x hs) k).2 (nth x (x :: hs) k).2.
Proof.
elim: hs x => [|x' hs IH] x hI hc [|k] hk //; last first.
- rewrite smooth_cons !nth_consS; have hk' : (k <= size hs)%N by [].
  have hI' s : s \in x' :: hs -> possemidef s.2 /\ posdef (predv s.2).
    by move=> h; apply: hI; rewrite inE h orbT.
  have := IH x' hI' (proj2 hc) k hk'.
  rewrite !(set_nth_default x') ?size_smooth //.
- rewrite smooth_cons !nth_cons0; have [sv pv] := hI x (mem_head _ _).
  have hI' s : s \in x' :: hs -> possemidef s.2 /\ posdef (predv s.2).
    by move=> h; apply: hI; rewrite inE h orbT.
  have [s1 s2] := IH x' hI' (proj2 hc) 0%N (leq0n _).
  rewrite !nth0 in s1 s2.
  rewrite rts_bodyE // -[(_, _).2]/(postcov _ _ _ + _); set s := (head x' _).2 in s1 s2 *.
  have uS := posdef_unit pv; have sS := posdef_sym pv.
  split.
    apply: semi_add; last exact: semi_congr.
    exact: (postcov_semi_gen (proj1 sv) uS sS).
  rewrite /loewner /postcov.
  have -> : x.2 - (x.2 - gain F x.2 Sigma *m innov F x.2 Sigma *m (gain F x.2 Sigma)^T
              + gain F x.2 Sigma *m s *m (gain F x.2 Sigma)^T)
          = gain F x.2 Sigma *m (innov F x.2 Sigma - s) *m (gain F x.2 Sigma)^T.
    rewrite mulmxBr mulmxBl; apply/matrixP => i j; rewrite !mxlin.
    by move: (x.2 i j) ((_ *m _) i j) ((_ *m _) i j) => a b c; ring.
  apply: semi_congr.
  have -> : innov F x.2 Sigma - s = (predv x.2 - x'.2) + (x'.2 - s).
    by rewrite addrA subrK.
  by apply: semi_add => //; exact: (proj1 hc).
- have [sv _] := hI x (mem_head _ _).
  by split=> //; rewrite /loewner subrr; split; [rewrite /symmetric trmx0|move=> u; rewrite /qform mulmx0 mul0mx mxE].
Qed.
End Rts.
