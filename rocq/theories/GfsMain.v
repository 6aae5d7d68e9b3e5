(* Filters and smoothers run together. *)
From mathcomp Require Import all_ssreflect all_algebra.
From mathcomp Require Import ring.
From Verif Require Import Prelude LinAlgSpec LinAlgProofs GfsModel GfsSpec GfsProofs.
From Verif Require Import GfsKf GfsVec GfsRts GfsMap GfsSgp GfsSgpRun GfsRk4.
Set Implicit Arguments.
Unset Strict Implicit.
Unset Printing Implicit Defensive.
Import Order.TTheory GRing.Theory Num.Theory.
Local Open Scope ring_scope.

Section Joint.
Variable R : rcfType.
Variables (dx dy : nat).
Variables (F Sigma : 'M[R]_dx) (H : 'M[R]_(dy, dx)) (Xi : 'M[R]_dy).
Variable chol : forall n, 'M[R]_n -> 'M[R]_n.
Hypothesis hchol : chol_spec chol.
Local Notation state := ('cV[R]_dx * 'M[R]_dx)%type.
Local Notation tst := (tstep F Sigma H Xi).

Lemma traj_proj (step : state * R -> 'cV[R]_dy -> state * R) (st : state -> 'cV[R]_dy -> state) s ys :
  (forall s y, (step s y).1 = st s.1 y) ->
  [seq o.1 | o <- traj step s ys] = traj st s.1 ys.
Proof. by move=> h; elim: ys s => [|y ys IH] s //=; rewrite IH h. Qed.

(* The smoother applied to the exact filtering history. *)
Lemma rts_joint (pSigma : posdef Sigma) (pXi : posdef Xi) (s0 : state) y ys : possemidef s0.2 ->
  let hs := traj tst s0 (y :: ys) in
  let r := rts chol F Sigma [seq s.1 | s <- hs] [seq s.2 | s <- hs] in
  let J := posterior_cost F Sigma H Xi (F *m s0.1) (F *m s0.2 *m F^T + Sigma) (y :: ys) in
  [/\ size r.1 = (size ys).+1, size r.2 = (size ys).+1,
      unique_minimiser J (size ys).+1 r.1
    & forall k, (k <= size ys)%N -> gauss_marginal J (size ys).+1 k (nth 0 r.1 k) (nth 0 r.2 k)].
Proof.
move=> ps hs r J; rewrite /r /hs /rts -[traj _ _ _]/(tst s0 y :: traj tst (tst s0 y) ys) run_smootherE.
set sm := smooth _ _ _; have ss : size sm = (size ys).+1 by rewrite size_smooth size_traj.
split; rewrite /= ?size_map ?ss //; first by have := rts_mode_lem F H pSigma pXi hchol y ys ps.
move=> k hk; have := rts_marginal_lem F H pSigma pXi hchol y ps hk; rewrite -/sm /=.
by rewrite !(nth_map (tst s0 y)) ?ss ?ltnS.
Qed.

(* The filtering history is a valid input of the covariance theorem of the smoother. *)
Lemma nth_cov_ok v hs : (forall k, (k < size hs)%N ->
    loewner (nth (0, 0) hs k).2 (F *m (nth (0, 0) ((0, v) :: hs) k).2 *m F^T + Sigma)) ->
  cov_ok F Sigma v hs.
Proof.
elim: hs v => [|x hs IH] v h //=; split; first exact: (h 0%N isT).
apply: IH => k hk; have := h k.+1; rewrite /= ltnS => /(_ hk).
by case: k hk => [|k] hk.
Qed.
End Joint.

Section RtsCov.
Variable R : rcfType.
Variable chol : forall n, 'M[R]_n -> 'M[R]_n.
Hypothesis hchol : chol_spec chol.
Variables (d : nat) (F Sigma : 'M[R]_d).

Lemma zip_split (T U : Type) (s : seq T) (t : seq U) : size s = size t ->
  [seq p.1 | p <- zip s t] = s /\ [seq p.2 | p <- zip s t] = t.
Proof. by move=> h; split; [rewrite -/unzip1 unzip1_zip ?h|rewrite -/unzip2 unzip2_zip ?h]. Qed.

Lemma rts_covariance_lem mfs vfs : possemidef Sigma -> (0 < size vfs)%N -> size mfs = size vfs ->
  (forall v, v \in vfs -> possemidef v /\ posdef (F *m v *m F^T + Sigma)) ->
  (forall k, (k.+1 < size vfs)%N ->
     loewner (nth 0 vfs k.+1) (F *m (nth 0 vfs k) *m F^T + Sigma)) ->
  let r := rts chol F Sigma mfs vfs in
  [/\ size r.1 = size mfs, size r.2 = size vfs,
      (last 0 r.1, last 0 r.2) = (last 0 mfs, last 0 vfs)
    & forall k, (k < size vfs)%N -> possemidef (nth 0 r.2 k) /\ loewner (nth 0 r.2 k) (nth 0 vfs k)].
Proof.
move=> sS; case: vfs => // v vs _; case: mfs => // m ms [es] hv hc.
set hs := zip ms vs; have shs : size hs = size vs by rewrite size_zip es minnn.
have [z1 z2] := zip_split es.
have e1 : m :: ms = [seq s.1 | s <- (m, v) :: hs] by rewrite /= z1.
have e2 : v :: vs = [seq s.2 | s <- (m, v) :: hs] by rewrite /= z2.
have -> : rts chol F Sigma (m :: ms) (v :: vs)
  = ([seq s.1 | s <- smooth (rts_body chol F Sigma) (m, v) hs],
     [seq s.2 | s <- smooth (rts_body chol F Sigma) (m, v) hs]).
  by rewrite /rts e1 e2 run_smootherE.
set sm := smooth _ _ _; cbv zeta.
have ss : size sm = (size vs).+1 by rewrite size_smooth shs.
have ok : cov_ok F Sigma v hs.
  apply: nth_cov_ok => k; rewrite shs => hk; have := hc k; rewrite ltnS => /(_ hk).
  have en j : (j < (size vs).+1)%N -> (v :: vs)`_j = (nth (0, 0) ((0, v) :: hs) j).2.
    case: j => [|j] // hj; rewrite /= -z2 (nth_map (0, 0)) // -/hs shs //.
  by rewrite !en // ltnS ltnW.
have hv' s : s \in (m, v) :: hs -> possemidef s.2 /\ posdef (predv F Sigma s.2).
  by move=> hs'; apply: hv; rewrite e2; apply: map_f.
split; rewrite ?size_map ?ss ?size_smooth ?shs //=; first (by rewrite es); last first.
  move=> k hk; have := rts_cov_lem hchol sS hv' ok (k := k); rewrite shs -ltnS => /(_ hk).
  rewrite -/sm e2 -!(nth_map (m, v) 0 snd) ?ss // ?shs //=; by rewrite ?shs.
have hl : last (m, v) sm = last (m, v) hs by rewrite last_smooth.
have ls T (f : 'cV[R]_d * 'M[R]_d -> T) x : last x (map f sm) = f (last (m, v) sm).
  by move: ss; case: (sm) => // a s _ /=; rewrite last_map.
have l1 : last m ms = (last (m, v) hs).1 by rewrite -{1}z1 -/hs (last_map fst hs (m, v)).
have l2 : last v vs = (last (m, v) hs).2 by rewrite -{1}z2 -/hs (last_map snd hs (m, v)).
by rewrite !ls hl l1 l2.
Qed.
End RtsCov.

Section KfRts.
Variable R : rcfType.
Variable chol : forall n, 'M[R]_n -> 'M[R]_n.
Hypothesis hchol : chol_spec chol.
Variables (log : R -> R) (pi : R).
Variables (dx : nat) (F Sigma : 'M[R]_dx) (H : 'M[R]_(1, dx)) (Xi : 'M[R]_1).
Hypothesis pXi : posdef Xi.

Lemma kf_hist m0 v0 ys : possemidef Sigma -> possemidef v0 ->
  exists es, kf chol log pi F Sigma H Xi m0 v0 ys
  = Some ([seq s.1 | s <- traj (tstep F Sigma H Xi) (m0, v0) ys],
          [seq s.2 | s <- traj (tstep F Sigma H Xi) (m0, v0) ys], es).
Proof.
move=> sS p0; rewrite kfE // /outputs; eexists; congr (Some (_, _, _)).
  rewrite -(@traj_proj _ _ _ (fstep (linear_predict F Sigma) (kf_upd log pi H Xi)) _ (m0, v0, 0)) //.
  by rewrite -map_comp.
rewrite -(@traj_proj _ _ _ (fstep (linear_predict F Sigma) (kf_upd log pi H Xi)) _ (m0, v0, 0)) //.
by rewrite -map_comp.
Qed.

Lemma kf_rts_lem m0 v0 y ys : posdef Sigma -> possemidef v0 ->
  exists ms vs es, kf chol log pi F Sigma H Xi m0 v0 (y :: ys) = Some (ms, vs, es) /\
  let r := rts chol F Sigma ms vs in
  let J := posterior_cost F Sigma H Xi (F *m m0) (F *m v0 *m F^T + Sigma) (y :: ys) in
  [/\ size r.1 = (size ys).+1, size r.2 = (size ys).+1,
      unique_minimiser J (size ys).+1 r.1
    & forall k, (k <= size ys)%N -> gauss_marginal J (size ys).+1 k (nth 0 r.1 k) (nth 0 r.2 k)].
Proof.
move=> pS p0; have [es e] := kf_hist m0 (y :: ys) (posdef_semi pS) p0.
do 3 eexists; split; first exact: e.
exact: (rts_joint F H hchol pS pXi y ys (s0 := (m0, v0)) p0).
Qed.

Hypothesis hp : forall v, posdef v -> posdef (F *m v *m F^T + Sigma).

Lemma tstep_cov (s0 : 'cV[R]_dx * 'M[R]_dx) ys : posdef s0.2 ->
  let vs := [seq s.2 | s <- traj (tstep F Sigma H Xi) s0 ys] in
  (forall v, v \in vs -> posdef v) /\
  forall k, (k < size vs)%N -> loewner (nth 0 vs k) (F *m (nth 0 (s0.2 :: vs) k) *m F^T + Sigma).
Proof.
elim: ys s0 => [|y ys IH] s0 p0 //=.
have pp := hp p0; have p1 : posdef (tstep F Sigma H Xi s0 y).2 by apply: pc_posdef.
have [h1 h2] := IH _ p1; split.
  by move=> v; rewrite inE => /orP[/eqP->|/h1].
case=> [|k] hk /=; last exact: h2.
by apply: postcov_shrink => //; apply: posdef_semi.
Qed.

Lemma kf_rts_cov m0 v0 y ys : possemidef Sigma -> posdef v0 ->
  exists ms vs es, kf chol log pi F Sigma H Xi m0 v0 (y :: ys) = Some (ms, vs, es) /\
  let r := rts chol F Sigma ms vs in
  [/\ size r.1 = size ms, size r.2 = size vs,
      (last 0 r.1, last 0 r.2) = (last 0 ms, last 0 vs)
    & forall k, (k < size vs)%N -> possemidef (nth 0 r.2 k) /\ loewner (nth 0 r.2 k) (nth 0 vs k)].
Proof.
move=> sS p0; have [es e] := kf_hist m0 (y :: ys) sS (posdef_semi p0).
have [h1 h2] := tstep_cov (s0 := (m0, v0)) (y :: ys) p0.
do 3 eexists; split; first exact: e.
apply: rts_covariance_lem => //; rewrite ?size_map //.
- by move=> v hv; split; [apply: posdef_semi; exact: h1|apply: hp; exact: h1].
by move=> k hk; have := h2 k.+1; rewrite size_map; apply.
Qed.
End KfRts.
