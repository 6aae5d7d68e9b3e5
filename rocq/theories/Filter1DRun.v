(* Whole runs of the one-dimensional moment filters: accumulation of the likelihood,
   resumption, invariants. *)
From mathcomp Require Import all_ssreflect all_algebra.
From mathcomp Require Import ring zify.
From Verif Require Import Prelude Egf LinAlgSpec QuadModel QuadSpec QuadProofs QuadMain QuadStrict.
From Verif Require Import Moments1DModel Moments1DSpec Moments1DProofs Moments1DConv.
From Verif Require Import Filter1DModel Filter1DSpec Filter1DProofs Filter1DSim.
Set Implicit Arguments.
Unset Strict Implicit.
Unset Printing Implicit Defensive.
Import Order.TTheory GRing.Theory Num.Theory.
Local Open Scope ring_scope.

Arguments rms_update : simpl never.
Arguments rms_predict : simpl never.
Arguments cms_update : simpl never.
Arguments cms_predict : simpl never.
Arguments scms_update : simpl never.
Arguments scms_predict : simpl never.

(* ---------- a scan that carries a state and accumulates - log of a likelihood ---------- *)
Section Acc.
Variables (R : rcfType) (S Y : Type) (step : S -> Y -> S * R) (log : R -> R).
Variable body : S * R -> Y -> (S * R) * S.
Hypothesis bodyE : forall s nell y, body (s, nell) y =
  (((step s y).1, nell - log (step s y).2), (step s y).1).

(* normalisers met along the run *)
Fixpoint liks (s : S) (ys : seq Y) : seq R :=
  match ys with [::] => [::] | y :: ys' => (step s y).2 :: liks (step s y).1 ys' end.
Fixpoint states (s : S) (ys : seq Y) : seq S :=
  match ys with [::] => [::] | y :: ys' => (step s y).1 :: states (step s y).1 ys' end.

Lemma acc_scan s nell ys : scan body (s, nell) ys =
  ((last s (states s ys), nell - \sum_(l <- liks s ys) log l), states s ys).
Proof.
elim: ys s nell => [|y ys IH] s nell; first by rewrite /= big_nil subr0.
by rewrite scan_cons bodyE IH /= big_cons opprD addrA.
Qed.

Lemma liks_cat s ys zs : liks s (ys ++ zs) = liks s ys ++ liks (last s (states s ys)) zs.
Proof. by elim: ys s => //= y ys IH s; rewrite IH. Qed.
Lemma states_cat s ys zs : states s (ys ++ zs) = states s ys ++ states (last s (states s ys)) zs.
Proof. by elim: ys s => //= y ys IH s; rewrite IH. Qed.
Lemma size_states s ys : size (states s ys) = size ys.
Proof. by elim: ys s => //= y ys IH s; rewrite IH. Qed.

(* invariants *)
Lemma states_post (P Q : S -> Prop) s ys : P s ->
  (forall s y, P s -> P (step s y).1 /\ Q (step s y).1) ->
  forall i, (i < size ys)%N -> P (nth s (states s ys) i) /\ Q (nth s (states s ys) i).
Proof.
move=> hs hP; elim: ys s hs => [|y ys IH] s hs [|i] //= hi; first exact: hP.
rewrite (set_nth_default (step s y).1) ?size_states //; apply: IH => //; by case: (hP _ y hs).
Qed.
Lemma liks_post (P : S -> Prop) (Q : R -> bool) s ys : P s ->
  (forall s y, P s -> P (step s y).1) -> (forall s y, P s -> Q (step s y).2) -> all Q (liks s ys).
Proof. by move=> hs hP hQ; elim: ys s hs => //= y ys IH s hs; rewrite hQ // IH //; apply: hP. Qed.
End Acc.

Section Logs.
Variables (R : rcfType) (log : R -> R).
Hypothesis log1 : log 1 = 0.
Hypothesis logM : forall a b, 0 < a -> 0 < b -> log (a * b) = log a + log b.
Lemma sum_log (s : seq R) : all (fun x => 0 < x) s -> \sum_(x <- s) log x = log (\prod_(x <- s) x).
Proof.
elim: s => [|x s IH]; first by rewrite !big_nil log1.
case/andP=> hx hs; rewrite !big_cons IH // logM // big_seq prodr_gt0 // => y hy; exact: (allP hs).
Qed.
End Logs.

Section Runs.
Variable R : rcfType.
Variable chol : forall n, 'M[R]_n -> 'M[R]_n.
Variable eigh : forall n, 'M[R]_n -> 'M[R]_n * 'rV[R]_n.
Hypothesis cholP : chol_spec chol.
Hypothesis eighP : eigh_spec eigh.
Local Notation quad := (quad chol eigh).
Variables (log : R -> R) (Y : Type) (pdf : Y -> R -> R).

Definition rms_step (cond : R -> nat -> R) st s y := rms_update chol eigh pdf st y (rms_predict chol eigh cond st s).
Definition cms_step (condc : R -> nat -> R -> R) condm st s y :=
  cms_update chol eigh pdf st y (cms_predict chol eigh condc condm st s).
Definition scms_step (conds : R -> nat -> R -> R -> R) condmv st s y :=
  scms_update chol eigh pdf st y (scms_predict chol eigh conds condmv st s).

Lemma rms_run cond st rms0 ys : moment_filter_rms chol eigh log cond pdf st rms0 ys =
  if (size rms0 < 2)%N then None
  else Some (states (rms_step cond st) rms0 ys, - \sum_(l <- liks (rms_step cond st) rms0 ys) log l).
Proof.
rewrite /moment_filter_rms; case: ifP => // _.
by rewrite (acc_scan (@rms_bodyE R chol eigh log Y cond pdf st)) sub0r.
Qed.
Lemma cms_run condc condm st cms0 m0 ys : moment_filter_cms chol eigh log condc condm pdf st cms0 m0 ys =
  if (size cms0 < 2)%N then None
  else Some (states (cms_step condc condm st) (cms0, m0) ys,
             - \sum_(l <- liks (cms_step condc condm st) (cms0, m0) ys) log l).
Proof.
rewrite /moment_filter_cms; case: ifP => // _.
by rewrite (acc_scan (cms_bodyE chol eigh log pdf condc condm st)) sub0r.
Qed.
Lemma scms_run conds condmv st scms0 m0 r0 ys :
  moment_filter_scms chol eigh log conds condmv pdf st scms0 m0 r0 ys =
  if (size scms0 < 2)%N then None
  else Some (states (scms_step conds condmv st) (scms0, m0, r0) ys,
             - \sum_(l <- liks (scms_step conds condmv st) (scms0, m0, r0) ys) log l).
Proof.
rewrite /moment_filter_scms; case: ifP => // _.
by rewrite (acc_scan (scms_bodyE chol eigh log pdf conds condmv st)) sub0r.
Qed.

(* ---------- the scaled filter on its own ---------- *)
Section Scaled.
Variables (conds : R -> nat -> R -> R -> R) (condmv : R -> R * R) (st : bool).
Local Notation spredict := (scms_predict chol eigh conds condmv st).
Local Notation supdate := (scms_update chol eigh pdf st).

Lemma scms_update012 y s : (2 < size s.1.1)%N -> (supdate y s).1.2 != 0 ->
  [/\ (supdate y s).1.1.1`_0 = 1, (supdate y s).1.1.1`_1 = 0 & (supdate y s).1.1.1`_2 = 1].
Proof.
case: s => [[ss m] r] hs; rewrite /= in hs; have [u eu] : exists u, supdate y (ss, m, r) = u by eexists.
rewrite eu; pose wx := quad ss m r st.
have e0 : ex wx (pdf y) = u.2 by rewrite -eu.
have e1 : ex wx (fun x => ((x - 0) / 1) ^+ 1 * pdf y x) / u.2 = u.1.1.2 by rewrite -eu.
have e2 : Num.sqrt (ex wx (fun x => ((x - u.1.1.2) / 1) ^+ 2 * pdf y x) / u.2) = u.1.2 by rewrite -eu.
have e3 k : (k < size ss)%N -> u.1.1.1`_k = ex wx (fun x => ((x - u.1.1.2) / u.1.2) ^+ k * pdf y x) / u.2.
  by rewrite -eu => hk; rewrite nth_divm nth_moments_of.
move=> {eu} h.
have p0 : u.2 != 0.
  by apply/eqP => h0; move: h; rewrite -e2 h0 invr0 mulr0 sqrtr0 eqxx.
have v0 : 0 < ex wx (fun x => ((x - u.1.1.2) / 1) ^+ 2 * pdf y x) / u.2.
  by rewrite -sqrtr_gt0 lt_def e2 h -e2 sqrtr_ge0.
rewrite !e3 ?(ltnW hs) ?(ltnW (ltnW hs)) //; split.
- rewrite (_ : ex wx _ = u.2) ?divff // -e0; apply: expect_ext => x; by rewrite expr0 mul1r.
- rewrite (_ : ex wx _ = (ex wx (fun x => ((x - 0) / 1) ^+ 1 * pdf y x) - u.1.1.2 * ex wx (pdf y)) / u.1.2).
    by rewrite mulrAC mulrBl e1 e0 mulfK // subrr mul0r.
  rewrite /ex -expect_mul !expect_sumE -sumrB mulr_suml.
  apply: eq_bigr => q _.
  by move: (u.1.2)^-1 (u.1.1.2) (pdf y q.2) (q.1) (q.2) => a b c d e; rewrite divr1 !expr1; ring.
- rewrite (_ : ex wx _ = ex wx (fun x => ((x - u.1.1.2) / 1) ^+ 2 * pdf y x) / u.1.2 ^+ 2); last first.
    by rewrite -ex_divr; apply: expect_ext => x; rewrite divr1 expr_div_n mulrAC.
  by rewrite mulrAC -e2 sqr_sqrtr ?divff ?gt_eqF // ltW.
Qed.

Lemma size_scms_predict s : size (spredict s).1.1 = size s.1.1.
Proof. by case: s => [[a b] c]; rewrite size_moments_of. Qed.
Lemma size_scms_update y s : size (supdate y s).1.1.1 = size s.1.1.
Proof. by case: s => [[a b] c]; rewrite size_map size_moments_of. Qed.

Lemma scms_predict_adm s : (1 < size s.1.1)%N -> adm s.1.1 -> s.2 != 0 ->
  (forall x, 0 < (condmv x).2) ->
  (forall x c r, 0 < r -> admissible (fun n => conds x n c r) (size s.1.1)./2) ->
  adm (spredict s).1.1 /\ 0 < (spredict s).2.
Proof.
case: s => [[ss m] r] hs ha hr hv hc; rewrite /= in hs ha hr hc.
have hr' : 0 < (spredict (ss, m, r)).2.
  rewrite -[(spredict _).2]/(Num.sqrt (ex (quad ss m r st) (fun x => (condmv x).2))) sqrtr_gt0.
  have [h1 h2 h3 h4 _] := quad_strict cholP eighP m st hs hr ha.
  by apply: expect_gt0 => //; rewrite h2 h3.
by split=> //; apply: mix_admissible => // x; apply: hc.
Qed.

Lemma scms_update_adm y s : (3 < size s.1.1)%N -> adm s.1.1 -> s.2 != 0 ->
  (forall x, 0 < pdf y x) ->
  [/\ adm (supdate y s).1.1.1, 0 < (supdate y s).1.2 & 0 < (supdate y s).2].
Proof.
case: s => [[ss m] r] hs ha hr hp; rewrite /= in hs ha hr; have hs1 : (1 < size ss)%N by apply: leq_trans hs.
have [u eu] : exists u, supdate y (ss, m, r) = u by eexists.
rewrite eu; pose wx := quad ss m r st.
have e0 : ex wx (pdf y) = u.2 by rewrite -eu.
have e2 : Num.sqrt (ex wx (fun x => ((x - u.1.1.2) / 1) ^+ 2 * pdf y x) / u.2) = u.1.2 by rewrite -eu.
have e3 : u.1.1.1 = [seq a / u.2 | a <- moments_of wx (fun x k => ((x - u.1.1.2) / u.1.2) ^+ k * pdf y x) (size ss)].
  by rewrite -eu.
have p0 : 0 < u.2.
  rewrite -e0; have [h1 h2 h3 h4 _] := quad_strict cholP eighP m st hs1 hr ha.
  by apply: expect_gt0 => //; rewrite h2 h3.
have r0 : 0 < u.1.2.
  rewrite -e2 sqrtr_gt0.
  have := @reweight_admissible R chol eigh cholP eighP ss m r st (pdf y) u.2 u.1.1.2 1 hs1 hr ha hp p0 (oner_neq0 R).
  by move/adm_var; rewrite size_map size_moments_of nth_divm nth_moments_of ?(ltnW hs) //; apply.
split=> //; rewrite e3; apply: reweight_admissible => //; by rewrite gt_eqF.
Qed.

(* the predicted scale is the root of the mean conditional variance: it is the standard
   deviation only when the conditional means do not vary *)
Lemma scms_predict_var s (mu v : R -> R) : (2 < size s.1.1)%N ->
  (forall x, condmv x = (mu x, v x)) -> (forall x, 0 < v x) ->
  (forall x c r, conds x 2%N c r = (v x + (mu x - c) ^+ 2) / r ^+ 2) ->
  (spredict s).2 != 0 ->
  (spredict s).1.1`_2 * (spredict s).2 ^+ 2 =
  (spredict s).2 ^+ 2 + ex (quad s.1.1 s.1.2 s.2 st) (fun x => (mu x - (spredict s).1.2) ^+ 2).
Proof.
case: s => [[ss m] r] hs hmv hv hc; rewrite /= in hs.
have [u eu] : exists u, spredict (ss, m, r) = u by eexists.
rewrite eu; pose wx := quad ss m r st; rewrite -/wx.
have e2 : Num.sqrt (ex wx v) = u.2.
  by rewrite -eu; congr Num.sqrt; apply: expect_ext => x; rewrite hmv.
have e3 : u.1.1`_2 = ex wx (fun x => conds x 2%N u.1.2 u.2) by rewrite -eu nth_moments_of.
move=> {eu} h; have v0 : 0 < ex wx v by rewrite -sqrtr_gt0 lt_def e2 h -e2 sqrtr_ge0.
rewrite e3 (_ : ex wx _ = ex wx (fun x => (v x + (mu x - u.1.2) ^+ 2)) / u.2 ^+ 2); last first.
  by rewrite -ex_divr; apply: expect_ext => x; rewrite hc.
rewrite divfK ?expf_neq0 // -e2 sqr_sqrtr ?ltW // /ex !expect_sumE -big_split /=.
by apply: eq_bigr => q _; rewrite mulrDr.
Qed.
End Scaled.

(* ---------- invariants of whole runs ---------- *)
Hypothesis hp : forall y x, 0 < pdf y x.

Lemma rms_inv cond st rms0 ys : (1 < size rms0)%N -> adm rms0 ->
  (forall x, admissible (cond x) (size rms0)./2) ->
  (forall i, (i < size ys)%N -> let r := nth rms0 (states (rms_step cond st) rms0 ys) i in
     [/\ size r = size rms0, adm r & r`_0 = 1]) /\
  all (fun l => 0 < l) (liks (rms_step cond st) rms0 ys).
Proof.
move=> hs ha hc; pose P (s : seq R) := size s = size rms0 /\ adm s.
have hP s y : P s -> [/\ P (rms_step cond st s y).1, (rms_step cond st s y).1`_0 = 1
   & 0 < (rms_step cond st s y).2].
  case=> e a; have a1 : adm (rms_predict chol eigh cond st s) by apply: rms_predict_adm; rewrite ?e.
  have s1 : size (rms_predict chol eigh cond st s) = size rms0 by rewrite size_rms_predict.
  have l1 : 0 < (rms_step cond st s y).2 by apply: rms_pdf_gt0; rewrite ?s1.
  split=> //; last by apply: rms_update0; rewrite ?gt_eqF // ?s1 1?ltnW.
  by split; rewrite ?size_rms_update //; apply: rms_update_adm; rewrite ?s1.
split; last by apply: (liks_post (P := P)) => // s y /(hP _ y) [].
move=> i hi; have [] // := @states_post _ _ _ (rms_step cond st) P (fun s : seq R => s`_0 = 1) rms0 ys _ _ i hi.
- by move=> s y /(hP _ y) [].
- by case.
Qed.

Lemma cms_inv condc condm st s0 ys : (1 < size s0.1)%N -> adm s0.1 ->
  (forall x c, admissible (fun n => condc x n c) (size s0.1)./2) ->
  (forall i, (i < size ys)%N -> let r := nth s0 (states (cms_step condc condm st) s0 ys) i in
     [/\ size r.1 = size s0.1, adm r.1, r.1`_0 = 1 & r.1`_1 = 0]) /\
  all (fun l => 0 < l) (liks (cms_step condc condm st) s0 ys).
Proof.
move=> hs ha hc; pose P (s : seq R * R) := size s.1 = size s0.1 /\ adm s.1.
pose step := cms_step condc condm st; rewrite -/step.
have hP s y : P s -> [/\ P (step s y).1, (step s y).1.1`_0 = 1 /\ (step s y).1.1`_1 = 0
   & 0 < (step s y).2].
  case=> e a; have a1 : adm (cms_predict chol eigh condc condm st s).1 by apply: cms_predict_adm; rewrite ?e.
  have s1 : size (cms_predict chol eigh condc condm st s).1 = size s0.1 by rewrite size_cms_predict.
  have l1 : 0 < (step s y).2 by apply: cms_pdf_gt0; rewrite ?s1.
  split=> //; last by apply: cms_update01; rewrite ?gt_eqF // s1.
  by split; rewrite ?size_cms_update //; apply: cms_update_adm; rewrite ?s1.
split; last by apply: (liks_post (P := P)) => // s y /(hP _ y) [].
move=> i hi; have [] // := @states_post _ _ _ step P (fun s : seq R * R => s.1`_0 = 1 /\ s.1`_1 = 0) s0 ys _ _ i hi.
- by move=> s y /(hP _ y) [].
- by case=> h1 h2 [h3 h4].
Qed.

Lemma scms_inv conds condmv st s0 ys : (3 < size s0.1.1)%N -> adm s0.1.1 -> s0.2 != 0 ->
  (forall x c r, 0 < r -> admissible (fun n => conds x n c r) (size s0.1.1)./2) ->
  (forall x, 0 < (condmv x).2) ->
  (forall i, (i < size ys)%N -> let r := nth s0 (states (scms_step conds condmv st) s0 ys) i in
     [/\ size r.1.1 = size s0.1.1, adm r.1.1, 0 < r.2 &
         [/\ r.1.1`_0 = 1, r.1.1`_1 = 0 & r.1.1`_2 = 1]]) /\
  all (fun l => 0 < l) (liks (scms_step conds condmv st) s0 ys).
Proof.
move=> hs ha hr hc hv; pose P (s : seq R * R * R) := [/\ size s.1.1 = size s0.1.1, adm s.1.1 & s.2 != 0].
pose step := scms_step conds condmv st; rewrite -/step.
pose Q (s : seq R * R * R) := 0 < s.2 /\ [/\ s.1.1`_0 = 1, s.1.1`_1 = 0 & s.1.1`_2 = 1].
have hP s y : P s -> [/\ P (step s y).1, Q (step s y).1 & 0 < (step s y).2].
  case=> e a r; have [|//||//||a1 r1] := @scms_predict_adm conds condmv st s; rewrite ?e // ?(leq_trans _ hs) //.
  have s1 : size (scms_predict chol eigh conds condmv st s).1.1 = size s0.1.1 by rewrite size_scms_predict.
  have [||||a2 r2 l2] := @scms_update_adm st y (scms_predict chol eigh conds condmv st s); rewrite ?s1 ?gt_eqF //.
  split=> //; first by split; rewrite ?size_scms_update ?gt_eqF.
  by split=> //; apply: scms_update012; rewrite ?s1 ?gt_eqF // ltnW.
split; last by apply: (liks_post (P := P)) => // s y /(hP _ y) [].
move=> i hi; have [] // := @states_post _ _ _ step P Q s0 ys _ _ i hi.
- by move=> s y /(hP _ y) [].
- by case=> h1 h2 h3 [h4 h5].
Qed.
End Runs.
