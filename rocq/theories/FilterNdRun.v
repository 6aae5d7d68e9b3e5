(* Runs of the multi-dimensional moment filters. *)
From mathcomp Require Import all_ssreflect all_algebra.
From mathcomp Require Import zify ring.
From Verif Require Import Prelude MultiIndexModel MultiIndexSpec MultiIndexProofs MultiIndexGramProofs MultiIndexMain.
From Verif Require Import NdIndexModel NdIndexProofs LinAlgSpec LinAlgProofs SpectralProofs LdlModel LdlProofs.
From Verif Require Import QuadModel QuadSpec QuadProofs QuadMain QuadNdModel QuadNdSpec QuadNdProofs QuadNdGram.
From Verif Require Import QuadNdAffine QuadNdMain QuadNdFinal QuadNdExact QuadNdDisc.
From Verif Require Import Filter1DSpec Filter1DProofs Filter1DSim Filter1DRun FilterNdModel FilterNdSpec FilterNdProofs.
Set Implicit Arguments.
Unset Strict Implicit.
Unset Printing Implicit Defensive.
Import Order.TTheory GRing.Theory Num.Theory.
Local Open Scope ring_scope.

Arguments rms_nd_update : simpl never.
Arguments rms_nd_predict : simpl never.
Arguments cms_nd_update : simpl never.
Arguments cms_nd_predict : simpl never.
Arguments scms_nd_update : simpl never.
Arguments scms_nd_predict : simpl never.

(* ---- shape of a run, for any layout ---- *)
Section Shape.
Variables (R : rcfType).
Variable chol : forall n, 'M[R]_n -> 'M[R]_n.
Variable eigh : forall n, 'M[R]_n -> 'M[R]_n * 'rV[R]_n.
Variable log : R -> R.
Variables (full : seq (seq nat)) (inds : seq (seq (seq int))).
Variables (Y : Type) (pdf : Y -> seq R -> R).

Definition rms_nd_step cond st s y :=
  rms_nd_update chol eigh full inds pdf st y (rms_nd_predict chol eigh full inds cond st s).
Definition cms_nd_step condc condm st s y :=
  cms_nd_update chol eigh full inds pdf st y (cms_nd_predict chol eigh full inds condc condm st s).
Definition scms_nd_step conds condmv st s y :=
  scms_nd_update chol eigh full inds pdf st y (scms_nd_predict chol eigh full inds conds condmv st s).

Lemma rms_nd_run cond st r0 ys : moment_filter_nd_rms chol eigh log full inds cond pdf st r0 ys =
  if size full != size r0 then ValueError else if ~~ traceable inds then TraceError
  else Ok (states (rms_nd_step cond st) r0 ys, - \sum_(l <- liks (rms_nd_step cond st) r0 ys) log l).
Proof.
rewrite /moment_filter_nd_rms; case: ifP => // _; case: ifP => // _.
rewrite (acc_scan (step := rms_nd_step cond st) (log := log)) ?sub0r //.
Qed.
Lemma cms_nd_run condc condm st c0 m0 ys : moment_filter_nd_cms chol eigh log full inds condc condm pdf st c0 m0 ys =
  if size full != size c0 then ValueError else if ~~ traceable inds then TraceError
  else Ok (states (cms_nd_step condc condm st) (c0, m0) ys,
           - \sum_(l <- liks (cms_nd_step condc condm st) (c0, m0) ys) log l).
Proof.
rewrite /moment_filter_nd_cms; case: ifP => // _; case: ifP => // _.
rewrite (acc_scan (step := cms_nd_step condc condm st) (log := log)) ?sub0r //.
by move=> s nell y; rewrite /cms_nd_body /cms_nd_step; case: (cms_nd_update _ _ _ _ _ _ _ _).
Qed.
Lemma scms_nd_run conds condmv st c0 m0 s0 ys :
  moment_filter_nd_scms chol eigh log full inds conds condmv pdf st c0 m0 s0 ys =
  if size full != size c0 then ValueError else if ~~ traceable inds then TraceError
  else Ok (states (scms_nd_step conds condmv st) (c0, m0, s0) ys,
           - \sum_(l <- liks (scms_nd_step conds condmv st) (c0, m0, s0) ys) log l).
Proof.
rewrite /moment_filter_nd_scms; case: ifP => // _; case: ifP => // _.
rewrite (acc_scan (step := scms_nd_step conds condmv st) (log := log)) ?sub0r //.
by move=> s nell y; rewrite /scms_nd_body /scms_nd_step; case: (scms_nd_update _ _ _ _ _ _ _ _).
Qed.

(* extensionality in the callbacks *)
Lemma rms_nd_step_ext cond cond' st s y :
  (forall x j, (j < size full)%N -> cond_at full cond x j = cond_at full cond' x j) ->
  rms_nd_step cond st s y = rms_nd_step cond' st s y.
Proof.
move=> h; rewrite /rms_nd_step; congr rms_nd_update; apply/eq_in_map => j; rewrite mem_iota => /andP [_ hj].
by apply: expect_nd_ext => x; exact: h.
Qed.
Lemma cms_nd_step_ext cond cond' condm st s y :
  (forall x j c, (j < size full)%N -> cond_at full cond x j c = cond_at full cond' x j c) ->
  cms_nd_step cond condm st s y = cms_nd_step cond' condm st s y.
Proof.
move=> h; rewrite /cms_nd_step; congr cms_nd_update; case: s => c m; rewrite /cms_nd_predict; congr pair.
apply/eq_in_map => j; rewrite mem_iota => /andP [_ hj]; by apply: expect_nd_ext => x; exact: h.
Qed.
Lemma scms_nd_step_ext cond cond' condmv st s y :
  (forall x j c r, (j < size full)%N -> cond_at full cond x j c r = cond_at full cond' x j c r) ->
  scms_nd_step cond condmv st s y = scms_nd_step cond' condmv st s y.
Proof.
move=> h; rewrite /scms_nd_step; congr scms_nd_update; case: s => [[c m] r]; rewrite /scms_nd_predict.
congr (_, _, _).
apply/eq_in_map => j; rewrite mem_iota => /andP [_ hj]; by apply: expect_nd_ext => x; exact: h.
Qed.

Lemma states_ext S (f g : S -> Y -> S * R) s ys : (forall s y, f s y = g s y) -> states f s ys = states g s ys.
Proof. by move=> h; elim: ys s => //= y ys IH s; rewrite h IH. Qed.
Lemma liks_ext S (f g : S -> Y -> S * R) s ys : (forall s y, f s y = g s y) -> liks f s ys = liks g s ys.
Proof. by move=> h; elim: ys s => //= y ys IH s; rewrite h IH. Qed.
End Shape.

Arguments rms_nd_step : simpl never.
Arguments cms_nd_step : simpl never.
Arguments scms_nd_step : simpl never.

Lemma states_cons (R : rcfType) S Y (f : S -> Y -> S * R) s y ys :
  states f s (y :: ys) = (f s y).1 :: states f (f s y).1 ys.
Proof. by []. Qed.
Lemma liks_cons (R : rcfType) S Y (f : S -> Y -> S * R) s y ys :
  liks f s (y :: ys) = (f s y).2 :: liks f (f s y).1 ys.
Proof. by []. Qed.

Section Run.
Variables (R : rcfType).
Variable chol : forall n, 'M[R]_n -> 'M[R]_n.
Variable eigh : forall n, 'M[R]_n -> 'M[R]_n * 'rV[R]_n.
Hypothesis cholP : chol_spec chol.
Hypothesis eighP : eigh_spec eigh.
Variables (d N : nat) (full : seq (seq nat)) (inds : seq (seq (seq int))).
Hypothesis hN : (0 < N)%N.
Hypothesis hf : generate_graded_lexico_multi_indices d (2 * N - 1) 0 = Some full.
Hypothesis hi : gram_and_hankel_indices_graded_lexico N d = Some inds.

Let hd : (0 < d)%N. Proof. by have [] := layoutE hN hf hi. Qed.
Let fE : full = blocks d 0 (2 * N). Proof. by have [] := layoutE hN hf hi. Qed.

Local Notation adm r := (admissible_nd d N (look full r)).
Local Notation quad := (quad_nd chol eigh inds).
Local Notation E wx := (expect_nd wx.1 wx.2).
Variables (Y : Type) (pdf : Y -> seq R -> R).

Lemma quad_dim (ms : seq R) mean scale st x : size ms = size full -> x \in (quad ms mean scale st).2 -> size x = d.
Proof.
move=> hm; have [ws [xs hq]] := quad_ex chol eigh hN hf hi ms mean scale st.
rewrite /quad_nd hq /= => hx.
have [n hn] := basis_pos hd hN.
move: hq; rewrite -(map_look hN hf hi hm) fE.
have [_ _ ->] := layoutE hN hf hi.
move=> hq; have [_ _ h] := quad_nd_size hd hn hq.
by apply/eqP; exact: (allP h).
Qed.

Lemma expect_ndD (ws : seq R) xs f g : expect_nd ws xs (fun x => f x + g x) = expect_nd ws xs f + expect_nd ws xs g.
Proof. by rewrite !expect_ndE -big_split /=; apply: eq_bigr => p _; rewrite mulrDr. Qed.

Lemma zero_full : nseq d 0%N \in full.
Proof. by rewrite (full_mem hN hf hi) size_nseq eqxx sumn_nseq0 muln_gt0 hN. Qed.
Lemma two_full a : (1 < N)%N -> (a < d)%N -> [seq (2 * n)%N | n <- munit d a] \in full.
Proof.
move=> h1 ha; rewrite (full_mem hN hf hi) size_map size_munit eqxx /= sumn_double sumn_munit //.
lia.
Qed.

Lemma look_div_columns wx (F : seq R -> nat -> R) (G : seq R -> seq nat -> R) (z : R) k :
  (forall x j, (j < size full)%N -> F x j = G x (nth [::] full j)) -> k \in full ->
  look full [seq m / z | m <- columns wx (size full) F] k = E wx (fun x => G x k) / z.
Proof.
move=> h hk; rewrite /look (nth_map 0) ?size_columns ?index_mem //; congr (_ / _).
exact: (look_columns wx h hk).
Qed.

Lemma size_of k : k \in full -> size k = d.
Proof. by rewrite (full_mem hN hf hi) => /andP [/eqP]. Qed.

Lemma rms_norm st y r : size r = size full ->
  (rms_nd_update chol eigh full inds pdf st y r).2 != 0 ->
  look full (rms_nd_update chol eigh full inds pdf st y r).1 (nseq d 0%N) = 1.
Proof.
move=> hr; set Z := (_).2 => hz; rewrite /rms_nd_update /=.
rewrite (look_div_columns _ _ (G := fun x k => jprod [seq nth 0 x a ^+ nth 0%N k a | a <- iota 0 (size x)] * pdf y x)) ?zero_full //.
rewrite (@expect_nd_ext_in _ _ _ _ (pdf y)) ?divff //.
by move=> x /(quad_dim hr) hx; rewrite jprod_raw ?size_nseq ?hx // mono0 mul1r.
Qed.

Lemma size_std (m r x : seq R) : size (std_coords m r x) = size x.
Proof. by rewrite size_map size_iota. Qed.

Lemma cms_norm st y s : size s.1 = size full ->
  (cms_nd_update chol eigh full inds pdf st y s).2 != 0 ->
  let s' := (cms_nd_update chol eigh full inds pdf st y s).1 in
  look full s'.1 (nseq d 0%N) = 1 /\ forall a, (a < d)%N -> look full s'.1 (munit d a) = 0.
Proof.
case: s => c m /= hr; rewrite /cms_nd_update (full_dim hN hf hi); set wx := quad _ _ _ _.
set Z := expect_nd _ _ _; set m' := [seq x / Z | x <- columns _ d _].
have hx x : x \in wx.2 -> size x = d by exact: quad_dim.
move=> /= hz.
have hm' a : (a < d)%N -> nth 0 m' a = E wx (fun x => nth 0 x a * pdf y x) / Z.
  move=> ha; rewrite (nth_map 0) ?size_columns //; congr (_ / _).
  rewrite /columns (nth_map 0%N) ?size_iota // nth_iota // add0n; apply: expect_nd_ext_in => x /hx hs.
  by rewrite jprod_central (mean_multi hN hf hi) ?size_munit // (std_zeros hN hf hi) // (@mono_munit _ d).
rewrite !(look_div_columns _ _ (G := fun x k => jprod [seq (nth 0 x a - nth 0 m' a) ^+ nth 0%N k a | a <- iota 0 (size x)] * pdf y x)) ?zero_full //.
split=> [|a ha].
  rewrite (@expect_nd_ext_in _ _ _ _ (pdf y)) ?divff //.
  by move=> x /hx hs; rewrite jprod_central ?size_nseq ?hs // mono0 mul1r.
rewrite (look_div_columns _ _ (G := fun x k => jprod [seq (nth 0 x a - nth 0 m' a) ^+ nth 0%N k a | a <- iota 0 (size x)] * pdf y x)) ?(unit_full hN hf hi) //.
rewrite (@expect_nd_ext_in _ _ _ _ (fun x => nth 0 x a * pdf y x + (- nth 0 m' a) * pdf y x)); last first.
  move=> x /hx hs; rewrite jprod_central ?size_munit ?hs // (@mono_munit _ d) ?size_std //.
  by rewrite (nth_map 0%N) ?size_iota ?hs // nth_iota // nth_nil add0n divr1 mulrDl.
by rewrite expect_ndD expect_nd_mul mulrDl -hm' // -/Z mulfK // subrr.
Qed.

Lemma scms_norm st y s : (1 < N)%N -> size s.1.1 = size full ->
  let u := scms_nd_update chol eigh full inds pdf st y s in
  u.2 != 0 -> all (fun r => r != 0) u.1.2 ->
  [/\ look full u.1.1.1 (nseq d 0%N) = 1,
      (forall a, (a < d)%N -> look full u.1.1.1 (munit d a) = 0) &
      forall a, (a < d)%N -> look full u.1.1.1 [seq (2 * n)%N | n <- munit d a] = 1].
Proof.
case: s => [[c m] r] h1 /= hr; rewrite /scms_nd_update (full_dim hN hf hi); set wx := quad _ _ _ _.
set Z := expect_nd _ _ _; set m' := [seq x / Z | x <- columns _ d _].
set r' := [seq Num.sqrt _ | _ <- _].
have hx x : x \in wx.2 -> size x = d by exact: quad_dim.
move=> /= hz h0.
have hm' a : (a < d)%N -> nth 0 m' a = E wx (fun x => nth 0 x a * pdf y x) / Z.
  move=> ha; rewrite (nth_map 0) ?size_columns //; congr (_ / _).
  rewrite /columns (nth_map 0%N) ?size_iota // nth_iota // add0n; apply: expect_nd_ext_in => x /hx hs.
  rewrite jprod_mono (mean_multi hN hf hi) ?size_munit // (std_ones hN hf hi) // (std_zeros hN hf hi) //.
  by rewrite (@mono_munit _ d).
have dbl a : [seq (n * 2)%N | n <- munit d a] = [seq (2 * n)%N | n <- munit d a].
  by apply: eq_map => n; rewrite mulnC.
have mono2 (x : seq R) a : size x = d -> (a < d)%N -> mono x [seq (2 * n)%N | n <- munit d a] = nth 0 x a ^+ 2.
  move=> hs ha; rewrite -dbl (_ : [seq (n * 2)%N | n <- munit d a] = madd (munit d a) (munit d a)).
    by rewrite mono_madd ?size_munit // (@mono_munit _ d) // expr2.
  by rewrite /madd; elim: (munit d a) => //= n t ->; congr (_ :: _); lia.
have hr' a : (a < d)%N -> nth 1 r' a = Num.sqrt (E wx (fun x => (nth 0 x a - nth 0 m' a) ^+ 2 * pdf y x) / Z).
  move=> ha; rewrite (nth_map 0) ?size_columns //; congr (Num.sqrt (_ / _)).
  rewrite /columns (nth_map 0%N) ?size_iota // nth_iota // add0n; apply: expect_nd_ext_in => x /hx hs.
  rewrite jprod_mono (mean_multi hN hf hi) ?size_map ?size_iota //.
  rewrite dbl (std_ones hN hf hi) // mono2 ?size_std //.
  by rewrite (nth_map 0%N) ?size_iota ?hs // nth_iota // nth_nil add0n divr1.
have hn a : (a < d)%N -> nth 1 r' a != 0.
  by move=> ha; apply: (all_nthP _ h0); rewrite size_map size_columns.
have std a (x : seq R) : size x = d -> (a < d)%N -> nth 0 (std_coords m' r' x) a = (nth 0 x a - nth 0 m' a) / nth 1 r' a.
  by move=> hs ha; rewrite (nth_map 0%N) ?size_iota ?hs // nth_iota.
split=> [|a ha|a ha].
- rewrite (look_div_columns _ _ (G := fun x k => power m' r' x k * pdf y x)) ?zero_full //.
  rewrite (@expect_nd_ext_in _ _ _ _ (pdf y)) ?divff //.
  by move=> x /hx hs; rewrite jprod_mono ?size_nseq ?hs // mono0 mul1r.
- rewrite (look_div_columns _ _ (G := fun x k => power m' r' x k * pdf y x)) ?(unit_full hN hf hi) //.
  rewrite (@expect_nd_ext_in _ _ _ _ (fun x => (nth 1 r' a)^-1 * (nth 0 x a * pdf y x + (- nth 0 m' a) * pdf y x))); last first.
    move=> x /hx hs; rewrite jprod_mono ?size_munit ?hs // (@mono_munit _ d) ?size_std // std //.
    by rewrite mulrAC mulrC mulrDl.
  rewrite expect_nd_mul expect_ndD expect_nd_mul.
  by rewrite -mulrA mulrDl -hm' // -/Z mulfK // subrr mulr0.
- rewrite (look_div_columns _ _ (G := fun x k => power m' r' x k * pdf y x)) ?two_full //.
  rewrite (@expect_nd_ext_in _ _ _ _ (fun x => (nth 1 r' a ^+ 2)^-1 * ((nth 0 x a - nth 0 m' a) ^+ 2 * pdf y x))); last first.
    move=> x /hx hs; rewrite jprod_mono ?size_map ?size_iota ?hs // mono2 ?size_std // std //.
    by rewrite expr_div_n mulrAC mulrC.
  rewrite expect_nd_mul -mulrA; set V := (_ / Z).
  have hv : nth 1 r' a = Num.sqrt V by rewrite hr'.
  have v0 : 0 <= V.
    by rewrite leNgt; apply/negP => hv0; move: (hn a ha); rewrite hv ltr0_sqrtr // eqxx.
  rewrite {1}hv sqr_sqrtr // mulVf //.
  by apply/eqP => hv0; move: (hn a ha); rewrite hv hv0 sqrtr0 eqxx.
Qed.

(* ---- simulation along runs ---- *)
Section Sims.
Variable C : seq R -> seq nat -> R.
Variable cond : cond_fn (seq R) R.
Hypothesis condP : forall x j, (j < size full)%N -> cond_at full cond x j = C x (nth [::] full j).
Variable st st' : bool.
Local Notation predict := (rms_nd_predict chol eigh full inds cond st).
Local Notation rstep := (rms_nd_step chol eigh full inds pdf cond st).

Lemma size_rstep r y : size (rstep r y).1 = size full.
Proof. by rewrite size_map size_columns. Qed.
Lemma size_pred r : size (predict r) = size full.
Proof. by rewrite size_columns. Qed.
Lemma size_mean (r : seq R) : size (mean_nd d full r) = d.
Proof. by rewrite size_map size_iota. Qed.

Lemma cms_run_sim condc condm r mean ys :
  (forall x j c, (j < size full)%N -> cond_at full condc x j c = affine_nd (C x) c [::] (nth [::] full j)) ->
  (forall x a, (a < d)%N -> nth 0 (condm x) a = C x (munit d a)) ->
  size r = size full -> size mean = d ->
  (forall i, (i < size ys)%N -> let r' := nth [::] (r :: states rstep r ys) i in adm r' /\ adm (predict r')) ->
  states (cms_nd_step chol eigh full inds pdf condc condm st') (shift_nd full r mean [::], mean) ys
    = [seq central_nd d full x | x <- states rstep r ys] /\
  liks (cms_nd_step chol eigh full inds pdf condc condm st') (shift_nd full r mean [::], mean) ys
    = liks rstep r ys.
Proof.
move=> hc hm; elim: ys r mean => [|y ys IH] r mean hr hs hadm; first by [].
have [a0 a1] := hadm 0%N isT.
have e : cms_nd_step chol eigh full inds pdf condc condm st' (shift_nd full r mean [::], mean) y
   = (central_nd d full (rstep r y).1, (rstep r y).2).
  rewrite /cms_nd_step (cms_predict_sim cholP eighP hN hf hi condP st hc hm st') //.
  by rewrite (cms_update_sim cholP eighP hN hf hi pdf st st') ?size_pred ?size_mean.
rewrite !states_cons !liks_cons e -[(central_nd d full (rstep r y).1, _).1]/(central_nd d full (rstep r y).1) -[(central_nd d full (rstep r y).1, _).2]/(rstep r y).2 map_cons.
have [| |i hi'|e1 e2] := IH (rstep r y).1 (mean_nd d full (rstep r y).1).
- exact: size_rstep.
- exact: size_mean.
- exact: (hadm i.+1 hi').
by rewrite {1 3}/central_nd e1 e2.
Qed.

Lemma scms_run_sim conds condmv r mean scale ys :
  (forall x j c s, (j < size full)%N -> size s = d -> all (fun r => 0 < r) s ->
     cond_at full conds x j c s = affine_nd (C x) c s (nth [::] full j)) ->
  (forall x a, (a < d)%N -> nth 0 (condmv x).1 a = C x (munit d a)) ->
  (1 < N)%N -> size r = size full -> size mean = d -> size scale = d -> all (fun s => 0 < s) scale ->
  (forall i, (i < size ys)%N -> let r' := nth [::] (r :: states rstep r ys) i in
     [/\ adm r', adm (predict r') & all (fun s => 0 < s) (pscale chol eigh d inds st condmv r')]) ->
  states (scms_nd_step chol eigh full inds pdf conds condmv st') (shift_nd full r mean scale, mean, scale) ys
    = [seq scaled_nd d full x | x <- states rstep r ys] /\
  liks (scms_nd_step chol eigh full inds pdf conds condmv st') (shift_nd full r mean scale, mean, scale) ys
    = liks rstep r ys.
Proof.
move=> hc hm hN1; elim: ys r mean scale => [|y ys IH] r mean scale hr hs hsc h0 hadm; first by [].
have [a0 a1 p0] := hadm 0%N isT.
have e : scms_nd_step chol eigh full inds pdf conds condmv st' (shift_nd full r mean scale, mean, scale) y
   = (scaled_nd d full (rstep r y).1, (rstep r y).2).
  rewrite /scms_nd_step (scms_predict_sim cholP eighP hN hf hi condP (st := st) hc hm st') //.
  by rewrite (scms_update_sim cholP eighP hN hf hi pdf st st') ?size_pred ?size_mean // ?size_map ?size_iota.
rewrite !states_cons !liks_cons e -[(scaled_nd d full (rstep r y).1, _).1]/(scaled_nd d full (rstep r y).1) -[(scaled_nd d full (rstep r y).1, _).2]/(rstep r y).2 map_cons.
case: ys {a0 a1 p0} IH hadm => [|y' ys] IH hadm; first by [].
have [a2 _ _] := hadm 1%N isT.
have [s1 s2] := std_pos hN hf hi hN1 a2.
have [|||||e1 e2] := IH (rstep r y).1 (mean_nd d full (rstep r y).1) (std_nd d full (rstep r y).1) => //.
- exact: size_rstep.
- exact: size_mean.
- by move=> i hi'; exact: (hadm i.+1 hi').
by rewrite {1 3}/scaled_nd e1 e2.
Qed.
End Sims.
End Run.
