(* Properties C38, C39, C59, C60: the multi-dimensional moment filters. *)
From mathcomp Require Import all_ssreflect all_algebra.
From mathcomp Require Import zify ring.
From Verif Require Import Prelude MultiIndexModel MultiIndexSpec MultiIndexProofs MultiIndexGramProofs MultiIndexMain.
From Verif Require Import LinAlgSpec SpectralProofs LdlProofs QuadNdModel QuadNdSpec QuadNdMain QuadNdFinal QuadNdDisc.
From Verif Require Import Moments1DSpec Filter1DSpec Filter1DSim Filter1DRun.
From Verif Require Import FilterNdModel FilterNdSpec FilterNdProofs FilterNdRun FilterNdHmm FilterNdScale.
Set Implicit Arguments.
Unset Strict Implicit.
Unset Printing Implicit Defensive.
Import Order.TTheory GRing.Theory Num.Theory.
Local Open Scope ring_scope.

Section Props.
Variables (R : rcfType).
Variable chol : forall n, 'M[R]_n -> 'M[R]_n.
Variable eigh : forall n, 'M[R]_n -> 'M[R]_n * 'rV[R]_n.
Variables (log : R -> R) (Y : Type).
Variables (d N : nat) (full : seq (seq nat)) (inds : seq (seq (seq int))).
Local Notation raw_nd := (moment_filter_nd_rms chol eigh log full inds).
Local Notation central_nd_filter := (moment_filter_nd_cms chol eigh log full inds).
Local Notation scaled_nd_filter := (moment_filter_nd_scms chol eigh log full inds).
Local Notation adm r := (admissible_nd d N (look full r)).
Local Notation predict := (rms_nd_predict chol eigh full inds).
Local Notation twice k := [seq (2 * n)%N | n <- k].

(* The layout built by the library for dimension d and order N. *)
Definition layout : Prop :=
  [/\ (0 < N)%N, generate_graded_lexico_multi_indices d (2 * N - 1) 0 = Some full &
      gram_and_hankel_indices_graded_lexico N d = Some inds].

(* C39: a call is rejected with a ValueError exactly when the length of the initial
   moments is not the number of multi-indices, and otherwise returns one state per
   observation. *)
Theorem nd_filters_reject_bad_length (pdf : Y -> seq R -> R) st ys :
  layout ->
  exists2 n : nat, sizeof_multi_indices (Posz d) (Posz (2 * N - 1)) 0 = Some (Posz n) &
  [/\ forall cond rms0,
        if size rms0 == n then exists out nell, raw_nd cond pdf st rms0 ys = Ok (out, nell) /\ size out = size ys
        else raw_nd cond pdf st rms0 ys = ValueError,
      forall cond condm cms0 mean0,
        if size cms0 == n then exists out nell,
          central_nd_filter cond condm pdf st cms0 mean0 ys = Ok (out, nell) /\ size out = size ys
        else central_nd_filter cond condm pdf st cms0 mean0 ys = ValueError &
      forall cond condmv scms0 mean0 scale0,
        if size scms0 == n then exists out nell,
          scaled_nd_filter cond condmv pdf st scms0 mean0 scale0 ys = Ok (out, nell) /\ size out = size ys
        else scaled_nd_filter cond condmv pdf st scms0 mean0 scale0 ys = ValueError].
Proof.
case=> hN hf hi; have [hd fE _] := layoutE hN hf hi.
have [s hs [_ hn]] := @generate_enumerates_lem d (2 * N - 1) 0 hd isT.
move: hs; rewrite hf => -[es]; rewrite -{s}es in hn.
exists (size full) => //; have tr := traceable_inds hN hf hi.
split=> *; rewrite ?rms_nd_run ?cms_nd_run ?scms_nd_run tr [size full == _]eq_sym;
  case: (_ == _) => //=; by eexists; eexists; split; [reflexivity|rewrite size_states].
Qed.

(* C39: a callable on positions and a callable on multi-indices that agree through the
   library's ranking function give the same filter. *)
Theorem nd_filters_signatures_agree (pdf : Y -> seq R -> R) st ys :
  layout ->
  [/\ forall (f : seq R -> seq nat -> R) g,
        (forall x k j, in_range d 0 (2 * N - 1) k -> find_index k = Some (Posz j) -> f x k = g x j) ->
        forall rms0, raw_nd (MultiIndexFn f) pdf st rms0 ys = raw_nd (IndexFn g) pdf st rms0 ys,
      forall (f : seq R -> seq nat -> seq R -> R) g,
        (forall x k j c, in_range d 0 (2 * N - 1) k -> find_index k = Some (Posz j) -> f x k c = g x j c) ->
        forall condm cms0 mean0, central_nd_filter (MultiIndexFn f) condm pdf st cms0 mean0 ys
          = central_nd_filter (IndexFn g) condm pdf st cms0 mean0 ys &
      forall (f : seq R -> seq nat -> seq R -> seq R -> R) g,
        (forall x k j c r, in_range d 0 (2 * N - 1) k -> find_index k = Some (Posz j) -> f x k c r = g x j c r) ->
        forall condmv scms0 mean0 scale0,
          scaled_nd_filter (MultiIndexFn f) condmv pdf st scms0 mean0 scale0 ys
          = scaled_nd_filter (IndexFn g) condmv pdf st scms0 mean0 scale0 ys].
Proof.
case=> hN hf hi.
have hin j : (j < size full)%N -> in_range d 0 (2 * N - 1) (nth [::] full j) /\ find_index (nth [::] full j) = Some (Posz j).
  move=> hj; split; last exact: (@generate_indexof_lem d (2 * N - 1) 0 full j isT hf hj).
  have [h1 h2] := full_nth hN hf hi hj; move: h2; rewrite (full_mem hN hf hi) /in_range => /andP [-> h] /=.
  lia.
split=> f g h *.
- have e s y := @rms_nd_step_ext R chol eigh full inds Y pdf (MultiIndexFn f) (IndexFn g) st s y
    (fun x j hj => h x _ _ (hin j hj).1 (hin j hj).2).
  by rewrite !rms_nd_run (states_ext _ _ e) (liks_ext _ _ e).
- have e condm s y := @cms_nd_step_ext R chol eigh full inds Y pdf (MultiIndexFn f) (IndexFn g) condm st s y
    (fun x j c hj => h x _ _ c (hin j hj).1 (hin j hj).2).
  by rewrite !cms_nd_run (states_ext _ _ (e _)) (liks_ext _ _ (e _)).
- have e condmv s y := @scms_nd_step_ext R chol eigh full inds Y pdf (MultiIndexFn f) (IndexFn g) condmv st s y
    (fun x j c r hj => h x _ _ c r (hin j hj).1 (hin j hj).2).
  by rewrite !scms_nd_run (states_ext _ _ (e _)) (liks_ext _ _ (e _)).
Qed.

(* C38: normalisation, for any callbacks. Whenever the likelihood l_i of step i is not
   zero (and the scale it returns is not zero), the moments returned at that step have zeroth
   moment one, (central) first moments zero and (scaled) second moments one. *)
Theorem nd_raw_filter_normalised cond (pdf : Y -> seq R -> R) st rms0 ys out nell :
  layout -> raw_nd cond pdf st rms0 ys = Ok (out, nell) ->
  let ls := liks (rms_nd_step chol eigh full inds pdf cond st) rms0 ys in
  nell = - (\sum_(l <- ls) log l) /\
  forall i, (i < size ys)%N -> nth 0 ls i != 0 ->
    size (nth [::] out i) = size full /\ look full (nth [::] out i) (nseq d 0%N) = 1.
Proof.
case=> hN hf hi; rewrite rms_nd_run (traceable_inds hN hf hi) /=.
case: ifP => // /negbFE/eqP hs [<- <-]; split=> // i hi' hl; split.
  by move: hl; elim: ys rms0 {hs} i hi' => [|y ys IH] r [|i] //= hi' hl; [rewrite size_rstep|apply: IH].
elim: ys rms0 hs i hi' hl => [|y ys IH] r hr [|i] //= hi' hl.
  by rewrite (rms_norm hN hf hi) // size_columns.
by apply: IH => //; rewrite size_rstep.
Qed.

Theorem nd_central_filter_normalised cond condm (pdf : Y -> seq R -> R) st cms0 mean0 ys out nell :
  layout -> central_nd_filter cond condm pdf st cms0 mean0 ys = Ok (out, nell) ->
  let ls := liks (cms_nd_step chol eigh full inds pdf cond condm st) (cms0, mean0) ys in
  nell = - (\sum_(l <- ls) log l) /\
  forall i, (i < size ys)%N -> nth 0 ls i != 0 ->
    let cms := (nth (cms0, mean0) out i).1 in
    [/\ size cms = size full, look full cms (nseq d 0%N) = 1 &
        forall a, (a < d)%N -> look full cms (munit d a) = 0].
Proof.
case=> hN hf hi; rewrite cms_nd_run (traceable_inds hN hf hi) /=.
case: ifP => // /negbFE/eqP hs [<- <-]; split=> //.
move: (cms0, mean0) => s0.
have hst s y : size (cms_nd_step chol eigh full inds pdf cond condm st s y).1.1 = size full.
  by case: s => c m; rewrite size_map size_columns.
elim: ys s0 => [|y ys IH] s0 [|i] //= hi' hl.
  have [] := @cms_norm R chol eigh d N full inds hN hf hi Y pdf st y (cms_nd_predict chol eigh full inds cond condm st s0) _ hl.
    by case: (s0) => c m; rewrite size_columns.
  by move=> h1 h2; rewrite hst; split.
rewrite (set_nth_default (cms_nd_step chol eigh full inds pdf cond condm st s0 y).1) ?size_states //; exact: IH.
Qed.

Theorem nd_scaled_filter_normalised cond condmv (pdf : Y -> seq R -> R) st scms0 mean0 scale0 ys out nell :
  layout -> (1 < N)%N -> scaled_nd_filter cond condmv pdf st scms0 mean0 scale0 ys = Ok (out, nell) ->
  let ls := liks (scms_nd_step chol eigh full inds pdf cond condmv st) (scms0, mean0, scale0) ys in
  nell = - (\sum_(l <- ls) log l) /\
  forall i, (i < size ys)%N -> nth 0 ls i != 0 ->
    let s := nth (scms0, mean0, scale0) out i in all (fun r => r != 0) s.2 ->
    [/\ size s.1.1 = size full, look full s.1.1 (nseq d 0%N) = 1,
        (forall a, (a < d)%N -> look full s.1.1 (munit d a) = 0) &
        forall a, (a < d)%N -> look full s.1.1 (twice (munit d a)) = 1].
Proof.
case=> hN hf hi hN1; rewrite scms_nd_run (traceable_inds hN hf hi) /=.
case: ifP => // /negbFE/eqP hs [<- <-]; split=> //.
move: (scms0, mean0, scale0) => s0.
have hst s y : size (scms_nd_step chol eigh full inds pdf cond condmv st s y).1.1.1 = size full.
  by case: s => [[c m] r]; rewrite size_map size_columns.
elim: ys s0 => [|y ys IH] s0 [|i] //= hi' hl; last first.
  rewrite (set_nth_default (scms_nd_step chol eigh full inds pdf cond condmv st s0 y).1) ?size_states //; exact: IH.
move=> hz.
  have [] := @scms_norm R chol eigh d N full inds hN hf hi Y pdf st y (scms_nd_predict chol eigh full inds cond condmv st s0) hN1 _ hl hz.
    by case: (s0) => [[c m] r]; rewrite size_columns.
by move=> h1 h2 h3; rewrite hst; split.
Qed.

(* C38: the raw and the central filter agree. C x k is the k-th raw moment of the next state
   given the state x; the callbacks of the central filter return the moments of the same law
   about a given centre, and its mean. *)
Theorem nd_raw_central_filters_agree (C : seq R -> seq nat -> R) cond condc condm
    (pdf : Y -> seq R -> R) st st' rms0 mean0 ys out nell :
  chol_spec chol -> eigh_spec eigh -> layout ->
  (forall x j, (j < size full)%N -> cond_at full cond x j = C x (nth [::] full j)) ->
  (forall x j c, (j < size full)%N -> cond_at full condc x j c = affine_nd (C x) c [::] (nth [::] full j)) ->
  (forall x a, (a < d)%N -> nth 0 (condm x) a = C x (munit d a)) ->
  size mean0 = d ->
  raw_nd cond pdf st rms0 ys = Ok (out, nell) ->
  (forall i, (i < size ys)%N ->
     let r := nth [::] (rms0 :: out) i in adm r /\ adm (predict cond st r)) ->
  central_nd_filter condc condm pdf st' (shift_nd full rms0 mean0 [::]) mean0 ys
    = Ok ([seq central_nd d full r | r <- out], nell).
Proof.
move=> hc he [hN hf hi] h1 h2 h3 hm; rewrite rms_nd_run cms_nd_run (traceable_inds hN hf hi) /= size_map eqxx /=.
case: ifP => // /negbFE/eqP hs [<- <-] hadm.
by have [-> ->] := @cms_run_sim R chol eigh hc he d N full inds hN hf hi Y pdf C cond h1 st st' condc condm
  rms0 mean0 ys h2 h3 (esym hs) hm hadm.
Qed.

(* C38: the raw and the scaled filter agree: whatever positive scale the code uses after a
   prediction, the posteriors and the likelihoods are those of the raw filter. *)
Theorem nd_raw_scaled_filters_agree (C : seq R -> seq nat -> R) cond conds condmv
    (pdf : Y -> seq R -> R) st st' rms0 mean0 scale0 ys out nell :
  chol_spec chol -> eigh_spec eigh -> layout -> (1 < N)%N ->
  (forall x j, (j < size full)%N -> cond_at full cond x j = C x (nth [::] full j)) ->
  (forall x j c s, (j < size full)%N -> size s = d -> all (fun r => 0 < r) s ->
     cond_at full conds x j c s = affine_nd (C x) c s (nth [::] full j)) ->
  (forall x a, (a < d)%N -> nth 0 (condmv x).1 a = C x (munit d a)) ->
  size mean0 = d -> size scale0 = d -> all (fun s => 0 < s) scale0 ->
  raw_nd cond pdf st rms0 ys = Ok (out, nell) ->
  (forall i, (i < size ys)%N -> let r := nth [::] (rms0 :: out) i in
     [/\ adm r, adm (predict cond st r) &
         all (fun s => 0 < s) (pscale chol eigh d inds st condmv r)]) ->
  scaled_nd_filter conds condmv pdf st' (shift_nd full rms0 mean0 scale0) mean0 scale0 ys
    = Ok ([seq scaled_nd d full r | r <- out], nell).
Proof.
move=> hc he [hN hf hi] hN1 h1 h2 h3 hm hsc h0.
rewrite rms_nd_run scms_nd_run (traceable_inds hN hf hi) /= size_map eqxx /=.
case: ifP => // /negbFE/eqP hs [<- <-] hadm.
by have [-> ->] := @scms_run_sim R chol eigh hc he d N full inds hN hf hi Y pdf C cond h1 st st' conds condmv
  rms0 mean0 scale0 ys h2 h3 hN1 (esym hs) hm hsc h0 hadm.
Qed.

(* C59: on a hidden Markov chain over C(N-1+d, d) points that determine the polynomials of
   degree < N, the raw filter returns the exact filtering moments and likelihoods. *)
Theorem nd_raw_filter_exact_on_chains (zs : seq (seq R)) trans cond (pdf : Y -> seq R -> R) st alpha ys :
  chol_spec chol -> eigh_spec eigh -> layout ->
  size zs = 'C(N.-1 + d, d) -> all (fun z => size z == d) zs -> unisolvent d N zs ->
  (forall x z, x \in zs -> z \in zs -> 0 <= trans x z) ->
  (forall z, z \in zs -> exists2 x, x \in zs & 0 < trans x z) ->
  (forall x, x \in zs -> \sum_(z <- zs) trans x z = 1) ->
  (forall x j, x \in zs -> (j < size full)%N ->
     cond_at full cond x j = \sum_(z <- zs) trans x z * mono z (nth [::] full j)) ->
  (forall y z, z \in zs -> 0 < pdf y z) ->
  size alpha = size zs -> all (fun w => 0 < w) alpha -> jsum alpha = 1 ->
  let fwd := hmm_forward zs trans pdf alpha ys in
  raw_nd cond pdf st (hmm_moments_nd full zs alpha) ys =
  Ok ([seq hmm_moments_nd full zs p.1 | p <- fwd], - \sum_(p <- fwd) log p.2).
Proof.
move=> hc he [hN hf hi] h1 h2 h3 h4 h5 h6 h7 h8 a1 a2 a3 fwd.
rewrite rms_nd_run (traceable_inds hN hf hi) /= size_map eqxx /=.
have [] := @hmmn_exact R chol eigh hc he d N full inds hN hf hi Y pdf cond st zs trans h1 h2 h3 h4 h5 h6 h7 h8 alpha ys.
  by split.
by move=> -> ->; rewrite big_map.
Qed.

(* A run over two blocks is a run over the first followed by a run over the second from
   the last returned state. *)
Theorem nd_raw_filter_resumes cond (pdf : Y -> seq R -> R) st rms0 ys zs out nell :
  raw_nd cond pdf st rms0 ys = Ok (out, nell) ->
  raw_nd cond pdf st rms0 (ys ++ zs) =
  match raw_nd cond pdf st (last rms0 out) zs with
  | Ok (out', nell') => Ok (out ++ out', nell + nell') | e => e end.
Proof.
rewrite !rms_nd_run; case: ifP => // /negbFE/eqP hs; case: ifP => // ht [<- <-].
have hl : size (last rms0 (states (rms_nd_step chol eigh full inds pdf cond st) rms0 ys)) = size full.
  case/lastP: ys => [|ys y]; first by rewrite hs.
  by rewrite -cats1 states_cat last_cat /= size_rstep.
by rewrite hl eqxx /= states_cat liks_cat big_cat /= opprD.
Qed.

Theorem nd_central_filter_resumes cond condm (pdf : Y -> seq R -> R) st cms0 mean0 ys zs out nell :
  central_nd_filter cond condm pdf st cms0 mean0 ys = Ok (out, nell) ->
  let s := last (cms0, mean0) out in
  central_nd_filter cond condm pdf st cms0 mean0 (ys ++ zs) =
  match central_nd_filter cond condm pdf st s.1 s.2 zs with
  | Ok (out', nell') => Ok (out ++ out', nell + nell') | e => e end.
Proof.
rewrite !cms_nd_run; case: ifP => // /negbFE/eqP hs; case: ifP => // ht [<- <-] /=; rewrite !cms_nd_run.
set S := states _ _ ys; have hl : size (last (cms0, mean0) S).1 = size full.
  rewrite /S {S}; case/lastP: ys => [|ys y]; first by rewrite hs.
  rewrite -cats1 states_cat last_cat /= /cms_nd_step; case: (cms_nd_predict _ _ _ _ _ _ _ _) => c m.
  by rewrite size_map size_columns.
by rewrite hl eqxx ht /= -surjective_pairing states_cat liks_cat big_cat /= opprD.
Qed.

Theorem nd_scaled_filter_resumes cond condmv (pdf : Y -> seq R -> R) st scms0 mean0 scale0 ys zs out nell :
  scaled_nd_filter cond condmv pdf st scms0 mean0 scale0 ys = Ok (out, nell) ->
  let s := last (scms0, mean0, scale0) out in
  scaled_nd_filter cond condmv pdf st scms0 mean0 scale0 (ys ++ zs) =
  match scaled_nd_filter cond condmv pdf st s.1.1 s.1.2 s.2 zs with
  | Ok (out', nell') => Ok (out ++ out', nell + nell') | e => e end.
Proof.
rewrite !scms_nd_run; case: ifP => // /negbFE/eqP hs; case: ifP => // ht [<- <-] /=; rewrite !scms_nd_run.
set S := states _ _ ys; have hl : size (last (scms0, mean0, scale0) S).1.1 = size full.
  rewrite /S {S}; case/lastP: ys => [|ys y]; first by rewrite hs.
  rewrite -cats1 states_cat last_cat /= /scms_nd_step; case: (scms_nd_predict _ _ _ _ _ _ _ _) => [[c m] r].
  by rewrite size_map size_columns.
by rewrite hl eqxx ht /= -!surjective_pairing states_cat liks_cat big_cat /= opprD.
Qed.

(* C60. As in one dimension, the predicted scale is the root of the mean conditional
   variance: it leaves out the variance of the conditional mean mu. *)
Theorem nd_predicted_scale_partial conds condmv st (s : seq R * seq R * seq R) (mu v : seq R -> seq R) a :
  layout -> (1 < N)%N -> (a < d)%N -> (forall x, condmv x = (mu x, v x)) ->
  (forall x j c r, (j < size full)%N -> nth [::] full j = twice (munit d a) ->
     cond_at full conds x j c r = (nth 0 (v x) a + (nth 0 (mu x) a - nth 0 c a) ^+ 2) / nth 0 r a ^+ 2) ->
  let s' := scms_nd_predict chol eigh full inds conds condmv st s in
  let wx := quad_nd chol eigh inds s.1.1 (Some s.1.2) (Some s.2) st in
  nth 0 s'.2 a != 0 ->
  look full s'.1.1 (twice (munit d a)) * nth 0 s'.2 a ^+ 2
    = nth 0 s'.2 a ^+ 2 + expect_nd wx.1 wx.2 (fun x => (nth 0 (mu x) a - nth 0 s'.1.2 a) ^+ 2).
Proof. by case=> hN hf hi; exact: nd_predict_var. Qed.
End Props.

(* A planar random walk with unit noise from a standardised law: the predicted variances
   are twice the squares of the predicted scales. *)
Theorem nd_predicted_scale_refuted (R : rcfType) (chol : forall n, 'M[R]_n -> 'M[R]_n) eigh :
  chol_spec chol -> eigh_spec eigh ->
  exists full inds (conds : seq R -> seq nat -> seq R -> seq R -> R) (scms0 : seq R),
  [/\ layout 2 2 full inds, admissible_nd 2 2 (look full scms0),
      (forall x k c r, conds x k c r = \prod_(i < size k)
         scaled_moment (gauss_moment (nth 0 x i) 1) (nth 0 c i) (nth 0 r i) (nth 0%N k i))
    & forall st a, (a < 2)%N ->
      let s' := scms_nd_predict chol eigh full inds (MultiIndexFn conds) (fun x => (x, [:: 1; 1]))
                  st (scms0, [:: 0; 0], [:: 1; 1]) in
      nth 0 s'.2 a = 1 /\ look full s'.1.1 [seq (2 * n)%N | n <- munit 2 a] = 2%:R].
Proof.
move=> hc he.
have [full hf] : exists full, generate_graded_lexico_multi_indices 2 (2 * 2 - 1) 0 = Some full by eexists; vm_compute; reflexivity.
have [inds hi] : exists inds, gram_and_hankel_indices_graded_lexico 2 2 = Some inds by eexists; vm_compute; reflexivity.
exists full, inds, (fun x k c r => walk x c r k), (pms R full); split=> //; first exact: (pms_adm hf hi).
by move=> st a ha; apply: nd_scale_wrong.
Qed.

Print Assumptions nd_filters_reject_bad_length.
Print Assumptions nd_filters_signatures_agree.
Print Assumptions nd_raw_filter_normalised.
Print Assumptions nd_central_filter_normalised.
Print Assumptions nd_scaled_filter_normalised.
Print Assumptions nd_raw_central_filters_agree.
Print Assumptions nd_raw_scaled_filters_agree.
Print Assumptions nd_raw_filter_exact_on_chains.
Print Assumptions nd_raw_filter_resumes.
Print Assumptions nd_central_filter_resumes.
Print Assumptions nd_scaled_filter_resumes.
Print Assumptions nd_predicted_scale_partial.
Print Assumptions nd_predicted_scale_refuted.

(* A chain on three points of the plane satisfies the hypotheses of the agreement theorems
   for every data sequence. *)
Example nd_filters_ex (R : rcfType) :
  exists chol : forall n, 'M[R]_n -> 'M[R]_n,
  exists eigh : forall n, 'M[R]_n -> 'M[R]_n * 'rV[R]_n,
  exists full inds,
  let zs := pts R in let alpha := pws R in
  let trans := fun x z : seq R => if x == z then 2%:R^-1 else 4%:R^-1 in
  let C := fun (x : seq R) k => \sum_(z <- zs) trans x z * mono z k in
  let pdf := fun (y : bool) (z : seq R) => if y == (nth 0 z 0 < 0) then 1 else 2%:R^-1 in
  let condmv := fun x => ([:: C x [:: 1; 0]%N; C x [:: 0; 1]%N], [:: 1; 1]) in
  [/\ chol_spec chol, eigh_spec eigh, layout 2 2 full inds &
   forall st ys, exists out nell,
     moment_filter_nd_rms chol eigh (fun x => x) full inds (MultiIndexFn C) pdf st
       (hmm_moments_nd full zs alpha) ys = Ok (out, nell) /\
     forall i, (i < size ys)%N -> let r := nth [::] (hmm_moments_nd full zs alpha :: out) i in
       [/\ admissible_nd 2 2 (look full r),
           admissible_nd 2 2 (look full (rms_nd_predict chol eigh full inds (MultiIndexFn C) st r)) &
           all (fun s => 0 < s) (pscale chol eigh 2 inds st condmv r)]].
Proof.
exists (@chol_ref R), (@eigh_ref R).
have [full hf] : exists full, generate_graded_lexico_multi_indices 2 (2 * 2 - 1) 0 = Some full by eexists; vm_compute; reflexivity.
have [inds hi] : exists inds, gram_and_hankel_indices_graded_lexico 2 2 = Some inds by eexists; vm_compute; reflexivity.
exists full, inds => zs alpha trans C pdf condmv.
have hc := @chol_ref_spec R; have he := @eigh_ref_spec R.
split=> // st ys.
have tpos x z : 0 < trans x z by rewrite /trans; case: ifP => _; rewrite invr_gt0 ltr0n.
have h4 x z : x \in zs -> z \in zs -> 0 <= trans x z by move=> _ _; apply: ltW.
have h5 z : z \in zs -> exists2 x, x \in zs & 0 < trans x z by move=> hz; exists z.
have n1 : (1 : R) != -1 by rewrite -subr_eq0 opprK -(natrD _ 1 1) pnatr_eq0.
have n2 : (-1 : R) != 2%:R by rewrite -subr_eq0 -opprD oppr_eq0 -(natrD _ 1 2) pnatr_eq0.
have h6 x : x \in zs -> \sum_(z <- zs) trans x z = 1.
  rewrite !big_cons big_nil /trans !inE => /or3P [] /eqP ->; rewrite !eqseq_cons !eqxx /= ?andbT.
  - by rewrite (negbTE n1) /=; field.
  - by rewrite [-1 == 1]eq_sym (negbTE n1) (negbTE n2) /=; field.
  - by rewrite [-1 == 1]eq_sym (negbTE n1) [2%:R == -1]eq_sym (negbTE n2) /=; field.
have h7 x j : x \in zs -> (j < size full)%N ->
     cond_at full (MultiIndexFn C) x j = \sum_(z <- zs) trans x z * mono z (nth [::] full j) by [].
have h8 y z : z \in zs -> 0 < pdf y z by move=> _; rewrite /pdf; case: ifP => _; rewrite ?ltr01 ?invr_gt0 ?ltr0n.
have ha : distn zs alpha by split=> //; [exact: pws_pos|exact: pws1].
have hsz : size zs = 'C(2.-1 + 2, 2) by [].
have N0 : (0 < 2)%N by [].
have hu := @pts_unisolvent R; have hdim := pts_dim R.
have [e1 e2] := hmmn_exact hc he N0 hf hi st hsz hdim hu h4 h5 h6 h7 h8 ys ha.
eexists; eexists; split.
  by rewrite rms_nd_run (traceable_inds N0 hf hi) size_map eqxx /= e1; reflexivity.
move=> i hlt r.
have [a' ra da] : exists2 a', r = hmm_moments_nd full zs a' & distn zs a'.
  rewrite /r; case: i hlt {r} => [|i] hlt; first by exists alpha.
  rewrite /= (nth_map ([::], 0)); last first.
    by move: (congr1 size e1); rewrite size_states size_map => <-; exact: ltnW.
  eexists; first reflexivity.
  apply: (hmmn_forward_dist h4 h5 h6 h8 ha (p := nth ([::], 0) _ i)) => //.
  apply: mem_nth; move: (congr1 size e1); rewrite size_states size_map => <-; exact: ltnW.
rewrite ra; split.
- exact: (distn_admissible N0 hf hi hsz hdim hu da).
- rewrite (hmmn_predict_sim hc he N0 hf hi st hsz hdim hu h7 da).
  exact: (distn_admissible N0 hf hi hsz hdim hu (hmmn_predict_dist h4 h5 h6 da)).
- rewrite /pscale /= !(quad_hmm_nd hc he N0 hf hi st hsz hdim hu da) expect_nd1; last by case: da.
  by case: da => _ _ ->; rewrite sqrtr1 ltr01.
Qed.
