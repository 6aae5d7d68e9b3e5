(* Simulations between the one-dimensional moment filters and the forward algorithm. *)
From mathcomp Require Import all_ssreflect all_algebra.
From mathcomp Require Import ring zify.
From Verif Require Import Prelude Egf LinAlgSpec QuadModel QuadSpec QuadProofs QuadMain QuadStrict.
From Verif Require Import Moments1DModel Moments1DSpec Moments1DProofs Moments1DConv.
From Verif Require Import Filter1DModel Filter1DSpec Filter1DProofs.
Set Implicit Arguments.
Unset Strict Implicit.
Unset Printing Implicit Defensive.
Import Order.TTheory GRing.Theory Num.Theory.
Local Open Scope ring_scope.

Arguments rms_update : simpl never.
Arguments rms_predict : simpl never.
Arguments cms_update : simpl never.
Arguments cms_predict : simpl never.
Arguments scms_update : simpl never.
Arguments scms_predict : simpl never.

Section Sim.
Variable R : rcfType.
Variable chol : forall n, 'M[R]_n -> 'M[R]_n.
Variable eigh : forall n, 'M[R]_n -> 'M[R]_n * 'rV[R]_n.
Hypothesis cholP : chol_spec chol.
Hypothesis eighP : eigh_spec eigh.
Local Notation quad := (quad chol eigh).
Implicit Types (ms rms cms scms : seq R).
Variables (log : R -> R) (Y : Type).

Lemma central_scaled1 (m : nat -> R) c k : affine_moments m c 1 k = central_moment m c k.
Proof. by rewrite -[LHS]/(scaled_moment m c 1 k) scaled_central expr1n divr1. Qed.

Lemma affine_id (m : nat -> R) k : affine_moments m 0 1 k = m k.
Proof. by rewrite -[LHS]/(scaled_moment m 0 1 k) scaled_aff oppr0 mul0r invr1 aff_id. Qed.

Lemma quad_central rms st st' : (1 < size rms)%N -> adm rms ->
  forall f, ex (quad (raw_to_central rms) rms`_1 1 st') f = ex (quad rms 0 1 st) f.
Proof.
move=> hs ha f.
apply: (quad_same cholP eighP (m := nth 0 rms)); rewrite ?ltr01 ?size_raw_to_central //.
- by move=> k hk; rewrite raw_to_centralE // central_scaled1.
- by move=> k hk; rewrite affine_id.
Qed.

Lemma ex_central wx (F : R -> nat -> R) c n :
  central_moment (fun k => ex wx (fun x => F x k)) c n = ex wx (fun x => central_moment (F x) c n).
Proof. exact: expect_mom. Qed.

Lemma central_div (m : nat -> R) a c n :
  central_moment (fun k => m k / a) c n = central_moment m c n / a.
Proof. exact: mom_mulr. Qed.

Lemma central_point (x l c : R) n : central_moment (fun k => x ^+ k * l) c n = (x - c) ^+ n * l.
Proof. by rewrite /central_moment mom_mulr mom_point horner_exp !hornerE. Qed.

Section CR.
Variables (cond : R -> nat -> R) (pdf : Y -> R -> R).
Variables (condc : R -> nat -> R -> R) (condm : R -> R) (num : nat) (st st' : bool).
Hypothesis hcc : forall x n c, (n < num)%N -> condc x n c = central_moment (cond x) c n.
Hypothesis hcm : forall x, condm x = cond x 1%N.
Local Notation predict := (rms_predict chol eigh cond st).
Local Notation update := (rms_update chol eigh pdf st).
Local Notation body := (rms_body chol eigh log cond pdf st).
Local Notation cpredict := (cms_predict chol eigh condc condm st').
Local Notation cupdate := (cms_update chol eigh pdf st').
Local Notation cbody := (cms_body chol eigh log condc condm pdf st').

Lemma cms_predict_sim rms : size rms = num -> (1 < num)%N -> adm rms ->
  cpredict (raw_to_central rms, rms`_1) = (raw_to_central (predict rms), (predict rms)`_1).
Proof.
move=> hs h1 ha; have hs1 : (1 < size rms)%N by rewrite hs.
have hq := quad_central st st' hs1 ha.
have hm : ex (quad (raw_to_central rms) rms`_1 1 st') condm = (predict rms)`_1.
  rewrite hq nth_moments_of //; apply: expect_ext => x; exact: hcm.
rewrite /cms_predict -/(ex _ _) hm; congr pair.
apply: (@eq_from_nth _ 0); rewrite size_moments_of !size_raw_to_central ?size_moments_of // => k hk.
rewrite nth_moments_of // hq raw_to_centralE ?size_moments_of //.
rewrite (@central_ext _ _ (fun k => ex (quad rms 0 1 st) (fun x => cond x k))); last first.
  by move=> j hj; rewrite nth_moments_of // (leq_ltn_trans hj).
rewrite ex_central; apply: expect_ext => x; by rewrite hcc // -hs.
Qed.

Lemma cms_update_sim y rms : (1 < size rms)%N -> adm rms ->
  cupdate y (raw_to_central rms, rms`_1) =
  ((raw_to_central (update y rms).1, (update y rms).1`_1), (update y rms).2).
Proof.
move=> hs ha; have hq := quad_central st st' hs ha.
have hp : ex (quad (raw_to_central rms) rms`_1 1 st') (pdf y) = (update y rms).2 by rewrite hq.
have hm : ex (quad (raw_to_central rms) rms`_1 1 st') (fun x => (x - 0) ^+ 1 * pdf y x) / (update y rms).2
   = (update y rms).1`_1.
  rewrite hq nth_divm nth_moments_of //; congr (_ / _); apply: expect_ext => x; by rewrite subr0.
rewrite /cms_update -!/(ex _ _) hp hm; congr (_, _, _).
apply: (@eq_from_nth _ 0); first by rewrite size_map size_moments_of !size_raw_to_central ?size_rms_update.
rewrite size_map size_moments_of size_raw_to_central // => k hk.
rewrite nth_divm nth_moments_of ?size_raw_to_central // hq raw_to_centralE ?size_rms_update //.
rewrite (@central_ext _ _ (fun k => ex (quad rms 0 1 st) (fun x => x ^+ k * pdf y x) / (update y rms).2)); last first.
  by move=> j hj; rewrite nth_divm nth_moments_of // (leq_ltn_trans hj).
rewrite central_div ex_central; congr (_ / _); apply: expect_ext => x; by rewrite central_point.
Qed.

Lemma cms_bodyE s nell y : cbody (s, nell) y =
  (((cupdate y (cpredict s)).1, nell - log (cupdate y (cpredict s)).2), (cupdate y (cpredict s)).1).
Proof. by rewrite /cms_body; case: (cms_update _ _ _ _ _ _). Qed.

Definition to_central rms : seq R * R := (raw_to_central rms, rms`_1).

Lemma cms_sim rms ys nell : size rms = num -> (1 < num)%N -> rms_ok chol eigh cond pdf st rms ys ->
  scan cbody (to_central rms, nell) ys =
  ((to_central (scan body (rms, nell) ys).1.1, (scan body (rms, nell) ys).1.2),
   [seq to_central r | r <- (scan body (rms, nell) ys).2]).
Proof.
move=> hs h1; elim: ys rms hs nell => [|y ys IH] rms hs nell // [ha ha' hp ho].
rewrite !scan_cons cms_bodyE (rms_bodyE _ _ log) cms_predict_sim //.
have hs' : size (predict rms) = num by rewrite size_rms_predict.
rewrite cms_update_sim ?hs' //= -/(to_central _) IH ?size_rms_update //.
Qed.
End CR.

(* ---------- central filter ---------- *)
Section CC.
Variables (condc : R -> nat -> R -> R) (condm : R -> R) (pdf : Y -> R -> R) (st : bool).
Local Notation cpredict := (cms_predict chol eigh condc condm st).
Local Notation cupdate := (cms_update chol eigh pdf st).
Local Notation cbody := (cms_body chol eigh log condc condm pdf st).

Fixpoint cms_ok (s : seq R * R) (ys : seq Y) : Prop :=
  match ys with
  | [::] => True
  | y :: ys' =>
      [/\ adm s.1, adm (cpredict s).1, (cupdate y (cpredict s)).2 != 0
        & cms_ok (cupdate y (cpredict s)).1 ys']
  end.

Lemma size_cms_predict s : size (cpredict s).1 = size s.1.
Proof. by case: s => cms m; rewrite size_moments_of. Qed.
Lemma size_cms_update y s : size (cupdate y s).1.1 = size s.1.
Proof. by case: s => cms m; rewrite size_map size_moments_of. Qed.

Lemma cms_predict_adm s : (1 < size s.1)%N -> adm s.1 ->
  (forall x c, admissible (fun n => condc x n c) (size s.1)./2) -> adm (cpredict s).1.
Proof. by case: s => cms m hs ha hc; apply: mix_admissible => //; exact: oner_neq0. Qed.

Lemma cms_pdf_gt0 s y : (1 < size s.1)%N -> adm s.1 -> (forall x, 0 < pdf y x) ->
  0 < (cupdate y s).2.
Proof.
case: s => cms m /= hs ha hp; have [h1 h2 h3 h4 _] := quad_strict cholP eighP m st hs (oner_neq0 _) ha.
by apply: expect_gt0 => //; rewrite h2 h3.
Qed.

Lemma cms_update_adm s y : (1 < size s.1)%N -> adm s.1 -> (forall x, 0 < pdf y x) ->
  adm (cupdate y s).1.1.
Proof.
move=> hs ha hp; have hb := cms_pdf_gt0 hs ha hp; case: s hs ha hb => cms m /= hs ha hb.
have := @reweight_admissible R chol eigh cholP eighP cms m 1 st (pdf y) _ (cupdate y (cms, m)).1.2 1
          hs (oner_neq0 _) ha hp hb (oner_neq0 R).
rewrite /adm !size_map; apply: adm_ext => k hk.
have hk' : (k < size cms)%N.
  by apply: (leq_trans hk); rewrite size_iota -{2}[size cms]odd_double_half leq_addl.
rewrite !nth_divm !nth_moments_of //; congr (_ / _); apply: expect_ext => x.
by rewrite divr1.
Qed.

Lemma cms_always_ok s ys : (1 < size s.1)%N -> adm s.1 ->
  (forall x c, admissible (fun n => condc x n c) (size s.1)./2) -> (forall y x, 0 < pdf y x) ->
  cms_ok s ys.
Proof.
move=> hs ha hc hp; elim: ys s hs ha hc => [|y ys IH] s hs ha hc //=.
have h1 := cms_predict_adm hs ha hc.
have hs1 : (1 < size (cpredict s).1)%N by rewrite size_cms_predict.
have h2 := cms_update_adm hs1 h1 (hp y).
split=> //; first by rewrite gt_eqF // cms_pdf_gt0.
by apply: IH; rewrite // size_cms_update // size_cms_predict.
Qed.

Lemma cms_update01 y s : (1 < size s.1)%N -> (cupdate y s).2 != 0 ->
  (cupdate y s).1.1`_0 = 1 /\ (cupdate y s).1.1`_1 = 0.
Proof.
case: s => cms m /= hs; set u := cupdate y (cms, m) => h.
set wx := quad cms m 1 st.
have e0 : ex wx (pdf y) = u.2 by [].
have e1 : u.1.2 = ex wx (fun x => (x - 0) ^+ 1 * pdf y x) / u.2 by [].
have e n : (n < size cms)%N -> u.1.1`_n = ex wx (fun x => (x - u.1.2) ^+ n * pdf y x) / u.2.
  by move=> hn; rewrite nth_divm nth_moments_of.
rewrite !e ?(ltnW hs) //; split.
  rewrite (_ : ex wx _ = u.2) ?divff // -e0; apply: expect_ext => x; by rewrite expr0 mul1r.
rewrite (_ : ex wx _ = ex wx (fun x => (x - 0) ^+ 1 * pdf y x) - u.1.2 * ex wx (pdf y)).
  by rewrite mulrBl -e1 e0 mulfK // subrr.
rewrite /ex -expect_mul !expect_sumE -sumrB; apply: eq_bigr => q _.
by rewrite subr0 !expr1 mulrBl mulrBr.
Qed.

Lemma cms_normalised s ys nell : (1 < size s.1)%N -> cms_ok s ys ->
  forall r, r \in (scan cbody (s, nell) ys).2 ->
  [/\ size r.1 = size s.1, r.1`_0 = 1 & r.1`_1 = 0].
Proof.
elim: ys s nell => [|y ys IH] s nell hs // [_ _ h3 h4] r.
rewrite scan_cons cms_bodyE /=; set u := cupdate y (cpredict s).
have su : size u.1.1 = size s.1 by rewrite size_cms_update size_cms_predict.
rewrite inE => /orP [/eqP ->|]; last by rewrite -su; apply: IH; rewrite ?su.
by split=> //; apply cms_update01; rewrite // size_cms_predict.
Qed.

(* ---------- scaled central filter ---------- *)
Variables (conds : R -> nat -> R -> R -> R) (condmv : R -> R * R) (num : nat) (st' : bool).
Hypothesis hcs : forall x n c r, (n < num)%N -> 0 < r -> conds x n c r = condc x n c / r ^+ n.
Hypothesis hmv : forall x, (condmv x).1 = condm x.
Hypothesis hvar : forall x, 0 < (condmv x).2.
Local Notation spredict := (scms_predict chol eigh conds condmv st').
Local Notation supdate := (scms_update chol eigh pdf st').
Local Notation sbody := (scms_body chol eigh log conds condmv pdf st').

Definition scale_state (r : R) (s : seq R * R) : seq R * R * R :=
  ([seq s.1`_n / r ^+ n | n <- iota 0 (size s.1)], s.2, r).

Lemma size_scale r s : size (scale_state r s).1.1 = size s.1.
Proof. by rewrite size_map size_iota. Qed.
Lemma nth_scale r s n : (n < size s.1)%N -> (scale_state r s).1.1`_n = s.1`_n / r ^+ n.
Proof. by move=> h; rewrite nth_iota_map. Qed.

Lemma quad_scaled cms m r : (1 < size cms)%N -> adm cms -> 0 < r ->
  forall f, ex (quad (scale_state r (cms, m)).1.1 m r st') f = ex (quad cms m 1 st) f.
Proof.
move=> hs ha r0 f.
apply: (quad_same cholP eighP (m := aff (nth 0 cms) m 1)); rewrite ?size_scale ?ltr01 //.
- move=> k hk; rewrite nth_scale // -[RHS]/(scaled_moment _ m r k) scaled_central central_aff aff_aff.
  by rewrite !mul1r addNr aff_id.
- move=> k hk; rewrite central_scaled1 central_aff aff_aff.
  by rewrite !mul1r addNr aff_id.
- by apply: adm_aff => //; exact: oner_neq0.
Qed.

Lemma ex_divr wx f (a : R) : ex wx (fun x => f x / a) = ex wx f / a.
Proof. by rewrite [RHS]mulrC -expect_mul; apply: expect_ext => x; rewrite mulrC. Qed.

Definition predicted_scale (s : seq R * R) : R :=
  Num.sqrt (ex (quad s.1 s.2 1 st) (fun x => (condmv x).2)).

Lemma predicted_scale_gt0 s : (1 < size s.1)%N -> adm s.1 -> 0 < predicted_scale s.
Proof.
move=> hs ha; rewrite sqrtr_gt0; have [h1 h2 h3 h4 _] := quad_strict cholP eighP s.2 st hs (oner_neq0 _) ha.
by apply: expect_gt0 => //; rewrite h2 h3.
Qed.

Lemma scms_predictE ss m r : spredict (ss, m, r) =
  let wx := quad ss m r st' in
  let m' := ex wx (fun x => (condmv x).1) in
  let r' := Num.sqrt (ex wx (fun x => (condmv x).2)) in
  (moments_of wx (fun x n => conds x n m' r') (size ss), m', r').
Proof. by []. Qed.

Lemma scms_predict_sim r s : size s.1 = num -> (1 < num)%N -> adm s.1 -> 0 < r ->
  spredict (scale_state r s) = scale_state (predicted_scale s) (cpredict s).
Proof.
case: s => cms m /= hs h1 ha r0; have hs1 : (1 < size cms)%N by rewrite hs.
have hq := quad_scaled m hs1 ha r0.
have r1 := @predicted_scale_gt0 (cms, m) hs1 ha.
have hz : size (scale_state r (cms, m)).1.1 = size cms by rewrite size_scale.
rewrite -[scale_state r _]/((scale_state r (cms, m)).1.1, m, r).
move: (scale_state r (cms, m)).1.1 hq hz => ss hq hz; rewrite scms_predictE /= !hq.
have -> : ex (quad cms m 1 st) (fun x => (condmv x).1) = (cpredict (cms, m)).2.
  by apply: expect_ext => x; rewrite hmv.
rewrite -/(predicted_scale (cms, m)) /scale_state; congr (_, _, _).
apply: (@eq_from_nth _ 0); first by rewrite size_moments_of size_map size_iota size_cms_predict.
rewrite size_moments_of hz => k hk.
rewrite nth_moments_of // hq nth_iota_map ?size_cms_predict // nth_moments_of //.
rewrite -ex_divr; apply: expect_ext => x; by rewrite hcs // -hs.
Qed.

Lemma scms_updateE y ss m r : supdate y (ss, m, r) =
  let wx := quad ss m r st' in
  let pdf_y := ex wx (pdf y) in
  let m' := ex wx (fun x => ((x - 0) / 1) ^+ 1 * pdf y x) / pdf_y in
  let r' := Num.sqrt (ex wx (fun x => ((x - m') / 1) ^+ 2 * pdf y x) / pdf_y) in
  (([seq a / pdf_y | a <- moments_of wx (fun x n => ((x - m') / r') ^+ n * pdf y x) (size ss)], m', r'),
   pdf_y).
Proof. by []. Qed.

Lemma scms_update_sim y r s : (2 < size s.1)%N -> adm s.1 -> 0 < r ->
  supdate y (scale_state r s) = (standardise (cupdate y s).1, (cupdate y s).2).
Proof.
case: s => cms m hs ha r0; rewrite /= in hs ha; have hs1 : (1 < size cms)%N by apply: ltn_trans hs.
have hq := quad_scaled m hs1 ha r0.
have hz : size (scale_state r (cms, m)).1.1 = size cms by rewrite size_scale.
have [u eu] : exists u, cupdate y (cms, m) = u by exists (cupdate y (cms, m)).
rewrite eu.
pose wx := quad cms m 1 st; rewrite -/wx in hq.
have e0 : ex wx (pdf y) = u.2 by rewrite -eu.
have e1 : ex wx (fun x => ((x - 0) / 1) ^+ 1 * pdf y x) / u.2 = u.1.2.
  by rewrite -eu; congr (_ / _); apply: expect_ext => x; rewrite divr1.
have e3 k : (k < size cms)%N -> u.1.1`_k = ex wx (fun x => (x - u.1.2) ^+ k * pdf y x) / u.2.
  by rewrite -eu => hk; rewrite nth_divm nth_moments_of.
have e2 : ex wx (fun x => ((x - u.1.2) / 1) ^+ 2 * pdf y x) / u.2 = u.1.1`_2.
  rewrite e3 //; congr (_ / _); apply: expect_ext => x; by rewrite divr1.
have e4 : size u.1.1 = size cms by rewrite -eu size_cms_update.
rewrite -[scale_state r _]/((scale_state r (cms, m)).1.1, m, r).
move: (scale_state r (cms, m)).1.1 hq hz => ss hq hz; rewrite scms_updateE; cbv zeta; rewrite !hq.
rewrite e0 e1 e2 /standardise; congr (_, _, _, _).
apply: (@eq_from_nth _ 0).
  by rewrite !size_map !size_iota e4.
rewrite size_map size_moments_of hz => k hk.
rewrite nth_divm nth_moments_of ?hz // hq nth_iota_map ?e4 // (e3 k) //.
rewrite [RHS]mulrAC; congr (_ / _); rewrite -ex_divr; apply: expect_ext => x.
by rewrite expr_div_n mulrAC.
Qed.

Lemma adm_var (cms : seq R) : (3 < size cms)%N -> adm cms -> 0 < cms`_2.
Proof.
move=> hs /(_ 'X); rewrite polyX_eq0 size_polyX -expr2 momXn; apply=> //.
by rewrite (@half_leq 4).
Qed.

Lemma scms_bodyE s nell y : sbody (s, nell) y =
  (((supdate y (spredict s)).1, nell - log (supdate y (spredict s)).2), (supdate y (spredict s)).1).
Proof. by rewrite /scms_body; case: (scms_update _ _ _ _ _ _). Qed.

Lemma scms_sim s ys nell r : size s.1 = num -> (3 < num)%N -> 0 < r ->
  (forall y x, 0 < pdf y x) -> cms_ok s ys ->
  scan sbody (scale_state r s, nell) ys =
  (((match ys with [::] => scale_state r s | _ :: _ => standardise (scan cbody (s, nell) ys).1.1 end),
    (scan cbody (s, nell) ys).1.2),
   [seq standardise c | c <- (scan cbody (s, nell) ys).2]).
Proof.
move=> hs h3 r0 hp; elim: ys s hs nell r r0 => [|y ys IH] s hs nell r r0 // [ha ha' _ ho].
have h1 : (1 < num)%N by apply: leq_trans h3.
have h2 : (2 < num)%N by apply: ltnW.
have hs' : size (cpredict s).1 = num by rewrite size_cms_predict.
have r1 : 0 < predicted_scale s by apply: predicted_scale_gt0; rewrite ?hs.
rewrite !scan_cons scms_bodyE cms_bodyE scms_predict_sim // scms_update_sim ?hs' //=.
set u := cupdate y (cpredict s) in ho *.
have hu : adm u.1.1 by apply: cms_update_adm; rewrite ?hs'.
have su : size u.1.1 = num by rewrite size_cms_update.
have r2 : 0 < Num.sqrt u.1.1`_2 by rewrite sqrtr_gt0 adm_var // su.
rewrite -[standardise u.1]/(scale_state (Num.sqrt u.1.1`_2) u.1) IH //=.
by case: ys {IH ho}.
Qed.

Lemma standardised (s : seq R * R) : (2 < size s.1)%N -> s.1`_0 = 1 -> s.1`_1 = 0 -> 0 < s.1`_2 ->
  [/\ (standardise s).1.1`_0 = 1, (standardise s).1.1`_1 = 0, (standardise s).1.1`_2 = 1 &
      0 < (standardise s).2].
Proof.
move=> hs h0 h1 h2; rewrite /standardise /= !nth_iota_map ?(ltnW hs) ?(ltnW (ltnW hs)) //.
rewrite h0 h1 mul0r expr0 divr1 sqr_sqrtr ?ltW // divff ?gt_eqF // sqrtr_gt0; by [].
Qed.
End CC.

(* ---------- finite hidden Markov chains ---------- *)
Section Hmm.
Variables (zs : seq R) (trans : R -> R -> R) (cond : R -> nat -> R) (pdf : Y -> R -> R).
Variables (num : nat) (st : bool).
Hypothesis hz : uniq zs.
Hypothesis hnum : (num./2 = size zs)%N.
Hypothesis hnum2 : (1 < num)%N.
Hypothesis htr : forall x z, x \in zs -> z \in zs -> 0 <= trans x z.
Hypothesis hirr : forall z, z \in zs -> exists2 x, x \in zs & 0 < trans x z.
Hypothesis htr1 : forall x, x \in zs -> \sum_(z <- zs) trans x z = 1.
Hypothesis hcond : forall x k, x \in zs -> (k < num)%N -> cond x k = \sum_(z <- zs) trans x z * z ^+ k.
Hypothesis hlik : forall y z, z \in zs -> 0 < pdf y z.
Local Notation predict := (rms_predict chol eigh cond st).
Local Notation update := (rms_update chol eigh pdf st).
Local Notation body := (rms_body chol eigh log cond pdf st).
Local Notation moms := (hmm_moments zs num).

Definition dist (alpha : seq R) : Prop :=
  [/\ size alpha = size zs, all (fun w => 0 < w) alpha & jsum alpha = 1].

Lemma size_moms alpha : size (moms alpha) = num.
Proof. by rewrite size_map size_iota. Qed.
Lemma nth_moms alpha k : (k < num)%N -> (moms alpha)`_k = discrete_moment alpha zs k.
Proof. by move=> h; rewrite nth_iota_map. Qed.

Lemma quad_hmm alpha : dist alpha -> forall f, ex (quad (moms alpha) 0 1 st) f = expect alpha zs f.
Proof.
case=> h1 h2 h3 f; have hs : (1 < size (moms alpha))%N by rewrite size_moms.
have hq := quadP chol eigh 0 1 st hs.
apply: (quadrature_discrete (ms := moms alpha) (ldl := st) cholP eighP h1 _ hz h2 _ h3).
- by rewrite size_moms.
- move=> k; rewrite size_moms => hk; apply: nth_moms; apply: (leq_trans hk).
  by rewrite -{2}[num]odd_double_half leq_addl.
- by rewrite hq; case: (quad _ _ _ _).
Qed.

Lemma zip_mapl (T : Type) (g : T -> R) (s : seq T) : zip [seq g z | z <- s] s = [seq (g z, z) | z <- s].
Proof. by elim: s => //= z s ->. Qed.

Lemma zip_rew (g : R -> R -> R) (a s : seq R) : size a = size s ->
  zip [seq g q.1 q.2 | q <- zip a s] s = [seq (g q.1 q.2, q.2) | q <- zip a s].
Proof. by elim: a s => [|x a IH] [|z s] //= [h]; rewrite IH. Qed.

Lemma jsum_sum (s : seq R) : jsum s = \sum_(x <- s) x.
Proof. exact: jsumE. Qed.

Lemma hmm_predict_dist alpha : dist alpha -> dist (hmm_predict zs trans alpha).
Proof.
case=> h1 h2 h3; split; first by rewrite size_map.
- apply/allP => w /mapP [z hzz ->].
  have [x hx ht] := hirr hzz.
  have hx' : x \in [seq q.2 | q <- zip alpha zs] by rewrite -/unzip2 unzip2_zip // h1.
  have [q hq ex] := mapP hx'.
  rewrite lt_def; apply/andP; split; last first.
    rewrite big_seq; apply: sumr_ge0 => p hp.
    have [ha hb] := zip_mem hp; apply: mulr_ge0; [exact: ltW (allP h2 _ ha)|exact: htr].
  rewrite big_seq psumr_eq0; last first.
    move=> p hp; have [ha hb] := zip_mem hp; apply: mulr_ge0; [exact: ltW (allP h2 _ ha)|exact: htr].
  apply/allPn; exists q => //=; have [ha hb] := zip_mem hq; rewrite hq /= gt_eqF // mulr_gt0 -?ex //; exact: (allP h2).
- rewrite jsum_sum big_map exchange_big /= -h3 jsum_sum.
  rewrite -[in RHS](@unzip1_zip _ _ alpha zs) ?h1 // big_map big_seq [RHS]big_seq.
  apply: eq_bigr => q /zip_mem [_ hq]; by rewrite -mulr_sumr htr1 // mulr1.
Qed.

Lemma hmm_norm_gt0 y alpha : dist alpha -> 0 < hmm_norm zs pdf y alpha.
Proof.
case=> h1 h2 _; have hn : (0 < size alpha)%N by rewrite h1 -hnum (@half_leq 2).
rewrite (_ : hmm_norm _ _ _ _ = expect alpha zs (pdf y)); first by apply: expect_gt0 => // z; apply: hlik.
by rewrite expect_sumE.
Qed.

Lemma hmm_update_dist y alpha : dist alpha -> dist (hmm_update zs pdf y alpha).
Proof.
move=> hd; have hc := hmm_norm_gt0 y hd; case: hd => h1 h2 h3; split.
- by rewrite size_map size_zip h1 minnn.
- apply/allP => w /mapP [q /zip_mem [ha hb] ->].
  by rewrite divr_gt0 ?mulr_gt0 ?hlik //; exact: (allP h2).
- by rewrite jsum_sum big_map -mulr_suml divff // gt_eqF.
Qed.

Lemma hmm_predict_sim alpha : dist alpha -> predict (moms alpha) = moms (hmm_predict zs trans alpha).
Proof.
move=> hd; have h1 : size alpha = size zs by case: hd.
apply: (@eq_from_nth _ 0); first by rewrite size_rms_predict !size_moms.
rewrite size_rms_predict size_moms => k hk.
rewrite nth_moments_of ?size_moms // quad_hmm // nth_moms //.
rewrite (@expect_eqin _ _ _ _ (fun x => \sum_(z <- zs) trans x z * z ^+ k)); last first.
  by move=> x hx; apply: hcond.
rewrite /discrete_moment zip_mapl big_map expect_sumE.
under eq_bigr do rewrite mulr_sumr.
rewrite exchange_big /=; apply: eq_bigr => z _; rewrite mulr_suml; apply: eq_bigr => q _.
by rewrite mulrA.
Qed.

Lemma hmm_update_sim y alpha : dist alpha ->
  update y (moms alpha) = (moms (hmm_update zs pdf y alpha), hmm_norm zs pdf y alpha).
Proof.
move=> hd; have h1 : size alpha = size zs by case: hd.
have e2 : (update y (moms alpha)).2 = hmm_norm zs pdf y alpha.
  by rewrite -[LHS]/(ex (quad (moms alpha) 0 1 st) (pdf y)) quad_hmm // expect_sumE.
rewrite [LHS]surjective_pairing e2; congr pair.
apply: (@eq_from_nth _ 0); first by rewrite size_rms_update !size_moms.
rewrite size_rms_update size_moms => k hk.
rewrite nth_divm nth_moments_of ?size_moms // -/(ex _ (pdf y)) !quad_hmm // nth_moms //.
rewrite (_ : expect alpha zs (pdf y) = hmm_norm zs pdf y alpha); last by rewrite expect_sumE.
rewrite /discrete_moment (zip_rew (fun a z => a * pdf y z / hmm_norm zs pdf y alpha)) // big_map expect_sumE mulr_suml; apply: eq_bigr => q _ /=.
move: (hmm_norm _ _ _ _)^-1 (pdf _ _) (q.2 ^+ k) (q.1) => a b c d; ring.
Qed.

Lemma hmm_exact alpha ys nell : dist alpha ->
  scan body (moms alpha, nell) ys =
  ((moms (last alpha [seq p.1 | p <- hmm_forward zs trans pdf alpha ys]),
    nell - \sum_(p <- hmm_forward zs trans pdf alpha ys) log p.2),
   [seq moms p.1 | p <- hmm_forward zs trans pdf alpha ys]).
Proof.
elim: ys alpha nell => [|y ys IH] alpha nell hd; first by rewrite /= big_nil subr0.
have hd1 := hmm_predict_dist hd; have hd2 := hmm_update_dist y hd1.
rewrite scan_cons rms_bodyE hmm_predict_sim // hmm_update_sim //= IH //=.
by rewrite big_cons opprD addrA.
Qed.
End Hmm.
End Sim.
