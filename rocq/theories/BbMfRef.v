(* The scaled mode with args.normal on the Benes-Bernoulli model: the first filtering mean is too small. *)
From Coq Require Import String.
From mathcomp Require Import all_ssreflect all_algebra.
From mathcomp Require Import ring zify complex.
From Verif Require Import Prelude LinAlgSpec LinAlgProofs LdlProofs QuadModel QuadSpec QuadProofs QuadMain QuadStrict.
From Verif Require Import Moments1DModel Moments1DSpec Moments1DProofs Moments1DConv BellProofs.
From Verif Require Import Filter1DModel Filter1DSpec Filter1DProofs Filter1DSim Filter1DRun Filter1DProps.
From Verif Require Import FourierModel FourierProofs FourierProps FilterAffine SsModel SsProofs SsProps BbMfModel BbMfProofs BbMfShrink.
Set Implicit Arguments.
Unset Strict Implicit.
Unset Printing Implicit Defensive.
Import Order.TTheory GRing.Theory Num.Theory.
Local Open Scope ring_scope.
Local Open Scope seq_scope.

Section Ref.
Variable R : rcfType.
Variables (exp log : R -> R) (cexp : R[i] -> R[i]).
Variable chol : forall n, 'M[R]_n -> 'M[R]_n.
Variable eigh : forall n, 'M[R]_n -> 'M[R]_n * 'rV[R]_n.
Hypotheses (cholP : chol_spec chol) (eighP : eigh_spec eigh) (expP : exp_spec exp).
Local Notation quad := (quad chol eigh).
Local Notation lik := (bb_lik exp).

Lemma quad_one ms mean st : (1 < size ms)%N -> ms`_0 = 1 -> adm ms -> ex (quad ms mean 1 st) (fun=> 1) = 1.
Proof.
move=> hs h0 ha; have := quadP chol eigh mean 1 st hs; case: (quad _ _ _ _) => ws xs hq.
have hm := quadrature_moments cholP eighP (oner_neq0 _) ha hq.
have n0 : (0 < (size ms)./2)%N by case: (size ms) hs => [|[|n]].
have e := hm 0%N; rewrite h0 divr1 in e; rewrite -[RHS]e; last by move: n0; clear; lia.
by apply: expect_ext => x; rewrite expr0.
Qed.

(* ---- the logistic emission ---- *)
Lemma likN y x : lik y (- x) = 1 - lik y x.
Proof.
have [_ _ h _] := benes_bernoulli_logistic expP.
by case: y; rewrite ?lik_true ?lik_false h.
Qed.

Definition tilt x := x * (bb_logistic exp x - 2%:R^-1).

Lemma tilt_even x : tilt (- x) = tilt x.
Proof.
have [_ _ h _] := benes_bernoulli_logistic expP; rewrite /tilt h mulNr -mulrN; congr (_ * _).
by move: (bb_logistic exp x) => a; field.
Qed.

Lemma tilt0 : tilt 0 = 0. Proof. by rewrite /tilt mul0r. Qed.

Lemma tilt_pos x : 0 < x -> 0 < tilt x.
Proof.
move=> x0; have [_ h _ h0] := benes_bernoulli_logistic expP.
by rewrite /tilt mulr_gt0 // subr_gt0 -[_^-1]div1r -h0 h.
Qed.

Lemma tilt_gt0 x : x != 0 -> 0 < tilt x.
Proof.
case: (ltrgtP x 0) => [h _|h _|//]; last exact: tilt_pos.
by rewrite -tilt_even tilt_pos // oppr_gt0.
Qed.

Lemma tilt_ge0 x : 0 <= tilt x.
Proof. by have [->|/tilt_gt0/ltW] := eqVneq x 0; rewrite ?tilt0. Qed.

Lemma tilt_shrink_pos r x : 0 < r -> r < 1 -> 0 < x -> tilt (r * x) < tilt x.
Proof.
move=> r0 r1 x0; have [_ h _ h0] := benes_bernoulli_logistic expP; rewrite /tilt.
have rx0 : 0 < r * x by rewrite mulr_gt0.
have rx : r * x < x by rewrite -{2}[x]mul1r ltr_pmul2r.
have p0 : 0 < bb_logistic exp (r * x) - 2%:R^-1 by rewrite subr_gt0 -[_^-1]div1r -h0 h.
apply: lt_trans (_ : x * (bb_logistic exp (r * x) - 2%:R^-1) < _); first by rewrite ltr_pmul2r.
by rewrite ltr_pmul2l // ltr_add2r h.
Qed.

Lemma tilt_shrink r x : 0 < r -> r < 1 -> x != 0 -> tilt (r * x) < tilt x.
Proof.
move=> r0 r1; case: (ltrgtP x 0) => [h _|h _|//]; last exact: tilt_shrink_pos.
by rewrite -tilt_even -[tilt x]tilt_even -mulrN tilt_shrink_pos // oppr_gt0.
Qed.

(* ---- the update from a symmetric law ---- *)
Definition sgb (y : bool) : R := if y then 1 else -1.

Section Sym.
Variables (ms : seq R) (st : bool).
Hypotheses (hs : (1 < size ms)%N) (h0 : ms`_0 = 1) (ha : adm ms) (hsym : sym_moms ms).
Local Notation Q := (quad ms 0 1 st).

Lemma sym_pdf y r : ex Q (fun x => lik y (r * x)) = 2%:R^-1.
Proof.
have e : ex Q (fun x => lik y (r * x) - 2%:R^-1) = 0.
  apply: (quad_odd cholP eighP) => // x; rewrite mulrN likN.
  by move: (lik y (r * x)) => a; field.
transitivity (ex Q (fun x => (lik y (r * x) - 2%:R^-1) + 2%:R^-1 * 1)).
  by apply: expect_ext => x; rewrite mulr1 subrK.
by rewrite ex_add e add0r [LHS]expect_mul -/(ex Q _) quad_one // mulr1.
Qed.

Lemma sym_num y r : ex Q (fun x => r * x * lik y (r * x)) = sgb y * ex Q (fun x => tilt (r * x)).
Proof.
have e1 : ex Q (fun x => r * x * 2%:R^-1) = 0 by apply: (quad_odd cholP eighP) => // x; rewrite mulrN mulNr.
rewrite -[RHS]addr0 -[X in _ + X]e1 -[X in X + _]expect_mul -/(ex _ _) -ex_add; apply: expect_ext => x.
rewrite /tilt /sgb; case: y; rewrite ?lik_true ?lik_false.
  by move: (bb_logistic exp (r * x)) (r * x) => a b; field.
by move: (bb_logistic exp (r * x)) (r * x) => a b; field.
Qed.
End Sym.

(* ---- the first output of a run ---- *)
Lemma cms_head (cond : R -> nat -> R -> R) cm (pdf : bool -> R -> R) st c m y ys : (1 < size c)%N ->
  exists o l, moment_filter_cms chol eigh log cond cm pdf st c m (y :: ys)
  = Some ((cms_update chol eigh pdf st y (cms_predict chol eigh cond cm st (c, m))).1 :: o, l).
Proof.
move=> hs; rewrite /moment_filter_cms ltnNge hs scan_cons cms_bodyE.
by case: (scan _ _ ys) => a b; exists b, a.2.
Qed.
Lemma scms_head (cond : R -> nat -> R -> R -> R) cm (pdf : bool -> R -> R) st c m r y ys : (1 < size c)%N ->
  exists o l, moment_filter_scms chol eigh log cond cm pdf st c m r (y :: ys)
  = Some ((scms_update chol eigh pdf st y (scms_predict chol eigh cond cm st (c, m, r))).1 :: o, l).
Proof.
move=> hs; rewrite /moment_filter_scms ltnNge hs scan_cons scms_bodyE.
by case: (scan _ _ ys) => a b; exists b, a.2.
Qed.

(* ---- the first step of the two modes ---- *)
Section First.
Variables (E : (R -> R) -> R -> R) (mv : R -> R * R) (N : nat).
Hypothesis N1 : (1 < N)%N.
Hypothesis hE : forall x, E (fun u => u) x = (mv x).1.
Hypothesis hodd : forall x, (mv (- x)).1 = - (mv x).1.
Hypothesis heven : forall x, (mv (- x)).2 = (mv x).2.
Hypothesis hvar : forall x, 0 < (mv x).2 < 1.
Local Notation init := (ss_init_cond R N).
Local Notation c0 := (gs_cms init).
Local Notation W := (quad c0 0 1 false).
Local Notation sig := (Num.sqrt (gs_variance init)).
Local Notation pc := (pred_central mv N W 0).
Local Notation Q := (quad pc 0 1 false).

Lemma vpos x : 0 < (mv x).2. Proof. by have /andP[] := hvar x. Qed.
Lemma c0_size : size c0 = (2 * N)%N. Proof. by rewrite init_cms size_mkseq. Qed.
Lemma c0_size1 : (1 < size c0)%N. Proof. by rewrite c0_size; lia. Qed.
Lemma c0_adm : adm c0. Proof. by have := @init_adm R N; rewrite init_rms init_cms. Qed.
Lemma c0_0 : c0`_0 = 1. Proof. by rewrite init_cms nth_mkseq ?sym_0 //; lia. Qed.
Lemma c0_sym : sym_moms c0.
Proof. by move=> k; rewrite init_cms size_mkseq => hk ho; rewrite nth_mkseq // sym_odd. Qed.
Lemma sig_gt0 : 0 < sig.
Proof.
have [_ _ _ _ [_ -> // _]] := @initial_condition_symmetric R N.
by rewrite sqrtr_gt0 divr_gt0 ?ltr0n.
Qed.

Lemma W_scaled f : ex (quad (gs_scms init) 0 sig false) f = ex W f.
Proof.
rewrite init_scms // -[X in quad X 0 sig false]/((scale_state sig (c0, 0)).1.1).
exact: quad_scaled c0_size1 c0_adm sig_gt0 f.
Qed.

Lemma W_mean : ex W (fun x => (mv x).1) = 0.
Proof. exact: quad_odd c0_size1 c0_0 c0_adm c0_sym hodd. Qed.

Lemma pc_size : size pc = (2 * N)%N. Proof. by rewrite size_map size_iota. Qed.
Lemma pc_size1 : (1 < size pc)%N. Proof. by rewrite pc_size; lia. Qed.
Lemma pc_nth k : (k < 2 * N)%N ->
  pc`_k = ex W (fun x => gauss_moment (mv x).1 (mv x).2 k).
Proof.
move=> hk; rewrite nth_iota_map //; apply: expect_ext => x.
by rewrite /central_moment subr0 momXn.
Qed.
Lemma pc_0 : pc`_0 = 1.
Proof. by rewrite pc_nth ?quad_one ?c0_size1 ?c0_0 //; [exact: c0_adm|lia]. Qed.
Lemma pc_adm : adm pc.
Proof. by apply: pred_central_adm => //; rewrite ?c0_size ?oner_neq0 //; [exact: vpos|lia|exact: c0_adm]. Qed.
Lemma pc_sym : sym_moms pc.
Proof.
move=> k; rewrite pc_size => hk ho; rewrite pc_nth //.
apply: (quad_odd cholP eighP _ c0_size1 c0_0 c0_adm c0_sym) => x.
by rewrite hodd heven gaussN -signr_odd ho expr1 mulN1r.
Qed.

Definition rho := Num.sqrt (ex W (fun x => (mv x).2)).
Lemma rho_gt0 : 0 < rho.
Proof.
rewrite sqrtr_gt0; have [h1 h2 h3 h4 _] := quad_strict cholP eighP 0 false c0_size1 (oner_neq0 R) c0_adm.
by apply: expect_gt0 => //; rewrite ?h2 ?h3 // => x _; exact: vpos.
Qed.
Lemma rho_lt1 : rho < 1.
Proof.
rewrite -[1]sqrtr1 ltr_sqrt ?ltr01 // -[X in _ < X](quad_one 0 false c0_size1 c0_0 c0_adm).
apply: ex_lt => //; [by rewrite c0_size; lia|exact: c0_adm| |] => x; last by have /andP[] := hvar x.
by have /andP[_ /ltW] := hvar x.
Qed.

(* the two filtering means after the first measurement *)
Local Notation cpredict := (cms_predict chol eigh (bb_cond_cms E mv true N) (bb_cond_mean E) false).
Local Notation cupdate := (cms_update chol eigh lik false).
Local Notation spredict := (scms_predict chol eigh (bb_cond_scms E mv true N) (bb_cond_mean_var mv) false).
Local Notation supdate := (scms_update chol eigh lik false).

Lemma cpredictE : cpredict (c0, 0) = (pc, 0).
Proof.
have e : ex W (bb_cond_mean E) = 0 by rewrite -[RHS]W_mean; apply: expect_ext => x; exact: hE.
rewrite /cms_predict -/(ex W _) e; congr pair.
apply: (@eq_from_nth _ 0); first by rewrite size_moments_of pc_size c0_size.
rewrite size_moments_of c0_size => k hk; rewrite nth_moments_of ?c0_size // nth_iota_map //.
by apply: expect_ext => x; apply: (normal_cond_centralE _ hk); rewrite ltW // vpos.
Qed.

Lemma central_first y : (cupdate y (cpredict (c0, 0))).1.2 = sgb y * (2%:R * ex Q tilt).
Proof.
rewrite cpredictE /cms_update /=.
have -> : expect Q.1 Q.2 (lik y) = 2%:R^-1.
  rewrite -(sym_pdf false pc_size1 pc_0 pc_adm pc_sym y 1); apply: expect_ext => x; by rewrite mul1r.
have -> : expect Q.1 Q.2 (fun x => (x - 0) ^+ 1 * lik y x) = sgb y * ex Q tilt.
  transitivity (ex Q (fun x => 1 * x * lik y (1 * x))); first by apply: expect_ext => x; rewrite subr0 expr1 !mul1r.
  rewrite (sym_num false pc_size1 pc_0 pc_adm pc_sym); congr (_ * _); apply: expect_ext => x; by rewrite mul1r.
by rewrite invrK mulrAC mulrA.
Qed.

Lemma spredictE : spredict (gs_scms init, 0, sig) = ([seq a / rho ^+ 'C(2 * N, 2) | a <- pc], 0, rho).
Proof.
have hs : size (gs_scms init) = (2 * N)%N by rewrite init_scms // size_map size_iota c0_size.
rewrite [LHS](scaled_normal_predict chol eigh false vpos 0 sig hs) !W_scaled W_mean; congr (_, _, _).
congr map; apply: eq_map => k; exact: W_scaled.
Qed.

Lemma scaled_first y : (supdate y (spredict (gs_scms init, 0, sig))).1.1.2
  = sgb y * (2%:R * ex Q (fun x => tilt (rho * x))).
Proof.
rewrite spredictE scms_updateE; cbv zeta.
set q := quad _ 0 rho false.
have qE f : ex q f = ex Q (fun x => f (rho * x)).
  have c1 : 0 < (rho ^+ 'C(2 * N, 2))^-1 by rewrite invr_gt0 exprn_gt0 // rho_gt0.
  rewrite /q; have -> : [seq a / rho ^+ 'C(2 * N, 2) | a <- pc]
        = [seq (rho ^+ 'C(2 * N, 2))^-1 * a | a <- pc] by apply: eq_map => a; rewrite mulrC.
  rewrite quad_mass //; last exact: pc_adm.
  by rewrite quad_scale; apply: expect_ext => x; rewrite subr0 add0r.
rewrite !qE [X in _ / X](sym_pdf false pc_size1 pc_0 pc_adm pc_sym y rho) /=.
have -> : ex Q (fun x => ((rho * x - 0) / 1) ^+ 1 * lik y (rho * x)) = sgb y * ex Q (fun x => tilt (rho * x)).
  rewrite -(sym_num false pc_size1 pc_0 pc_adm pc_sym).
  by apply: expect_ext => x; rewrite subr0 divr1 expr1.
by rewrite invrK mulrAC mulrA.
Qed.

Lemma first_means y : exists mc ms,
  [/\ (cupdate y (cpredict (c0, 0))).1.2 = sgb y * mc,
      (supdate y (spredict (gs_scms init, 0, sig))).1.1.2 = sgb y * ms & 0 < ms < mc].
Proof.
exists (2%:R * ex Q tilt), (2%:R * ex Q (fun x => tilt (rho * x))).
rewrite central_first scaled_first; split=> //; apply/andP.
have h3 : (3 < size pc)%N by rewrite pc_size; lia.
have r0 := rho_gt0; have r1 := rho_lt1.
have z0 : ex Q (fun=> 0) = 0.
  rewrite -[X in ex Q X]/(fun=> 0) -[RHS](mul0r (ex Q (fun=> 1))) -[RHS]expect_mul; apply: expect_ext => x; by rewrite mul0r.
rewrite pmulr_rgt0 ?ltr0n // ltr_pmul2l ?ltr0n // -{1}z0; split; apply: ex_lt => //; try exact: pc_adm.
- by move=> x; exact: tilt_ge0.
- by move=> x x0; apply: tilt_gt0; rewrite mulf_neq0 // gt_eqF.
- move=> x; have [->|x0] := eqVneq x 0; first by rewrite mulr0.
  by apply/ltW/tilt_shrink.
- by move=> x x0; apply: tilt_shrink.
Qed.

Local Notation post := (bb_mf_post exp log cexp chol eigh E mv).
Lemma post_first zs y ys : exists mc ms mcs cc nc mss cs ns,
  [/\ post zs "central" true N (y :: ys) = inl (sgb y * mc :: mcs, cc, nc),
      post zs "scaled" true N (y :: ys) = inl (sgb y * ms :: mss, cs, ns)
    & 0 < ms < mc].
Proof.
have [mc [ms [h1 h2 h3]]] := first_means y; exists mc, ms.
have hs : (1 < size (gs_scms init))%N by rewrite init_scms // size_map size_iota c0_size1.
rewrite /bb_mf_post mf_central mf_scaled init_mean.
have [o [l ->]] := cms_head (bb_cond_cms E mv true N) (bb_cond_mean E) lik false 0 y ys c0_size1.
have [o' [l' ->]] := scms_head (bb_cond_scms E mv true N) (bb_cond_mean_var mv) lik false 0 sig y ys hs.
rewrite /of_option /post_mf !map_cons h1 h2.
by do 6 eexists; split; [reflexivity|reflexivity|exact: h3].
Qed.
End First.
End Ref.
