(* Properties C27 - C33 and C58: the one-dimensional moment filters. *)
From mathcomp Require Import all_ssreflect all_algebra.
From mathcomp Require Import ring zify.
From Verif Require Import Prelude LinAlgSpec LinAlgProofs LdlProofs SpectralProofs.
From Verif Require Import QuadModel QuadSpec QuadProofs QuadMain QuadStrict.
From Verif Require Import Moments1DModel Moments1DSpec Moments1DProofs Moments1DConv.
From Verif Require Import Filter1DModel Filter1DSpec Filter1DProofs Filter1DSim Filter1DRun.
Set Implicit Arguments.
Unset Strict Implicit.
Unset Printing Implicit Defensive.
Import Order.TTheory GRing.Theory Num.Theory.
Local Open Scope ring_scope.

Section Props.
Variable R : rcfType.
Variable chol : forall n, 'M[R]_n -> 'M[R]_n.
Variable eigh : forall n, 'M[R]_n -> 'M[R]_n * 'rV[R]_n.
Variable log : R -> R.
Variable Y : Type.
Local Notation raw_filter := (moment_filter_rms chol eigh log).
Local Notation central_filter := (moment_filter_cms chol eigh log).
Local Notation scaled_filter := (moment_filter_scms chol eigh log).
Implicit Types (pdf : Y -> R -> R) (ys : seq Y) (st : bool).

(* C27 and C30: every vector returned is normalised and has a positive definite Hankel
   matrix, so no quadrature along the run breaks down. *)
Theorem raw_filter_invariant cond pdf st (rms0 : seq R) ys out nell :
  chol_spec chol -> eigh_spec eigh -> (forall y x, 0 < pdf y x) ->
  admissible (nth 0 rms0) (size rms0)./2 ->
  (forall x, admissible (cond x) (size rms0)./2) ->
  raw_filter cond pdf st rms0 ys = Some (out, nell) ->
  size out = size ys /\
  forall r, r \in out ->
    [/\ size r = size rms0, r`_0 = 1 & admissible (nth 0 r) (size rms0)./2].
Proof.
move=> hc he hp ha hcond; rewrite rms_run; case: ltnP => // hs [<- _].
split=> [|r]; first exact: size_states.
case/(nthP rms0) => i; rewrite size_states => hi <-.
by have [/(_ i hi) [h1 h2 h3] _] := rms_inv hc he hp st ys hs ha hcond; split=> //; rewrite -h1.
Qed.

Theorem central_filter_invariant condc condm pdf st (cms0 : seq R) mean0 ys out nell :
  chol_spec chol -> eigh_spec eigh -> (forall y x, 0 < pdf y x) ->
  admissible (nth 0 cms0) (size cms0)./2 ->
  (forall x c, admissible (fun n => condc x n c) (size cms0)./2) ->
  central_filter condc condm pdf st cms0 mean0 ys = Some (out, nell) ->
  size out = size ys /\
  forall r, r \in out ->
    [/\ size r.1 = size cms0, r.1`_0 = 1, r.1`_1 = 0 & admissible (nth 0 r.1) (size cms0)./2].
Proof.
move=> hc he hp ha hcond; rewrite cms_run; case: ltnP => // hs [<- _].
split=> [|r]; first exact: size_states.
case/(nthP (cms0, mean0)) => i; rewrite size_states => hi <-.
have [/(_ i hi) [h1 h2 h3 h4] _] := @cms_inv R chol eigh hc he Y pdf hp condc condm st (cms0, mean0) ys hs ha hcond.
by split=> //; rewrite -[size cms0]h1.
Qed.

(* At least four moments: with two the posterior scale is always zero. *)
Theorem scaled_filter_invariant conds condmv pdf st (scms0 : seq R) mean0 scale0 ys out nell :
  chol_spec chol -> eigh_spec eigh -> (forall y x, 0 < pdf y x) ->
  (3 < size scms0)%N -> scale0 != 0 ->
  admissible (nth 0 scms0) (size scms0)./2 ->
  (forall x c r, 0 < r -> admissible (fun n => conds x n c r) (size scms0)./2) ->
  (forall x, 0 < (condmv x).2) ->
  scaled_filter conds condmv pdf st scms0 mean0 scale0 ys = Some (out, nell) ->
  size out = size ys /\
  forall r, r \in out ->
    [/\ size r.1.1 = size scms0, 0 < r.2, [/\ r.1.1`_0 = 1, r.1.1`_1 = 0 & r.1.1`_2 = 1]
      & admissible (nth 0 r.1.1) (size scms0)./2].
Proof.
move=> hc he hp hs hr ha hcond hv; rewrite scms_run; case: ltnP => // _ [<- _].
split=> [|r]; first exact: size_states.
case/(nthP (scms0, mean0, scale0)) => i; rewrite size_states => hi <-.
have [/(_ i hi) [h1 h2 h3 h4] _] :=
  @scms_inv R chol eigh hc he Y pdf hp conds condmv st (scms0, mean0, scale0) ys hs ha hr hcond hv.
by split=> //; rewrite -[size scms0]h1.
Qed.

(* C30, one update: for any centre of the likelihood. *)
Theorem update_keeps_positive_definite pdf st (rms : seq R) y :
  chol_spec chol -> eigh_spec eigh -> (1 < size rms)%N -> (forall x, 0 < pdf y x) ->
  admissible (nth 0 rms) (size rms)./2 ->
  let r := (rms_update chol eigh pdf st y rms).1 in
  size r = size rms /\ admissible (nth 0 r) (size rms)./2.
Proof.
move=> hc he hs hp ha /=; have sz := size_rms_update chol eigh pdf st y rms; split=> //.
by rewrite -{2}sz; apply: rms_update_adm.
Qed.

(* C28 *)
Theorem raw_central_filters_agree cond condc condm pdf st st' (rms0 : seq R) ys :
  chol_spec chol -> eigh_spec eigh -> (forall y x, 0 < pdf y x) ->
  admissible (nth 0 rms0) (size rms0)./2 ->
  (forall x, admissible (cond x) (size rms0)./2) ->
  (forall x n c, (n < size rms0)%N -> condc x n c = central_moment (cond x) c n) ->
  (forall x, condm x = cond x 1%N) ->
  central_filter condc condm pdf st' (raw_to_central rms0) rms0`_1 ys =
  omap (fun o => ([seq (raw_to_central r, r`_1) | r <- o.1], o.2)) (raw_filter cond pdf st rms0 ys).
Proof.
move=> hc he hp ha hcond hcc hcm; rewrite /moment_filter_cms /moment_filter_rms size_raw_to_central.
case: ltnP => // hs; have hok := rms_always_ok hc he st ys hs ha hcond hp.
rewrite (cms_sim hc he log (cond := cond) (num := size rms0) st' hcc hcm 0 erefl hs hok).
by case: (scan _ _ _) => [[a b] o].
Qed.

(* C28 for the Euler-Maruyama transition of the library *)
Theorem raw_central_filters_agree_euler drift dispersion (dt : R) (N : nat) pdf st st' (rms0 : seq R) ys :
  chol_spec chol -> eigh_spec eigh -> (forall y x, 0 < pdf y x) ->
  size rms0 = (2 * N)%N -> admissible (nth 0 rms0) N ->
  0 < dt -> (forall x, dispersion x != 0) ->
  central_filter (euler_cond_central drift dispersion dt N) (euler_cond_mean drift dispersion dt) pdf st'
    (raw_to_central rms0) rms0`_1 ys =
  omap (fun o => ([seq (raw_to_central r, r`_1) | r <- o.1], o.2))
    (raw_filter (euler_cond_raw drift dispersion dt N) pdf st rms0 ys).
Proof.
move=> hc he hp hs ha hd hb.
case: N hs ha => [|N] hs ha; first by rewrite /moment_filter_cms /moment_filter_rms size_raw_to_central hs.
have hN : ((size rms0)./2 = N.+1)%N by rewrite hs mul2n doubleK.
have hr x n : (n < size rms0)%N -> euler_cond_raw drift dispersion dt N.+1 x n =
    gauss_moment (x + drift x * dt) (dispersion x ^+ 2 * dt) n.
  by rewrite hs => hn; rewrite euler_rawE // ltW.
apply: raw_central_filters_agree => //; rewrite ?hN //.
- move=> x; have hv : 0 < dispersion x ^+ 2 * dt by rewrite mulr_gt0 // lt_def sqrf_eq0 hb sqr_ge0.
  apply: (adm_ext _ (gauss_admissible (x + drift x * dt) hv)) => k hk.
  by rewrite hr // hs mul2n.
- move=> x n c hn; rewrite euler_centralE ?ltW -?hs //; apply: central_ext => k hk.
  by rewrite hr // (leq_ltn_trans hk).
- by move=> x; rewrite hr ?hs // mul2n.
Qed.

(* C29; standardise reads the standard deviation off the second central moment. *)
Theorem central_scaled_filters_agree condc condm conds condmv pdf st st' (cms0 : seq R) mean0 scale0 ys :
  chol_spec chol -> eigh_spec eigh -> (forall y x, 0 < pdf y x) ->
  (3 < size cms0)%N -> 0 < scale0 ->
  admissible (nth 0 cms0) (size cms0)./2 ->
  (forall x c, admissible (fun n => condc x n c) (size cms0)./2) ->
  (forall x n c r, (n < size cms0)%N -> 0 < r -> conds x n c r = condc x n c / r ^+ n) ->
  (forall x, (condmv x).1 = condm x) -> (forall x, 0 < (condmv x).2) ->
  scaled_filter conds condmv pdf st' [seq cms0`_n / scale0 ^+ n | n <- iota 0 (size cms0)] mean0 scale0 ys =
  omap (fun o => ([seq standardise s | s <- o.1], o.2)) (central_filter condc condm pdf st cms0 mean0 ys).
Proof.
move=> hc he hp hs hr ha hcond hcs hmv hv.
have hs1 : (1 < size cms0)%N by apply: leq_trans hs.
rewrite /moment_filter_cms /moment_filter_scms size_map size_iota.
case: ltnP => [/(leq_trans hs) //|_].
have hok := @cms_always_ok R chol eigh hc he Y condc condm pdf st (cms0, mean0) ys hs1 ha hcond hp.
have := @scms_sim R chol eigh hc he log Y condc condm pdf st conds condmv (size cms0) st' hcs hmv hv
  (cms0, mean0) ys 0 scale0 erefl hs hr hp hok.
rewrite /scale_state /= => ->; by case: (scan _ _ _) => [[a b] o].
Qed.

(* C31: lik is the likelihood, trans the transition probabilities on the points zs. *)
Theorem filter_exact_on_hidden_markov_chains (zs : seq R) (trans : R -> R -> R) cond pdf st
    (num : nat) (alpha : seq R) ys :
  chol_spec chol -> eigh_spec eigh ->
  uniq zs -> (num./2 = size zs)%N -> (1 < num)%N ->
  (forall x z, x \in zs -> z \in zs -> 0 <= trans x z) ->
  (forall z, z \in zs -> exists2 x, x \in zs & 0 < trans x z) ->
  (forall x, x \in zs -> \sum_(z <- zs) trans x z = 1) ->
  (forall x k, x \in zs -> (k < num)%N -> cond x k = \sum_(z <- zs) trans x z * z ^+ k) ->
  (forall y z, z \in zs -> 0 < pdf y z) ->
  size alpha = size zs -> all (fun w => 0 < w) alpha -> \sum_(a <- alpha) a = 1 ->
  let fwd := hmm_forward zs trans pdf alpha ys in
  raw_filter cond pdf st (hmm_moments zs num alpha) ys =
  Some ([seq hmm_moments zs num p.1 | p <- fwd], - \sum_(p <- fwd) log p.2).
Proof.
move=> hc he h1 h2 h3 h4 h5 h6 h7 h8 h9 h10 h11 /=.
have hd : dist zs alpha by split; rewrite ?jsum_sum.
rewrite /moment_filter_rms size_moms ltnNge h3 /=.
by rewrite (hmm_exact hc he log (trans := trans) st h1 h2 h3 h4 h5 h6 h7 h8 ys 0 hd) /= sub0r.
Qed.

(* C32: appending a measurement adds minus the log of its predictive likelihood, the
   quadrature of the likelihood under the predicted moments. *)
Theorem raw_filter_likelihood cond pdf st (rms0 : seq R) ys y out nell :
  raw_filter cond pdf st rms0 ys = Some (out, nell) ->
  let pred := rms_predict chol eigh cond st (last rms0 out) in
  let wx := quad chol eigh pred 0 1 st in
  exists r, raw_filter cond pdf st rms0 (rcons ys y) =
    Some (rcons out r, nell - log (expect wx.1 wx.2 (pdf y))).
Proof.
rewrite !rms_run; case: ifP => // _ [<- <-].
rewrite -cats1 states_cat liks_cat big_cat /= big_cons big_nil addr0 opprD cats1.
by eexists; reflexivity.
Qed.

Theorem central_filter_likelihood condc condm pdf st (cms0 : seq R) mean0 ys y out nell :
  central_filter condc condm pdf st cms0 mean0 ys = Some (out, nell) ->
  let pred := cms_predict chol eigh condc condm st (last (cms0, mean0) out) in
  let wx := quad chol eigh pred.1 pred.2 1 st in
  exists r, central_filter condc condm pdf st cms0 mean0 (rcons ys y) =
    Some (rcons out r, nell - log (expect wx.1 wx.2 (pdf y))).
Proof.
rewrite !cms_run; case: ifP => // _ [<- <-].
rewrite -cats1 states_cat liks_cat big_cat /= big_cons big_nil addr0 opprD cats1.
eexists; congr (Some (_, _ - log _)); rewrite /cms_step.
by case: (cms_predict _ _ _ _ _ _).
Qed.

Theorem scaled_filter_likelihood conds condmv pdf st (scms0 : seq R) mean0 scale0 ys y out nell :
  scaled_filter conds condmv pdf st scms0 mean0 scale0 ys = Some (out, nell) ->
  let pred := scms_predict chol eigh conds condmv st (last (scms0, mean0, scale0) out) in
  let wx := quad chol eigh pred.1.1 pred.1.2 pred.2 st in
  exists r, scaled_filter conds condmv pdf st scms0 mean0 scale0 (rcons ys y) =
    Some (rcons out r, nell - log (expect wx.1 wx.2 (pdf y))).
Proof.
rewrite !scms_run; case: ifP => // _ [<- <-].
rewrite -cats1 states_cat liks_cat big_cat /= big_cons big_nil addr0 opprD cats1.
eexists; congr (Some (_, _ - log _)); rewrite /scms_step.
by case: (scms_predict _ _ _ _ _ _) => [[a b] c].
Qed.

(* hence minus the log of the product of the predictive likelihoods liks *)
Theorem raw_filter_likelihood_product cond pdf st (rms0 : seq R) ys out nell :
  chol_spec chol -> eigh_spec eigh -> (forall y x, 0 < pdf y x) ->
  log 1 = 0 -> (forall a b, 0 < a -> 0 < b -> log (a * b) = log a + log b) ->
  admissible (nth 0 rms0) (size rms0)./2 ->
  (forall x, admissible (cond x) (size rms0)./2) ->
  raw_filter cond pdf st rms0 ys = Some (out, nell) ->
  nell = - log (\prod_(l <- liks (rms_step chol eigh pdf cond st) rms0 ys) l).
Proof.
move=> hc he hp l1 lM ha hcond; rewrite rms_run; case: ltnP => // hs [_ <-].
by rewrite (sum_log l1 lM) //; case: (rms_inv hc he hp st ys hs ha hcond).
Qed.

(* C33: a run over two blocks is a run over the first followed by a run over the second
   from the last returned state; in particular it extends the run over the first. *)
Theorem raw_filter_resumes cond pdf st (rms0 : seq R) ys zs out nell :
  raw_filter cond pdf st rms0 ys = Some (out, nell) -> size (last rms0 out) = size rms0 ->
  raw_filter cond pdf st rms0 (ys ++ zs) =
  omap (fun o => (out ++ o.1, nell + o.2)) (raw_filter cond pdf st (last rms0 out) zs).
Proof.
rewrite !rms_run; case: ltnP => // hs [<- <-] hz; rewrite hz ltnNge hs /=.
by rewrite states_cat liks_cat big_cat /= opprD.
Qed.

Theorem central_filter_resumes condc condm pdf st (cms0 : seq R) mean0 ys zs out nell :
  central_filter condc condm pdf st cms0 mean0 ys = Some (out, nell) ->
  let s := last (cms0, mean0) out in size s.1 = size cms0 ->
  central_filter condc condm pdf st cms0 mean0 (ys ++ zs) =
  omap (fun o => (out ++ o.1, nell + o.2)) (central_filter condc condm pdf st s.1 s.2 zs).
Proof.
rewrite !cms_run; case: ltnP => // hs [<- <-] /= hz; rewrite cms_run hz ltnNge hs /=.
by rewrite -surjective_pairing states_cat liks_cat big_cat /= opprD.
Qed.

Theorem scaled_filter_resumes conds condmv pdf st (scms0 : seq R) mean0 scale0 ys zs out nell :
  scaled_filter conds condmv pdf st scms0 mean0 scale0 ys = Some (out, nell) ->
  let s := last (scms0, mean0, scale0) out in size s.1.1 = size scms0 ->
  scaled_filter conds condmv pdf st scms0 mean0 scale0 (ys ++ zs) =
  omap (fun o => (out ++ o.1, nell + o.2)) (scaled_filter conds condmv pdf st s.1.1 s.1.2 s.2 zs).
Proof.
rewrite !scms_run; case: ltnP => // hs [<- <-] /= hz; rewrite scms_run hz ltnNge hs /=.
by rewrite -!surjective_pairing states_cat liks_cat big_cat /= opprD.
Qed.

(* With two moments the posterior scale is zero whatever the data, and the filter divides
   by it. *)
Theorem scaled_filter_two_moments_degenerate pdf st (s : seq R * R * R) y :
  ((size s.1.1)./2 = 1)%N -> (scms_update chol eigh pdf st y s).1.2 = 0.
Proof.
case: s => [[ss m] r] hs; rewrite /= in hs.
have h1 : (1 < size ss)%N by case: (ss) hs => [|a [|b ss']].
have [_ h2 h3] := quadrature_sizes (etrans (quadP chol eigh m r st h1) (congr1 _ (surjective_pairing _))).
rewrite scms_updateE; cbv zeta; move: h2 h3; rewrite hs.
case: (quad _ _ _ _ _ _) => [[|w [|w' ws]] [|x [|x' xs]]] //= _ _.
rewrite /ex !expect_sumE /= !big_cons !big_nil !addr0 /= !divr1 subr0 expr1.
case: (eqVneq (w * pdf y x) 0) => [->|h]; first by rewrite invr0 mulr0 sqrtr0.
by rewrite [w * (x * _)]mulrCA mulfK // subrr expr0n mul0r mulr0 mul0r sqrtr0.
Qed.

(* C58. The scale used after a prediction is documented as the standard deviation of the
   predicted state. The code takes the root of the mean conditional variance, which leaves
   out the variance of the conditional mean mu: *)
Theorem predicted_scale_partial conds condmv st (s : seq R * R * R) (mu v : R -> R) :
  (2 < size s.1.1)%N ->
  (forall x, condmv x = (mu x, v x)) -> (forall x, 0 < v x) ->
  (forall x c r, conds x 2%N c r = (v x + (mu x - c) ^+ 2) / r ^+ 2) ->
  let s' := scms_predict chol eigh conds condmv st s in
  let wx := quad chol eigh s.1.1 s.1.2 s.2 st in
  s'.2 != 0 ->
  s'.1.1`_2 * s'.2 ^+ 2 = s'.2 ^+ 2 + expect wx.1 wx.2 (fun x => (mu x - s'.1.2) ^+ 2).
Proof. by move=> h1 h2 h3 h4 s' wx h5; exact: (scms_predict_var (chol := chol) (eigh := eigh) (st := st) h1 h2 h3 h4). Qed.

(* A random walk with unit noise from a standard normal: the predicted variance is twice
   the square of the predicted scale. *)
Theorem predicted_scale_refuted :
  chol_spec chol -> eigh_spec eigh ->
  exists (conds : R -> nat -> R -> R -> R) (condmv : R -> R * R) (scms0 : seq R),
  [/\ admissible (nth 0 scms0) (size scms0)./2, (3 < size scms0)%N,
      (forall x n c r, conds x n c r = scaled_moment (gauss_moment x 1) c r n),
      (forall x, condmv x = (x, 1))
    & forall st, let s' := scms_predict chol eigh conds condmv st (scms0, 0, 1) in
      s'.2 = 1 /\ s'.1.1`_2 = 2%:R].
Proof.
move=> hc he; pose scms0 := mkseq (gauss_moment (0 : R) 1) 4.
exists (fun x n c r => scaled_moment (gauss_moment x 1) c r n), (fun x => (x, 1)), scms0.
have ha : admissible (nth 0 scms0) (size scms0)./2.
  apply: (adm_ext _ (gauss_admissible 0 ltr01)) => k; rewrite size_mkseq => hk.
  by rewrite nth_mkseq.
split=> //.
move=> st; cbv zeta; rewrite scms_predictE; cbv zeta.
have h1 : (1 < size scms0)%N by rewrite size_mkseq.
have hq := quadP chol eigh 0 1 st h1; move: hq; case: (quad _ _ _ _ _ _) => ws xs hq.
have hm := quadrature_moments hc he (oner_neq0 _) ha hq.
have g0 : gauss_moment (0 : R) 1 0 = 1 by [].
have g1 : gauss_moment (0 : R) 1 1 = 0 by [].
have g2 : gauss_moment (0 : R) 1 2 = 1.
  have [_ _ h] := gauss_momentP (0 : R) 1; rewrite h g0 g1; ring.
have e0 : ex (ws, xs) (fun=> 1) = 1.
  have := hm 0%N isT; rewrite /scms0 /= g0 divr1 => h; rewrite -[RHS]h; apply: expect_ext => x; by rewrite expr0.
have e1 : ex (ws, xs) (fun x => x) = 0.
  have := hm 1%N isT; rewrite /scms0 /= g0 g1 mul0r => h; rewrite -[RHS]h; apply: expect_ext => x; by rewrite subr0 divr1 expr1.
have e2 : ex (ws, xs) (fun x => x ^+ 2) = 1.
  have := hm 2%N isT; rewrite /scms0 /= g0 g2 divr1 => h; rewrite -[RHS]h; apply: expect_ext => x; by rewrite subr0 divr1.
rewrite /= e0 e1 sqrtr1; split=> //.
have -> : 2%:R = ex (ws, xs) (fun=> 1) + ex (ws, xs) (fun x => x ^+ 2) by rewrite e0 e2; ring.
rewrite /ex !expect_sumE -big_split /=.
apply: eq_bigr => q _; rewrite -mulrDr; congr (_ * _).
rewrite scaled_central expr1n divr1 central2 mulr0 mul0r subr0 expr0n mul0r addr0.
have [h0 h1' h] := gauss_momentP q.2 (1 : R).
by rewrite h h0 h1'; ring.
Qed.
End Props.

Print Assumptions raw_filter_invariant.
Print Assumptions central_filter_invariant.
Print Assumptions scaled_filter_invariant.
Print Assumptions update_keeps_positive_definite.
Print Assumptions raw_central_filters_agree.
Print Assumptions raw_central_filters_agree_euler.
Print Assumptions central_scaled_filters_agree.
Print Assumptions filter_exact_on_hidden_markov_chains.
Print Assumptions raw_filter_likelihood.
Print Assumptions central_filter_likelihood.
Print Assumptions scaled_filter_likelihood.
Print Assumptions raw_filter_likelihood_product.
Print Assumptions raw_filter_resumes.
Print Assumptions central_filter_resumes.
Print Assumptions scaled_filter_resumes.
Print Assumptions scaled_filter_two_moments_degenerate.
Print Assumptions predicted_scale_partial.
Print Assumptions predicted_scale_refuted.

(* The hypotheses hold for the standard normal prior, a Gaussian random walk and a
   Cauchy-shaped likelihood, with the reference library calls. *)
Example filter_hypotheses_ex (R : rcfType) (N : nat) :
  let rms0 := mkseq (gauss_moment (0 : R) 1) N.+2.*2 in
  let cond := fun x => gauss_moment x (1 : R) in
  let condc := fun x n c => central_moment (gauss_moment x (1 : R)) c n in
  let conds := fun x n c r => condc x n c / r ^+ n in
  let pdf := fun y x : R => (1 + (y - x) ^+ 2)^-1 in
  [/\ [/\ chol_spec (@chol_ref R), eigh_spec (@eigh_ref R) & forall y x, 0 < pdf y x],
      (3 < size rms0)%N,
      admissible (nth 0 rms0) (size rms0)./2,
      forall x, admissible (cond x) (size rms0)./2 &
      (forall x c, admissible (fun n => condc x n c) (size rms0)./2) /\
      (forall x c r, 0 < r -> admissible (fun n => conds x n c r) (size rms0)./2)].
Proof.
move=> rms0 cond condc conds pdf; have sz : size rms0 = N.+2.*2 by rewrite size_mkseq.
split; first split; [exact: chol_ref_spec|exact: eigh_ref_spec| | | | |split].
- by move=> y x; rewrite invr_gt0 ltr_paddr ?ltr01 ?sqr_ge0.
- by rewrite sz.
- apply: (adm_ext _ (gauss_admissible 0 ltr01)) => k; rewrite sz doubleK => hk.
  by rewrite nth_mkseq.
- by move=> x; apply: gauss_admissible; exact: ltr01.
- move=> x c; apply: (adm_ext _ (adm_aff (- c) (oner_neq0 _) (gauss_admissible x ltr01))) => k _.
  by rewrite /condc central_aff.
- move=> x c r r0; have r1 : r^-1 != 0 by rewrite invr_eq0 gt_eqF.
  apply: (adm_ext _ (adm_aff (- c / r) r1 (gauss_admissible x ltr01))) => k _.
  by rewrite /conds /condc -scaled_central scaled_aff.
Qed.

(* A two-state chain on 0 and 1, uniform start and transitions. *)
Example hmm_hypotheses_ex (R : rcfType) :
  let zs := [:: 0; 1] : seq R in let trans := fun _ _ : R => 1 / 2%:R : R in
  let cond := fun (x : R) k => \sum_(z <- zs) trans x z * z ^+ k in
  let alpha := [:: 1 / 2%:R; 1 / 2%:R] : seq R in
  [/\ uniq zs, (4./2 = size zs)%N, forall x, x \in zs -> \sum_(z <- zs) trans x z = 1,
      all (fun w => 0 < w) alpha & \sum_(a <- alpha) a = 1].
Proof.
split=> //=.
- by rewrite inE eq_sym oner_eq0.
- by move=> x _; rewrite !big_cons big_nil; field.
- by rewrite !divr_gt0 ?ltr01 ?ltr0n.
- by rewrite !big_cons big_nil; field.
Qed.
