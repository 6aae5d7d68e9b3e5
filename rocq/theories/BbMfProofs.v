(* Proofs for the modes of dardel/benes_bernoulli/mf.py. *)
From Coq Require Import String.
From mathcomp Require Import all_ssreflect all_algebra.
From mathcomp Require Import ring zify complex.
From Verif Require Import Prelude LinAlgSpec LinAlgProofs LdlProofs QuadModel QuadSpec QuadProofs QuadMain QuadStrict.
From Verif Require Import Moments1DModel Moments1DSpec Moments1DProofs Moments1DConv BellProofs.
From Verif Require Import Filter1DModel Filter1DSpec Filter1DProofs Filter1DSim Filter1DRun Filter1DProps.
From Verif Require Import FourierModel FourierProofs FourierProps FilterAffine SsModel SsProofs SsProps BbMfModel.
Set Implicit Arguments.
Unset Strict Implicit.
Unset Printing Implicit Defensive.
Import Order.TTheory GRing.Theory Num.Theory.
Local Open Scope ring_scope.
Local Open Scope seq_scope.

Section Proofs.
Variable R : rcfType.
Variables (exp log : R -> R) (cexp : R[i] -> R[i]).
Variable chol : forall n, 'M[R]_n -> 'M[R]_n.
Variable eigh : forall n, 'M[R]_n -> 'M[R]_n * 'rV[R]_n.
Hypotheses (cholP : chol_spec chol) (eighP : eigh_spec eigh) (expP : exp_spec exp).
Variables (E : (R -> R) -> R -> R) (mv : R -> R * R).
Local Notation cf := (characteristic_fn chol eigh cexp).
Local Notation lik := (bb_lik exp).

Lemma lik_gt0 y x : 0 < lik y x.
Proof. by rewrite /bb_lik; have [_ _ -> _] := benes_bernoulli_pmf expP; case: y. Qed.

Lemma lik_true x : lik true x = bb_logistic exp x.
Proof. by []. Qed.
Lemma lik_false x : lik false x = 1 - bb_logistic exp x.
Proof. by []. Qed.

(* ---- characteristic functions in the three representations ---- *)
Lemma cf_central z (r : seq R) : (1 < size r)%N -> adm r -> cf z (raw_to_central r) r`_1 1 = cf z r 0 1.
Proof.
move=> hs ha; have [c hc] := characteristic_fn_total chol eigh cexp z 0 1 hs; rewrite hc.
apply: (characteristic_fn_representation cholP eighP) hc; rewrite ?ltr01 ?size_raw_to_central //.
move=> k hk; rewrite raw_to_centralE ?central_scaled1 //.
by apply: leq_trans hk _; rewrite -{2}[size r]odd_double_half leq_addl.
Qed.

Lemma cf_standard z (r : seq R) : (3 < size r)%N -> adm r -> 0 < (raw_to_central r)`_2 ->
  let s := standardise (raw_to_central r, r`_1) in cf z s.1.1 s.1.2 s.2 = cf z r 0 1.
Proof.
move=> hs ha hv s; have hs1 : (1 < size r)%N by apply: leq_trans hs.
have [c hc] := characteristic_fn_total chol eigh cexp z 0 1 hs1; rewrite hc.
apply: (characteristic_fn_representation cholP eighP) hc => //; first by rewrite sqrtr_gt0.
  by rewrite size_map size_iota size_raw_to_central.
move=> k hk; have hk' : (k < size r)%N by apply: leq_trans hk _; rewrite -{2}[size r]odd_double_half leq_addl.
rewrite /s /= nth_iota_map ?size_raw_to_central // raw_to_centralE // -[RHS]/(scaled_moment _ _ _ k).
by rewrite scaled_central.
Qed.

Lemma central2_gt0 (r : seq R) : (3 < size r)%N -> adm r -> 0 < (raw_to_central r)`_2.
Proof.
move=> hs ha; rewrite raw_to_centralE ?(ltn_trans _ hs) // /central_moment expr2.
by apply: ha; rewrite ?polyXsubC_eq0 ?size_XsubC // (@half_leq 4).
Qed.

(* ---- the initial condition ---- *)
Section Init.
Variables (N : nat) (N0 : (0 < N)%N).
Let init := ss_init_cond R N.
Lemma init_size : size (gs_rms init) = (2 * N)%N.
Proof. by rewrite /init init_rms size_mkseq. Qed.
Lemma init_half : ((size (gs_rms init))./2 = N)%N.
Proof. by rewrite init_size mul2n doubleK. Qed.
Lemma init_adm : adm (gs_rms init).
Proof. by rewrite /adm init_half /init init_rms; exact: sym_adm_seq. Qed.
Lemma init_1 : (gs_rms init)`_1 = gs_mean init.
Proof. by rewrite init_mean /init init_rms nth_mkseq ?sym_odd //; lia. Qed.
Lemma init_conv : gs_cms init = raw_to_central (gs_rms init).
Proof.
have h0 : (gs_rms init)`_1 = 0 by rewrite init_1 init_mean.
have e : gs_cms init = gs_rms init by rewrite /init init_cms init_rms.
apply: (@eq_from_nth _ 0); first by rewrite size_raw_to_central e.
move=> k; rewrite e => hk; rewrite raw_to_centralE // h0 /central_moment subr0 momXn //.
Qed.
End Init.

(* ---- raw and central ---- *)
Section Modes.
Variables (normal : bool) (N : nat).
Local Notation condr := (bb_cond_rms E mv normal N).
Local Notation condc := (bb_cond_cms E mv normal N).
Local Notation conds := (bb_cond_scms E mv normal N).
Local Notation condm := (bb_cond_mean E).
Hypothesis N0 : (0 < N)%N.
Hypothesis adm_r : forall x, admissible (condr x) N.
Hypothesis hcc : forall x n c, (n < 2 * N)%N -> condc x n c = central_moment (condr x) c n.
Hypothesis hcm : forall x, condm x = condr x 1%N.
Local Notation init := (ss_init_cond R N).
Local Notation post := (bb_mf_post exp log cexp chol eigh E mv).

Local Notation mf := (bb_mf exp log chol eigh E mv).
Lemma mf_raw ys : mf "raw" normal N ys = of_option (fun o => RawData o.1 o.2)
  (moment_filter_rms chol eigh log condr lik false (gs_rms init) ys).
Proof. by []. Qed.
Lemma mf_central ys : mf "central" normal N ys = of_option (fun o => CentralData o.1 o.2)
  (moment_filter_cms chol eigh log condc condm lik false (gs_cms init) (gs_mean init) ys).
Proof. by []. Qed.
Lemma mf_scaled ys : mf "scaled" normal N ys = of_option (fun o => ScaledData o.1 o.2)
  (moment_filter_scms chol eigh log conds (bb_cond_mean_var mv) lik false (gs_scms init) (gs_mean init)
     (Num.sqrt (gs_variance init)) ys).
Proof. by []. Qed.

Lemma size_gt1 : (1 < 2 * N)%N. Proof. by lia. Qed.

Lemma raw_defined ys : exists out nell,
  [/\ moment_filter_rms chol eigh log condr lik false (gs_rms init) ys = Some (out, nell), size out = size ys
    & forall r, r \in out -> size r = (2 * N)%N /\ adm r].
Proof.
have hr : forall x, admissible (condr x) (size (gs_rms init))./2 by move=> x; rewrite init_half.
have := raw_filter_invariant (st := false) (ys := ys) (log := log) cholP eighP lik_gt0 (@init_adm N) hr.
case e : (moment_filter_rms _ _ _ _ _ _ _ _) => [[out nell]|]; last first.
  by move: e; rewrite /moment_filter_rms init_size ltnNge size_gt1 /=; case: (scan _ _ _).
move=> /(_ out nell erefl) [h1 h2]; exists out, nell; split=> // r /h2 [a b c].
by rewrite a init_size; split=> //; rewrite /adm a.
Qed.

Lemma raw_central_post zs ys : post zs "raw" normal N ys = post zs "central" normal N ys.
Proof.
rewrite /bb_mf_post mf_raw mf_central.
have hr : forall x, admissible (condr x) (size (gs_rms init))./2 by move=> x; rewrite init_half.
have -> : moment_filter_cms chol eigh log condc condm lik false (gs_cms init) (gs_mean init) ys =
   omap (fun o => ([seq (raw_to_central r, r`_1) | r <- o.1], o.2))
     (moment_filter_rms chol eigh log condr lik false (gs_rms init) ys).
  rewrite init_conv // -init_1 //.
  apply: raw_central_filters_agree; rewrite ?init_half ?init_size //; first exact: lik_gt0.
  by have := @init_adm N; rewrite /adm init_half.
have [out [nell [-> _ hout]]] := raw_defined ys.
congr (inl (_, _, _)) => /=; rewrite -map_comp; apply/eq_in_map => r /hout [hs ha] /=.
  by rewrite jget_nth // hs size_gt1.
by apply/eq_map => z; rewrite cf_central // hs size_gt1.
Qed.

Hypothesis N1 : (1 < N)%N.
Hypothesis hcs : forall x n c r, (n < 2 * N)%N -> 0 < r -> conds x n c r = condc x n c / r ^+ n.
Hypothesis hmv : forall x, (mv x).1 = condm x.
Hypothesis hvar : forall x, 0 < (mv x).2.

Lemma init_var : gs_variance init = (gs_cms init)`_2.
Proof. by rewrite /= jget_nth // size_map size_iota; lia. Qed.

Lemma init_scms : gs_scms init =
  [seq (gs_cms init)`_n / Num.sqrt (gs_variance init) ^+ n | n <- iota 0 (size (gs_cms init))].
Proof.
have hs : size (gs_cms init) = (2 * N)%N by rewrite init_cms size_mkseq.
rewrite -[gs_scms init]/(jdiv (gs_cms init) [seq Num.sqrt (gs_variance init) ^+ n | n <- iota 0 (2 * N)]) hs.
apply: (@eq_from_nth _ 0); first by rewrite !size_map size_zip !size_map size_iota minnn.
move=> k; rewrite size_map size_zip !size_map !size_iota minnn => hk.
by rewrite nth_jdiv ?size_map ?size_iota // !nth_iota_map.
Qed.

Lemma scaled_central_post zs ys : post zs "scaled" normal N ys = post zs "central" normal N ys.
Proof.
rewrite -raw_central_post /bb_mf_post mf_raw mf_scaled.
have hr : forall x, admissible (condr x) (size (gs_rms init))./2 by move=> x; rewrite init_half.
have e1 : moment_filter_cms chol eigh log condc condm lik false (gs_cms init) (gs_mean init) ys =
   omap (fun o => ([seq (raw_to_central r, r`_1) | r <- o.1], o.2))
     (moment_filter_rms chol eigh log condr lik false (gs_rms init) ys).
  rewrite init_conv // -init_1 //.
  apply: raw_central_filters_agree; rewrite ?init_half ?init_size //; first exact: lik_gt0.
  by have := @init_adm N; rewrite /adm init_half.
have hsc : size (gs_cms init) = (2 * N)%N by rewrite init_cms size_mkseq.
have hs3 : (3 < 2 * N)%N by lia.
have v0 : 0 < gs_variance init by have [_ _ _ _ [_ -> // _]] := @initial_condition_symmetric R N; rewrite divr_gt0 ?ltr0n.
have e2 : moment_filter_scms chol eigh log conds (bb_cond_mean_var mv) lik false (gs_scms init) (gs_mean init)
     (Num.sqrt (gs_variance init)) ys =
   omap (fun o => ([seq standardise s | s <- o.1], o.2))
     (moment_filter_cms chol eigh log condc condm lik false (gs_cms init) (gs_mean init) ys).
  rewrite init_scms; apply: central_scaled_filters_agree; rewrite ?hsc //; first exact: lik_gt0.
  - by rewrite sqrtr_gt0.
  - by have := @init_adm N; rewrite /adm init_rms init_cms size_mkseq.
  - move=> x c; have := adm_aff (- c) (oner_neq0 R) (adm_r x); rewrite mul2n doubleK.
    by apply: adm_ext => k hk; rewrite hcc ?mul2n // central_aff.
rewrite e2 e1; have [out [nell [-> _ hout]]] := raw_defined ys.
congr (inl (_, _, _)) => /=; rewrite -!map_comp; apply/eq_in_map => r /hout [hs ha] /=.
  by rewrite jget_nth // hs size_gt1.
by apply/eq_map => z; apply: cf_standard; rewrite ?hs // central2_gt0 // hs.
Qed.
End Modes.
End Proofs.
