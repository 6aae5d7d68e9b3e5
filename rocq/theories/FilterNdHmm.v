(* The raw-moment filter on a hidden Markov chain over finitely many points of the space. *)
From mathcomp Require Import all_ssreflect all_algebra.
From mathcomp Require Import zify ring.
From Verif Require Import Prelude MultiIndexModel MultiIndexSpec MultiIndexProofs MultiIndexGramProofs MultiIndexMain.
From Verif Require Import NdIndexModel NdIndexProofs LinAlgSpec LinAlgProofs SpectralProofs LdlModel LdlProofs.
From Verif Require Import QuadModel QuadSpec QuadProofs QuadMain QuadNdModel QuadNdSpec QuadNdProofs QuadNdGram.
From Verif Require Import QuadNdAffine QuadNdMain QuadNdFinal QuadNdExact QuadNdDisc.
From Verif Require Import Filter1DSpec Filter1DProofs Filter1DSim Filter1DRun FilterNdModel FilterNdSpec FilterNdProofs FilterNdRun.
Set Implicit Arguments.
Unset Strict Implicit.
Unset Printing Implicit Defensive.
Import Order.TTheory GRing.Theory Num.Theory.
Local Open Scope ring_scope.

Section Hmm.
Variables (R : rcfType).
Variable chol : forall n, 'M[R]_n -> 'M[R]_n.
Variable eigh : forall n, 'M[R]_n -> 'M[R]_n * 'rV[R]_n.
Hypothesis cholP : chol_spec chol.
Hypothesis eighP : eigh_spec eigh.
Variables (d N : nat) (full : seq (seq nat)) (inds : seq (seq (seq int))).
Hypothesis hN : (0 < N)%N.
Hypothesis hf : generate_graded_lexico_multi_indices d (2 * N - 1) 0 = Some full.
Hypothesis hi : gram_and_hankel_indices_graded_lexico N d = Some inds.
Variables (Y : Type) (pdf : Y -> seq R -> R) (cond : cond_fn (seq R) R) (st : bool).
Variables (zs : seq (seq R)) (trans : seq R -> seq R -> R).
Hypothesis hsz : size zs = 'C(N.-1 + d, d).
Hypothesis hdim : all (fun z => size z == d) zs.
Hypothesis huni : unisolvent d N zs.
Hypothesis htr : forall x z, x \in zs -> z \in zs -> 0 <= trans x z.
Hypothesis hirr : forall z, z \in zs -> exists2 x, x \in zs & 0 < trans x z.
Hypothesis htr1 : forall x, x \in zs -> \sum_(z <- zs) trans x z = 1.
Hypothesis hcond : forall x j, x \in zs -> (j < size full)%N ->
  cond_at full cond x j = \sum_(z <- zs) trans x z * mono z (nth [::] full j).
Hypothesis hlik : forall y z, z \in zs -> 0 < pdf y z.
Local Notation moms := (hmm_moments_nd full zs).
Local Notation quad := (quad_nd chol eigh inds).
Local Notation E wx := (expect_nd wx.1 wx.2).
Local Notation predict := (rms_nd_predict chol eigh full inds cond st).
Local Notation update := (rms_nd_update chol eigh full inds pdf st).

Definition distn (alpha : seq R) : Prop :=
  [/\ size alpha = size zs, all (fun w => 0 < w) alpha & jsum alpha = 1].

Lemma quad_hmm_nd alpha : distn alpha -> forall f, E (quad (moms alpha) None None st) f = expect_nd alpha zs f.
Proof.
case=> h1 h2 h3 f.
have [ws [xs hq]] := quad_ex chol eigh hN hf hi (moms alpha) None None st.
rewrite /quad_nd hq /=.
by rewrite (nd_discrete_exact cholP eighP hN hf hi _ hsz h2 hdim huni hq) ?h1 // h3 divr1.
Qed.

Lemma hmmn_predict_dist alpha : distn alpha -> distn (hmm_predict zs trans alpha).
Proof.
case=> h1 h2 h3; split; first by rewrite size_map.
- apply/allP => w /mapP [z hzz ->].
  have [x hx ht] := hirr hzz.
  have hx' : x \in [seq q.2 | q <- zip alpha zs] by rewrite -/unzip2 unzip2_zip // h1.
  have [q hq ex] := mapP hx'.
  rewrite lt_def; apply/andP; split; last first.
    rewrite big_seq; apply: sumr_ge0 => p hp.
    have [ha hb] := zip_mem hp; apply: mulr_ge0; [exact: ltW (allP h2 _ ha)|exact: htr].
  rewrite big_seq psumr_eq0; last first.
    move=> p hp; have [ha hb] := zip_mem hp; apply: mulr_ge0; [exact: ltW (allP h2 _ ha)|exact: htr].
  apply/allPn; exists q => //=; have [ha hb] := zip_mem hq; rewrite hq /= gt_eqF // mulr_gt0 -?ex //; exact: (allP h2).
- rewrite jsumE big_map exchange_big /= -h3 jsumE.
  rewrite -[in RHS](@unzip1_zip _ _ alpha zs) ?h1 // big_map big_seq [RHS]big_seq.
  apply: eq_bigr => q /zip_mem [_ hq]; by rewrite -mulr_sumr htr1 // mulr1.
Qed.

Lemma hmmn_norm_gt0 y alpha : distn alpha -> 0 < hmm_norm zs pdf y alpha.
Proof.
case=> h1 h2 h3; rewrite lt_def; apply/andP; split; last first.
  rewrite /hmm_norm big_seq; apply: sumr_ge0 => q /zip_mem [ha hb].
  by rewrite mulr_ge0 // ltW ?hlik //; exact: (allP h2).
rewrite /hmm_norm big_seq psumr_eq0; last first.
  by move=> q /zip_mem [ha hb]; rewrite mulr_ge0 // ltW ?hlik //; exact: (allP h2).
case: (alpha) (zs) h1 h2 h3 hlik => [|a s] [|z t] //=.
  by move=> _ _ /eqP; rewrite eq_sym oner_eq0.
move=> _ /andP [ha _] _ hl; rewrite inE eqxx /= negb_and; apply/orP; left.
by rewrite gt_eqF // mulr_gt0 // hl // inE eqxx.
Qed.

Lemma hmmn_update_dist y alpha : distn alpha -> distn (hmm_update zs pdf y alpha).
Proof.
move=> hd; have hc := hmmn_norm_gt0 y hd; case: hd => h1 h2 h3; split.
- by rewrite size_map size_zip h1 minnn.
- apply/allP => w /mapP [q /zip_mem [ha hb] ->].
  by rewrite divr_gt0 ?mulr_gt0 ?hlik //; exact: (allP h2).
- by rewrite jsumE big_map -mulr_suml divff // gt_eqF.
Qed.

Lemma zip_rewn (g : R -> seq R -> R) (a : seq R) (s : seq (seq R)) : size a = size s ->
  zip [seq g q.1 q.2 | q <- zip a s] s = [seq (g q.1 q.2, q.2) | q <- zip a s].
Proof. by elim: a s => [|x a IH] [|z s] //= [h]; rewrite IH. Qed.

Lemma hmmn_predict_sim alpha : distn alpha -> predict (moms alpha) = moms (hmm_predict zs trans alpha).
Proof.
move=> hd; rewrite /rms_nd_predict [RHS]/hmm_moments_nd -[RHS]map_iota_full; apply/eq_in_map => j.
rewrite mem_iota add0n => /andP [_ hj]; rewrite quad_hmm_nd //.
rewrite (@expect_nd_ext_in _ _ _ _ (fun x => \sum_(z <- zs) trans x z * mono z (nth [::] full j))); last first.
  by move=> x hx; apply: hcond.
rewrite /discrete_nd zip_mapl big_map expect_ndE.
under eq_bigr do rewrite mulr_sumr.
rewrite exchange_big /=; apply: eq_bigr => z _; rewrite mulr_suml; apply: eq_bigr => q _.
by rewrite mulrA.
Qed.

Lemma hmmn_update_sim y alpha : distn alpha ->
  update y (moms alpha) = (moms (hmm_update zs pdf y alpha), hmm_norm zs pdf y alpha).
Proof.
move=> hd; have h1 : size alpha = size zs by case: hd.
have e2 : E (quad (moms alpha) None None st) (pdf y) = hmm_norm zs pdf y alpha.
  by rewrite quad_hmm_nd // expect_ndE.
rewrite /rms_nd_update e2; congr pair; rewrite [RHS]/hmm_moments_nd -map_comp -[RHS]map_iota_full.
apply/eq_in_map => j; rewrite mem_iota add0n => /andP [_ hj] /=; rewrite quad_hmm_nd //.
have hs : size (nth [::] full j) = d by case: (full_nth hN hf hi hj).
rewrite (@expect_nd_ext_in _ _ _ _ (fun x => mono x (nth [::] full j) * pdf y x)); last first.
  by move=> x hx; rewrite jprod_raw // hs; apply/esym/eqP; exact: (allP hdim).
rewrite /discrete_nd (zip_rewn (fun a z => a * pdf y z / hmm_norm zs pdf y alpha)) // big_map expect_ndE mulr_suml.
apply: eq_bigr => q _ /=.
move: (hmm_norm _ _ _ _)^-1 (pdf _ _) (mono _ _) (q.1) => a b c e; ring.
Qed.

Lemma hmmn_exact alpha ys : distn alpha ->
  states (rms_nd_step chol eigh full inds pdf cond st) (moms alpha) ys =
    [seq moms p.1 | p <- hmm_forward zs trans pdf alpha ys] /\
  liks (rms_nd_step chol eigh full inds pdf cond st) (moms alpha) ys =
    [seq p.2 | p <- hmm_forward zs trans pdf alpha ys].
Proof.
elim: ys alpha => [|y ys IH] alpha hd; first by [].
have hd1 := hmmn_predict_dist hd; have hd2 := hmmn_update_dist y hd1.
have [e1 e2] := IH _ hd2.
rewrite states_cons liks_cons /rms_nd_step hmmn_predict_sim // hmmn_update_sim //.
by rewrite -/(rms_nd_step chol eigh full inds pdf cond st) /= e1 e2.
Qed.

(* every raw-moment vector met is admissible *)
Lemma distn_admissible alpha : distn alpha -> admissible_nd d N (look full (moms alpha)).
Proof.
case=> h1 h2 h3 b hb c hc.
have := discrete_nd_admissible h1 h2 hdim huni hb hc.
rewrite (_ : \sum_(x <- b) _ = \sum_(x <- b) \sum_(y <- b) c x * c y * look full (moms alpha) (madd x y)) //.
rewrite !big_seq; apply: eq_bigr => x hx; rewrite !big_seq; apply: eq_bigr => y hy; congr (_ * _).
rewrite look_map // (full_mem hN hf hi).
have [_ eb] := hb; move: hx hy; rewrite !eb => /and3P [/eqP sx _ lx] /and3P [/eqP sy _ ly].
rewrite -maddE size_mi_add ?sx ?sy // eqxx sumn_mi_add ?sx ?sy //=; lia.
Qed.

Lemma hmmn_forward_dist alpha ys : distn alpha ->
  forall p, p \in hmm_forward zs trans pdf alpha ys -> distn p.1.
Proof.
elim: ys alpha => [|y ys IH] alpha hd p //=; rewrite inE.
have hd2 := hmmn_update_dist y (hmmn_predict_dist hd).
by case/orP => [/eqP -> //|]; exact: IH.
Qed.
End Hmm.
