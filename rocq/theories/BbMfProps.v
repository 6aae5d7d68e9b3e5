(* Properties C105 and C106: the modes of dardel/benes_bernoulli/mf.py. *)
From Coq Require Import String.
From mathcomp Require Import all_ssreflect all_algebra.
From mathcomp Require Import ring zify complex.
From Verif Require Import Prelude LinAlgSpec LinAlgProofs LdlProofs SpectralProofs QuadModel QuadSpec QuadProofs QuadMain QuadStrict.
From Verif Require Import Moments1DModel Moments1DSpec Moments1DProofs Moments1DConv.
From Verif Require Import Filter1DModel Filter1DSpec Filter1DProofs Filter1DSim FilterAffine FourierModel FourierProofs FourierProps.
From Verif Require Import SsModel SsProofs SsProps BbMfModel BbMfProofs BbMfShrink BbMfRef.
Set Implicit Arguments.
Unset Strict Implicit.
Unset Printing Implicit Defensive.
Import Order.TTheory GRing.Theory Num.Theory.
Local Open Scope ring_scope.
Local Open Scope seq_scope.

(* The Taylor moment expansion as a linear functional on polynomials, at one state. *)
Definition tme_linear (R : rcfType) (E : (R -> R) -> R -> R) : Prop :=
  (forall x, exists L : {linear {poly R} -> R^o}, forall p : {poly R}, E (fun u => p.[u]) x = L p) /\
  (forall x (f g : R -> R), f =1 g -> E f x = E g x).

Section Bb.
Variable R : rcfType.
Variables (exp log : R -> R) (cexp : R[i] -> R[i]).
Variable chol : forall n, 'M[R]_n -> 'M[R]_n.
Variable eigh : forall n, 'M[R]_n -> 'M[R]_n * 'rV[R]_n.
Variables (E : (R -> R) -> R -> R) (mv : R -> R * R).
Local Notation mf := (bb_mf exp log chol eigh E mv).
Local Notation post := (bb_mf_post exp log cexp chol eigh E mv).

(* C105: with --normal the raw and central modes give the same means, characteristic functions and
   likelihood. *)
Theorem bb_modes_agree_normal zs N ys :
  chol_spec chol -> eigh_spec eigh -> exp_spec exp ->
  (forall x, E (fun u => u) x = (mv x).1) -> (forall x, 0 < (mv x).2) ->
  post zs "raw" true N ys = post zs "central" true N ys.
Proof.
move=> hc he hx hE hv; case: (posnP N) => [->|N0]; first by [].
have hr x n : (n < 2 * N)%N -> bb_cond_rms E mv true N x n = gauss_moment (mv x).1 (mv x).2 n.
  by move=> hn; apply: normal_cond_rawE => //; rewrite ltW.
apply: (raw_central_post _ _ hc he hx N0) => [x|x n c hn|x].
- apply: (adm_ext _ (gauss_admissible (mv x).1 (hv x))) => k hk.
  by rewrite hr // mul2n.
- rewrite [LHS](normal_cond_centralE _ hn) ?ltW //; apply: mom_eq => k hk.
  by rewrite hr // (leq_ltn_trans _ hn) // -ltnS (leq_trans hk) // size_exp_XsubC.
- by rewrite hr; [rewrite [LHS]hE|move: N0; clear; lia].
Qed.

(* C105: without --normal, for a linear expansion with admissible moments, the three modes agree. *)
Theorem bb_modes_agree_tme zs N ys :
  chol_spec chol -> eigh_spec eigh -> exp_spec exp -> tme_linear E ->
  (forall x, admissible (fun n => E (fun u => u ^+ n) x) N) ->
  post zs "raw" false N ys = post zs "central" false N ys /\
  ((1 < N)%N -> (forall x, (mv x).1 = E (fun u => u) x) -> (forall x, 0 < (mv x).2) ->
   post zs "scaled" false N ys = post zs "central" false N ys).
Proof.
move=> hc he hx [hL hE] ha; case: (posnP N) => [->|N0]; first by [].
have hcc x n c : (n < 2 * N)%N -> bb_cond_cms E mv false N x n c = central_moment (bb_cond_rms E mv false N x) c n.
  by move=> _; have [L hl] := hL x; exact: (tme_centralE _ _ hl (hE x)).
have hcm x : bb_cond_mean E x = bb_cond_rms E mv false N x 1%N by apply: hE => u; rewrite expr1.
have ha' x : admissible (bb_cond_rms E mv false N x) N := ha x.
split; first exact: (raw_central_post _ _ hc he hx N0 ha' hcc hcm).
move=> N1 hm hv; apply: (scaled_central_post _ _ hc he hx N0 ha' hcc hcm N1 _ hm hv) => x n c r hn r0.
have [L hl] := hL x; rewrite hcc // [LHS](tme_scaledE _ _ _ hl (hE x)); exact: scaled_central.
Qed.

(* C105: what the run returns: one mean and one row of characteristic functions per measurement,
   each value defined, of modulus at most one and one at the origin. *)
Theorem bb_mode_output zs N ys normal :
  chol_spec chol -> eigh_spec eigh -> exp_spec exp -> unit_exp cexp -> (0 < N)%N ->
  (forall x, admissible (bb_cond_rms E mv normal N x) N) ->
  exists means cfs nell,
    [/\ post zs "raw" normal N ys = inl (means, cfs, nell), size means = size ys, size cfs = size ys
      & forall row, row \in cfs -> size row = size zs /\
          forall k, (k < size zs)%N -> exists c, [/\ nth None row k = Some c, `|c| <= 1 & zs`_k = 0 -> c = 1]].
Proof.
move=> hc he hx hu N0 ha; rewrite /bb_mf_post mf_raw.
have [out [nell [-> h1 h2]]] := raw_defined log hc he hx N0 ha ys.
exists [seq jget 0 r 1 | r <- out], [seq [seq characteristic_fn chol eigh cexp z r 0 1 | z <- zs] | r <- out], nell.
split; rewrite ?size_map // => row /mapP [r /h2 [hs hr] ->]; rewrite size_map; split=> // k hk.
have hs1 : (1 < size r)%N by rewrite hs; move: N0; clear; lia.
have [c e] := characteristic_fn_total chol eigh cexp zs`_k 0 1 hs1; exists c.
by have [h3 _ h4] := characteristic_fn_laws hc he hu hr e; split=> //; rewrite (nth_map 0).
Qed.

(* C105: the errors. *)
Theorem bb_mode_errors zs mode normal N ys :
  (mode <> "raw"%string -> mode <> "central"%string -> mode <> "scaled"%string -> post zs mode normal N ys = inr NotImplementedError)
  /\ (mode = "raw"%string \/ mode = "central"%string \/ mode = "scaled"%string ->
      if N is 0%N then post zs mode normal N ys = inr QuadError
      else exists r, post zs mode normal N ys = inl r).
Proof.
split=> [/String.eqb_neq h1 /String.eqb_neq h2 /String.eqb_neq h3|].
  by rewrite /bb_mf_post /bb_mf h1 h2 h3.
case: N => [|N] h; first by case: h => [->|[->|->]].
have sz : (1 < 2 * N.+1)%N by move: (N); clear; lia.
have hc : size (gs_cms (ss_init_cond R N.+1)) = (2 * N.+1)%N by rewrite init_cms size_mkseq.
have hs : size (gs_scms (ss_init_cond R N.+1)) = (2 * N.+1)%N.
  by rewrite -[gs_scms _]/(jdiv _ _) size_map size_zip hc size_map size_iota minnn.
case: h => [->|[->|->]]; rewrite /bb_mf_post ?mf_raw ?mf_central ?mf_scaled.
- by rewrite /moment_filter_rms init_size ltnNge sz; case: (scan _ _ ys) => a b; eexists.
- by rewrite /moment_filter_cms hc ltnNge sz; case: (scan _ _ ys) => a b; eexists.
- by rewrite /moment_filter_scms hs ltnNge sz; case: (scan _ _ ys) => a b; eexists.
Qed.

(* C106: in the scaled mode with --normal every prediction is contracted about its mean by the
   predicted scale: the quadrature that the update uses is that of the variable m + r (X - m), with X of
   the moments that the central mode predicts. *)
Theorem bb_scaled_normal_contracts N scms mean scale f :
  chol_spec chol -> eigh_spec eigh -> (forall x, 0 < (mv x).2) ->
  (0 < N)%N -> size scms = (2 * N)%N -> scale != 0 -> admissible (nth 0 scms) (size scms)./2 ->
  let wx := quad chol eigh scms mean scale false in
  let '(ms, m, r) := scms_predict chol eigh (bb_cond_scms E mv true N) (bb_cond_mean_var mv) false (scms, mean, scale) in
  let cms := [seq expect wx.1 wx.2 (fun x => central_moment (gauss_moment (mv x).1 (mv x).2) m n) | n <- iota 0 (2 * N)] in
  let q := quad chol eigh ms m r false in let q' := quad chol eigh cms m 1 false in
  [/\ m = expect wx.1 wx.2 (fun x => (mv x).1), r = Num.sqrt (expect wx.1 wx.2 (fun x => (mv x).2))
    & expect q.1 q.2 f = expect q'.1 q'.2 (fun x => f (m + r * (x - m)))].
Proof.
move=> hc he hv N0 hs s0 ha wx.
have := @scaled_normal_shrinks R chol eigh hc he mv N false hv scms mean scale f N0 hs s0 ha.
by rewrite /scms_predict; split.
Qed.

(* C106: so after the first measurement, whatever it is, the filtering mean of the scaled mode is
   strictly between zero and that of the central mode, for every order and every symmetric transition
   law with conditional variances below one. *)
Theorem bb_scaled_normal_too_small zs N y ys :
  chol_spec chol -> eigh_spec eigh -> exp_spec exp -> (1 < N)%N ->
  (forall x, E (fun u => u) x = (mv x).1) ->
  (forall x, (mv (- x)).1 = - (mv x).1) -> (forall x, (mv (- x)).2 = (mv x).2) ->
  (forall x, 0 < (mv x).2 < 1) ->
  exists mc ms mcs cc nc mss cs ns,
    [/\ post zs "central" true N (y :: ys) = inl ((if y then mc else - mc) :: mcs, cc, nc),
        post zs "scaled" true N (y :: ys) = inl ((if y then ms else - ms) :: mss, cs, ns)
      & 0 < ms < mc].
Proof.
move=> hc he hx N1 hE ho hv h01.
have [mc [ms [mcs [cc [nc [mss [cs [ns [h1 h2 h3]]]]]]]]] := post_first log cexp hc he hx N1 hE ho hv h01 zs y ys.
have sE a : sgb R y * a = if y then a else - a by case: (y); rewrite /sgb ?mul1r ?mulN1r.
by exists mc, ms, mcs, cc, nc, mss, cs, ns; rewrite -!sE.
Qed.
End Bb.

(* The Euler transition of the model. *)
Definition bb_euler (R : rcfType) (exp : R -> R) : R -> R * R :=
  euler_mean_var (bb_drift exp) (@ss_dispersion R) (ss_dt R).

Lemma bb_euler_symmetric (R : rcfType) (exp : R -> R) : exp_spec exp ->
  [/\ forall x, (bb_euler exp (- x)).1 = - (bb_euler exp x).1, forall x, (bb_euler exp (- x)).2 = (bb_euler exp x).2
    & forall x, 0 < (bb_euler exp x).2 < 1].
Proof.
move=> hx; have [h1 _ _] := benes_bernoulli_drift hx; split=> x //=.
- by rewrite h1 mulNr -opprD.
- rewrite /ss_dispersion expr1n mul1r /ss_dt divr_gt0 ?ltr01 ?ltr0n //=.
  by rewrite ltr_pdivr_mulr ?ltr0n // mul1r ltr1n.
Qed.

(* C106: the scaled and central modes do not agree with --normal. *)
Theorem bb_scaled_normal_refuted (R : rcfType) (exp log : R -> R) (cexp : R[i] -> R[i])
    (chol : forall n, 'M[R]_n -> 'M[R]_n) (eigh : forall n, 'M[R]_n -> 'M[R]_n * 'rV[R]_n) zs :
  chol_spec chol -> eigh_spec eigh -> exp_spec exp ->
  exists E mv, [/\ forall x, E (fun u => u) x = (mv x).1, forall x, 0 < (mv x).2 &
    forall N ys, (1 < N)%N -> (0 < size ys)%N ->
      bb_mf_post exp log cexp chol eigh E mv zs "scaled" true N ys
      <> bb_mf_post exp log cexp chol eigh E mv zs "central" true N ys].
Proof.
move=> hc he hx; exists (fun f x => f (bb_euler exp x).1), (bb_euler exp).
have [h1 h2 h3] := bb_euler_symmetric hx; split=> // [x|N [|y ys] // N1 _].
  by have /andP[] := h3 x.
have [mc [ms [mcs [cc [nc [mss [cs [ns [-> -> /andP[_ h]]]]]]]]]] := @bb_scaled_normal_too_small R exp log cexp
  chol eigh (fun f x => f (bb_euler exp x).1) (bb_euler exp) zs N y ys hc he hx N1 (fun x => erefl) h1 h2 h3.
by case: (y) => -[] e; move: h; rewrite ?(oppr_inj e) ?e ltxx.
Qed.

Print Assumptions bb_modes_agree_normal.
Print Assumptions bb_modes_agree_tme.
Print Assumptions bb_mode_output.
Print Assumptions bb_mode_errors.
Print Assumptions bb_scaled_normal_contracts.
Print Assumptions bb_scaled_normal_too_small.
Print Assumptions bb_scaled_normal_refuted.

(* The hypotheses with the reference factorisations: the Euler law, and a law with N atoms at unit
   distance for the expansion without --normal. *)
Example bb_normal_ex (R : rcfType) : let exp := @exp_ref R in
  [/\ chol_spec (@chol_ref R), eigh_spec (@eigh_ref R), exp_spec exp,
      forall x, 0 < (bb_euler exp x).2 < 1 & forall x, (bb_euler exp (- x)).1 = - (bb_euler exp x).1].
Proof.
move=> exp; have [hx _] := exp_log_spec_ex R; have [h1 h2 h3] := bb_euler_symmetric hx.
by split=> //; [exact: chol_ref_spec|exact: eigh_ref_spec].
Qed.

Example bb_tme_ex (R : rcfType) N : (0 < N)%N ->
  let xs x := [seq x + i%:R | i <- iota 0 N] in
  let E (f : R -> R) x := expect (nseq N N%:R^-1) (xs x) f in
  tme_linear E /\ forall x, admissible (fun n => E (fun u => u ^+ n) x) N.
Proof.
move=> N0 xs E; split; first split.
- move=> x.
  have lin : linear (fun p : {poly R} => E (fun u => p.[u]) x : R^o).
    move=> a p q; rewrite /E [LHS](@expect_ext _ _ _ _ (fun u => a * p.[u] + q.[u])); last by move=> u; rewrite !hornerE.
    by rewrite -/(ex (_, _) _) ex_add /ex /= expect_mul.
  by exists (Linear lin).
- by move=> x f g h; apply: expect_ext.
move=> x; have hs : size (xs x) = N by rewrite size_map size_iota.
have := @discrete_admissible R (nseq N N%:R^-1) (xs x); rewrite size_nseq hs => /(_ erefl) h.
apply: (adm_ext _ (h _ _)).
- by move=> k _; rewrite /E expect_sumE.
- by rewrite map_inj_uniq ?iota_uniq // => i j /addrI /eqP; rewrite eqr_nat => /eqP.
- by apply/allP => w /nseqP [-> _]; rewrite invr_gt0 ltr0n.
Qed.
