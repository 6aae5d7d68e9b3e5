(* Proofs about the test models. *)
From mathcomp Require Import all_ssreflect all_algebra.
From mathcomp Require Import ring zify.
From Verif Require Import Prelude LinAlgSpec LinAlgProofs QuadModel QuadSpec QuadProofs QuadMain.
From Verif Require Import Egf BellProofs Moments1DModel Moments1DSpec Moments1DProofs Moments1DConv.
From Verif Require Import Filter1DModel Filter1DSpec Filter1DProofs FilterAffine FilterAffineProps.
From Verif Require Import MomentsNdModel SsModel.
Set Implicit Arguments.
Unset Strict Implicit.
Unset Printing Implicit Defensive.
Import Order.TTheory GRing.Theory Num.Theory.
Local Open Scope ring_scope.

(* What the proofs use of jnp.exp and jnp.log. *)
Definition exp_spec (R : rcfType) (exp : R -> R) : Prop :=
  [/\ forall x, 0 < exp x, forall x, exp x * exp (- x) = 1 & forall x y, x < y -> exp x < exp y].
Definition log_spec (R : rcfType) (exp log : R -> R) : Prop :=
  (forall x, log (exp x) = x) /\ (forall u, 0 < u -> exp (log u) = u).

Section Ss.
Variable R : rcfType.
Variables (exp log sin : R -> R).
Hypothesis expP : exp_spec exp.

Lemma exp_gt0 x : 0 < exp x. Proof. by case: expP. Qed.
Lemma expN x : exp (- x) = (exp x)^-1.
Proof.
have hx : exp x != 0 by rewrite gt_eqF ?exp_gt0.
by apply: (mulfI hx); case: expP => _ -> _; rewrite mulfV.
Qed.
Lemma exp_lt x y : x < y -> exp x < exp y. Proof. by case: expP => _ _; apply. Qed.
Lemma exp_ltE x y : (exp x < exp y) = (x < y).
Proof.
case: (ltrgtP x y) => [/exp_lt -> //| /exp_lt h | ->]; last by rewrite ltxx.
by apply/negbTE; rewrite -leNgt ltW.
Qed.
Lemma exp0 : exp 0 = 1.
Proof.
have := (let: And3 _ h _ := expP in h) 0; rewrite oppr0 -expr2 => /eqP; rewrite sqrf_eq1.
by case/orP => /eqP // h; have := exp_gt0 0; rewrite h oppr_gt0 ltr10.
Qed.

(* ---- logistic maps ---- *)
Lemma sigm_gt0 u : 0 < 1 / (1 + exp u).
Proof. by rewrite div1r invr_gt0 addr_gt0 ?ltr01 ?exp_gt0. Qed.
Lemma sigm_lt1 u : 1 / (1 + exp u) < 1.
Proof. by rewrite div1r invf_lt1 ?addr_gt0 ?ltr01 ?exp_gt0 // ltr_addl exp_gt0. Qed.
Lemma sigm_lt u v : u < v -> 1 / (1 + exp v) < 1 / (1 + exp u).
Proof.
by move=> h; rewrite !div1r ltf_pinv ?posrE ?addr_gt0 ?ltr01 ?exp_gt0 // ltr_add2l exp_lt.
Qed.
Lemma sigmN u : 1 / (1 + exp (- u)) = 1 - 1 / (1 + exp u).
Proof.
rewrite expN; have h := exp_gt0 u; have h1 : 1 + exp u != 0 by rewrite gt_eqF // addr_gt0 ?ltr01.
have h2 : (exp u)^-1 + 1 != 0 by rewrite gt_eqF // addr_gt0 ?ltr01 ?invr_gt0.
by field; rewrite h1 gt_eqF //= gt_eqF // ?addr_gt0 ?ltr01.
Qed.

Lemma cube_lt (x y : R) : x < y -> x ^+ 3 < y ^+ 3.
Proof.
move=> h; rewrite -subr_gt0.
have -> : y ^+ 3 - x ^+ 3 = (y - x) * ((y + x / 2%:R) ^+ 2 + 3%:R / 4%:R * x ^+ 2) by field.
rewrite mulr_gt0 ?subr_gt0 //.
have h1 : 0 <= (y + x / 2%:R) ^+ 2 by apply: sqr_ge0.
have h2 : 0 <= 3%:R / 4%:R * x ^+ 2 by rewrite mulr_ge0 ?sqr_ge0 ?divr_ge0 ?ler0n.
rewrite lt_neqAle addr_ge0 // andbT eq_sym paddr_eq0 // negb_and.
case: (eqVneq x 0) => [x0|x0]; last first.
  by apply/orP; right; rewrite mulf_neq0 ?expf_neq0 // mulf_neq0 ?invr_neq0 // pnatr_eq0.
by rewrite x0 mul0r addr0 expf_neq0 // gt_eqF // -x0.
Qed.

(* ---- tanh ---- *)
Let den_gt0 x : 0 < exp x + exp (- x). Proof. by rewrite addr_gt0 ?exp_gt0. Qed.

Lemma tanhN x : tanh exp (- x) = - tanh exp x.
Proof. by rewrite /tanh opprK -mulNr opprB [exp (- x) + exp x]addrC. Qed.

Lemma tanh_lt1 x : `|tanh exp x| < 1.
Proof.
rewrite /tanh normrM normfV (gtr0_norm (den_gt0 x)) ltr_pdivr_mulr // mul1r ltr_norml.
have h1 := exp_gt0 x; have h2 := exp_gt0 (- x).
by rewrite opprD ltr_add2r ltr_add2l !gtr_opp // (lt_trans _ h1) ?oppr_lt0.
Qed.

Lemma tanh_lt x y : x < y -> tanh exp x < tanh exp y.
Proof.
move=> h; rewrite /tanh ltr_pdivr_mulr // mulrAC ltr_pdivl_mulr //.
have h1 : exp x < exp y by apply: exp_lt.
have h2 : exp (- y) < exp (- x) by apply: exp_lt; rewrite ltr_opp2.
rewrite -subr_gt0.
have -> : (exp y - exp (- y)) * (exp x + exp (- x)) - (exp x - exp (- x)) * (exp y + exp (- y)) =
          2%:R * (exp y * exp (- x) - exp x * exp (- y)) by ring.
by rewrite mulr_gt0 ?ltr0n // subr_gt0 ltr_pmul // ltW ?exp_gt0.
Qed.

(* ---- initial condition ---- *)
Let v0 : R := 1 / 20%:R.
Let h0 : R := 1 / 2%:R.
Definition sym_moment (p : nat) : R := (gauss_moment (- h0) v0 p + gauss_moment h0 v0 p) / 2%:R.

Let v0_gt0 : 0 < v0. Proof. by rewrite divr_gt0 ?ltr01 ?ltr0n. Qed.

Lemma normE m p : raw_moment_of_normal m v0 p = gauss_moment m v0 p.
Proof. by apply: gaussian_unique; apply: raw_normal_gauss; apply: ltW. Qed.

Lemma init_mean N : gs_mean (ss_init_cond R N) = 0.
Proof. by rewrite /=; field. Qed.

Lemma init_rms N : gs_rms (ss_init_cond R N) = mkseq sym_moment (2 * N).
Proof.
rewrite /ss_init_cond /gaussian_sum1d_new /gs_rms; apply: eq_map => p; rewrite jsumE.
rewrite [zip _ _]/= [map _ _]/= !big_cons big_nil -/v0 -/h0 !normE /sym_moment addr0.
by rewrite -mulrDl -div1r.
Qed.

Lemma init_cms N : gs_cms (ss_init_cond R N) = mkseq sym_moment (2 * N).
Proof.
have e := init_mean N; rewrite /ss_init_cond /gaussian_sum1d_new /gs_mean in e.
rewrite /ss_init_cond /gaussian_sum1d_new /gs_cms e; apply: eq_map => p; rewrite jsumE.
rewrite [zip _ _]/= [map _ _]/= !big_cons big_nil !subr0 -/v0 -/h0 !normE /sym_moment addr0.
by rewrite -mulrDl -div1r.
Qed.

Lemma gaussN (m v : R) p : gauss_moment (- m) v p = (-1) ^+ p * gauss_moment m v p.
Proof.
have := gaussian_aff 0 (-1) (gauss_momentP m v); rewrite add0r mulN1r sqrrN expr1n mul1r.
move/gaussian_unique => <-; rewrite /aff /conv big_ord_recl /= /cexp expr0 bin0 !mul1r subn0 big1 ?addr0 // => i _.
by rewrite expr0n /= mulr0 mul0r.
Qed.

Lemma sym_odd p : odd p -> sym_moment p = 0.
Proof. by move=> hp; rewrite /sym_moment gaussN -signr_odd hp expr1 mulN1r addNr mul0r. Qed.
Lemma sym_sign p : (-1) ^+ p * sym_moment p = sym_moment p.
Proof. by rewrite -signr_odd; case: (boolP (odd p)) => [/sym_odd ->|_]; rewrite ?mulr0 // mul1r. Qed.
Lemma sym_0 : sym_moment 0 = 1.
Proof.
have e m : gauss_moment m v0 0 = 1 by have [] := gauss_momentP m v0.
by rewrite /sym_moment !e; field.
Qed.
Lemma sym_2 : sym_moment 2 = 3%:R / 10%:R.
Proof.
rewrite /sym_moment; have [_ _ h] := gauss_momentP h0 v0; have [_ _ h'] := gauss_momentP (- h0) v0.
have e2 m : gauss_moment m v0 2 = m ^+ 2 + v0.
  have [e0 e1 er] := gauss_momentP m v0; rewrite (er 0%N) e0 e1 mulr1 mul1r expr2.
  by [].
by rewrite !e2 /h0 /v0; field.
Qed.

Lemma sym_adm n : admissible sym_moment n.
Proof.
move=> p p0 sp; have -> : mom_functional sym_moment (p * p) =
    (mom_functional (gauss_moment (- h0) v0) (p * p) + mom_functional (gauss_moment h0 v0) (p * p)) / 2%:R.
  rewrite /mom_functional -big_split mulr_suml; apply: eq_bigr => i _.
  by rewrite /sym_moment /= -mulrDr mulrA.
by rewrite divr_gt0 ?ltr0n // addr_gt0 //; apply: (gauss_admissible _ v0_gt0 (n := n)).
Qed.

Lemma sym_adm_seq N : admissible (nth 0 (mkseq sym_moment (2 * N))) N.
Proof. by apply: (adm_ext _ (@sym_adm N)) => k hk; rewrite nth_mkseq // mul2n. Qed.

(* ---- reflections ---- *)
Lemma recentred_reflect (ms : seq R) : recentred 0 (-1) ms = [seq (-1) ^+ k * ms`_k | k <- iota 0 (size ms)].
Proof.
apply: eq_map => k; rewrite big_ord_recr big1 => [|i _]; last first.
  have hi : (k - i == 0)%N = false by rewrite subn_eq0 leqNgt ltn_ord.
  by rewrite oppr0 expr0n /= hi mulr0 mul0r.
rewrite /= add0r subnn expr0 binn !mul1r mulrC; congr (_ * _).
by rewrite -exprVn invrN invr1.
Qed.
Lemma rescaled_reflect (ms : seq R) : rescaled (-1) ms = [seq (-1) ^+ k * ms`_k | k <- iota 0 (size ms)].
Proof. by apply: eq_map => k; rewrite mulrC -exprVn invrN invr1. Qed.
Lemma reflect_sym N : [seq (-1) ^+ k * (mkseq sym_moment (2 * N))`_k | k <- iota 0 (size (mkseq sym_moment (2 * N)))]
  = mkseq sym_moment (2 * N).
Proof.
rewrite size_mkseq; apply/eq_in_map => k; rewrite mem_iota /= => hk.
by rewrite nth_mkseq // sym_sign.
Qed.
End Ss.
