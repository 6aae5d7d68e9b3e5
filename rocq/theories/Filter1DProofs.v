(* Proofs for the one-dimensional moment filters. *)
From mathcomp Require Import all_ssreflect all_algebra.
From mathcomp Require Import ring zify.
From Verif Require Import Prelude Egf LinAlgSpec QuadModel QuadSpec QuadProofs QuadMain QuadStrict.
From Verif Require Import Moments1DModel Moments1DSpec Moments1DProofs Moments1DConv HermiteProofs.
From Verif Require Import Filter1DModel Filter1DSpec.
Set Implicit Arguments.
Unset Strict Implicit.
Unset Printing Implicit Defensive.
Import Order.TTheory GRing.Theory Num.Theory.
Local Open Scope ring_scope.

(* ---------- scan ---------- *)
Section Scan.
Variables (S X O : Type) (body : S -> X -> S * O).

Lemma scan_cat s xs ys :
  scan body s (xs ++ ys) =
  ((scan body (scan body s xs).1 ys).1, (scan body s xs).2 ++ (scan body (scan body s xs).1 ys).2).
Proof.
elim: xs s => [|x xs IH] s /=; first by case: (scan body s ys).
case: (body s x) => s1 o; rewrite IH; case: (scan body s1 xs) => s2 os /=.
by case: (scan body s2 ys).
Qed.

Lemma size_scan s xs : size (scan body s xs).2 = size xs.
Proof.
elim: xs s => [|x xs IH] s //=; case: (body s x) => s1 o.
by have := IH s1; case: (scan body s1 xs) => s2 os /= ->.
Qed.

Lemma scan_cons s x xs : scan body s (x :: xs) =
  ((scan body (body s x).1 xs).1, (body s x).2 :: (scan body (body s x).1 xs).2).
Proof. by rewrite /=; case: (body s x) => s1 o; case: (scan body s1 xs). Qed.
End Scan.

(* ---------- admissible moment sequences ---------- *)
Section Adm.
Variable R : rcfType.
Implicit Types (m : nat -> R) (p : {poly R}).

Lemma adm_ext m m' n : (forall k, (k < n.*2)%N -> m k = m' k) -> admissible m n -> admissible m' n.
Proof.
move=> h ha p p0 sp; rewrite -(@mom_eq _ m) ?ha // => k hk; apply: h.
by apply: (leq_trans hk); rewrite (leq_trans (size_mul_leq _ _)) //; lia.
Qed.

Lemma adm_le m n n' : (n' <= n)%N -> admissible m n -> admissible m n'.
Proof. by move=> h ha p p0 sp; apply: ha => //; apply: leq_trans h. Qed.

Lemma adm_aff m c s n : s != 0 -> admissible m n -> admissible (aff m c s) n.
Proof.
move=> s0 ha p p0 sp; rewrite mom_comp rmorphM /=.
have su : size (c%:P + s *: 'X) = 2%N.
  by rewrite addrC size_addl ?size_scale ?size_polyX // ltnS (leq_trans (size_polyC_leq1 _)).
apply: ha; last by rewrite size_comp_poly2.
by rewrite -size_poly_eq0 size_comp_poly2 // size_poly_eq0.
Qed.

Local Notation H n := (hermite_probabilist n ('X : {poly R})).
Local Notation G := (mom_functional (gauss_moment (0 : R) 1)).

Lemma hermite_span n p : (size p <= n)%N -> exists c : nat -> R, p = \sum_(k < n) c k *: H k.
Proof.
elim: n p => [|n IH] p hp.
  exists (fun=> 0); rewrite big_ord0; apply/eqP; by rewrite -size_poly_eq0 -leqn0.
have [hs hl] := @hermite_size R n.
have hr : (size (p - p`_n *: H n)%R <= n)%N.
  apply/leq_sizeP => i hi; rewrite coefB coefZ.
  case: (ltnP n i) => hin; first by rewrite (nth_default _ (leq_trans hp hin)) [X in _ - _ * X]nth_default ?hs // mulr0 subr0.
  have -> : i = n by lia.
  by have := hl; rewrite lead_coefE hs /= => ->; rewrite mulr1 subrr.
have [c hc] := IH _ hr; exists (fun k => if k == n then p`_n else c k).
rewrite big_ord_recr /= eqxx -[LHS](subrK (p`_n *: H n)); congr (_ + _); rewrite hc.
by apply: eq_bigr => k _; rewrite ltn_eqF.
Qed.

Lemma std_admissible n : admissible (gauss_moment (0 : R) 1) n.
Proof.
move=> p p0 sp; have [c hc] := hermite_span sp.
have e : G (p * p) = \sum_(k < n) c k ^+ 2 * (k`!)%:R.
  rewrite {1}hc mulr_suml mom_sum; apply: eq_bigr => k _.
  rewrite -scalerAl momZ hc [H k * _]mulr_sumr mom_sum (bigD1 k) //= big1 ?addr0.
    by rewrite -scalerAr momZ hermite_orth eqxx mulrA.
  move=> j hj; rewrite -scalerAr momZ hermite_orth.
  by rewrite (_ : (k == j :> nat) = false) ?mulr0 //; apply: contraNF hj => /eqP h; apply/eqP/val_inj.
rewrite e lt_def sumr_ge0 => [|k _]; last by rewrite mulr_ge0 ?sqr_ge0 ?ler0n.
rewrite andbT psumr_eq0 => [|k _]; last by rewrite mulr_ge0 ?sqr_ge0 ?ler0n.
apply: contra p0 => /allP h; rewrite hc big1 // => k _.
have := h k (mem_index_enum k); rewrite mulf_eq0 expf_eq0 (negbTE (fact_neq0 _ _)) orbF /= => /eqP ->.
by rewrite scale0r.
Qed.

(* every non-degenerate Gaussian has admissible moments of every order *)
Lemma gauss_admissible (c v : R) n : 0 < v -> admissible (gauss_moment c v) n.
Proof.
move=> v0; have s0 : Num.sqrt v != 0 by rewrite gt_eqF // sqrtr_gt0.
have ha := adm_aff c s0 (@std_admissible n).
apply: adm_ext ha => k _; have := gaussian_aff c (Num.sqrt v) (gauss_momentP (0 : R) 1).
by rewrite mulr0 addr0 mulr1 sqr_sqrtr ?ltW // => /gaussian_unique ->.
Qed.
End Adm.

Section Expect.
Variable R : rcfType.
Implicit Types (ws xs : seq R) (m : nat -> R).

Lemma expect_mom ws xs (F : R -> nat -> R) (p : {poly R}) :
  mom_functional (fun k => expect ws xs (fun x => F x k)) p =
  expect ws xs (fun x => mom_functional (F x) p).
Proof. by rewrite /mom_functional expect_sum; apply: eq_bigr => k _; rewrite expect_mul. Qed.

Lemma mom_mulr m (a : R) p : mom_functional (fun k => m k * a) p = mom_functional m p * a.
Proof. by rewrite /mom_functional mulr_suml; apply: eq_bigr => k _; rewrite mulrA. Qed.

Lemma mom_point (x : R) p : mom_functional (fun k => x ^+ k) p = p.[x].
Proof. by rewrite /mom_functional horner_coef. Qed.

Lemma expect_gt0 ws xs f : (0 < size ws)%N -> size ws = size xs -> all (fun w => 0 < w) ws ->
  (forall x, x \in xs -> 0 < f x) -> 0 < expect ws xs f.
Proof.
case: ws xs => [|w ws] [|x xs] //= _ [hs] /andP [hw hws] hf.
rewrite expect_sumE /= big_cons /= ltr_paddr ?mulr_gt0 ?hf ?mem_head //.
rewrite big_seq sumr_ge0 // => q /zip_mem [h1 h2].
by rewrite mulr_ge0 // ltW ?hf ?inE ?h2 ?orbT // (allP hws).
Qed.

Lemma expect_eqin ws xs f g : (forall x, x \in xs -> f x = g x) -> expect ws xs f = expect ws xs g.
Proof.
move=> h; rewrite !expect_sumE big_seq [RHS]big_seq; apply: eq_bigr => q /zip_mem [_ hq].
by rewrite h.
Qed.
End Expect.

Section Filters.
Variable R : rcfType.
Variable chol : forall n, 'M[R]_n -> 'M[R]_n.
Variable eigh : forall n, 'M[R]_n -> 'M[R]_n * 'rV[R]_n.
Hypothesis cholP : chol_spec chol.
Hypothesis eighP : eigh_spec eigh.
Local Notation quad := (quad chol eigh).
Implicit Types (ms rms cms scms : seq R).

Arguments rms_update : simpl never.
Arguments rms_predict : simpl never.
Arguments cms_update : simpl never.
Arguments cms_predict : simpl never.
Arguments scms_update : simpl never.
Arguments scms_predict : simpl never.

Definition adm ms := admissible (nth 0 ms) (size ms)./2.
Definition ex (wx : seq R * seq R) f := expect wx.1 wx.2 f.

Lemma quadP ms mean scale st : (1 < size ms)%N ->
  moment_quadrature chol eigh ms mean scale st = Some (quad ms mean scale st).
Proof.
by move=> h; rewrite /quad; have [ws [xs -> _]] := quadrature_defined chol eigh mean scale st h.
Qed.

Lemma quad_same (m : nat -> R) ms1 c1 s1 l1 ms2 c2 s2 l2 : 0 < s1 -> 0 < s2 ->
  (1 < size ms1)%N -> size ms2 = size ms1 ->
  (forall k, (k < size ms1)%N -> ms1`_k = affine_moments m c1 s1 k) ->
  (forall k, (k < size ms1)%N -> ms2`_k = affine_moments m c2 s2 k) ->
  admissible m (size ms1)./2 ->
  forall f, ex (quad ms1 c1 s1 l1) f = ex (quad ms2 c2 s2 l2) f.
Proof.
move=> s10 s20 hs hs2 h1 h2 ha f; pose ms := mkseq m (size ms1).
have sm : size ms = size ms1 by rewrite size_mkseq.
have hn : ((size ms1)./2.*2 <= size ms1)%N by rewrite -{2}[size ms1]odd_double_half leq_addl.
have hms k : (k < size ms1)%N -> ms`_k = m k by move=> hk; rewrite nth_mkseq.
have ham : admissible (nth 0 ms) (size ms)./2.
  by rewrite sm; apply: adm_ext ha => k hk; rewrite hms // (leq_trans hk).
have he c s k : (k < size ms1)%N -> affine_moments (nth 0 ms) c s k = affine_moments m c s k.
  by move=> hk; rewrite ![affine_moments _ _ _ _]scaled_aff; apply: aff_ext => j hj; rewrite hms // (leq_ltn_trans hj).
have hq := @quadP ms 0 1 true; rewrite sm in hq.
have e1 := quadP c1 s1 l1 hs; have e2 : moment_quadrature chol eigh ms2 c2 s2 l2 = Some (quad ms2 c2 s2 l2) by rewrite quadP ?hs2.
have e0 := hq hs; rewrite /ex.
transitivity (ex (quad ms 0 1 true) f); rewrite /ex; [|symmetry].
  apply: (@quadrature_repr R chol eigh cholP eighP ms ms1 c1 s1 true l1 _ _ _ _ s10 (esym sm)) => //.
  - by move=> k; rewrite sm => hk; rewrite he ?h1 // (leq_trans hk).
  - by rewrite e0; case: (quad _ _ _ _).
  - by rewrite e1; case: (quad _ _ _ _).
apply: (@quadrature_repr R chol eigh cholP eighP ms ms2 c2 s2 true l2 _ _ _ _ s20) => //.
- by rewrite sm.
- by move=> k; rewrite sm => hk; rewrite he ?h2 // (leq_trans hk).
- by rewrite e0; case: (quad _ _ _ _).
- by rewrite e2; case: (quad _ _ _ _).
Qed.

Lemma quad_strict ms mean scale st : (1 < size ms)%N -> scale != 0 -> adm ms ->
  [/\ (0 < size (quad ms mean scale st).1)%N,
      size (quad ms mean scale st).1 = (size ms)./2,
      size (quad ms mean scale st).2 = (size ms)./2,
      all (fun w => 0 < w) (quad ms mean scale st).1
    & uniq (quad ms mean scale st).2].
Proof.
move=> hs s0 ha; have := quadP mean scale st hs; case: (quad _ _ _ _) => ws xs hq /=.
have [h1 h2 h3] := quadrature_sizes hq.
by have [h4 h5 h6] := quadrature_strict cholP eighP s0 ha hq; split=> //; rewrite h2.
Qed.

Lemma size_moments_of wx F n : size (moments_of wx F n : seq R) = n.
Proof. by rewrite size_map size_iota. Qed.
Lemma nth_moments_of wx F n k : (k < n)%N -> (moments_of wx F n : seq R)`_k = ex wx (fun x => F x k).
Proof. by move=> h; rewrite nth_iota_map. Qed.
Lemma nth_divm (s : seq R) a k : [seq m / a | m <- s]`_k = s`_k / a.
Proof.
case: (ltnP k (size s)) => h; first by rewrite (nth_map 0).
by rewrite !nth_default ?mul0r ?size_map.
Qed.

(* a mixture of admissible conditional moments is admissible *)
Lemma mix_admissible ms mean scale st F : (1 < size ms)%N -> scale != 0 -> adm ms ->
  (forall x, admissible (F x) (size ms)./2) ->
  adm (moments_of (quad ms mean scale st) F (size ms)).
Proof.
move=> hs s0 ha hF; have [h1 h2 h3 h4 h5] := quad_strict mean st hs s0 ha.
rewrite /adm size_moments_of => p p0 sp.
rewrite (@mom_eq _ _ (fun k => ex (quad ms mean scale st) (fun x => F x k))); last first.
  move=> k hk; rewrite nth_moments_of //; apply: (leq_trans hk).
  rewrite (leq_trans (size_mul_leq _ _)) //.
  have : ((size ms)./2.*2 <= size ms)%N by rewrite -{2}[size ms]odd_double_half leq_addl.
  by lia.
by rewrite expect_mom; apply: expect_gt0 => //; [rewrite h2 h3 | move=> x _; apply: hF].
Qed.

(* a positively reweighted rule has admissible moments, about any centre and scale *)
Lemma reweight_admissible ms mean scale st (l : R -> R) (b c r : R) :
  (1 < size ms)%N -> scale != 0 -> adm ms -> (forall x, 0 < l x) -> 0 < b -> r != 0 ->
  adm [seq m / b | m <- moments_of (quad ms mean scale st) (fun x n => ((x - c) / r) ^+ n * l x) (size ms)].
Proof.
move=> hs s0 ha hl b0 r0; have [h1 h2 h3 h4 h5] := quad_strict mean st hs s0 ha.
move: h1 h2 h3 h4 h5; case e : (quad _ _ _ _) => [ws xs] /= h1 h2 h3 h4 h5.
have hd := @discrete_admissible R [seq q.1 * l q.2 / b | q <- zip ws xs] [seq (x - c) / r | x <- xs].
rewrite !size_map size_zip h2 h3 minnn in hd.
rewrite /adm size_map size_moments_of.
apply: adm_ext (hd erefl _ _); first move=> k hk.
- rewrite nth_divm nth_moments_of /=; last first.
    by apply: (leq_trans hk); rewrite -{2}[size ms]odd_double_half leq_addl.
  rewrite /discrete_moment /ex expect_sumE mulr_suml /=.
  have -> : zip [seq q.1 * l q.2 / b | q <- zip ws xs] [seq (x - c) / r | x <- xs] =
            [seq (q.1 * l q.2 / b, (q.2 - c) / r) | q <- zip ws xs].
    have hsz : size ws = size xs by rewrite h2 h3.
    by elim: (ws) (xs) hsz => [|w ws' IH] [|x xs'] //= [hsz]; rewrite IH.
  rewrite big_map; apply: eq_bigr => q _ /=.
  by rewrite [X in _ = _ * X / _]mulrC [X in _ = X / _]mulrA mulrAC.
- rewrite map_inj_uniq // => x y /(mulIf _) h; apply: (addIr (- c)); apply: h; by rewrite invr_eq0.
- apply/allP => w /mapP [q /zip_mem [hq1 _] ->]; rewrite divr_gt0 // mulr_gt0 //; exact: (allP h4).
Qed.

(* ---------- raw filter ---------- *)
Section Raw.
Variables (log : R -> R) (Y : Type).
Variables (cond : R -> nat -> R) (pdf : Y -> R -> R) (st : bool).
Local Notation predict := (rms_predict chol eigh cond st).
Local Notation update := (rms_update chol eigh pdf st).
Local Notation body := (rms_body chol eigh log cond pdf st).

(* the run never divides by zero nor factorises a matrix that is not positive definite *)
Fixpoint rms_ok (rms : seq R) (ys : seq Y) : Prop :=
  match ys with
  | [::] => True
  | y :: ys' =>
      [/\ adm rms, adm (predict rms), (update y (predict rms)).2 != 0
        & rms_ok (update y (predict rms)).1 ys']
  end.

Lemma size_rms_predict rms : size (predict rms) = size rms.
Proof. exact: size_moments_of. Qed.
Lemma size_rms_update y rms : size (update y rms).1 = size rms.
Proof. by rewrite size_map size_moments_of. Qed.

Lemma rms_predict_adm rms : (1 < size rms)%N -> adm rms ->
  (forall x, admissible (cond x) (size rms)./2) -> adm (predict rms).
Proof. by move=> hs ha hc; apply: mix_admissible => //; exact: oner_neq0. Qed.

Lemma rms_pdf_gt0 rms y : (1 < size rms)%N -> adm rms -> (forall x, 0 < pdf y x) ->
  0 < (update y rms).2.
Proof.
move=> hs ha hp; have [h1 h2 h3 h4 _] := quad_strict 0 st hs (oner_neq0 _) ha.
by apply: expect_gt0 => //; rewrite h2 h3.
Qed.

Lemma rms_update_adm rms y : (1 < size rms)%N -> adm rms -> (forall x, 0 < pdf y x) ->
  adm (update y rms).1.
Proof.
move=> hs ha hp; have hb := rms_pdf_gt0 hs ha hp.
have := @reweight_admissible rms 0 1 st (pdf y) _ 0 1 hs (oner_neq0 _) ha hp hb (oner_neq0 R).
rewrite /adm !size_map; apply: adm_ext => k hk.
have hk' : (k < size rms)%N.
  by apply: (leq_trans hk); rewrite size_iota -{2}[size rms]odd_double_half leq_addl.
rewrite !nth_divm !nth_moments_of //; congr (_ / _); apply: expect_ext => x.
by rewrite subr0 divr1.
Qed.

Lemma rms_always_ok rms ys : (1 < size rms)%N -> adm rms ->
  (forall x, admissible (cond x) (size rms)./2) -> (forall y x, 0 < pdf y x) -> rms_ok rms ys.
Proof.
move=> hs ha hc hp; elim: ys rms hs ha hc => [|y ys IH] rms hs ha hc //=.
have h1 := rms_predict_adm hs ha hc.
have hs1 : (1 < size (predict rms))%N by rewrite size_rms_predict.
have h2 := rms_update_adm hs1 h1 (hp y).
split=> //; first by rewrite gt_eqF // rms_pdf_gt0.
by apply: IH; rewrite // size_rms_update // size_rms_predict.
Qed.

Lemma rms_update0 y rms : (0 < size rms)%N -> (update y rms).2 != 0 -> (update y rms).1`_0 = 1.
Proof.
move=> hs h; rewrite nth_divm nth_moments_of //.
rewrite (_ : ex _ _ = (update y rms).2) ?divff //; apply: expect_ext => x.
by rewrite expr0 mul1r.
Qed.

Lemma rms_bodyE s nell y : body (s, nell) y =
  (((update y (predict s)).1, nell - log (update y (predict s)).2), (update y (predict s)).1).
Proof. by rewrite /rms_body; case: (rms_update _ _ _ _ _ _). Qed.

(* every returned vector is normalised *)
Lemma rms_normalised rms ys nell : (1 < size rms)%N -> rms_ok rms ys ->
  forall r, r \in (scan body (rms, nell) ys).2 -> [/\ size r = size rms & r`_0 = 1].
Proof.
elim: ys rms nell => [|y ys IH] rms nell hs // [_ _ h3 h4] r.
rewrite scan_cons rms_bodyE /=; set u := update y (predict rms).
have su : size u.1 = size rms by rewrite size_rms_update size_rms_predict.
rewrite inE => /orP [/eqP ->|]; last by rewrite -su; apply: IH; rewrite ?su.
by split=> //; apply: rms_update0; rewrite // size_rms_predict ltnW.
Qed.
End Raw.
End Filters.
