(* Convergence of the raw moment filter to the exact Bayesian filter as the number of moments
   grows, for state spaces that are bounded intervals. *)
From mathcomp Require Import all_ssreflect all_algebra.
From mathcomp Require Import ring zify.
From Verif Require Import Prelude LinAlgSpec QuadModel QuadSpec QuadProofs QuadMain QuadStrict
  Filter1DModel Filter1DProofs LawSpec LawProofs.
Set Implicit Arguments.
Unset Strict Implicit.
Unset Printing Implicit Defensive.
Import Order.TTheory GRing.Theory Num.Theory.
Local Open Scope ring_scope.

Section Converges.
Variable R : rcfType.
Implicit Types (u v : nat -> R) (l m : R).

Lemma conv_ext u v l : (exists n0, forall n, (n0 <= n)%N -> u n = v n) -> converges u l -> converges v l.
Proof.
move=> [n1 h] hu e e0; have [n0 hn] := hu e e0; exists (maxn n0 n1) => n.
by rewrite geq_max => /andP [h0 h1]; rewrite -h // hn.
Qed.

Lemma conv_add u v l m : converges u l -> converges v m -> converges (fun n => u n + v n) (l + m).
Proof.
move=> hu hv e e0; have e2 : 0 < e / 2%:R by rewrite divr_gt0 // ltr0n.
have [n1 h1] := hu _ e2; have [n2 h2] := hv _ e2.
exists (maxn n1 n2) => n; rewrite geq_max => /andP [/h1 a1 /h2 a2].
have -> : u n + v n - (l + m) = (u n - l) + (v n - m) by ring.
by rewrite (splitr e) (le_trans (ler_norm_add _ _)) // ler_add.
Qed.

Lemma conv_const l : converges (fun=> l) l.
Proof. by move=> e e0; exists 0%N => n _; rewrite subrr normr0 ltW. Qed.

Lemma conv_bounded u l : converges u l -> exists n0, forall n, (n0 <= n)%N -> `|u n| <= `|l| + 1.
Proof.
move=> /(_ 1 ltr01) [n0 h]; exists n0 => n /h hn.
have -> : u n = l + (u n - l) by rewrite addrCA subrr addr0.
by rewrite (le_trans (ler_norm_add _ _)) // ler_add2l.
Qed.

Lemma conv_mul u v l m : converges u l -> converges v m -> converges (fun n => u n * v n) (l * m).
Proof.
move=> hu hv e e0.
have l1 : 0 < `|l| + 1 by rewrite ltr_spaddr // ltr01.
have m1 : 0 < `|m| + 1 by rewrite ltr_spaddr // ltr01.
have e2 : 0 < e / 2%:R by rewrite divr_gt0 // ltr0n.
have [n0 h0] := conv_bounded hu.
have [n1 h1] := hu _ (divr_gt0 e2 m1); have [n2 h2] := hv _ (divr_gt0 e2 l1).
exists (maxn n0 (maxn n1 n2)) => n; rewrite !geq_max => /and3P [/h0 a0 /h1 a1 /h2 a2].
have -> : u n * v n - l * m = u n * (v n - m) + (u n - l) * m by ring.
rewrite [X in _ <= X]splitr (le_trans (ler_norm_add _ _)) // ler_add // normrM.
  have -> : e / 2%:R = (`|l| + 1) * (e / 2%:R / (`|l| + 1)) by rewrite [RHS]mulrC divfK ?gt_eqF.
  exact: ler_pmul.
have -> : e / 2%:R = e / 2%:R / (`|m| + 1) * (`|m| + 1) by rewrite divfK ?gt_eqF.
by apply: ler_pmul => //; rewrite ler_addl ler01.
Qed.

Lemma conv_exp u l k : converges u l -> converges (fun n => u n ^+ k) (l ^+ k).
Proof.
move=> hu; elim: k => [|k IH].
  by rewrite expr0; apply: conv_ext (conv_const 1); exists 0%N => n _; rewrite expr0.
rewrite exprS; apply: conv_ext (conv_mul hu IH); by exists 0%N => n _; rewrite exprS.
Qed.

Lemma conv_sum I (r : seq I) (u : I -> nat -> R) (l : I -> R) :
  (forall i, converges (u i) (l i)) -> converges (fun n => \sum_(i <- r) u i n) (\sum_(i <- r) l i).
Proof.
move=> h; elim: r => [|i r IH].
  rewrite big_nil; apply: conv_ext (conv_const 0); by exists 0%N => n _; rewrite big_nil.
rewrite big_cons; apply: conv_ext (conv_add (h i) IH); by exists 0%N => n _; rewrite big_cons.
Qed.

Lemma conv_opp u l : converges u l -> converges (fun n => - u n) (- l).
Proof.
move=> hu e e0; have [n0 h] := hu e e0; exists n0 => n /h; by rewrite -opprD normrN.
Qed.

Lemma conv_close u v l : (forall e, 0 < e -> exists n0, forall n, (n0 <= n)%N -> `|v n - u n| <= e) ->
  converges u l -> converges v l.
Proof.
move=> h hu e e0; have e2 : 0 < e / 2%:R by rewrite divr_gt0 // ltr0n.
have [n1 h1] := hu _ e2; have [n2 h2] := h _ e2.
exists (maxn n1 n2) => n; rewrite geq_max => /andP [/h1 a1 /h2 a2].
have -> : v n - l = (v n - u n) + (u n - l) by ring.
by rewrite (splitr e) (le_trans (ler_norm_add _ _)) // ler_add.
Qed.

Lemma conv_div u v l m : 0 < m -> converges u l -> converges v m -> converges (fun n => u n / v n) (l / m).
Proof.
move=> m0 hu hv e e0.
have q0 : 0 < 4%:R :> R by rewrite ltr0n.
have l1 : 0 < `|l| + 1 by rewrite ltr_spaddr // ltr01.
have h1 : 0 < e * m / 4%:R by rewrite divr_gt0 // mulr_gt0.
have h2 : 0 < e * m ^+ 2 / (4%:R * (`|l| + 1)).
  by rewrite divr_gt0 // mulr_gt0 // exprn_gt0.
have h3 : 0 < m / 2%:R by rewrite divr_gt0 // ltr0n.
have [n1 k1] := hu _ h1; have [n2 k2] := hv _ h2; have [n3 k3] := hv _ h3.
exists (maxn n1 (maxn n2 n3)) => n; rewrite !geq_max => /and3P [/k1 a1 /k2 a2 /k3 a3].
have vn : m / 2%:R <= v n.
  move: a3; rewrite ler_distl => /andP [+ _]; rewrite {1}[m]splitr.
  by rewrite addrK.
have v0 : 0 < v n := lt_le_trans h3 vn.
have -> : u n / v n - l / m = ((u n - l) * m - l * (v n - m)) / (v n * m).
  by have vn0 := lt0r_neq0 v0; have mn0 := lt0r_neq0 m0; field; rewrite vn0 mn0.
have vm : 0 < v n * m by rewrite mulr_gt0.
rewrite normrM normfV (ger0_norm (ltW vm)) ler_pdivr_mulr //.
apply: (le_trans (ler_norm_sub _ _)); rewrite !normrM (ger0_norm (ltW m0)).
apply: (@le_trans _ _ (e * (m / 2%:R * m))); last first.
  by rewrite (ler_wpmul2l (ltW e0)) // (ler_wpmul2r (ltW m0)).
have -> : e * (m / 2%:R * m) = e * m / 4%:R * m + e * m ^+ 2 / 4%:R by field.
apply: ler_add; first by rewrite ler_wpmul2r // ltW.
apply: (@le_trans _ _ ((`|l| + 1) * (e * m ^+ 2 / (4%:R * (`|l| + 1))))).
  by apply: ler_pmul => //; rewrite ler_addl ler01.
by rewrite le_eqVlt; apply/orP; left; apply/eqP; field; rewrite gt_eqF.
Qed.
End Converges.

Section Approx.
Variables (R : rcfType) (a b : R).
Implicit Types (f g : R -> R).
Local Notation ap := (approx a b).

Lemma approx_poly (p : {poly R}) : ap (fun x => p.[x]).
Proof. by move=> e e0; exists p => x _; rewrite subrr normr0 ltW. Qed.

Lemma approx_mod f g : ap f -> (forall x, itv a b x -> f x = g x) -> ap g.
Proof. by move=> hf h e /hf [p hp]; exists p => x hx; rewrite -h // hp. Qed.

Lemma approx_bounded f : ap f -> exists2 M, 0 < M & forall x, a <= x <= b -> `|f x| <= M.
Proof.
move=> /(_ 1 ltr01) [p hp]; have [M hM] := poly_itv_bound p a b.
exists (`|M| + 1); first by rewrite ltr_spaddr // ltr01.
move=> x hx; have -> : f x = p.[x] + (f x - p.[x]) by rewrite addrCA subrr addr0.
by rewrite (le_trans (ler_norm_add _ _)) // ler_add ?hp // (le_trans (hM x hx)) // ler_norm.
Qed.

Lemma approx_add f g : ap f -> ap g -> ap (fun x => f x + g x).
Proof.
move=> hf hg e e0; have e2 : 0 < e / 2%:R by rewrite divr_gt0 // ltr0n.
have [p hp] := hf _ e2; have [q hq] := hg _ e2; exists (p + q) => x hx.
have -> : f x + g x - (p + q).[x] = (f x - p.[x]) + (g x - q.[x]).
  by rewrite hornerD opprD addrACA.
by rewrite [X in _ <= X]splitr (le_trans (ler_norm_add _ _)) // ler_add ?hp ?hq.
Qed.

Lemma approx_mul f g : ap f -> ap g -> ap (fun x => f x * g x).
Proof.
move=> hf hg e e0.
have [M M0 hM] := approx_bounded hg.
have e1 : 0 < e / 2%:R / M by rewrite !divr_gt0 // ltr0n.
have [p hp] := hf _ e1.
have [N N0 hN] := approx_bounded (approx_poly p).
have e2 : 0 < e / 2%:R / N by rewrite !divr_gt0 // ltr0n.
have [q hq] := hg _ e2.
exists (p * q) => x hx.
have -> : f x * g x - (p * q).[x] = (f x - p.[x]) * g x + p.[x] * (g x - q.[x]).
  by rewrite hornerM mulrBl mulrBr addrA subrK.
rewrite [X in _ <= X]splitr (le_trans (ler_norm_add _ _)) // ler_add // normrM.
  have -> : e / 2%:R = e / 2%:R / M * M by rewrite divfK ?gt_eqF.
  by apply: ler_pmul => //; [exact: hp|exact: hM].
have -> : e / 2%:R = N * (e / 2%:R / N) by rewrite [RHS]mulrC divfK ?gt_eqF.
by apply: ler_pmul => //; [exact: hN|exact: hq].
Qed.

Lemma approx_scale c f : ap f -> ap (fun x => c * f x).
Proof.
move=> hf; have hc : ap (fun=> c).
  by apply: approx_mod (approx_poly c%:P) _ => x _; rewrite hornerC.
exact: approx_mul hc hf.
Qed.

Lemma approx_comb c f g : ap f -> ap g -> ap (fun x => c * f x + g x).
Proof. by move=> hf hg; apply: approx_add => //; exact: approx_scale. Qed.

Lemma approx_pow k : ap (fun x => x ^+ k).
Proof. by apply: approx_mod (approx_poly ('X^k)) _ => x _; rewrite hornerXn. Qed.

(* a discrete law on [a, b] *)
Lemma discrete_law ws xs : size ws = size xs -> all (fun w => 0 <= w) ws -> jsum ws = 1 ->
  all (itv a b) xs -> is_law (itv a b) ap (expect ws xs).
Proof.
move=> hs wp w1 hx; split.
- exact: approx_poly.
- exact: approx_mod.
- exact: approx_comb.
- move=> c f g _ _; rewrite -expect_mul !expect_sumE -big_split /=.
  by apply: eq_bigr => q _; rewrite mulrDr.
- move=> f g _ _ h; rewrite !expect_sumE big_seq [X in _ <= X]big_seq; apply: ler_sum => q /zip_mem [q1 q2].
  by rewrite ler_wpmul2l ?(allP wp) // h // (allP hx).
rewrite expect_sumE -[RHS]w1 jsumE -[in RHS](unzip1_zip (eq_leq hs)) big_map.
by apply: eq_bigr => q _; rewrite mulr1.
Qed.
End Approx.

Section Conv.
Variable R : rcfType.
Variable chol : forall n, 'M[R]_n -> 'M[R]_n.
Variable eigh : forall n, 'M[R]_n -> 'M[R]_n * 'rV[R]_n.
Hypothesis cholP : chol_spec chol.
Hypothesis eighP : eigh_spec eigh.
Variables (log : R -> R) (Y : Type) (a b : R).
Variables (K : R -> (R -> R) -> R) (g : Y -> R -> R) (cond : R -> nat -> R) (st : bool).
Local Notation ap := (approx a b).
Local Notation law := (is_law (itv a b) ap).
Local Notation quad := (quad chol eigh).
Hypothesis KP : forall x, itv a b x -> law (K x).
Hypothesis Knd : forall x, itv a b x -> nondegenerate (K x).
Hypothesis feller : forall f, ap f -> ap (fun x => K x f).
Hypothesis condE : forall x k, itv a b x -> cond x k = K x (fun z => z ^+ k).
Hypothesis gA : forall y, ap (g y).
Hypothesis gpos : forall y, exists2 d, 0 < d & forall x, itv a b x -> d <= g y x.
Local Notation predict := (rms_predict chol eigh cond st).
Local Notation update := (rms_update chol eigh g st).
Local Notation body := (rms_body chol eigh log cond g st).

(* rms are the first 2n moments of the law P *)
Definition inv n (rms : seq R) (P : (R -> R) -> R) : Prop :=
  [/\ size rms = n.*2, law P, has_moments P 0 1 rms n.*2 & admissible (nth 0 rms) n].
(* the quadrature law *)
Definition mu (rms : seq R) : (R -> R) -> R := fun f => ex (quad rms 0 1 st) f.

Lemma inv_size n rms P : (0 < n)%N -> inv n rms P -> (1 < size rms)%N /\ (size rms)./2 = n.
Proof. by move=> n0 [-> _ _ _]; rewrite doubleK; split=> //; case: n n0. Qed.

Lemma mu_nodes n rms P : (0 < n)%N -> inv n rms P ->
  [/\ size (quad rms 0 1 st).1 = n, size (quad rms 0 1 st).2 = n, all (fun w => 0 < w) (quad rms 0 1 st).1,
      uniq (quad rms 0 1 st).2 & all (itv a b) (quad rms 0 1 st).2].
Proof.
move=> n0 hi; have [s1 s2] := inv_size n0 hi; have [s3 hP hm ha] := hi.
rewrite -s2 in ha hm.
have hq := quadP chol eigh 0 1 st s1; move: hq; case: (Filter1DModel.quad _ _ _ _ _ _) => ws xs hq /=.
have [h1 h2 h3] := quadrature_sizes hq; have [h4 h5 h6] := quadrature_strict cholP eighP (oner_neq0 _) ha hq.
rewrite h2 h3 s2; split=> //; apply/allP => x hx; apply/andP; split.
  by apply: (nodes_lower cholP eighP hP (oner_neq0 _) ha hm hq) hx => z /andP [].
by apply: (nodes_upper cholP eighP hP (oner_neq0 _) ha hm hq) hx => z /andP [].
Qed.

Lemma mu_law n rms P : (0 < n)%N -> inv n rms P -> law (mu rms).
Proof.
move=> n0 hi; have [h1 h2 h3 h4 h5] := mu_nodes n0 hi; have [s1 s2] := inv_size n0 hi.
have [s3 hP hm ha] := hi; rewrite -s2 in ha hm.
apply: discrete_law => //; first by rewrite h1 h2.
  by apply/allP => w hw; apply/ltW/(allP h3).
have hq := quadP chol eigh 0 1 st s1; move: hq; case: (Filter1DModel.quad _ _ _ _ _ _) => ws xs hq /=.
by have [_ _ ->] := quadrature_weights cholP eighP ha hq.
Qed.

Lemma mu_error n rms P f (p : {poly R}) e : (0 < n)%N -> inv n rms P -> ap f -> (size p <= n.*2)%N ->
  (forall x, a <= x <= b -> `|f x - p.[x]| <= e) -> `|mu rms f - P f| <= e *+ 2.
Proof.
move=> n0 hi hf sp h; have [h1 h2 h3 h4 h5] := mu_nodes n0 hi; have [s1 s2] := inv_size n0 hi.
have [s3 hP hm ha] := hi; rewrite -s2 in ha hm sp.
have hq := quadP chol eigh 0 1 st s1; move: hq h5; rewrite /mu.
case: (Filter1DModel.quad _ _ _ _ _ _) => ws xs hq /= h5.
apply: (quad_error cholP eighP hP (oner_neq0 _) ha hm hq hf sp) => x /orP [hx|hx]; apply: h => //.
exact: (allP h5).
Qed.

Lemma mom_raw (P : (R -> R) -> R) k : law P -> P (fun x => ((x - 0) / 1) ^+ k) = P (fun x => x ^+ k).
Proof.
move=> hP; have e x : itv a b x -> x ^+ k = ((x - 0) / 1) ^+ k by rewrite subr0 divr1.
by rewrite (law_eq hP (approx_pow a b k) e).
Qed.

Lemma nondeg_admissible n rms P : size rms = n.*2 -> law P -> has_moments P 0 1 rms n.*2 ->
  nondegenerate P -> admissible (nth 0 rms) n.
Proof.
move=> sr hP hm hn p p0 sp.
have s2 : (size (p * p)%R <= n.*2)%N.
  by rewrite (leq_trans (size_mul_leq _ _)) //; move: sp; move: (size p) => u; lia.
have [d <-] := law_horner hP (oner_neq0 _) hm s2.
have e x : itv a b x -> (p * p).[(x - 0) / 1] = p.[x] ^+ 2 by rewrite subr0 divr1 hornerM expr2.
by rewrite (law_eq hP d e); exact: hn.
Qed.

Lemma exin (wx : seq R * seq R) f h : all (itv a b) wx.2 -> (forall x, itv a b x -> f x = h x) -> ex wx f = ex wx h.
Proof. by move=> hx e; apply: expect_eqin => x /(allP hx) /e. Qed.

Lemma predict_inv n rms P : (0 < n)%N -> inv n rms P -> inv n (predict rms) (bayes_predict K (mu rms)).
Proof.
move=> n0 hi; have hmu := mu_law n0 hi; have [h1 h2 h3 h4 h5] := mu_nodes n0 hi.
have [s3 hP hm ha] := hi.
have sz : size (predict rms) = n.*2 by rewrite size_rms_predict s3.
have hlaw : law (bayes_predict K (mu rms)).
  split.
  - exact: approx_poly. - exact: approx_mod. - exact: approx_comb.
  - move=> c f h hf hh; rewrite /bayes_predict -(law_lin hmu c); try exact: feller.
    by apply: exin h5 _ => x hx; rewrite (law_lin (KP hx)).
  - move=> f h hf hh hle; apply: (law_mono hmu (feller hf) (feller hh)) => x hx.
    exact: (law_mono (KP hx)).
  - rewrite /bayes_predict -[RHS](law_one hmu); apply: exin h5 _ => x hx; exact: (law_one (KP hx)).
have hmom : has_moments (bayes_predict K (mu rms)) 0 1 (predict rms) n.*2.
  move=> k hk; rewrite mom_raw // nth_moments_of ?s3 //; apply: exin h5 _ => x hx.
  by rewrite condE.
split=> //; apply: (nondeg_admissible sz hlaw hmom) => p p0.
apply: expect_gt0; rewrite ?h1 ?h2 // => x hx; apply: Knd => //; exact: (allP h5).
Qed.

Lemma mu_pos n rms P y : (0 < n)%N -> inv n rms P -> 0 < mu rms (g y).
Proof.
move=> n0 hi; have [h1 h2 h3 h4 h5] := mu_nodes n0 hi; have [d d0 hd] := gpos y.
apply: expect_gt0; rewrite ?h1 ?h2 // => x hx; apply: (lt_le_trans d0); apply: hd; exact: (allP h5).
Qed.

Lemma update_inv n rms P y : (0 < n)%N -> inv n rms P -> inv n (update y rms).1 (bayes_update g y (mu rms)).
Proof.
move=> n0 hi; have hmu := mu_law n0 hi; have [h1 h2 h3 h4 h5] := mu_nodes n0 hi.
have [s3 hP hm ha] := hi; have g0 := mu_pos y n0 hi.
have sz : size (update y rms).1 = n.*2 by rewrite size_rms_update s3.
have gn : forall x, itv a b x -> 0 < g y x.
  by have [d d0 hd] := gpos y; move=> x hx; exact: lt_le_trans (hd x hx).
have hlaw : law (bayes_update g y (mu rms)).
  split.
  - exact: approx_poly. - exact: approx_mod. - exact: approx_comb.
  - move=> c f h hf hh; rewrite /bayes_update mulrA -mulrDl; congr (_ / _).
    rewrite -(law_lin hmu c); try exact: approx_mul.
    by apply: exin h5 _ => x hx; rewrite mulrDl mulrA.
  - move=> f h hf hh hle; rewrite ler_pdivr_mulr // divfK ?gt_eqF //.
    apply: (law_mono hmu (approx_mul hf (gA y)) (approx_mul hh (gA y))) => x hx.
    by rewrite ler_wpmul2r ?hle // ltW // gn.
  - rewrite /bayes_update (_ : mu rms _ = mu rms (g y)) ?divff ?gt_eqF //.
    by apply: exin h5 _ => x hx; rewrite mul1r.
have hmom : has_moments (bayes_update g y (mu rms)) 0 1 (update y rms).1 n.*2.
  by move=> k hk; rewrite mom_raw // nth_divm nth_moments_of ?s3.
split=> // p p0 sp.
have s2 : (size (p * p)%R <= n.*2)%N.
  by rewrite (leq_trans (size_mul_leq _ _)) //; move: sp; move: (size p) => u; lia.
have [d <-] := law_horner hlaw (oner_neq0 _) hmom s2.
have e x : itv a b x -> (p * p).[(x - 0) / 1] = p.[x] ^+ 2 by rewrite subr0 divr1 hornerM expr2.
rewrite (law_eq hlaw d e) divr_gt0 //.
have := discrete_admissible (ws := (quad rms 0 1 st).1) _ h4 h3 p0; rewrite h1 h2 => /(_ erefl sp).
rewrite mom_discrete lt_def => /andP [hn _]; 
have ge q : q \in zip (quad rms 0 1 st).1 (quad rms 0 1 st).2 -> 0 <= q.1 * (p.[q.2] ^+ 2 * g y q.2).
  move=> /zip_mem [q1 q2]; apply: mulr_ge0; first by rewrite ltW ?(allP h3).
  by apply: mulr_ge0; [exact: sqr_ge0|rewrite ltW // gn // (allP h5)].
rewrite lt_def; apply/andP; split; last by rewrite /mu /ex expect_sumE big_seq sumr_ge0.
apply: contraNneq hn; rewrite /mu /ex expect_sumE => h0.
move/eqP: h0; rewrite big_seq psumr_eq0 // => /allP h0.
rewrite big_seq big1 // => q hq; have := h0 q hq; rewrite hq /= !mulf_eq0 => hh.
have [q1 q2] := zip_mem hq; rewrite hornerM -expr2.
move: hh; rewrite (gt_eqF (gn _ (allP h5 _ q2))) orbF orbb => /orP [/eqP ->|/eqP ->]; by rewrite ?mul0r // expr0n mulr0.
Qed.

(* convergence of the laws on continuous functions *)
Definition lconv (P : nat -> (R -> R) -> R) (pi : (R -> R) -> R) : Prop :=
  forall f, ap f -> converges (fun n => P n f) (pi f).

Lemma mu_conv (rms : nat -> seq R) P pi : (forall n, (0 < n)%N -> inv n (rms n) (P n)) -> lconv P pi ->
  lconv (fun n => mu (rms n)) pi.
Proof.
move=> hi hc f hf; apply: conv_close (hc f hf) => e e0.
have e2 : 0 < e / 2%:R by rewrite divr_gt0 // ltr0n.
have [p hp] := hf _ e2; exists (maxn 1 (size p)) => n; rewrite geq_max => /andP [n0 sp].
have sp2 : (size p <= n.*2)%N by rewrite (leq_trans sp) // -addnn leq_addr.
have := mu_error n0 (hi n n0) hf sp2 hp.
by have -> : e / 2%:R *+ 2 = e by rewrite mulr2n -splitr.
Qed.

Lemma predict_conv (rms : nat -> seq R) P pi : (forall n, (0 < n)%N -> inv n (rms n) (P n)) -> lconv P pi ->
  lconv (fun n => bayes_predict K (mu (rms n))) (bayes_predict K pi).
Proof. by move=> hi hc f hf; apply: (mu_conv hi hc); exact: feller. Qed.

Lemma update_conv (rms : nat -> seq R) P pi y : (forall n, (0 < n)%N -> inv n (rms n) (P n)) -> lconv P pi ->
  0 < pi (g y) -> lconv (fun n => bayes_update g y (mu (rms n))) (bayes_update g y pi).
Proof.
move=> hi hc p0 f hf; apply: conv_div => //; last exact: (mu_conv hi hc).
by apply: (mu_conv hi hc); exact: approx_mul.
Qed.

Lemma exact_law P : law P -> law (bayes_predict K P).
Proof.
move=> hP; split.
- exact: approx_poly. - exact: approx_mod. - exact: approx_comb.
- move=> c f h hf hh; rewrite /bayes_predict -(law_lin hP c); try exact: feller.
  by apply: (law_eq hP) => [|x hx]; [apply/feller/approx_comb|rewrite (law_lin (KP hx))].
- move=> f h hf hh hle; apply: (law_mono hP (feller hf) (feller hh)) => x hx.
  exact: (law_mono (KP hx)).
- rewrite /bayes_predict -[RHS](law_one hP); apply: (law_eq hP) => [|x hx]; last exact: (law_one (KP hx)).
  by apply/feller/(law_const hP).
Qed.
Lemma exact_pos P y : law P -> 0 < P (g y).
Proof.
move=> hP; have [d d0 hd] := gpos y; apply: (lt_le_trans d0).
rewrite -[X in X <= _](law_constE hP d); exact: (law_mono hP (law_const hP d) (gA y) hd).
Qed.
Lemma exact_update P y : law P -> law (bayes_update g y P).
Proof.
move=> hP; have g0 := exact_pos y hP.
have gn : forall x, itv a b x -> 0 <= g y x.
  by have [d d0 hd] := gpos y; move=> x hx; apply: le_trans (hd x hx); exact: ltW.
split.
- exact: approx_poly. - exact: approx_mod. - exact: approx_comb.
- move=> c f h hf hh; rewrite /bayes_update mulrA -mulrDl; congr (_ / _).
  rewrite -(law_lin hP c); try exact: approx_mul.
  apply: (law_eq hP) => [|x hx]; last by rewrite mulrDl mulrA.
  by apply: approx_mul => //; exact: approx_comb.
- move=> f h hf hh hle; rewrite ler_pdivr_mulr // divfK ?gt_eqF //.
  apply: (law_mono hP (approx_mul hf (gA y)) (approx_mul hh (gA y))) => x hx.
  by rewrite ler_wpmul2r ?hle ?gn.
- rewrite /bayes_update (_ : P _ = P (g y)) ?divff ?gt_eqF //.
  apply: (law_eq hP) => [|x hx]; last by rewrite mul1r.
  by apply: approx_mul => //; exact: (law_const hP).
Qed.

(* log is continuous at the positive numbers *)
Hypothesis log_cont : forall x e, 0 < x -> 0 < e ->
  exists2 d, 0 < d & forall z, 0 < z -> `|z - x| <= d -> `|log z - log x| <= e.

Lemma log_conv u l : 0 < l -> (forall n, (0 < n)%N -> 0 < u n) -> converges u l ->
  converges (fun n => log (u n)) (log l).
Proof.
move=> l0 hu hc e e0; have [d d0 hd] := log_cont l0 e0.
have [n0 h] := hc d d0; exists (maxn 1 n0) => n; rewrite geq_max => /andP [/hu un /h hn].
exact: hd.
Qed.

Lemma run_conv ys (rms : nat -> seq R) P pi nell l0 :
  (forall n, (0 < n)%N -> inv n (rms n) (P n)) -> law pi -> lconv P pi -> converges nell l0 ->
  (forall t k, (t < size ys)%N ->
    converges (fun n => (nth [::] (scan body (rms n, nell n) ys).2 t)`_k)
      (nth (fun=> 0) (bayes_posteriors K g pi ys) t (fun x => x ^+ k))) /\
  converges (fun n => (scan body (rms n, nell n) ys).1.2)
    (l0 - \sum_(x <- bayes_likelihoods K g pi ys) log x).
Proof.
elim: ys rms P pi nell l0 => [|y ys IH] rms P pi nell l0 hi hpi hc hn.
  by split=> //=; rewrite big_nil subr0.
pose rp n := predict (rms n); pose Pp n := bayes_predict K (mu (rms n)).
have ip n : (0 < n)%N -> inv n (rp n) (Pp n) by move=> n0; exact: (predict_inv n0 (hi n n0)).
have cp : lconv Pp (bayes_predict K pi) := predict_conv hi hc.
have lp := exact_law hpi; have gp := exact_pos y lp.
pose ru n := (update y (rp n)).1; pose Pu n := bayes_update g y (mu (rp n)).
have iu n : (0 < n)%N -> inv n (ru n) (Pu n) by move=> n0; exact: (update_inv y n0 (ip n n0)).
have cu : lconv Pu (bayes_update g y (bayes_predict K pi)) := update_conv ip cp gp.
have lu := exact_update y lp.
have cl : converges (fun n => nell n - log (update y (rp n)).2) (l0 - log (bayes_predict K pi (g y))).
  apply: conv_add => //; apply: conv_opp; apply: log_conv => //; last exact: (mu_conv ip cp).
  by move=> n n0; exact: (mu_pos y n0 (ip n n0)).
have [h1 h2] := IH _ _ _ _ _ iu lu cu cl.
have eq n : scan body (rms n, nell n) (y :: ys) =
  ((scan body (ru n, nell n - log (update y (rp n)).2) ys).1,
   ru n :: (scan body (ru n, nell n - log (update y (rp n)).2) ys).2).
  by rewrite scan_cons rms_bodyE /=.
split.
  move=> [|t] k ht; last first.
    apply: (conv_ext (u := fun n => (nth [::] (scan body (ru n, nell n - log (update y (rp n)).2) ys).2 t)`_k)).
      by exists 0%N => n _; rewrite eq.
    exact: h1.
  apply: (conv_ext (u := fun n => Pu n (fun x => x ^+ k))); last exact: (cu _ (approx_pow a b k)).
  exists k.+1 => n hk; have n0 : (0 < n)%N by apply: leq_trans hk.
  have [s3 hP hm _] := iu n n0; rewrite eq /= -hm ?mom_raw //.
  by apply: (leq_trans hk); rewrite -addnn leq_addr.
apply: (conv_ext (u := fun n => (scan body (ru n, nell n - log (update y (rp n)).2) ys).1.2)).
  by exists 0%N => n _; rewrite eq.
by rewrite /= big_cons opprD addrA.
Qed.
End Conv.
