(* Strict positivity of the weights, distinctness of the nodes, and exactness of the rule
   for measures with n atoms. *)
From mathcomp Require Import all_ssreflect all_algebra.
From mathcomp Require Import ring zify.
From Verif Require Import Prelude LinAlgSpec SpectralProofs LdlModel LdlProofs QuadModel QuadSpec QuadProofs QuadMain.
Set Implicit Arguments.
Unset Strict Implicit.
Unset Printing Implicit Defensive.
Import Order.TTheory GRing.Theory Num.Theory.
Local Open Scope ring_scope.

Section Strict.
Variable R : rcfType.
Implicit Types (ws xs ms zs : seq R) (p : {poly R}).

Definition rootpoly (zs : seq R) : {poly R} := \prod_(z <- zs) ('X - z%:P).
Lemma rootpoly_size zs : size (rootpoly zs) = (size zs).+1.
Proof. exact: size_prod_XsubC. Qed.
Lemma rootpoly_neq0 zs : rootpoly zs != 0.
Proof. by rewrite -size_poly_eq0 rootpoly_size. Qed.
Lemma rootpoly_root zs x : (rootpoly zs).[x] == 0 = (x \in zs).
Proof. by rewrite -rootE root_prod_XsubC. Qed.

(* Lagrange interpolation *)
Lemma interpolate zs (f : R -> R) : uniq zs ->
  exists2 p : {poly R}, (size p <= size zs)%N & forall z, z \in zs -> p.[z] = f z.
Proof.
elim: zs => [|z zs IH] /=; first by exists 0; rewrite ?size_poly0.
case/andP=> hz /IH [p sp hp].
have h0 : (rootpoly zs).[z] != 0 by rewrite rootpoly_root.
exists (p + ((f z - p.[z]) / (rootpoly zs).[z]) *: rootpoly zs).
  apply: (leq_trans (size_add _ _)); rewrite geq_max (leq_trans sp) //=.
  by apply: (leq_trans (size_scale_leq _ _)); rewrite rootpoly_size.
move=> x; rewrite inE hornerD hornerZ => /orP [/eqP ->|hx]; first by rewrite divfK // addrC subrK.
by move: (hx); rewrite -rootpoly_root => /eqP ->; rewrite mulr0 addr0 hp.
Qed.

Lemma exp_zero ws xs (f : R -> R) :
  (forall q, q \in zip ws xs -> q.1 != 0 -> f q.2 = 0) -> expect ws xs f = 0.
Proof.
move=> h; rewrite expect_sumE big_seq big1 // => q hq.
by case: (eqVneq q.1 0) => [->|/(h _ hq) ->]; rewrite ?mul0r ?mulr0.
Qed.

(* a rule with n nodes that is strictly positive on squares of degree < n *)
Lemma strict_rule ws xs (g : R -> R) n : size ws = n -> size xs = n ->
  (forall p : {poly R}, p != 0 -> (size p <= n)%N -> expect ws xs (fun x => p.[g x] ^+ 2) != 0) ->
  all (fun w => w != 0) ws && uniq xs.
Proof.
move=> hw hx h; pose s := [seq g q.2 | q <- zip ws xs & q.1 != 0].
have hs : (size s <= n)%N.
  rewrite size_map size_filter; apply: (leq_trans (count_size _ _)).
  by rewrite size_zip hw hx minnn.
have hn : (n <= size (undup s))%N.
  rewrite leqNgt; apply/negP => hlt.
  have := h (rootpoly (undup s)) (rootpoly_neq0 _); rewrite rootpoly_size => /(_ hlt) /eqP; apply.
  apply: exp_zero => q hq q0; apply/eqP; rewrite expf_eq0 /= rootpoly_root mem_undup.
  by apply: map_f; rewrite mem_filter q0.
have hsn : size s = n by apply/eqP; rewrite eqn_leq hs (leq_trans hn) // size_undup.
have us : uniq s.
  by apply: contraT; rewrite -ltn_size_undup hsn ltnNge hn.
have hall : all (fun q => q.1 != 0) (zip ws xs).
  rewrite all_count; apply/eqP; rewrite size_zip hw hx minnn -[in RHS]hsn /s size_map size_filter //.
have -> /= : all (fun w => w != 0) ws.
  apply/allP => w hw'; have [i hi <-] := (nthP 0 hw').
  have hz : nth (0, 0) (zip ws xs) i \in zip ws xs by rewrite mem_nth // size_zip hx hw minnn -hw.
  by have := allP hall _ hz; rewrite nth_zip ?hw ?hx.
move: us; rewrite /s (all_filterP hall) (map_comp g snd) => /map_uniq.
by rewrite -/(unzip2 _) unzip2_zip // hw hx.
Qed.

Variable chol : forall n, 'M[R]_n -> 'M[R]_n.
Variable eigh : forall n, 'M[R]_n -> 'M[R]_n * 'rV[R]_n.
Hypothesis cholP : chol_spec chol.
Hypothesis eighP : eigh_spec eigh.

Lemma adm0 (m : nat -> R) n : (0 < n)%N -> admissible m n -> 0 < m 0%N.
Proof.
move=> hn /(_ 1); rewrite oner_neq0 size_poly1 mulr1 -(expr0 'X) momXn.
exact.
Qed.

Lemma quadrature_sizes ms mean scale ldl ws xs :
  moment_quadrature chol eigh ms mean scale ldl = Some (ws, xs) ->
  [/\ (0 < (size ms)./2)%N, size ws = (size ms)./2 & size xs = (size ms)./2].
Proof.
case: (ltnP 1 (size ms)) => h; last by rewrite quadrature_undefined.
have [ws' [xs' e [h1 h2]]] := quadrature_defined chol eigh mean scale ldl h.
by rewrite e => -[<- <-]; split=> //; have [n ->] := half_gt0 h.
Qed.

Lemma quadrature_strict ms mean scale ldl ws xs : scale != 0 ->
  admissible (nth 0 ms) (size ms)./2 ->
  moment_quadrature chol eigh ms mean scale ldl = Some (ws, xs) ->
  [/\ size ws = size xs, all (fun w => 0 < w) ws & uniq xs].
Proof.
move=> s0 ha hq; have [hn h1 h2] := quadrature_sizes hq.
have [h3 hpos _] := quadrature_weights cholP eighP ha hq.
have /andP [ha' hu] : all (fun w => w != 0) ws && uniq xs.
  apply: (strict_rule (g := fun x => (x - mean) / scale) h1 h2) => p p0 sp.
  have e : expect ws xs (fun x => p.[(x - mean) / scale] ^+ 2) = mom_functional (nth 0 ms) (p * p) / ms`_0.
    rewrite -(quadrature_poly cholP eighP s0 ha hq).
      by apply: expect_ext => x; rewrite hornerM expr2.
    by rewrite (leq_trans (size_mul_leq _ _)) //; lia.
  by rewrite e gt_eqF // divr_gt0 ?ha // (adm0 hn ha).
split=> //; apply/allP => w hw; rewrite lt_def; by rewrite (allP ha' _ hw) (allP hpos _ hw).
Qed.

(* the n-node rule of a measure with n atoms is the measure *)
Lemma quadrature_discrete ms (as_ zs : seq R) ldl ws xs :
  size as_ = size zs -> (size ms)./2 = size zs -> uniq zs -> all (fun w => 0 < w) as_ ->
  (forall k, (k < (size ms)./2.*2)%N -> ms`_k = discrete_moment as_ zs k) -> jsum as_ = 1 ->
  moment_quadrature chol eigh ms 0 1 ldl = Some (ws, xs) ->
  forall f, expect ws xs f = expect as_ zs f.
Proof.
move=> hsz hn hu hpos hm hsum hq f.
have [n0 h1 h2] := quadrature_sizes hq.
have ha : admissible (nth 0 ms) (size ms)./2.
  move=> p p0 sp; have := discrete_admissible hsz hu hpos p0; rewrite -hn => /(_ sp).
  rewrite (@mom_eq _ (discrete_moment as_ zs) (nth 0 ms)) // => k hk; rewrite hm //.
  by apply: (leq_trans hk); rewrite (leq_trans (size_mul_leq _ _)) //; lia.
have hp0 : ms`_0 = 1.
  rewrite hm ?double_gt0 // -hsum jsumE /discrete_moment.
  rewrite -[in RHS](unzip1_zip (eq_leq hsz)) big_map; apply: eq_bigr => q _.
  by rewrite expr0 mulr1.
have hpoly p : (size p <= (size ms)./2.*2)%N -> expect ws xs (fun x => p.[x]) = expect as_ zs (fun x => p.[x]).
  move=> sp; have := quadrature_poly cholP eighP (oner_neq0 _) ha hq sp; rewrite hp0 divr1.
  rewrite (@mom_eq _ _ (discrete_moment as_ zs)); last by move=> k hk; rewrite hm // (leq_trans hk).
  rewrite mom_discrete -expect_sumE => <-; apply: expect_ext => x; by rewrite subr0 divr1.
have [_ wpos ux] := quadrature_strict (oner_neq0 _) ha hq.
(* every node is an atom *)
have hin x : x \in xs -> x \in zs.
  move=> hx; rewrite -rootpoly_root; apply/eqP.
  pose r := rootpoly (rem x xs).
  have sr : size r = (size ms)./2 by rewrite rootpoly_size size_rem // h2 prednK.
  have hsz2 : (size (rootpoly zs * r)%R <= (size ms)./2.*2)%N.
    by rewrite (leq_trans (size_mul_leq _ _)) // rootpoly_size sr -hn -addnn.
  have := hpoly _ hsz2.
  rewrite [RHS]exp_zero; last first.
    move=> q /zip_mem [_ hq2] _; apply/eqP; rewrite hornerM mulf_eq0 rootpoly_root hq2 //.
  have [q0 hq0 hq0x] := zip_mem2 (etrans h1 (esym h2)) hx.
  have uz : uniq (zip ws xs).
    by apply: (@map_uniq _ _ snd); rewrite -/(unzip2 _) unzip2_zip // h1 h2.
  rewrite expect_sumE (big_rem q0) //= big_seq big1 ?addr0; last first.
    move=> q1 hq1; have hq1' := mem_rem hq1; have [_ hx1] := zip_mem hq1'.
    apply/eqP; rewrite mulf_eq0 hornerM mulf_eq0 [r.[_] == 0]rootpoly_root mem_rem_uniq // inE /= hx1 andbT.
    case: (eqVneq q1.2 x) => [e|_]; last by rewrite !orbT.
    exfalso; move: hq1; rewrite mem_rem_uniq // inE => /andP [/negP h _]; apply: h.
    have u2 : uniq [seq q.2 | q <- zip ws xs] by rewrite -/(unzip2 _) unzip2_zip // h1 h2.
    apply/eqP; have /(nthP (0, 0)) [i hi ei] := hq1'; have /(nthP (0, 0)) [j hj ej] := hq0.
    rewrite -ei -ej; congr nth; apply/eqP.
    rewrite -(nth_uniq 0 _ _ u2) ?size_map // !(nth_map (0, 0)) // ei ej e hq0x eqxx //.
  rewrite hq0x hornerM => /eqP; rewrite !mulf_eq0.
  have -> : (q0.1 == 0) = false.
    by apply: gt_eqF; apply: (allP wpos); case: (zip_mem hq0).
  have -> : (r.[x] == 0) = false by rewrite rootpoly_root mem_rem_uniq // inE eqxx.
  by rewrite /= orbF => /eqP.
have [p sp hp] := interpolate f hu.
transitivity (expect ws xs (fun x => p.[x])).
  rewrite !expect_sumE big_seq [RHS]big_seq; apply: eq_bigr => q /zip_mem [_ hq2].
  by rewrite hp // hin.
rewrite hpoly; last by apply: (leq_trans sp); rewrite hn; lia.
rewrite !expect_sumE big_seq [RHS]big_seq; apply: eq_bigr => q /zip_mem [_ hq2].
by rewrite hp.
Qed.
End Strict.
