(* Moment quadratures of probability laws: exactness, the Chebyshev-Markov-Stieltjes
   inequalities, the nodes lie in the convex hull of the support, and the error bound by the
   best uniform approximation. *)
From mathcomp Require Import all_ssreflect all_algebra.
From mathcomp Require Import ring zify.
From Verif Require Import Prelude LinAlgSpec QuadModel QuadSpec QuadProofs QuadMain QuadStrict QuadStieltjes LawSpec.
Set Implicit Arguments.
Unset Strict Implicit.
Unset Printing Implicit Defensive.
Import Order.TTheory GRing.Theory Num.Theory.
Local Open Scope ring_scope.

Lemma size_arith n : (0 < n)%N -> ((2 + (n + n).-1).-1 <= n.*2)%N.
Proof. lia. Qed.

Section Laws.
Variable R : rcfType.
Implicit Types (S : R -> bool) (D : (R -> R) -> Prop) (L : (R -> R) -> R) (p q : {poly R}) (ws xs ms : seq R).

Section Basic.
Variables (S : R -> bool) (D : (R -> R) -> Prop) (L : (R -> R) -> R).
Hypothesis hL : is_law S D L.

Lemma law_eq f g : D f -> (forall x, S x -> f x = g x) -> L f = L g.
Proof.
move=> df h; have dg := law_mod hL df h.
by apply/eqP; rewrite eq_le !(law_mono hL) // => x /h ->.
Qed.
Lemma law_const c : D (fun=> c).
Proof. by apply: (law_mod hL (law_poly hL c%:P)) => x _; rewrite hornerC. Qed.
Lemma law_zero : L (fun=> 0) = 0.
Proof.
have := law_lin hL 1 (law_const 0) (law_const 0).
have -> : L (fun x => 1 * 0 + 0) = L (fun=> 0).
  by apply: law_eq; [exact: law_const|move=> x _; rewrite mulr0 addr0].
by rewrite mul1r => /eqP; rewrite -subr_eq subrr eq_sym => /eqP.
Qed.
Lemma law_scale c f : D f -> D (fun x => c * f x) /\ L (fun x => c * f x) = c * L f.
Proof.
move=> df; have e x : c * f x + 0 = c * f x by rewrite addr0.
have d0 := law_comb hL c df (law_const 0).
have d : D (fun x => c * f x) by apply: (law_mod hL d0) => x _.
split=> //; rewrite -[RHS]addr0 -[X in _ + X]law_zero -(law_lin hL) //; last exact: law_const.
by apply: law_eq => // x _; rewrite e.
Qed.
Lemma law_add f g : D f -> D g -> D (fun x => f x + g x) /\ L (fun x => f x + g x) = L f + L g.
Proof.
move=> df dg; have d0 := law_comb hL 1 df dg.
have e x : S x -> 1 * f x + g x = f x + g x by rewrite mul1r.
split; first exact: (law_mod hL d0).
by rewrite -[L f]mul1r -(law_lin hL) //; apply/esym/law_eq.
Qed.
Lemma law_sub f g : D f -> D g -> D (fun x => f x - g x) /\ L (fun x => f x - g x) = L f - L g.
Proof.
move=> df dg; have [d1 e1] := law_scale (-1) dg; have [d2 e2] := law_add df d1.
have e x : S x -> f x + -1 * g x = f x - g x by rewrite mulN1r.
split; first exact: (law_mod hL d2).
by rewrite -(law_eq d2 e) e2 e1 mulN1r.
Qed.
Lemma law_constE c : L (fun=> c) = c.
Proof.
have [_] := law_scale c (law_const 1); rewrite (law_one hL) mulr1 => {2}<-.
by apply: law_eq => [|x _]; rewrite ?mulr1 //; exact: law_const.
Qed.

Lemma law_sum I (r : seq I) (c : I -> R) (F : I -> R -> R) : (forall i, D (F i)) ->
  D (fun x => \sum_(i <- r) c i * F i x) /\
  L (fun x => \sum_(i <- r) c i * F i x) = \sum_(i <- r) c i * L (F i).
Proof.
move=> dF; elim: r => [|i r [d e]].
  have h x : S x -> 0 = \sum_(i <- [::]) c i * F i x by rewrite big_nil.
  split; first exact: (law_mod hL (law_const 0) h).
  by rewrite -(law_eq (law_const 0) h) big_nil law_zero.
have h x : S x -> c i * F i x + \sum_(j <- r) c j * F j x = \sum_(j <- i :: r) c j * F j x by rewrite big_cons.
have d' := law_comb hL (c i) (dF i) d.
split; first exact: (law_mod hL d' h).
by rewrite -(law_eq d' h) (law_lin hL) // e big_cons.
Qed.

Lemma law_abs f e : D f -> (forall x, S x -> `|f x| <= e) -> `|L f| <= e.
Proof.
move=> df h; rewrite ler_norml -[X in X <= _](law_constE (- e)) -[X in _ && (_ <= X)](law_constE e).
have hh x : S x -> - e <= f x <= e by move=> /h; rewrite ler_norml.
by rewrite !(law_mono hL) //; try exact: law_const; move=> x /hh /andP [].
Qed.

(* the polynomial functional of the moments *)
Lemma law_horner mean scale ms n p : scale != 0 -> has_moments L mean scale ms n -> (size p <= n)%N ->
  D (fun x => p.[(x - mean) / scale]) /\ L (fun x => p.[(x - mean) / scale]) = mom_functional (nth 0 ms) p.
Proof.
move=> s0 hm sp.
have dX k : D (fun x => ((x - mean) / scale) ^+ k).
  apply: (law_mod hL (law_poly hL ((scale^-1 *: ('X - mean%:P)) ^+ k))) => x _.
  by rewrite horner_exp hornerZ hornerXsubC mulrC.
have [d e] := law_sum (index_enum (ordinal_finType (size p))) (fun k => p`_k) (fun k => dX k).
have h x : S x -> \sum_(k < size p) p`_k * ((x - mean) / scale) ^+ k = p.[(x - mean) / scale].
  by rewrite horner_coef.
split; first exact: (law_mod hL d h).
rewrite -(law_eq d h) e /mom_functional; apply: eq_bigr => k _; congr (_ * _).
by apply: hm; apply: leq_trans sp.
Qed.

Lemma law_moments_poly mean scale p : scale != 0 -> D (fun x => p.[(x - mean) / scale]).
Proof.
move=> s0; apply: (law_mod hL (law_poly hL (p \Po (scale^-1 *: ('X - mean%:P))))) => x _.
by rewrite horner_comp hornerZ hornerXsubC mulrC.
Qed.
End Basic.

Section Quad.
Variable chol : forall n, 'M[R]_n -> 'M[R]_n.
Variable eigh : forall n, 'M[R]_n -> 'M[R]_n * 'rV[R]_n.
Hypothesis cholP : chol_spec chol.
Hypothesis eighP : eigh_spec eigh.
Variables (S : R -> bool) (D : (R -> R) -> Prop) (L : (R -> R) -> R).
Hypothesis hL : is_law S D L.
Variables (ms : seq R) (mean scale : R) (ldl : bool) (ws xs : seq R).
Hypothesis s0 : scale != 0.
Hypothesis ha : admissible (nth 0 ms) (size ms)./2.
Hypothesis hm : has_moments L mean scale ms (size ms)./2.*2.
Hypothesis hq : moment_quadrature chol eigh ms mean scale ldl = Some (ws, xs).
Let n := (size ms)./2.

Lemma quad_n : (0 < n)%N /\ size ws = n /\ size xs = n.
Proof. by have [? ? ?] := quadrature_sizes hq. Qed.
Lemma quad_ms0 : ms`_0 = 1.
Proof.
have [n0 _] := quad_n; rewrite -hm ?double_gt0 //.
by rewrite -(law_constE hL 1); apply/esym; apply: (law_eq hL) => [|x _]; rewrite ?expr0 //; exact: (law_const hL).
Qed.

Lemma law_exact p : (size p <= n.*2)%N -> expect ws xs (fun x => p.[x]) = L (fun x => p.[x]).
Proof.
move=> sp; pose q := p \Po ('X * scale%:P + mean%:P).
have sl : size ('X * scale%:P + mean%:P) = 2%N.
  by rewrite size_addl size_XmulC // (leq_ltn_trans (size_polyC_leq1 _)).
have sq : (size q <= n.*2)%N by rewrite size_comp_poly2.
have e x : q.[(x - mean) / scale] = p.[x].
  by rewrite horner_comp !hornerE divfK // subrK.
have [d1 e1] := law_horner hL s0 hm sq.
rewrite -(law_eq hL d1 (fun x _ => e x)) e1.
have := quadrature_poly cholP eighP s0 ha hq sq; rewrite quad_ms0 divr1 => <-.
by apply: expect_ext => x; rewrite e.
Qed.

Lemma quad_strict : [/\ size ws = size xs, all (fun w => 0 < w) ws & uniq xs].
Proof. exact: (quadrature_strict cholP eighP s0 ha hq). Qed.
Lemma quad_sum1 : expect ws xs (fun=> 1) = 1.
Proof.
have [n0 _] := quad_n.
have e1 : expect ws xs (fun=> 1) = expect ws xs (fun x => (1 : {poly R}).[x]).
  by apply: expect_ext => x; rewrite hornerE.
rewrite e1 law_exact; last by rewrite size_poly1 (leq_trans n0) // -addnn leq_addr.
by rewrite -(law_constE hL 1); apply/esym; apply: (law_eq hL) => [|x _]; rewrite ?hornerE //; exact: (law_const hL).
Qed.

Lemma exp_le f g : (forall x, x \in xs -> f x <= g x) -> expect ws xs f <= expect ws xs g.
Proof.
have [e hp _] := quad_strict; move=> h; rewrite !expect_sumE big_seq [X in _ <= X]big_seq.
apply: ler_sum => q hq'; have [q1 q2] := zip_mem hq'.
by rewrite ler_wpmul2l ?h // ltW // (allP hp).
Qed.
Lemma exp_eqin f g : (forall x, x \in xs -> f x = g x) -> expect ws xs f = expect ws xs g.
Proof. by move=> h; apply/eqP; rewrite eq_le !exp_le // => x /h ->. Qed.

(* a polynomial above a function everywhere and equal to it at the nodes *)
Lemma majorant p f : (size p <= n.*2)%N -> D f -> (forall x, f x <= p.[x]) ->
  (forall x, x \in xs -> p.[x] = f x) -> L f <= expect ws xs f.
Proof.
move=> sp df h1 h2; rewrite -(exp_eqin h2) law_exact //.
by apply: (law_mono hL) => //; exact: (law_poly hL).
Qed.

Lemma split_size c : c \in xs -> (size [seq x <- xs | (x < c)%R] + size [seq x <- xs | (c < x)%R] = n.-1)%N.
Proof.
have [_ _ ux] := quad_strict; have [n0 [_ e]] := quad_n; move=> hc.
rewrite !size_filter -e.
have h s : (count (fun x => (x < c)%R) s + count (fun x => (c < x)%R) s + count_mem c s = size s)%N.
  by elim: s => //= x s <-; case: (ltgtP x c) => _ /=; lia.
have := h xs; rewrite count_uniq_mem // hc; move: (count _ _) (count _ _) (size xs) => u v w; lia.
Qed.

Lemma cdf_upper c : c \in xs -> D (fun x => ((x <= c)%R)%:R) ->
  L (fun x => ((x <= c)%R)%:R) <= expect ws xs (fun x => ((x <= c)%R)%:R).
Proof.
move=> hc dc; have [_ _ ux] := quad_strict; have [n0 [_ e]] := quad_n.
set lo := [seq x <- xs | x < c]; set hi := [seq x <- xs | c < x].
case: (eqVneq hi [::]) => [h0|hn].
  have -> : expect ws xs (fun x => ((x <= c)%R)%:R) = 1.
    rewrite -[RHS]quad_sum1; apply: exp_eqin => x hx; rewrite leNgt.
    case: ltP => // cx; have : x \in hi by rewrite mem_filter cx.
    by rewrite h0.
  rewrite -[X in _ <= X](law_constE hL 1); apply: (law_mono hL) => // [|x _]; first exact: (law_const hL).
  by case: (x <= c); rewrite ?lexx ?ler01.
have [||x|x|p [sp p1 pc p0 pm]] := @stieltjes_poly R lo c hi _ _ hn.
- by rewrite filter_uniq. - by rewrite filter_uniq.
- by rewrite mem_filter => /andP []. - by rewrite mem_filter => /andP [].
apply: (@majorant p) => // [|x hx].
  by apply: (leq_trans sp); rewrite split_size // -[in X in (_ <= X)%N](prednK n0) doubleS; lia.
case: (ltgtP x c) => [xc|cx|->]; rewrite ?pc //.
  by rewrite p1 // mem_filter xc.
by rewrite p0 // mem_filter cx.
Qed.

Lemma cdf_upper' c : c \in xs -> D (fun x => ((c <= x)%R)%:R) ->
  L (fun x => ((c <= x)%R)%:R) <= expect ws xs (fun x => ((c <= x)%R)%:R).
Proof.
move=> hc dc; have [_ _ ux] := quad_strict; have [n0 [_ e]] := quad_n.
set lo := [seq x <- xs | x < c]; set hi := [seq x <- xs | c < x].
case: (eqVneq lo [::]) => [h0|hn].
  have -> : expect ws xs (fun x => ((c <= x)%R)%:R) = 1.
    rewrite -[RHS]quad_sum1; apply: exp_eqin => x hx; rewrite leNgt.
    case: ltP => // cx; have : x \in lo by rewrite mem_filter cx.
    by rewrite h0.
  rewrite -[X in _ <= X](law_constE hL 1); apply: (law_mono hL) => // [|x _]; first exact: (law_const hL).
  by case: (c <= x); rewrite ?lexx ?ler01.
have [|||x|x|p [sp p1 pc p0 pm]] := @stieltjes_poly R (map -%R hi) (- c) (map -%R lo).
- by rewrite map_inj_uniq ?filter_uniq //; exact: oppr_inj.
- by rewrite map_inj_uniq ?filter_uniq //; exact: oppr_inj.
- by rewrite -size_eq0 size_map size_eq0.
- by case/mapP => y; rewrite mem_filter => /andP [cy _] ->; rewrite ltr_opp2.
- by case/mapP => y; rewrite mem_filter => /andP [cy _] ->; rewrite ltr_opp2.
have pE x : (p \Po (- 'X)).[x] = p.[- x] by rewrite horner_comp !hornerE.
apply: (@majorant (p \Po (- 'X))) => // [|x|x hx]; rewrite ?pE.
- rewrite size_comp_poly2 ?size_opp ?size_polyX //; apply: (leq_trans sp).
  by rewrite !size_map addnC split_size // -[in X in (_ <= X)%N](prednK n0) doubleS; lia.
- by have := pm (- x); rewrite ler_opp2.
case: (ltgtP x c) => [xc|cx|->]; rewrite ?pc //.
  by rewrite p0 //; apply/mapP; exists x => //; rewrite mem_filter xc.
by rewrite p1 //; apply/mapP; exists x => //; rewrite mem_filter cx.
Qed.

Lemma cdf_lower c : c \in xs -> D (fun x => ((x < c)%R)%:R) ->
  expect ws xs (fun x => ((x < c)%R)%:R) <= L (fun x => ((x < c)%R)%:R).
Proof.
move=> hc dc; have [d1 e1] := law_sub hL (law_const hL 1) dc.
have e x : 1 - ((x < c)%R)%:R = ((c <= x)%R)%:R :> R.
  by rewrite leNgt; case: (x < c); rewrite ?subrr ?subr0.
have d2 := law_mod hL d1 (fun x _ => e x).
have := cdf_upper' hc d2; rewrite -(law_eq hL d1 (fun x _ => e x)) e1 (law_one hL).
have -> : expect ws xs (fun x => ((c <= x)%R)%:R) = 1 - expect ws xs (fun x => ((x < c)%R)%:R).
  rewrite -[X in X - _]quad_sum1 -mulN1r -expect_mul !expect_sumE -big_split /=; apply: eq_bigr => q _.
  by rewrite -mulrDr mulN1r e.
by rewrite ler_add2l ler_opp2.
Qed.

Lemma exp_ind_point c : c \in xs -> forall e, all (fun w => w <= e) ws ->
  expect ws xs (fun x => (x == c)%:R) <= e.
Proof.
move=> hc e he; have [sz wp ux] := quad_strict.
have [i hi ei] := nthP 0 hc.
have e0 : 0 <= e.
  by apply: (@le_trans _ _ ws`_i); [apply/ltW/(allP wp)|apply: (allP he)]; rewrite mem_nth // sz.
have -> : expect ws xs (fun x => (x == c)%:R) = ws`_i; last by apply: (allP he); rewrite mem_nth // sz.
rewrite expect_sumE (big_nth (0, 0)) size_zip sz minnn big_mkord (bigD1 (Ordinal hi)) //= big1 ?addr0.
  by rewrite nth_zip // ei eqxx mulr1.
move=> j ji; rewrite nth_zip //= -ei nth_uniq // (_ : (_ == _ :> nat) = false) ?mulr0 //.
by apply/negbTE.
Qed.

Lemma cdf_close t e : all (fun w => w <= e) ws ->
  (forall c, D (fun x => ((x <= c)%R)%:R) /\ D (fun x => ((x < c)%R)%:R)) ->
  `|L (fun x => ((x <= t)%R)%:R) - expect ws xs (fun x => ((x <= t)%R)%:R)| <= e.
Proof.
move=> he hd; have [sz wp ux] := quad_strict; have [n0 [sw sx]] := quad_n.
have e0 : 0 <= e.
  case: (ws) wp he sw => [|w ws'] //=; first by move=> _ _ e'; move: n0; rewrite -e'.
  by case/andP=> w0 _ /andP [we _] _; rewrite (le_trans (ltW w0)).
have i01 (b : bool) : 0 <= b%:R :> R /\ b%:R <= 1 :> R by case: b; rewrite ?lexx ?ler01.
have minx (P : pred R) (s : seq R) : has P s -> exists2 c, (c \in s) && P c & forall x, x \in s -> P x -> c <= x.
  elim: s => //= a s IH; case: (boolP (has P s)) => [/IH [c /andP [c1 c2] hc] _|hn].
    case: (boolP (P a)) => ha'; last first.
      exists c; first by rewrite inE c1 orbT.
      by move=> x; rewrite inE => /orP [/eqP ->|]; [rewrite (negPf ha')|exact: hc].
    case: (leP a c) => ac.
      exists a; first by rewrite inE eqxx.
      by move=> x; rewrite inE => /orP [/eqP ->|hx px] //; apply: (le_trans ac); exact: hc.
    exists c; first by rewrite inE c1 orbT.
    by move=> x; rewrite inE => /orP [/eqP -> _|hx px]; [exact: ltW|exact: hc].
  rewrite orbF => ha'; exists a; first by rewrite inE eqxx.
  by move=> x; rewrite inE => /orP [/eqP ->|hx px] //; case/negP: hn; apply/hasP; exists x.
have expD c f g : (forall x, x \in xs -> f x = g x + (x == c)%:R) ->
    expect ws xs f = expect ws xs g + expect ws xs (fun x => (x == c)%:R).
  move=> h; rewrite (exp_eqin h) !expect_sumE -big_split /=; apply: eq_bigr => q _; by rewrite mulrDr.
rewrite ler_distl; apply/andP; split.
- (* the largest node at or below t *)
  case: (boolP (has (fun x => - x >= - t) xs)) => [hh|hn].
    have /minx [c' /andP [/mapP [c hc ->] ct] hmin] : has (fun y => - t <= y) (map -%R xs) by rewrite has_map.
    have ct' : c <= t by rewrite -ler_opp2.
    have hle x : x \in xs -> x <= t -> x <= c.
      by move=> hx hxt; rewrite -ler_opp2; apply: hmin; [exact: map_f|rewrite ler_opp2].
    have hE x : x \in xs -> ((x <= t)%R)%:R = ((x < c)%R)%:R + (x == c)%:R :> R.
      move=> hx; case: (ltgtP x c) => [xc|cx|->]; rewrite ?ct' ?addr0 ?add0r //.
        by rewrite (le_trans (ltW xc) ct').
      by case: leP => // /(hle x hx); rewrite leNgt cx.
    rewrite (expD c _ (fun x => ((x < c)%R)%:R)) // ler_subl_addr.
    apply: ler_add; last exact: exp_ind_point.
    apply: (le_trans (cdf_lower hc (hd c).2)).
    apply: (law_mono hL) (hd c).2 (hd t).1 _ => x _.
    by case: (ltP x c) => // xc; [rewrite (le_trans (ltW xc) ct')|case: (i01 (x <= t))].
  have -> : expect ws xs (fun x => ((x <= t)%R)%:R) = 0.
    rewrite (exp_eqin (g := fun=> 0)) => [|x hx].
      by rewrite expect_sumE big1 // => q _; rewrite mulr0.
    case: leP => // xt; case/negP: hn; apply/hasP; exists x => //=; by rewrite ler_opp2.
  rewrite sub0r; apply: (@le_trans _ _ 0); first by rewrite oppr_le0.
  rewrite -(law_zero hL); apply: (law_mono hL) (law_const hL 0) (hd t).1 _ => x _; by case: (i01 (x <= t)).
- (* the smallest node above t *)
  case: (boolP (has (fun x => t < x) xs)) => [/minx [c /andP [hc tc] hmin]|hn].
    have hE x : x \in xs -> ((x <= c)%R)%:R = ((x <= t)%R)%:R + (x == c)%:R :> R.
      move=> hx; case: (leP x t) => [xt|tx].
        by rewrite (le_trans xt (ltW tc)) (lt_eqF (le_lt_trans xt tc)) addr0.
      by rewrite add0r eq_le (hmin x hx tx) andbT.
    apply: (@le_trans _ _ (expect ws xs (fun x => ((x <= c)%R)%:R))).
      apply: le_trans (cdf_upper hc (hd c).1).
      apply: (law_mono hL) (hd t).1 (hd c).1 _ => x _.
      by case: (leP x t) => // xt; [rewrite (le_trans xt (ltW tc))|case: (i01 (x <= c))].
    by rewrite (expD c _ (fun x => ((x <= t)%R)%:R)) // ler_add2l exp_ind_point.
  have -> : expect ws xs (fun x => ((x <= t)%R)%:R) = 1.
    rewrite -[RHS]quad_sum1; apply: exp_eqin => x hx.
    by case: leP => // xt; case/negP: hn; apply/hasP; exists x.
  apply: (@le_trans _ _ 1); last by rewrite ler_addl.
  rewrite -[X in _ <= X](law_one hL); apply: (law_mono hL) (hd t).1 (law_const hL 1) _ => x _; by case: (i01 (x <= t)).
Qed.

(* ---- laws carried by an interval ---- *)
Lemma nodes_upper b : (forall x, S x -> x <= b) -> forall c, c \in xs -> c <= b.
Proof.
move=> hb c hc; have [sz wp ux] := quad_strict; have [n0 [sw sx]] := quad_n.
rewrite leNgt; apply/negP => bc.
pose r := rootpoly (rem c xs).
have sr : size r = n by rewrite rootpoly_size size_rem // sx prednK.
have s1 : (size (r * r)%R <= n.*2)%N by rewrite (leq_trans (size_mul_leq _ _)) // sr addnn leq_pred.
have s2 : (size ((c%:P - 'X) * (r * r))%R <= n.*2)%N.
  have hc2 : size (c%:P - 'X : {poly R}) = 2%N by rewrite -opprB size_opp size_XsubC.
  by rewrite (leq_trans (size_mul_leq _ _)) // hc2 size_mul -?size_poly_eq0 ?sr -?lt0n //; exact: size_arith.
have z x : x \in xs -> x != c -> r.[x] = 0.
  by move=> hx xc; apply/eqP; rewrite rootpoly_root mem_rem_uniq // inE xc.
have e1 : L (fun x => ((c%:P - 'X) * (r * r)).[x]) = 0.
  rewrite -law_exact // (exp_eqin (g := fun=> 0)) => [|x hx].
    by rewrite expect_sumE big1 // => q _; rewrite mulr0.
  rewrite 2!hornerM ?hornerXsubC ?(hornerD, hornerN, hornerC, hornerX); case: (eqVneq x c) => [->|xc]; first by rewrite subrr mul0r.
  by rewrite z // !mulr0.
have e2 : 0 < L (fun x => (r * r).[x]).
  rewrite -law_exact //; have [i hi ei] := nthP 0 hc.
  rewrite expect_sumE (big_nth (0, 0)) size_zip sz minnn big_mkord (bigD1 (Ordinal hi)) //=.
  rewrite ltr_paddr //; first by apply: sumr_ge0 => j _; rewrite nth_zip // hornerM -expr2 mulr_ge0 ?sqr_ge0 // ltW // (allP wp) // mem_nth // sz.
  rewrite nth_zip //= ei mulr_gt0 //; first by rewrite (allP wp) // mem_nth // sz.
  by rewrite hornerM -expr2 lt_def sqr_ge0 andbT expf_eq0 /= rootpoly_root mem_rem_uniq // inE eqxx.
have : (c - b) * L (fun x => (r * r).[x]) <= 0.
  have [d3 <-] := law_scale hL (c - b) (law_poly hL (r * r)).
  rewrite -e1; apply: (law_mono hL d3 (law_poly hL _)) => x /hb xb.
  rewrite !hornerM ?hornerXsubC ?(hornerD, hornerN, hornerC, hornerX) -!expr2 ler_wpmul2r ?sqr_ge0 //; by rewrite ler_add2l ler_opp2.
by rewrite leNgt mulr_gt0 // subr_gt0.
Qed.

Lemma nodes_lower a : (forall x, S x -> a <= x) -> forall c, c \in xs -> a <= c.
Proof.
move=> hb c hc; have [sz wp ux] := quad_strict; have [n0 [sw sx]] := quad_n.
rewrite leNgt; apply/negP => bc.
pose r := rootpoly (rem c xs).
have sr : size r = n by rewrite rootpoly_size size_rem // sx prednK.
have s1 : (size (r * r)%R <= n.*2)%N by rewrite (leq_trans (size_mul_leq _ _)) // sr addnn leq_pred.
have s2 : (size (('X - c%:P) * (r * r))%R <= n.*2)%N.
  by rewrite (leq_trans (size_mul_leq _ _)) // size_XsubC size_mul -?size_poly_eq0 ?sr -?lt0n //; exact: size_arith.
have z x : x \in xs -> x != c -> r.[x] = 0.
  by move=> hx xc; apply/eqP; rewrite rootpoly_root mem_rem_uniq // inE xc.
have e1 : L (fun x => (('X - c%:P) * (r * r)).[x]) = 0.
  rewrite -law_exact // (exp_eqin (g := fun=> 0)) => [|x hx].
    by rewrite expect_sumE big1 // => q _; rewrite mulr0.
  rewrite 2!hornerM ?hornerXsubC ?(hornerD, hornerN, hornerC, hornerX); case: (eqVneq x c) => [->|xc]; first by rewrite subrr mul0r.
  by rewrite z // !mulr0.
have e2 : 0 < L (fun x => (r * r).[x]).
  rewrite -law_exact //; have [i hi ei] := nthP 0 hc.
  rewrite expect_sumE (big_nth (0, 0)) size_zip sz minnn big_mkord (bigD1 (Ordinal hi)) //=.
  rewrite ltr_paddr //; first by apply: sumr_ge0 => j _; rewrite nth_zip // hornerM -expr2 mulr_ge0 ?sqr_ge0 // ltW // (allP wp) // mem_nth // sz.
  rewrite nth_zip //= ei mulr_gt0 //; first by rewrite (allP wp) // mem_nth // sz.
  by rewrite hornerM -expr2 lt_def sqr_ge0 andbT expf_eq0 /= rootpoly_root mem_rem_uniq // inE eqxx.
have : (a - c) * L (fun x => (r * r).[x]) <= 0.
  have [d3 <-] := law_scale hL (a - c) (law_poly hL (r * r)).
  rewrite -e1; apply: (law_mono hL d3 (law_poly hL _)) => x /hb xb.
  rewrite !hornerM ?hornerXsubC ?(hornerD, hornerN, hornerC, hornerX) -!expr2 ler_wpmul2r ?sqr_ge0 //; by rewrite ler_add2r.
by rewrite leNgt mulr_gt0 // subr_gt0.
Qed.

Lemma exp_sub f g : expect ws xs (fun x => f x - g x) = expect ws xs f - expect ws xs g.
Proof.
rewrite -mulN1r -expect_mul !expect_sumE -big_split /=; apply: eq_bigr => q _.
by rewrite mulN1r mulrDr.
Qed.

(* the error is at most twice the distance to the polynomials of degree < 2n *)
Lemma quad_error f p e : D f -> (size p <= n.*2)%N -> (forall x, S x || (x \in xs) -> `|f x - p.[x]| <= e) ->
  `|expect ws xs f - L f| <= e *+ 2.
Proof.
move=> df sp h.
have [d1 e1] := law_sub hL df (law_poly hL p).
have -> : expect ws xs f - L f = expect ws xs (fun x => f x - p.[x]) - L (fun x => f x - p.[x]).
  by rewrite e1 exp_sub law_exact //; ring.
rewrite (le_trans (ler_norm_sub _ _)) // mulr2n ler_add //.
  have hh x : x \in xs -> - e <= f x - p.[x] <= e.
    by move=> hx; rewrite -ler_norml; apply: h; rewrite hx orbT.
  have ec c : expect ws xs (fun=> c) = c.
    by rewrite -[RHS]mulr1 -[X in _ * X]quad_sum1 -expect_mul; apply: expect_ext => x; rewrite mulr1.
  rewrite ler_norml -[X in X <= _]ec -[X in _ && (_ <= X)]ec.
  by rewrite !exp_le // => x /hh /andP [].
by apply: (law_abs hL) => // x hx; apply: h; rewrite hx.
Qed.

(* the next even moment is never overestimated *)
Lemma quad_even p : (size p <= n.*2.+1)%N -> 0 <= p`_(n.*2) ->
  expect ws xs (fun x => p.[x]) <= L (fun x => p.[x]).
Proof.
move=> sp pl; have [sz wp ux] := quad_strict; have [n0 [sw sx]] := quad_n.
pose r := rootpoly xs; have sr : size r = n.+1 by rewrite rootpoly_size sx.
have rm : r \is monic by apply: monic_prod_XsubC.
have sr2 : size (r * r) = n.*2.+1 by rewrite size_mul ?monic_neq0 // sr addSn addnS addnn.
have lr2 : (r * r)`_(n.*2) = 1.
  by have := monicMl r rm; rewrite rm => /monicP; rewrite lead_coefE sr2.
pose q := p - p`_(n.*2) *: (r * r).
have sq : (size q <= n.*2)%N.
  apply/leq_sizeP => j; rewrite leq_eqVlt => /orP [/eqP <-|hj].
    by rewrite coefB coefZ lr2 mulr1 subrr.
  have -> : q`_j = p`_j - p`_(n.*2) * (r * r)`_j by rewrite coefB coefZ.
  have -> : p`_j = 0 by apply: nth_default; apply: leq_trans sp _.
  have -> : (r * r)`_j = 0 by apply: nth_default; rewrite sr2.
  by rewrite mulr0 subrr.
have e x : p.[x] = p`_(n.*2) * (r * r).[x] + q.[x] by rewrite /q hornerD hornerN hornerZ addrCA subrr addr0.
have -> : expect ws xs (fun x => p.[x]) = expect ws xs (fun x => q.[x]).
  apply: exp_eqin => x hx; rewrite e hornerM.
  by have -> : r.[x] = 0; [apply/eqP; rewrite rootpoly_root|rewrite !mulr0 add0r].
rewrite law_exact //; apply: (law_mono hL) (law_poly hL _) (law_poly hL _) _ => x _.
by rewrite [X in _ <= X]e ler_addr mulr_ge0 // hornerM -expr2 sqr_ge0.
Qed.
End Quad.
End Laws.
