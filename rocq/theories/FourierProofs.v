(* Lemmas on the characteristic functions and the inverse Fourier transform. *)
From mathcomp Require Import all_ssreflect all_algebra.
From mathcomp Require Import ring zify complex.
From Verif Require Import Prelude LinAlgSpec QuadModel QuadSpec QuadProofs QuadMain QuadStrict FourierModel.
Set Implicit Arguments.
Unset Strict Implicit.
Unset Printing Implicit Defensive.
Import Order.TTheory GRing.Theory Num.Theory.
Local Open Scope ring_scope.

(* ---- specifications of the complex exponential ---- *)
(* on the imaginary axis: one at zero, conjugate symmetric, of modulus one *)
Definition unit_exp (R : rcfType) (cexp : R[i] -> R[i]) : Prop :=
  [/\ cexp 0 = 1, forall z, cexp (conjc z) = conjc (cexp z)
    & forall t : R, `|cexp ('i%C * real_complex R t)| = 1].
(* a homomorphism that commutes with conjugation *)
Definition exp_morph (R : rcfType) (cexp : R[i] -> R[i]) : Prop :=
  [/\ cexp 0 = 1, forall z, cexp (conjc z) = conjc (cexp z)
    & forall a b, cexp (a + b) = cexp a * cexp b].
(* Taylor's formula of order m on the imaginary axis *)
Definition taylor_exp (R : rcfType) (m : nat) (cexp : R[i] -> R[i]) : Prop :=
  forall t : R,
  `|cexp ('i%C * real_complex R t) - \sum_(k < m) ('i%C * real_complex R t) ^+ k / (k`!)%:R|
   <= real_complex R (`|t| ^+ m / (m`!)%:R).

Section Fourier.
Variable R : rcfType.
Variable cexp : R[i] -> R[i].
Local Notation cx x := (real_complex R x).

Lemma conj_i (t : R) : conjc ('i%C * cx t) = 'i%C * cx (- t).
Proof. by apply/eqP; rewrite eq_complex /= ?(mul0r, mul1r, mulr0, oppr0, addr0, subr0, add0r, sub0r, opprK, oppr0) !eqxx. Qed.

Lemma conjcM (a b : R[i]) : conjc (a * b) = conjc a * conjc b.
Proof. exact: rmorphM. Qed.
Lemma conjcD (a b : R[i]) : conjc (a + b) = conjc a + conjc b.
Proof. exact: rmorphD. Qed.
Lemma conjcB (a b : R[i]) : conjc (a - b) = conjc a - conjc b.
Proof. exact: rmorphB. Qed.
Lemma cxM (a b : R) : cx (a * b) = cx a * cx b. Proof. exact: rmorphM. Qed.
Lemma cxD (a b : R) : cx (a + b) = cx a + cx b. Proof. exact: rmorphD. Qed.

Lemma normc_cx (x : R) : `|cx x| = cx `|x|.
Proof. by rewrite normc_def /= expr0n addr0 sqrtr_sqr. Qed.

Lemma normc_conj (z : R[i]) : `|conjc z| = `|z|.
Proof. by rewrite !normc_def; case: z => a b /=; rewrite sqrrN. Qed.

Lemma normc_sqr (z : R[i]) : `|z| ^+ 2 = z * conjc z.
Proof.
rewrite -add_Re2_Im2; case: z => a b /=; apply/eqP; rewrite eq_complex /=.
by apply/andP; split; apply/eqP; ring.
Qed.

Lemma morph_unit : exp_morph cexp -> unit_exp cexp.
Proof.
case=> e0 ec eD; split=> // t.
have h : `|cexp ('i%C * cx t)| ^+ 2 = 1.
  by rewrite normc_sqr -ec conj_i -eD -mulrDr -cxD subrr mulr0 e0.
by apply/eqP; rewrite -(eqr_expn2 (n := 2)) ?expr1n ?h.
Qed.

(* sums of weighted exponentials *)
Definition charsum (ws xs : seq R) (z : R) : R[i] :=
  \sum_(p <- zip ws xs) cx p.1 * cexp ('i%C * cx (z * p.2)).

Lemma cx_sum (I : Type) (r : seq I) (f : I -> R) : cx (\sum_(i <- r) f i) = \sum_(i <- r) cx (f i).
Proof. exact: raddf_sum. Qed.

Lemma charsum0 ws xs : unit_exp cexp -> size ws = size xs -> charsum ws xs 0 = cx (jsum ws).
Proof.
case=> e0 _ _ hs; rewrite jsumE cx_sum -[in RHS](unzip1_zip (eq_leq hs)) big_map.
by apply: eq_bigr => p _; rewrite mul0r mulr0 e0 mulr1.
Qed.

Lemma charsumN ws xs z : unit_exp cexp -> charsum ws xs (- z) = conjc (charsum ws xs z).
Proof.
case=> _ ec _; rewrite /charsum raddf_sum; apply: eq_bigr => p _.
by rewrite -[RHS]/(conjc _) conjcM conjc_real -ec conj_i mulNr.
Qed.

Lemma charsum_le ws xs z : unit_exp cexp -> size ws = size xs -> all (fun w => 0 <= w) ws ->
  `|charsum ws xs z| <= cx (jsum ws).
Proof.
case=> _ _ e1 hs /allP hw; apply: le_trans (ler_norm_sum _ _ _) _.
rewrite jsumE cx_sum -[in X in _ <= X](unzip1_zip (eq_leq hs)) big_map.
rewrite big_seq [X in _ <= X]big_seq; apply: ler_sum => p hp.
have h : p.1 \in ws by rewrite -(unzip1_zip (eq_leq hs)); apply: map_f.
by rewrite normrM e1 mulr1 normc_cx ger0_norm ?hw.
Qed.

Lemma charsum_bochner ws xs n (c : 'I_n -> R[i]) (z : 'I_n -> R) : exp_morph cexp ->
  size ws = size xs -> all (fun w => 0 <= w) ws ->
  0 <= \sum_j \sum_k c j * conjc (c k) * charsum ws xs (z j - z k).
Proof.
case=> _ ec eD hs /allP hw.
have -> : \sum_j \sum_k c j * conjc (c k) * charsum ws xs (z j - z k)
  = \sum_(p <- zip ws xs) cx p.1 * `|\sum_j c j * cexp ('i%C * cx (z j * p.2))| ^+ 2.
  transitivity (\sum_j \sum_k \sum_(p <- zip ws xs)
     cx p.1 * ((c j * cexp ('i%C * cx (z j * p.2))) * conjc (c k * cexp ('i%C * cx (z k * p.2))))).
    apply: eq_bigr => j _; apply: eq_bigr => k _; rewrite /charsum mulr_sumr; apply: eq_bigr => p _.
    rewrite conjcM -ec conj_i mulrBl cxD mulrDr eD.
    move: (c j) (conjc (c k)) (cx p.1) (cexp _) (cexp _) => a b d e f.
    by rewrite -[a * b * _]mulrA [b * _]mulrCA [a * _]mulrCA; congr (_ * _); rewrite -mulrA; congr (_ * _); rewrite mulrCA.
  under eq_bigr do rewrite exchange_big /=; rewrite exchange_big /=; apply: eq_bigr => p _.
  rewrite normc_sqr raddf_sum /= big_distrlr /= mulr_sumr; apply: eq_bigr => j _.
  by rewrite mulr_sumr.
rewrite big_seq; apply: sumr_ge0 => p hp; rewrite mulr_ge0 ?exprn_ge0 // ler0c.
by apply: hw; rewrite -(unzip1_zip (eq_leq hs)); apply: map_f.
Qed.

Variable chol : forall n, 'M[R]_n -> 'M[R]_n.
Variable eigh : forall n, 'M[R]_n -> 'M[R]_n * 'rV[R]_n.
Hypothesis cholP : chol_spec chol.
Hypothesis eighP : eigh_spec eigh.
Local Notation cf := (characteristic_fn chol eigh cexp).
Local Notation mq := (moment_quadrature chol eigh).

Lemma cfE z ms mean scale ws xs : mq ms mean scale false = Some (ws, xs) ->
  cf z ms mean scale = Some (charsum ws xs z).
Proof.
move=> h; rewrite /characteristic_fn h; congr Some; rewrite jsumE big_map /charsum.
elim: ws xs {h} => [|w ws IH] [|x xs]; rewrite ?zip_nil ?big_nil //=.
rewrite !big_cons /= IH mulrC; congr (_ * cexp _ + _).
by rewrite -mulrA -cxM.
Qed.

Lemma cf_some z ms mean scale c : cf z ms mean scale = Some c ->
  exists ws xs, mq ms mean scale false = Some (ws, xs) /\ c = charsum ws xs z.
Proof.
case E: (mq ms mean scale false) => [[ws xs]|]; last by rewrite /characteristic_fn E.
by rewrite (cfE _ E) => -[<-]; exists ws, xs.
Qed.

Lemma cf_total z ms mean scale : (1 < size ms)%N -> exists c, cf z ms mean scale = Some c.
Proof.
move=> h; have [ws [xs e]] : exists ws xs, mq ms mean scale false = Some (ws, xs).
  rewrite /moment_quadrature; case E: (size ms)./2 => [|n]; first by move: h E; clear; lia.
  by case: (nodes_of _ _ _) => ws xs; exists ws, xs.
by exists (charsum ws xs z); apply: cfE.
Qed.

Lemma cf_basic z ms mean scale c : unit_exp cexp -> admissible (nth 0 ms) (size ms)./2 ->
  cf z ms mean scale = Some c ->
  [/\ `|c| <= 1, cf (- z) ms mean scale = Some (conjc c) & z = 0 -> c = 1].
Proof.
move=> he ha /cf_some [ws [xs [e ->]]].
have [hs hw h1] := quadrature_weights cholP eighP ha e.
split; first by have := charsum_le z he hs hw; rewrite h1.
  by rewrite (cfE _ e) charsumN.
by move=> ->; rewrite charsum0 // h1.
Qed.

Lemma cf_bochner (phi : R -> R[i]) ms mean scale n (c : 'I_n -> R[i]) (z : 'I_n -> R) :
  exp_morph cexp -> admissible (nth 0 ms) (size ms)./2 ->
  (forall t, cf t ms mean scale = Some (phi t)) ->
  0 <= \sum_j \sum_k c j * conjc (c k) * phi (z j - z k).
Proof.
move=> he ha hp; have [ws [xs [e _]]] := cf_some (hp 0).
have [hs hw _] := quadrature_weights cholP eighP ha e.
have hq t : phi t = charsum ws xs t by have := hp t; rewrite (cfE _ e) => -[].
by under eq_bigr do under eq_bigr do rewrite hq; apply: charsum_bochner.
Qed.

(* location and scale *)
Lemma charsum_affine (us : seq R) ws z mean scale : exp_morph cexp ->
  charsum ws [seq scale * u + mean | u <- us] z
  = cexp ('i%C * cx (z * mean)) * charsum ws [seq 1 * u + 0 | u <- us] (z * scale).
Proof.
case=> _ _ eD; rewrite /charsum; elim: us ws => [|u us IH] [|w ws] /=; rewrite ?big_nil ?mulr0 //.
rewrite !big_cons mulrDr -IH /= [in RHS]mulrCA -eD -mulrDr -cxD.
by congr (_ * cexp (_ * cx _) + _); ring.
Qed.

Lemma cf_affine z ms mean scale c : exp_morph cexp -> cf (z * scale) ms 0 1 = Some c ->
  cf z ms mean scale = Some (cexp ('i%C * cx (z * mean)) * c).
Proof.
move=> he /cf_some [ws [xs [e ->]]].
have [us [ex e']] : exists us, xs = [seq 1 * u + 0 | u <- us] /\
    mq ms mean scale false = Some (ws, [seq scale * u + mean | u <- us]).
  move: e; rewrite /moment_quadrature; case: (size ms)./2 => [//|n] [<- <-].
  set VL := eigh _; exists [seq VL.2 0 i | i <- enum 'I_n.+1]; split.
    exact: (map_comp (fun u : R => 1 * u + 0) (fun i => VL.2 0 i)).
  by congr (Some (_, _)); exact: (map_comp (fun u : R => scale * u + mean) (fun i => VL.2 0 i)).
by rewrite (cfE _ e') ex charsum_affine.
Qed.

Lemma cexp_re_im (ws xs : seq R) z :
  charsum ws xs z = Complex (expect ws xs (fun x => complex.Re (cexp ('i%C * cx (z * x)))))
    (expect ws xs (fun x => complex.Im (cexp ('i%C * cx (z * x))))).
Proof.
rewrite /charsum /expect !jsumE !big_map; apply/eqP; rewrite eq_complex !raddf_sum /=.
apply/andP; split; apply/eqP; apply: eq_bigr => p _; case: (cexp _) => a b /=; ring.
Qed.

Lemma charsum_ext ws xs ws' xs' z : (forall f, expect ws' xs' f = expect ws xs f) ->
  charsum ws' xs' z = charsum ws xs z.
Proof. by move=> h; rewrite !cexp_re_im !h. Qed.

Lemma cf_repr z ms ms' mean scale c : 0 < scale -> size ms' = size ms ->
  (forall k, (k < (size ms)./2.*2)%N -> ms'`_k = affine_moments (nth 0 ms) mean scale k) ->
  admissible (nth 0 ms) (size ms)./2 ->
  cf z ms 0 1 = Some c -> cf z ms' mean scale = Some c.
Proof.
move=> s0 hs hm ha /cf_some [ws [xs [e ->]]].
have [ws' [xs' e']] : exists ws' xs', mq ms' mean scale false = Some (ws', xs').
  move: e; rewrite /moment_quadrature hs; case: (size ms)./2 => [//|n] _.
  by case: (nodes_of _ _ _) => ws' xs'; exists ws', xs'.
rewrite (cfE _ e'); congr Some; apply: charsum_ext => f.
exact: (quadrature_repr cholP eighP s0 hs hm ha e e').
Qed.

Lemma cf_discrete z ms (as_ zs : seq R) :
  size as_ = size zs -> (size ms)./2 = size zs -> (0 < size zs)%N -> uniq zs ->
  all (fun w => 0 < w) as_ -> jsum as_ = 1 ->
  (forall k, (k < (size ms)./2.*2)%N -> ms`_k = discrete_moment as_ zs k) ->
  cf z ms 0 1 = Some (\sum_(p <- zip as_ zs) cx p.1 * cexp ('i%C * cx (z * p.2))).
Proof.
move=> h1 h2 h3 hu hp hs hm.
have [ws [xs e]] : exists ws xs, mq ms 0 1 false = Some (ws, xs).
  rewrite /moment_quadrature; case E: (size ms)./2 => [|n]; first by move: h2 h3; rewrite E => <-.
  by case: (nodes_of _ _ _) => ws xs; exists ws, xs.
rewrite (cfE _ e); congr Some; apply: charsum_ext => f.
exact: (quadrature_discrete cholP eighP h1 h2 hu hp hm hs e).
Qed.

(* error of the characteristic function of a law with the given moments *)
Lemma charsum_taylor (ws xs : seq R) z m : size ws = size xs -> all (fun w => 0 <= w) ws ->
  taylor_exp m.*2 cexp ->
  `|charsum ws xs z - \sum_(k < m.*2) ('i%C * cx z) ^+ k / (k`!)%:R * cx (discrete_moment ws xs k)|
  <= cx (z ^+ m.*2 / (m.*2)`!%:R * discrete_moment ws xs m.*2).
Proof.
move=> hs /allP hw ht.
have -> : \sum_(k < m.*2) ('i%C * cx z) ^+ k / (k`!)%:R * cx (discrete_moment ws xs k)
  = \sum_(p <- zip ws xs) cx p.1 * \sum_(k < m.*2) ('i%C * cx (z * p.2)) ^+ k / (k`!)%:R.
  under [RHS]eq_bigr do rewrite mulr_sumr; rewrite exchange_big /=; apply: eq_bigr => k _.
  rewrite /discrete_moment cx_sum mulr_sumr; apply: eq_bigr => p _.
  have -> : 'i%C * cx (z * p.2) = ('i%C * cx z) * cx p.2 by rewrite cxM mulrA.
  have -> : cx (p.1 * p.2 ^+ k) = cx p.1 * cx p.2 ^+ k by rewrite cxM rmorphX.
  rewrite [in RHS]exprMn; move: (_ ^+ k) (cx p.1) (_ ^+ k) (_ ^-1) => a b c d.
  by rewrite [LHS]mulrCA; congr (_ * _); rewrite mulrAC.
rewrite /charsum -sumrB; apply: le_trans (ler_norm_sum _ _ _) _.
rewrite /discrete_moment mulr_sumr cx_sum big_seq [X in _ <= X]big_seq.
apply: ler_sum => p hp; have h : 0 <= p.1.
  by apply: hw; rewrite -(unzip1_zip (eq_leq hs)); apply: map_f.
rewrite -mulrBr normrM normc_cx (ger0_norm h).
apply: (le_trans (ler_wpmul2l _ (ht (z * p.2)))); first by rewrite ler0c.
rewrite -cxM lecR normrM exprMn -!mul2n !exprM !real_normK ?num_real //.
by move: (_ ^+ m) (_ ^+ m) (_^-1) p.1 => b a c d; have -> : d * (a * b * c) = a * c * (d * b) by ring.
Qed.

Lemma even_moment_le ms (as_ zs : seq R) ws xs :
  size as_ = size zs -> all (fun w => 0 <= w) as_ ->
  (forall k, (k < (size ms)./2.*2)%N -> ms`_k = discrete_moment as_ zs k) -> jsum as_ = 1 ->
  admissible (nth 0 ms) (size ms)./2 -> mq ms 0 1 false = Some (ws, xs) ->
  [/\ size ws = size xs, all (fun w => 0 <= w) ws,
      forall k, (k < (size ms)./2.*2)%N -> discrete_moment ws xs k = discrete_moment as_ zs k
    & discrete_moment ws xs (size ms)./2.*2 <= discrete_moment as_ zs (size ms)./2.*2].
Proof.
move=> hsz hpos hm hsum ha hq; set n := (size ms)./2 in hm ha *.
have [n0 h1 h2] := quadrature_sizes hq.
have [hs hw _] := quadrature_weights cholP eighP ha hq.
have hp0 : ms`_0 = 1.
  rewrite hm ?double_gt0 // -hsum jsumE /discrete_moment.
  rewrite -[in RHS](unzip1_zip (eq_leq hsz)) big_map; apply: eq_bigr => q _.
  by rewrite expr0 mulr1.
have hpoly (p : {poly R}) : (size p <= n.*2)%N -> expect ws xs (fun x => p.[x]) = expect as_ zs (fun x => p.[x]).
  move=> sp; have := quadrature_poly cholP eighP (oner_neq0 _) ha hq sp; rewrite hp0 divr1.
  rewrite (@mom_eq _ _ (discrete_moment as_ zs)); last by move=> k hk; rewrite hm // (leq_trans hk).
  rewrite mom_discrete -expect_sumE => <-; apply: expect_ext => x; by rewrite subr0 divr1.
have dE (w x : seq R) k : discrete_moment w x k = expect w x (fun x => ('X^k).[x]).
  by rewrite expect_sumE /discrete_moment; apply: eq_bigr => p _; rewrite hornerXn.
split=> //; first by move=> k hk; rewrite !dE hpoly // size_polyXn.
set q := rootpoly xs ^+ 2.
have sq : size q = n.*2.+1.
  rewrite /q expr2 size_monicM ?rootpoly_neq0 //; last exact: monic_prod_XsubC.
  by rewrite rootpoly_size h2 -/n; clear; lia.
have mq' : q \is monic by apply: monic_exp; exact: monic_prod_XsubC.
have sp : (size ('X^(n.*2) - q)%R <= n.*2)%N.
  apply/leq_sizeP => j; rewrite leq_eqVlt coefB coefXn => /orP [/eqP <-|hj].
    by move/monicP: mq'; rewrite /lead_coef sq /= => ->; rewrite eqxx subrr.
  by rewrite gtn_eqF // nth_default ?subr0 // sq.
have := hpoly _ sp; rewrite !dE !expect_sumE.
rewrite (eq_bigr (fun p => p.1 * ('X^(n.*2)).[p.2] - p.1 * q.[p.2])); last first.
  by move=> p _; rewrite hornerD hornerN mulrBr.
rewrite [RHS](eq_bigr (fun p => p.1 * ('X^(n.*2)).[p.2] - p.1 * q.[p.2])); last first.
  by move=> p _; rewrite hornerD hornerN mulrBr.
rewrite !sumrB [X in _ - X = _](_ : _ = 0) => [|]; last first.
  rewrite big_seq big1 // => p /zip_mem [_ hp]; apply/eqP.
  by rewrite mulf_eq0 /q horner_exp sqrf_eq0 rootpoly_root hp orbT.
rewrite subr0 => ->; rewrite ler_subl_addr ler_addl big_seq sumr_ge0 // => p /zip_mem [hp _].
by rewrite mulr_ge0 ?(allP hpos _ hp) // /q horner_exp sqr_ge0.
Qed.

Lemma cf_error z ms (as_ zs : seq R) c :
  size as_ = size zs -> all (fun w => 0 <= w) as_ ->
  (forall k, (k < (size ms)./2.*2)%N -> ms`_k = discrete_moment as_ zs k) -> jsum as_ = 1 ->
  admissible (nth 0 ms) (size ms)./2 -> taylor_exp (size ms)./2.*2 cexp ->
  cf z ms 0 1 = Some c ->
  `|c - \sum_(p <- zip as_ zs) cx p.1 * cexp ('i%C * cx (z * p.2))|
  <= cx (2%:R * z ^+ (size ms)./2.*2 / ((size ms)./2.*2)`!%:R * discrete_moment as_ zs (size ms)./2.*2).
Proof.
move=> h1 h2 hm hs ha ht /cf_some [ws [xs [e ->]]].
have [g1 g2 g3 g4] := even_moment_le h1 h2 hm hs ha e.
have t1 := charsum_taylor z g1 g2 ht; have t2 := charsum_taylor z h1 h2 ht.
have eT : \sum_(k < (size ms)./2.*2) ('i%C * cx z) ^+ k / (k`!)%:R * cx (discrete_moment ws xs k)
  = \sum_(k < (size ms)./2.*2) ('i%C * cx z) ^+ k / (k`!)%:R * cx (discrete_moment as_ zs k).
  by apply: eq_bigr => k _; rewrite g3.
move: t1 t2; rewrite eT => t1; rewrite distrC => t2; set T := \sum_(k < _) _ in t1 t2.
apply: le_trans (ler_dist_add T _ _) _; apply: (le_trans (ler_add t1 t2)).
rewrite -cxD lecR; set f := z ^+ _ / _.
have f0 : 0 <= f by rewrite divr_ge0 ?ler0n // -mul2n exprM exprn_ge0 ?sqr_ge0.
have -> : 2%:R * z ^+ (size ms)./2.*2 / ((size ms)./2.*2)`!%:R * discrete_moment as_ zs (size ms)./2.*2
  = f * discrete_moment as_ zs (size ms)./2.*2 + f * discrete_moment as_ zs (size ms)./2.*2.
  by rewrite -[2%:R * _ / _]mulrA mulr_natl mulr2n mulrDl.
by rewrite ler_add2r ler_wpmul2l.
Qed.
End Fourier.

(* ---- the trapezoidal transforms ---- *)
Section Trapz.
Variable R : rcfType.
Local Notation cx x := (real_complex R x).

Lemma ctrapzE (ys : seq R[i]) (xs : seq R) : size ys = size xs ->
  trapz ys [seq cx x | x <- xs]
  = \sum_(k < (size xs).-1) cx (xs`_k.+1 - xs`_k) * (ys`_k + ys`_k.+1) / 2%:R.
Proof.
elim: ys xs => [|y ys IH] [|x xs] // hs; first by rewrite big_ord0.
case: hs => hs; case: ys xs hs IH => [|y' ys] [|x' xs] // hs IH; first by rewrite big_ord0.
rewrite [RHS]/= big_ord_recl -[X in _ = _ + X](IH (x' :: xs)) //.
by rewrite -[LHS]/((cx x' - cx x) * (y + y') / 2%:R + trapz (y' :: ys) [seq cx x | x <- x' :: xs]) -raddfB.
Qed.

Lemma trapzR (ys xs : seq R) : size ys = size xs ->
  trapz ys xs = \sum_(k < (size xs).-1) (xs`_k.+1 - xs`_k) * (ys`_k + ys`_k.+1) / 2%:R.
Proof.
elim: ys xs => [|y ys IH] [|x xs] // hs; first by rewrite big_ord0.
case: hs => hs; case: ys xs hs IH => [|y' ys] [|x' xs] // hs IH; first by rewrite big_ord0.
by rewrite [RHS]/= big_ord_recl -[X in _ = _ + X](IH (x' :: xs)).
Qed.

Variable cexp : R[i] -> R[i].

Lemma cf_pdfE z (ps xs : seq R) : size ps = size xs ->
  characteristic_from_pdf cexp z ps xs = \sum_(k < (size xs).-1) cx (xs`_k.+1 - xs`_k) *
    (cexp ('i%C * cx (z * xs`_k)) * cx ps`_k + cexp ('i%C * cx (z * xs`_k.+1)) * cx ps`_k.+1) / 2%:R.
Proof.
move=> hs; rewrite /characteristic_from_pdf ctrapzE ?size_map ?size_zip ?hs ?minnn //.
apply: eq_bigr => k _.
have hk : (k.+1 < size xs)%N by case: k => k /=; clear; case: (size xs).
have hk' : (k < size xs)%N by apply: leq_trans hk.
have h j : (j < size xs)%N -> [seq cexp ('i%C * cx z * cx p.1) * cx p.2 | p <- zip xs ps]`_j
  = cexp ('i%C * cx (z * xs`_j)) * cx ps`_j.
  move=> hj; rewrite (nth_map (0, 0)) ?size_zip ?hs ?minnn // nth_zip // -?hs //=.
  by rewrite -mulrA -cxM.
by rewrite !h.
Qed.

Lemma cf_pdf_basic z (ps xs : seq R) : unit_exp cexp -> size ps = size xs ->
  characteristic_from_pdf cexp 0 ps xs = cx (trapz ps xs) /\
  characteristic_from_pdf cexp (- z) ps xs = conjc (characteristic_from_pdf cexp z ps xs).
Proof.
case=> e0 ec e1 hs; rewrite !cf_pdfE // trapzR // cx_sum; split.
  apply: eq_bigr => k _; rewrite !mul0r !mulr0 e0 !mul1r -cxD -cxM.
  by rewrite [in RHS]cxM; congr (_ * _); rewrite fmorphV rmorph_nat.
rewrite raddf_sum; apply: eq_bigr => k _.
rewrite -[RHS]/(conjc _) !conjcM conjc_inv conjc_nat conjc_real; congr (_ * _ * _).
by rewrite [RHS]raddfD /= -![conjc _]/(conjc _) !conjcM !conjc_real -!ec !conj_i !mulNr.
Qed.

Lemma cf_pdf_le z (ps xs : seq R) : unit_exp cexp -> size ps = size xs ->
  all (fun p => 0 <= p) ps -> sorted <=%R xs ->
  `|characteristic_from_pdf cexp z ps xs| <= cx (trapz ps xs).
Proof.
case=> e0 ec e1 hs /allP hp hx; rewrite cf_pdfE // trapzR // cx_sum.
apply: le_trans (ler_norm_sum _ _ _) _; apply: ler_sum => k _.
have hk : (k.+1 < size xs)%N by case: k => k /=; clear; case: (size xs).
have hk' : (k < size xs)%N by apply: leq_trans hk.
have h0 j : (j < size xs)%N -> 0 <= ps`_j by move=> hj; apply: hp; rewrite mem_nth // hs.
have hd : 0 <= xs`_k.+1 - xs`_k.
  by rewrite subr_ge0; have := sorted_leq_nth le_trans le_refl 0 hx; apply.
have -> : cx ((xs`_k.+1 - xs`_k) * (ps`_k + ps`_k.+1) / 2%:R)
   = cx (xs`_k.+1 - xs`_k) * (cx ps`_k + cx ps`_k.+1) / 2%:R.
  by rewrite -cxD -cxM [in LHS]cxM; congr (_ * _); rewrite fmorphV rmorph_nat.
rewrite !normrM normfV normr_nat ler_wpmul2r ?invr_ge0 ?ler0n // normc_cx (ger0_norm hd).
rewrite ler_wpmul2l ?ler0c //; apply: le_trans (ler_norm_add _ _) _.
by rewrite !normrM !e1 !mul1r !normc_cx !ger0_norm ?h0.
Qed.

(* translation of the density *)
Lemma cf_pdf_shift z (ps xs : seq R) a : exp_morph cexp -> size ps = size xs ->
  characteristic_from_pdf cexp z ps [seq x + a | x <- xs]
  = cexp ('i%C * cx (z * a)) * characteristic_from_pdf cexp z ps xs.
Proof.
case=> _ _ eD hs; rewrite !cf_pdfE ?size_map // mulr_sumr; apply: eq_bigr => k _.
have hk : (k.+1 < size xs)%N by case: k => k /=; clear; case: (size xs).
have hk' : (k < size xs)%N by apply: leq_trans hk.
rewrite !(nth_map 0) // opprD addrACA subrr addr0.
have h x : cexp ('i%C * cx (z * (x + a))) = cexp ('i%C * cx (z * a)) * cexp ('i%C * cx (z * x)).
  by rewrite -eD -mulrDr -cxD; congr (cexp (_ * cx _)); ring.
rewrite !h -!mulrA -mulrDr; move: (cexp _) (_ + _) => e s.
by rewrite !mulrA [_ * e]mulrC.
Qed.

Variable pi : R.

Lemma ifE x (cfs : seq R[i]) (zs : seq R) : size cfs = size zs ->
  inverse_fourier cexp pi x cfs zs = complex.Re (\sum_(k < (size zs).-1) cx (zs`_k.+1 - zs`_k) *
    (cexp ('i%C * cx (- x * zs`_k)) * cfs`_k + cexp ('i%C * cx (- x * zs`_k.+1)) * cfs`_k.+1) / 2%:R)
    / (2%:R * pi).
Proof.
move=> hs; rewrite /inverse_fourier ctrapzE ?size_map ?size_zip ?hs ?minnn //.
congr (complex.Re _ / _); apply: eq_bigr => k _.
have hk : (k.+1 < size zs)%N by case: k => k /=; clear; case: (size zs).
have hk' : (k < size zs)%N by apply: leq_trans hk.
have h j : (j < size zs)%N -> [seq cexp (- 'i%C * cx x * cx p.1) * p.2 | p <- zip zs cfs]`_j
  = cexp ('i%C * cx (- x * zs`_j)) * cfs`_j.
  move=> hj; rewrite (nth_map (0, 0)) ?size_zip ?hs ?minnn // nth_zip // -?hs //=.
  by congr (cexp _ * _); rewrite !mulNr -mulrA -cxM rmorphN mulrN.
by rewrite !h.
Qed.

Lemma if_shift x a (cfs : seq R[i]) (zs : seq R) : exp_morph cexp -> size cfs = size zs ->
  inverse_fourier cexp pi x [seq cexp ('i%C * cx (a * p.1)) * p.2 | p <- zip zs cfs] zs
  = inverse_fourier cexp pi (x - a) cfs zs.
Proof.
case=> _ _ eD hs; rewrite !ifE ?size_map ?size_zip ?hs ?minnn //.
congr (complex.Re _ / _); apply: eq_bigr => k _; congr (_ * _ / _).
have hk : (k.+1 < size zs)%N by case: k => k /=; clear; case: (size zs).
have hk' : (k < size zs)%N by apply: leq_trans hk.
have h j : (j < size zs)%N ->
  cexp ('i%C * cx (- x * zs`_j)) * [seq cexp ('i%C * cx (a * p.1)) * p.2 | p <- zip zs cfs]`_j
  = cexp ('i%C * cx (- (x - a) * zs`_j)) * cfs`_j.
  move=> hj; rewrite (nth_map (0, 0)) ?size_zip ?hs ?minnn // nth_zip // -?hs //= mulrA -eD.
  by rewrite -mulrDr -cxD; move: zs`_j => t; have -> : - x * t + a * t = - (x - a) * t by ring.
by rewrite !h.
Qed.

(* on symmetric data nothing is dropped by jnp.real *)
Lemma if_real x (cfs : seq R[i]) (zs : seq R) : unit_exp cexp -> size cfs = size zs ->
  [seq - z | z <- zs] = rev zs -> [seq conjc c | c <- cfs] = rev cfs ->
  complex.Im (trapz [seq cexp (- 'i%C * cx x * cx p.1) * p.2 | p <- zip zs cfs] [seq cx z | z <- zs]) = 0.
Proof.
case=> _ ec _ hs hz hc.
have zN k : (k < size zs)%N -> zs`_(size zs - k.+1) = - zs`_k.
  by move=> hk; rewrite -nth_rev // -hz (nth_map 0).
have cN k : (k < size zs)%N -> cfs`_(size zs - k.+1) = conjc cfs`_k.
  by move=> hk; rewrite -hs -nth_rev ?hs // -hc (nth_map 0) ?hs.
set y := [seq _ | p <- _].
have hy : size y = size zs by rewrite size_map size_zip hs minnn.
have yE j : (j < size zs)%N -> y`_j = cexp ('i%C * cx (- x * zs`_j)) * cfs`_j.
  move=> hj; rewrite (nth_map (0, 0)) ?size_zip ?hs ?minnn // nth_zip // -?hs //=.
  by congr (cexp _ * _); rewrite !mulNr -mulrA -cxM rmorphN mulrN.
have yN k : (k < size zs)%N -> y`_(size zs - k.+1) = conjc y`_k.
  move=> hk; rewrite !yE ?cN ?zN //; last by move: hk; clear; lia.
  by rewrite conjcM -ec conj_i mulrN.
rewrite ctrapzE //; set S := \sum_(k < _) _.
suff hS : conjc S = S.
  by move: hS; clear; case: S => a b [] /eqP; rewrite eq_sym -subr_eq0 opprK -mulr2n mulrn_eq0 /= => /eqP.
rewrite /S raddf_sum (reindex_inj rev_ord_inj) /=; apply: eq_bigr => k _.
have hk : (k.+1 < size zs)%N by case: k => k /=; clear; case: (size zs).
have hk' : (k < size zs)%N by apply: leq_trans hk.
have -> : ((size zs).-1 - k.+1).+1 = (size zs - k.+1)%N by move: hk; clear; lia.
have -> : ((size zs).-1 - k.+1)%N = (size zs - k.+2)%N by move: hk; clear; lia.
rewrite !zN // !yN // -[LHS]/(conjc _) !conjcM conjc_inv conjc_nat conjc_real; congr (_ * _ / _).
  by rewrite opprK addrC.
by rewrite raddfD /= !conjcK addrC.
Qed.

Lemma if_le x (cfs : seq R[i]) (zs : seq R) (as_ : seq R) : unit_exp cexp -> 0 < pi ->
  size cfs = size zs -> sorted <=%R zs -> [seq `|c| | c <- cfs] = [seq cx a | a <- as_] ->
  `|inverse_fourier cexp pi x cfs zs| <= trapz as_ zs / (2%:R * pi).
Proof.
case=> _ _ e1 hpi hs hx ha.
have hsa : size as_ = size zs by have := congr1 size ha; rewrite !size_map hs.
have haE j : (j < size zs)%N -> `|cfs`_j| = cx as_`_j.
  by move=> hj; have := congr1 (fun s => nth 0 s j) ha; rewrite !(nth_map 0) ?hsa ?hs.
rewrite ifE // normrM [`|(_ ^-1)|]ger0_norm; last by rewrite invr_ge0 mulr_ge0 ?ler0n // ltW.
rewrite ler_wpmul2r //; first by rewrite invr_ge0 mulr_ge0 ?ler0n // ltW.
have hRe (c : R[i]) : cx `|complex.Re c| <= `|c|.
  by rewrite normc_def lecR -sqrtr_sqr; apply: ler_wsqrtr; rewrite ler_addl sqr_ge0.
rewrite -lecR; apply: le_trans (hRe _) _; rewrite trapzR // cx_sum.
apply: le_trans (ler_norm_sum _ _ _) _; apply: ler_sum => k _.
have hk : (k.+1 < size zs)%N by case: k => k /=; clear; case: (size zs).
have hk' : (k < size zs)%N by apply: leq_trans hk.
have hd : 0 <= zs`_k.+1 - zs`_k.
  by rewrite subr_ge0; have := sorted_leq_nth le_trans le_refl 0 hx; apply.
have -> : cx ((zs`_k.+1 - zs`_k) * (as_`_k + as_`_k.+1) / 2%:R)
   = cx (zs`_k.+1 - zs`_k) * (cx as_`_k + cx as_`_k.+1) / 2%:R.
  by rewrite -cxD -cxM [in LHS]cxM; congr (_ * _); rewrite fmorphV rmorph_nat.
rewrite !normrM normfV normr_nat ler_wpmul2r ?invr_ge0 ?ler0n // normc_cx (ger0_norm hd).
rewrite ler_wpmul2l ?ler0c //; apply: le_trans (ler_norm_add _ _) _.
by rewrite !normrM !e1 !mul1r !haE.
Qed.

(* the largest value of the density of a non-negative transform is at zero *)
Lemma if_max x (as_ zs : seq R) : unit_exp cexp -> 0 < pi -> size as_ = size zs -> sorted <=%R zs ->
  all (fun a => 0 <= a) as_ ->
  `|inverse_fourier cexp pi x [seq cx a | a <- as_] zs| <= inverse_fourier cexp pi 0 [seq cx a | a <- as_] zs.
Proof.
move=> he hpi hs hx /allP ha; have [e0 _ _] := he.
have -> : inverse_fourier cexp pi 0 [seq cx a | a <- as_] zs = trapz as_ zs / (2%:R * pi).
  rewrite ifE ?size_map //; congr (_ / _).
  have -> : trapz as_ zs = complex.Re (cx (trapz as_ zs)) by [].
  congr complex.Re; rewrite trapzR // cx_sum; apply: eq_bigr => k _.
  have hk : (k.+1 < size as_)%N by rewrite hs; case: k => k /=; clear; case: (size zs).
  have hk' : (k < size as_)%N by apply: leq_trans hk.
  rewrite oppr0 !mul0r !mulr0 e0 !mul1r !(nth_map 0) // -cxD -cxM [in RHS]cxM.
  by congr (_ * _); rewrite fmorphV rmorph_nat.
apply: if_le; rewrite ?size_map // -map_comp; apply/eq_in_map => a /ha h0 /=.
by rewrite normc_cx (ger0_norm h0).
Qed.
End Trapz.
