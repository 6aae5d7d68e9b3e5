(* Admissible moments of laws with independent coordinates and of mixtures: proofs. *)
From mathcomp Require Import all_ssreflect all_algebra.
From mathcomp Require Import zify ring polyrcf.
From Verif Require Import Prelude MultiIndexSpec LinAlgSpec LdlProofs SpectralProofs QuadModel QuadSpec QuadProofs QuadMain QuadStrict
  QuadNdSpec LegendreProofs MomentsNdMain.
Set Implicit Arguments.
Unset Strict Implicit.
Unset Printing Implicit Defensive.
Import Order.TTheory GRing.Theory Num.Theory.
Local Open Scope ring_scope.

Section Uniform.
Variable R : rcfType.

(* a polynomial that is constant on an interval is constant *)
Lemma const_on (q : {poly R}) (a b : R) : a < b -> (forall x, a <= x <= b -> q.[x] = q.[a]) -> q = (q.[a])%:P.
Proof.
move=> ab h; apply/eqP; rewrite -subr_eq0; set r := q - _.
pose n := size r; pose pt (i : nat) : R := a + (b - a) * (i%:R / n.+1%:R).
have n0 : (0 : R) < n.+1%:R by rewrite ltr0n.
have d0 : 0 < b - a by rewrite subr_gt0.
apply/eqP; apply: (@roots_geq_poly_eq0 _ r [seq pt i | i <- iota 0 n]).
- apply/allP => x /mapP [i]; rewrite mem_iota add0n => /andP [_ hi] ->; apply/rootP.
  rewrite /r hornerD hornerN hornerC h ?subrr // /pt ler_addl mulr_ge0 ?divr_ge0 ?ler0n ?(ltW d0) //=.
  by rewrite -ler_subr_addl ger_pmulr // ler_pdivr_mulr // mul1r ler_nat ltnW // ltnS ltnW.
- rewrite map_inj_uniq ?iota_uniq // => i j /addrI /mulfI; rewrite gt_eqF // => /(_ isT) /divIf.
  by rewrite gt_eqF // => /(_ isT) /eqP; rewrite eqr_nat => /eqP.
by rewrite size_map size_iota.
Qed.

Lemma umom_admissible (a b : R) N : a < b -> admissible (umom a b) N.
Proof.
move=> ab p p0 _; have [q hq] := primitive (p * p).
rewrite -hq umom_prim divr_gt0 ?subr_gt0 //.
have mono x y : a <= x -> x <= y -> y <= b -> q.[x] <= q.[y].
  move=> ax xy yb; apply: (@ler_hornerW _ a b q) => //.
  - by move=> z _; rewrite hq hornerM -expr2 sqr_ge0.
  - by rewrite in_itv /= ax (le_trans xy).
  - by rewrite in_itv /= yb (le_trans ax).
rewrite lt_neqAle mono ?lexx ?(ltW ab) // andbT; apply/eqP => e.
have hc : q = (q.[a])%:P.
  apply: (const_on ab) => x /andP [ax xb]; apply/eqP; by rewrite eq_le {1}e !mono ?lexx ?(ltW ab).
have : p * p == 0 by rewrite -hq hc derivC.
by rewrite mulf_eq0 (negbTE p0).
Qed.
End Uniform.

Section Product.
Variable R : rcfType.

(* moments of a law with independent coordinates that have the moments Ms *)
Definition prod_moments (Ms : seq (nat -> R)) (k : seq nat) : R := \prod_(t <- zip Ms k) t.1 t.2.

Lemma zip_scale (a : R) (ws xs : seq R) (F : R -> R) :
  \sum_(q <- zip [seq a * w | w <- ws] xs) q.1 * F q.2 = a * \sum_(q <- zip ws xs) q.1 * F q.2.
Proof.
elim: ws xs => [|w ws IH] [|x xs] /=; rewrite ?big_nil ?mulr0 //.
by rewrite !big_cons IH /= mulrDr mulrA.
Qed.

(* admissible one-dimensional moments are moments of a positive rule *)
Lemma rule_of (m : nat -> R) N : (0 < N)%N -> admissible m N ->
  exists ws xs, [/\ size ws = N, size xs = N, all (fun w => 0 < w) ws, uniq xs
    & forall k, (k < N.*2)%N -> m k = \sum_(q <- zip ws xs) q.1 * q.2 ^+ k].
Proof.
move=> N0 ha; pose ms := [seq m k | k <- iota 0 N.*2].
have sz : size ms = N.*2 by rewrite size_map size_iota.
have nE k : (k < N.*2)%N -> ms`_k = m k by move=> hk; rewrite (nth_map 0%N) ?size_iota // nth_iota.
have hh : (size ms)./2 = N by rewrite sz doubleK.
have ha' : admissible (nth 0 ms) (size ms)./2.
  rewrite hh => p p0 sp; rewrite (@mom_eq _ _ m); first exact: ha.
  move=> k hk; apply: nE; apply: leq_trans hk _; apply: leq_trans (size_mul_leq _ _) _.
  by move: sp; move: (size p) => u; lia.
have s1 : (1 < size ms)%N by rewrite sz; lia.
have n1 : (1 : R) != 0 := oner_neq0 _.
have hc := @chol_ref_spec R; have he := @eigh_ref_spec R.
have [ws [xs hq [e1 e2 hm]]] := quadrature_moments_main hc he 0 false s1 n1 ha'.
have [_ wp ux] := quadrature_strict hc he n1 ha' hq.
have m0 : 0 < m 0%N.
  have := ha 1 (oner_neq0 _); rewrite size_poly1 mulr1 -(expr0 'X) momXn; exact.
have m0E : ms`_0 = m 0%N by apply: nE; lia.
exists [seq m 0%N * w | w <- ws], xs; split; rewrite ?size_map ?e1 ?e2 //.
  by rewrite all_map; apply: sub_all wp => w w0 /=; rewrite mulr_gt0.
move=> k hk; have := hm k; rewrite hh => /(_ hk); rewrite nE // m0E => /(canLR (divfK (lt0r_neq0 m0))) <-.
rewrite expect_sumE (zip_scale _ _ _ (fun x => x ^+ k)) mulrC; congr (_ * _).
by apply: eq_bigr => q _ /=; rewrite subr0 divr1.
Qed.

(* grouping a sum *)
Lemma group_sum (T U : eqType) (g : T -> U) (s : seq T) (F : T -> R) :
  \sum_(x <- s) F x = \sum_(t <- undup [seq g x | x <- s]) \sum_(x <- s | g x == t) F x.
Proof.
rewrite (exchange_big_dep xpredT) //=; apply: eq_big_seq => x hx.
rewrite -big_filter (_ : [seq t <- _ | g x == t] = [:: g x]) ?big_seq1 //.
rewrite (eq_filter (a2 := pred1 (g x))); last by move=> t; rewrite /= eq_sym.
by rewrite filter_pred1_uniq ?undup_uniq // mem_undup map_f.
Qed.

Definition sq_form (M : seq nat -> R) (s : seq (seq nat)) (c : seq nat -> R) : R :=
  \sum_(x <- s) \sum_(y <- s) c x * c y * M (madd x y).

Lemma prod_form (Ms : seq (nat -> R)) N (s : seq (seq nat)) (c : seq nat -> R) : (0 < N)%N ->
  (forall i, (i < size Ms)%N -> admissible (nth (fun=> 0) Ms i) N) ->
  uniq s -> all (fun x => (size x == size Ms) && all (fun j => (j < N)%N) x) s ->
  (exists2 x, x \in s & c x != 0) -> 0 < sq_form (prod_moments Ms) s c.
Proof.
move=> N0; elim: Ms s c => [|m Ms IH] s c hM us hs [x0 hx0 cx0].
  have k0 k' : k' \in s -> k' = [::] by move=> /(allP hs) /andP [/eqP /size0nil].
  have es : s = [:: [::]].
    case: s us hx0 k0 {hs} => // y [|z s] /=; first by move=> _ _ /(_ y (mem_head _ _)) ->.
    rewrite inE negb_or => /andP [/andP [h _] _] _ k0.
    by move: h; rewrite (k0 y (mem_head _ _)) (k0 z _) ?eqxx // !inE eqxx orbT.
  have e0 := k0 _ hx0; rewrite /sq_form es !big_seq1 /prod_moments big_nil mulr1 -expr2.
  by rewrite lt_neqAle sqr_ge0 andbT eq_sym expf_neq0 // -e0.
have hin k' : k' \in s -> k' = head 0%N k' :: behead k' by move/(allP hs); case: k'.
have hd k' : k' \in s -> (head 0%N k' < N)%N.
  by move/(allP hs); case: k' => //= j k' /andP [_ /andP []].
have [ws [xs [sw sx wp ux hm]]] := rule_of (m := m) N0 (hM 0%N isT).
pose s' := undup [seq behead k' | k' <- s].
pose cz (z : R) (t : seq nat) := \sum_(x <- s | behead x == t) c x * z ^+ head 0%N x.
have eq1 : sq_form (prod_moments (m :: Ms)) s c = \sum_(q <- zip ws xs) q.1 * sq_form (prod_moments Ms) s' (cz q.2).
  transitivity (\sum_(q <- zip ws xs) q.1 * \sum_(x <- s) \sum_(y <- s)
     (c x * q.2 ^+ head 0%N x) * (c y * q.2 ^+ head 0%N y) * prod_moments Ms (madd (behead x) (behead y))).
    under [RHS]eq_bigr do rewrite mulr_sumr.
    rewrite [RHS]exchange_big; apply: eq_big_seq => x hx.
    under [RHS]eq_bigr do rewrite mulr_sumr.
    rewrite [RHS]exchange_big; apply: eq_big_seq => y hy.
    rewrite {1}(hin _ hx) {1}(hin _ hy) {3}(hin _ hx) {3}(hin _ hy).
    have -> : prod_moments (m :: Ms) (madd (head 0%N x :: behead x) (head 0%N y :: behead y))
      = m (head 0%N x + head 0%N y)%N * prod_moments Ms (madd (behead x) (behead y)).
      by rewrite /prod_moments /madd /= big_cons.
    rewrite hm; last by move: (hd _ hx) (hd _ hy); lia.
    rewrite -!(hin _ hx) -!(hin _ hy).
    rewrite mulr_suml mulr_sumr; apply: eq_bigr => q _; rewrite exprD.
    by move: (q.2 ^+ _) (q.2 ^+ _) (prod_moments _ _) => u v w; ring.
  apply: eq_bigr => q _; congr (_ * _).
  rewrite /sq_form (group_sum behead); apply: eq_bigr => t _.
  rewrite exchange_big (group_sum behead); apply: eq_bigr => u _.
  rewrite exchange_big /cz -mulrA mulr_suml; apply: eq_bigr => x /eqP ->.
  rewrite mulrA mulr_sumr mulr_suml; apply: eq_bigr => y /eqP ->; by [].
have hs' : all (fun x => (size x == size Ms) && all (fun j => (j < N)%N) x) s'.
  apply/allP => t; rewrite mem_undup => /mapP [k' /(allP hs)]; case: k' => //= j k'.
  by rewrite eqSS => /andP [h /andP [_ h']] ->; rewrite h h'.
have hM' i : (i < size Ms)%N -> admissible (nth (fun=> 0) Ms i) N by move=> hi; exact: (hM i.+1).
have ge0 z : 0 <= sq_form (prod_moments Ms) s' (cz z).
  have [/hasP [t ht ct]|/hasPn hn] := boolP (has (fun t => cz z t != 0) s').
    by apply: ltW; apply: IH; rewrite ?undup_uniq //; exists t.
  rewrite /sq_form big_seq big1 // => x hx; rewrite big1 // => y _.
  by move: (hn _ hx); rewrite negbK => /eqP ->; rewrite !mul0r.
pose t0 := behead x0; pose P0 : {poly R} := \sum_(x <- s | behead x == t0) c x *: 'X^(head 0%N x).
have P0E z : P0.[z] = cz z t0 by rewrite horner_sum; apply: eq_bigr => x _; rewrite hornerZ hornerXn.
have P0n0 : P0 != 0.
  apply/eqP => /(congr1 (fun p : {poly R} => p`_(head 0%N x0))); rewrite coef0 coef_sum => e.
  move: cx0; rewrite -e; apply/negP; rewrite negbK eq_sym.
  rewrite big_mkcond (bigD1_seq x0) //= eqxx coefZ coefXn eqxx mulr1 big_seq_cond big1 ?addr0 //.
  move=> x /andP [hx xn]; case: eqP => // et; rewrite coefZ coefXn.
  case: eqP => [eh|]; last by rewrite mulr0.
  by move: xn; rewrite (hin _ hx) (hin _ hx0) -eh et eqxx.
have szP : (size P0 <= N)%N.
  rewrite /P0 big_seq_cond; elim/big_ind: _ => [|p q hp hq|x /andP [hx _]].
  - by rewrite size_poly0.
  - by rewrite (leq_trans (size_add _ _)) // geq_max hp hq.
  - by rewrite (leq_trans (size_scale_leq _ _)) // size_polyXn; exact: hd.
have [z hz Pz] : exists2 z, z \in xs & P0.[z] != 0.
  have [/hasP //|/hasPn hn] := boolP (has (fun z => P0.[z] != 0) xs).
  case/eqP: P0n0; apply: (@roots_geq_poly_eq0 _ P0 xs) => //; last by rewrite sx.
  by apply/allP => z /hn; rewrite negbK.
have posz : 0 < sq_form (prod_moments Ms) s' (cz z).
  apply: IH; rewrite ?undup_uniq //; exists t0; first by rewrite mem_undup map_f.
  by rewrite -P0E.
rewrite eq1; pose iz := index z xs; have hiz : (iz < N)%N by rewrite -sx index_mem.
rewrite (big_nth (0, 0)) size_zip sw sx minnn (big_mkord xpredT).
rewrite (bigD1 (Ordinal hiz)) //= ltr_spaddl //.
  rewrite nth_zip ?sw ?sx //= nth_index // mulr_gt0 //; by apply: (all_nthP 0 wp); rewrite sw.
apply: sumr_ge0 => i _; rewrite nth_zip ?sw ?sx //= mulr_ge0 //.
by apply: ltW; apply: (all_nthP 0 wp); rewrite sw.
Qed.

Lemma product_admissible (Ms : seq (nat -> R)) N : (0 < N)%N ->
  (forall i, (i < size Ms)%N -> admissible (nth (fun=> 0) Ms i) N) ->
  admissible_nd (size Ms) N (prod_moments Ms).
Proof.
move=> N0 hM basis [ub mb] c hc; apply: (prod_form N0 hM ub _ hc).
apply/allP => x; rewrite mb => /and3P [-> _ hx] /=; apply/allP => j hj.
suff : (j <= sumn x)%N by lia.
elim: x hj {hx} => //= i x IH; rewrite inE => /orP [/eqP ->|/IH h]; first exact: leq_addr.
by rewrite (leq_trans h) ?leq_addl.
Qed.

(* mixtures *)
Lemma mixture_admissible d N (ts : seq (R * (seq nat -> R))) :
  all (fun t => 0 < t.1) ts -> (0 < size ts)%N -> (forall t, List.In t ts -> admissible_nd d N t.2) ->
  admissible_nd d N (fun k => \sum_(t <- ts) t.1 * t.2 k).
Proof.
move=> hp h0 ha basis hb c hc.
have -> : \sum_(x <- basis) \sum_(y <- basis) c x * c y * (\sum_(t <- ts) t.1 * t.2 (madd x y))
  = \sum_(t <- ts) t.1 * (\sum_(x <- basis) \sum_(y <- basis) c x * c y * t.2 (madd x y)).
  under [RHS]eq_bigr do rewrite mulr_sumr.
  rewrite [RHS]exchange_big; apply: eq_bigr => x _.
  under [RHS]eq_bigr do rewrite mulr_sumr.
  rewrite [RHS]exchange_big; apply: eq_bigr => y _.
  by rewrite mulr_sumr; apply: eq_bigr => t _; rewrite mulrCA.
case: ts hp h0 ha => // t ts; move=> /= /andP [t0 hp] _ ha; rewrite big_cons.
have pos u : 0 < u.1 -> List.In u (t :: ts) ->
  0 < u.1 * (\sum_(x <- basis) \sum_(y <- basis) c x * c y * u.2 (madd x y)).
  by move=> u0 hu; rewrite mulr_gt0 //; apply: (ha u hu).
rewrite ltr_spaddl ?pos //; first by left.
have : forall u, List.In u ts -> List.In u (t :: ts) by right.
elim: ts hp {ha} pos => [|u ts IH] /=; first by rewrite big_nil.
move=> /andP [u0 hp] pos hin; rewrite big_cons addr_ge0 //; first by apply: ltW; apply: pos => //; right; left.
apply: IH => // [v v0 hv|v hv]; last by right.
by apply: pos => //; case: hv => [->|hv]; [left|right; right].
Qed.
End Product.
