(* The Gauss--Hermite rule under N(m, L L^T), and positivity of Gaussian moment matrices. *)
From mathcomp Require Import all_ssreflect all_algebra.
From mathcomp Require Import zify ring.
From mathcomp Require Import polyrcf.
From Verif Require Import Prelude MultiIndexSpec LinAlgSpec LinAlgProofs LdlProofs QuadSpec QuadProofs.
From Verif Require Import QuadNdSpec QuadNdProofs Moments1DSpec Moments1DProofs SigmaSpec GfsModel SigmaModel SigmaGh SigmaGhNd SigmaProps.
From Verif Require Import MomentsNdModel MomentsNdSpec MomentsNdKan MomentsNdMvn MomentsNdMain GaussNd.
Set Implicit Arguments.
Unset Strict Implicit.
Unset Printing Implicit Defensive.
Import Order.TTheory GRing.Theory Num.Theory.
Local Open Scope ring_scope.

Section Grid.
Variables (R : rcfType) (d n : nat).
(* a polynomial of degree less than n in each variable vanishes if it vanishes on the grid *)
Lemma grid_zero (X : seq R) (ts : seq (R * ('I_d -> nat))) : uniq X -> size X = n ->
  all (fun t => [forall i, (t.2 i < n)%N]) ts ->
  (forall x : 'cV[R]_d, (forall i, x i 0 \in X) -> mpoly_eval ts x = 0) ->
  forall x, mpoly_eval ts x = 0.
Proof.
move=> uX sX hts h.
suff hm : forall m : nat, forall x : 'cV[R]_d, (forall i : 'I_d, (m <= i)%N -> x i 0 \in X) -> mpoly_eval ts x = 0.
  by move=> x; apply: (hm d) => i; rewrite leqNgt ltn_ord.
elim=> [|m IH] x hx; first by apply: h => i; exact: hx.
case: (ltnP m d) => hmd; last by apply: IH => i hi; move: (ltn_ord i); lia.
pose i0 := Ordinal hmd; pose y t : 'cV[R]_d := \col_i (if i == i0 then t else x i 0).
pose p : {poly R} := \sum_(t <- ts) (t.1 * \prod_(i < d | i != i0) x i 0 ^+ t.2 i) *: 'X^(t.2 i0).
have pE t : p.[t] = mpoly_eval ts (y t).
  rewrite /p horner_sum; apply: eq_bigr => u _; rewrite hornerZ hornerXn /term_eval -mulrA; congr (_ * _).
  rewrite [RHS](bigD1 i0) //= mxE eqxx mulrC; congr (_ * _).
  by apply: eq_bigr => i hi; rewrite mxE (negbTE hi).
have p0 : p = 0.
  apply: (@roots_geq_poly_eq0 _ p X) => //.
    apply/allP => t ht; apply/rootP; rewrite pE; apply: IH => i hi; rewrite mxE.
    case: (eqVneq i i0) => // hne; apply: hx.
    by rewrite ltn_neqAle hi andbT; apply: contra hne => /eqP e; apply/eqP/val_inj; rewrite /= e.
  rewrite sX /p; elim: (ts) hts => [|t us IHu] /=; first by rewrite big_nil size_poly0.
  case/andP=> /forallP ht /IHu {}IHu; rewrite big_cons (leq_trans (size_add _ _)) // geq_max IHu andbT.
  by apply: leq_trans (size_scale_leq _ _) _; rewrite size_polyXn; exact: ht.
have -> : x = y (x i0 0).
  by apply/colP => i; rewrite mxE; case: eqP => // ->.
by rewrite -pE p0 horner0.
Qed.

End Grid.

Section Gh.
Variables (R : rcfType) (roots : seq R -> seq R) (pi : R).
Hypothesis hroots : roots_spec roots.
Hypothesis pi0 : 0 < pi.
Variables (d n : nat).
Hypothesis n0 : (0 < n)%N.
Local Notation sg := (gauss_hermite roots pi d n).
Local Notation nodes := (zip (sg_w sg) (sg_xi sg)).

Lemma kan_point p (y : 'cV[R]_p) k : size k = p ->
  raw_moments_mvn_kan y 0 k = \prod_(i < p) y i 0 ^+ nth 0%N k i.
Proof.
have h0 : (0 : 'M[R]_p)^T = 0 by rewrite trmx0.
by move=> hk; exact: (mvn_unique (kan_moments y h0) (mvn_point y) hk).
Qed.

Lemma gh_hE k : size k = d -> (sumn k <= n.*2.-1)%N ->
  \sum_(q <- nodes) q.1 * \prod_(i < d) q.2 i 0 ^+ nth 0%N k i
  = \prod_(i < d) gauss_moment 0 1 (nth 0%N k i).
Proof.
move=> hk hs.
have ht : all (fun t : R * ('I_d -> nat) => [forall i, (t.2 i < n.*2)%N]) [:: (1, fun i : 'I_d => nth 0%N k i)].
  rewrite /= andbT; apply/forallP => i.
  have : (nth 0%N k i <= sumn k)%N by rewrite (@sum_nth d) // (bigD1 i) //= leq_addr.
  by move: n0 hs; move: (nth 0%N k i) (sumn k) => a b; lia.
have := gh_mpoly hroots pi0 n0 ht; rewrite /mpoly_gauss big_seq1 mul1r => <-.
by apply: eq_bigr => q _; rewrite /mpoly_eval big_seq1 /term_eval /= mul1r.
Qed.

Lemma std_mvn : mvn_moments (0 : 'cV[R]_d) 1%:M (fun k => \prod_(i < d) gauss_moment 0 1 (nth 0%N k i)).
Proof.
have := mvn_diag (0 : 'cV[R]_d) (fun=> 1); rewrite (_ : \matrix_(i, j) _ = 1%:M) => [h|]; last first.
  by apply/matrixP => i j; rewrite !mxE mulr1.
have e k : \prod_(i < d) gauss_moment ((0 : 'cV[R]_d) i 0) 1 (nth 0%N k i)
         = \prod_(i < d) gauss_moment 0 1 (nth 0%N k i) by apply: eq_bigr => i _; rewrite mxE.
have [h0 h1] := h; split=> [|k i hk]; first by rewrite -e.
by rewrite -!e h1 //; congr (_ + _); apply: eq_bigr => j _; rewrite -e.
Qed.

Lemma gh_affine p (m : 'cV[R]_p) (L : 'M[R]_(p, d)) k : size k = p -> (sumn k <= n.*2.-1)%N ->
  \sum_(q <- nodes) q.1 * \prod_(i < p) (m + L *m q.2) i 0 ^+ nth 0%N k i
  = raw_moments_mvn_kan m (L *m L^T) k.
Proof.
move=> hk hs; have h0 : (0 : 'M[R]_p)^T = 0 by rewrite trmx0.
have := affine_rule L m h0 (trmx1 _ _) std_mvn gh_hE hk hs.
rewrite mulmx0 add0r addr0 mulmx1 => <-; apply: eq_bigr => q _.
by rewrite kan_point // [m + _]addrC.
Qed.

Lemma gh_lambda_gt0 x : x \in gh_nodes roots n -> 0 < gh_lambda n x.
Proof.
move=> hx; have [sX uX mX eX] := gh_nodes_rule hroots n0; set X := gh_nodes roots n in hx sX uX mX eX.
pose p : {poly R} := \prod_(y <- rem x X) ('X - y%:P).
have sp : size p = n by rewrite size_prod_XsubC size_rem // sX prednK.
have p0 : p != 0 by rewrite -size_poly_gt0 sp.
have := SigmaGh.gauss_admissible p0 (leqnn _).
rewrite -eX; last by rewrite (leq_trans (size_mul_leq _ _)) // sp addnn leq_pred.
rewrite (bigD1_seq x) //= big1_seq => [|y /andP [hy hyX]]; last first.
  suff -> : (p * p).[y] = 0 by rewrite mulr0.
  have : root p y by rewrite root_prod_XsubC mem_rem_uniq // !inE hy.
  by move/rootP => e; rewrite hornerM e mul0r.
rewrite addr0 hornerM -expr2 => h; rewrite -(pmulr_lgt0 _ (_ : 0 < p.[x] ^+ 2)) //.
rewrite lt_neqAle sqr_ge0 andbT eq_sym; apply/eqP => e; move: h.
by rewrite e mulr0 ltxx.
Qed.
End Gh.

(* polynomials are determined by their values *)
Section Coef.
Variable R : rcfType.

Lemma coef_zero d (s : seq (seq nat)) (c : seq nat -> R) : uniq s -> all (fun k => size k == d) s ->
  (forall z, size z = d -> \sum_(k <- s) c k * mono z k = 0) -> forall k, k \in s -> c k = 0.
Proof.
elim: d s c => [|d IH] s c us hs h k hk.
  have k0 k' : k' \in s -> k' = [::] by move=> /(allP hs) /eqP /size0nil.
  have := h [::] erefl; rewrite (bigD1_seq k) //= big1_seq => [|k' /andP [hne hk']]; last first.
    by move: hne; rewrite (k0 _ hk') (k0 _ hk) eqxx.
  by rewrite /mono (k0 _ hk) /= big_nil mulr1 addr0.
have ek : k = head 0%N k :: behead k by move: (allP hs k hk); case: (k).
set j := head 0%N k in ek.
pose s' := [seq behead k' | k' <- s & head 0%N k' == j].
have hin k' : k' \in s -> k' = head 0%N k' :: behead k' by move/(allP hs); case: k'.
rewrite ek; apply: (IH s' (fun t => c (j :: t))).
- rewrite map_inj_in_uniq ?filter_uniq // => a b; rewrite !mem_filter => /andP [/eqP ha /hin ea] /andP [/eqP hb /hin eb] e.
  by rewrite ea eb ha hb e.
- apply/allP => t /mapP [k']; rewrite mem_filter => /andP [_ hk'] ->.
  by rewrite size_behead (eqP (allP hs _ hk')).
- move=> z hz.
  pose p : {poly R} := \sum_(k' <- s) (c k' * mono z (behead k')) *: 'X^(head 0%N k').
  have p0 : p = 0.
    apply: (@roots_geq_poly_eq0 _ p [seq i%:R | i <- iota 0 (size p)]).
    + apply/allP => t _; apply/rootP; rewrite /p horner_sum -[RHS](h (t :: z)) /= ?hz //.
      apply: eq_big_seq => k' hk'; rewrite hornerZ hornerXn -mulrA; congr (_ * _).
      have -> : mono (t :: z) k' = mono (t :: z) (head 0%N k' :: behead k') by rewrite -(hin _ hk').
      by rewrite [in RHS]/mono /= big_cons mulrC.
    + rewrite map_inj_uniq ?iota_uniq // => a b /eqP; by rewrite eqr_nat => /eqP.
    + by rewrite size_map size_iota.
  have := congr1 (fun q : {poly R} => q`_j) p0; rewrite coef0 => e; rewrite -[RHS]e /p coef_sum.
  rewrite /s' big_map big_filter big_mkcond /=; apply: eq_big_seq => k' hk'.
  rewrite coefZ coefXn [j == _]eq_sym; case: eqP => [<-|_]; last by rewrite mulr0.
  by rewrite mulr1 -(hin _ hk').
by apply/mapP; exists k => //; rewrite mem_filter eqxx.
Qed.
End Coef.

Section Adm.
Variables (R : rcfType) (d : nat) (m : 'cV[R]_d) (P : 'M[R]_d) (M : seq nat -> R).
Hypothesis hP : posdef P.
Hypothesis hM : mvn_moments m P M.

Lemma monoE (z : 'cV[R]_d) k : size k = d ->
  mono [seq z i 0 | i <- enum 'I_d] k = \prod_(i < d) z i 0 ^+ nth 0%N k i.
Proof.
move=> hk; have hz : size [seq z i 0 | i <- enum 'I_d] = d by rewrite size_map size_enum_ord.
rewrite /mono (big_nth (0, 0%N)) size_zip hk hz minnn big_mkord.
apply: eq_bigr => i _; rewrite nth_zip ?hz //.
by rewrite (nth_map i) ?size_enum_ord // (nth_ord_enum i i).
Qed.

Lemma gauss_nd_admissible N : (0 < N)%N -> admissible_nd d N M.
Proof.
move=> hN basis [ub mb] c hc.
have hsz x : x \in basis -> size x = d /\ (sumn x <= N.-1)%N.
  by rewrite mb /in_range => /and3P [/eqP -> _ ->].
have [sP _] := hP.
pose L := @chol_ref R d P; have [lowL posL eL] := @chol_ref_spec R d P hP; rewrite -/L in eL.
pose roots := fun c : seq R => rootsR (Poly (rev c)); have hroots : roots_spec roots by exact: roots_ref_spec.
pose sg := gauss_hermite roots 1 d N.
pose q (x : 'cV[R]_d) := \sum_(k <- basis) c k * \prod_(i < d) x i 0 ^+ nth 0%N k i.
have -> : \sum_(x <- basis) \sum_(y <- basis) c x * c y * M (madd x y)
        = \sum_(p <- zip (sg_w sg) (sg_xi sg)) p.1 * q (m + L *m p.2) ^+ 2.
  transitivity (\sum_(x <- basis) \sum_(y <- basis) c x * c y * \sum_(p <- zip (sg_w sg) (sg_xi sg))
      p.1 * \prod_(i < d) (m + L *m p.2) i 0 ^+ nth 0%N (madd x y) i).
    apply: eq_big_seq => x /hsz [hx hx']; apply: eq_big_seq => y /hsz [hy hy']; congr (_ * _).
    have hxy : size (madd x y) = d by rewrite size_map size_zip hx hy minnn.
    rewrite (gh_affine hroots ltr01 hN) ?eL //; first exact: (mvn_unique hM (kan_moments m sP) hxy).
    have -> : sumn (madd x y) = (sumn x + sumn y)%N.
      rewrite !(@sum_nth d) // -big_split; apply: eq_bigr => i _ /=.
      by rewrite (nth_map (0%N, 0%N)) ?size_zip ?hx ?hy ?minnn // nth_zip ?hx ?hy.
    by move: (sumn x) (sumn y) hx' hy' => a b; lia.
  under eq_bigr do under eq_bigr do rewrite mulr_sumr.
  under eq_bigr do rewrite exchange_big /=.
  rewrite exchange_big /=; apply: eq_bigr => p _; rewrite expr2 /q mulr_suml mulr_sumr.
  apply: eq_big_seq => x /hsz [hx _]; rewrite !mulr_sumr; apply: eq_big_seq => y /hsz [hy _].
  have -> : \prod_(i < d) (m + L *m p.2) i 0 ^+ nth 0%N (madd x y) i
      = \prod_(i < d) (m + L *m p.2) i 0 ^+ nth 0%N x i * \prod_(i < d) (m + L *m p.2) i 0 ^+ nth 0%N y i.
    rewrite -big_split; apply: eq_bigr => i _ /=.
    by rewrite (nth_map (0%N, 0%N)) ?size_zip ?hx ?hy ?minnn // nth_zip ?hx ?hy //= exprD.
  by move: (\prod_(i < d) _) (\prod_(i < d) _) => a b; ring.
have [sX uX _ _] := gh_nodes_rule hroots hN; set X := gh_nodes roots N in sX uX.
have hg := gh_grid hroots ltr01 d hN.
rewrite (perm_big _ hg) big_map big_enum /=.
have wpos (f : {ffun 'I_d -> 'I_N.-1.+1}) : 0 < (grid_point roots f).1.
  apply: prodr_gt0 => r _; apply: (gh_lambda_gt0 hroots hN).
  by apply: mem_nth; rewrite -/X sX; apply: leq_trans (ltn_ord (f r)) _; rewrite prednK.
case: (boolP [exists f : {ffun 'I_d -> 'I_N.-1.+1}, q (m + L *m (grid_point roots f).2) != 0]) => [/existsP [f hf]|].
  rewrite (bigD1 f) //=; apply: ltr_paddr; last first.
    by apply: mulr_gt0; [exact: wpos|rewrite lt_neqAle sqr_ge0 andbT eq_sym expf_neq0].
  by apply: sumr_ge0 => g _; apply: mulr_ge0; [exact/ltW/wpos|exact: sqr_ge0].
rewrite negb_exists => /forallP hz; exfalso.
have uL : L \in unitmx.
  have := posdef_unit hP; rewrite -eL unitmx_mul => /andP [] //.
have h0 : (0 : 'M[R]_d)^T = 0 by rewrite trmx0.
have qp : pol N.-1 (fun x => q (L *m x + m)) (fun j x => \sum_(k <- basis) (if k \in basis then c k * dG L m 0 k j x else 0)).
  have := @pol_sum R d N.-1 _ basis (fun k x => if k \in basis then c k * raw_moments_mvn_kan (L *m x + m) 0 k else 0)
    (fun k j x => if k \in basis then c k * dG L m 0 k j x else 0).
  move=> h; apply: pol_ext (h _) => [x|j x|k] //=.
    by apply: eq_big_seq => k hk; rewrite hk kan_point //; have [] := hsz _ hk.
  case: (boolP (k \in basis)) => [/hsz [h1 h2]|_]; last exact: pol_zero.
  by apply: pol_weaken h2 _; apply: pol_scale; exact: G_pol.
have [ts [ht1 ht2 _]] := qp.
have qz x : q (L *m x + m) = 0.
  have -> : q (L *m x + m) = mpoly_eval ts x by exact: ht2.
  move: x; apply: (grid_zero uX sX).
    apply: sub_all ht1 => t ht; apply/forallP => i.
    have : (t.2 i <= \sum_j t.2 j)%N by rewrite (bigD1 i) //= leq_addr.
    by move: ht hN; move: (t.2 i) (\sum_j t.2 j)%N => a b; lia.
  move=> x hx; rewrite -ht2.
  have hidx i : (index (x i 0%R) X < N.-1.+1)%N by rewrite prednK // -sX index_mem.
  have := hz [ffun i => Ordinal (hidx i)]; rewrite negbK addrC => /eqP <-.
  congr (q (L *m _ + m)); apply/colP => i; rewrite mxE ffunE /=.
  by rewrite -/X nth_index.
case: hc => x hx /eqP; apply.
apply: (@coef_zero R d basis c ub _ _ x hx); first by apply/allP => k /hsz [->].
move=> z hz'; pose y : 'cV[R]_d := \col_i nth 0 z i.
have := qz (invmx L *m (y - m)); rewrite mulKVmx // subrK => e; rewrite -[RHS]e.
apply: eq_big_seq => k /hsz [hk _]; congr (_ * _).
have hye : size [seq y i 0 | i <- enum 'I_d] = d by rewrite size_map size_enum_ord.
rewrite -monoE //; congr (mono _ _); apply: (@eq_from_nth _ 0) => [|i]; rewrite hz' ?hye //.
move=> hi; pose i' := Ordinal hi; rewrite -[i]/(val i') (nth_map i') ?size_enum_ord // (nth_ord_enum i' i').
by rewrite mxE.
Qed.
End Adm.
