(* Signs of the multi-dimensional quadrature: the marginals are positive, products are
   bounded, but the joint weights can be negative. *)
From mathcomp Require Import all_ssreflect all_algebra.
From mathcomp Require Import zify ring.
From Verif Require Import Prelude MultiIndexModel MultiIndexSpec MultiIndexProofs MultiIndexGramProofs MultiIndexMain.
From Verif Require Import NdIndexModel NdIndexProofs LinAlgSpec LinAlgProofs SpectralProofs LdlModel LdlProofs.
From Verif Require Import QuadModel QuadSpec QuadProofs QuadMain QuadNdModel QuadNdSpec QuadNdProofs QuadNdGram.
From Verif Require Import QuadNdAffine QuadNdMain QuadNdFinal QuadNdExact QuadNdDisc FilterNdModel.
Set Implicit Arguments.
Unset Strict Implicit.
Unset Printing Implicit Defensive.
Import Order.TTheory GRing.Theory Num.Theory.
Local Open Scope ring_scope.

Section Fc.
Variables (R : rcfType) (n : nat).
Implicit Types (V : 'M[R]_n.+1) (lam : 'rV[R]_n.+1).

Lemma fcalc_ext V lam f g : (forall x, f x = g x) -> fcalc V lam f = fcalc V lam g.
Proof. by move=> h; rewrite /fcalc; congr (V *m diag_mx _ *m _); apply/rowP => i; rewrite !mxE h. Qed.

Lemma fcalcD V lam f g : fcalc V lam (fun x => f x + g x) = fcalc V lam f + fcalc V lam g.
Proof.
apply/matrixP => i j; rewrite mxaddE !fcalc_entry -big_split /=; apply: eq_bigr => k _.
by rewrite mulrDr mulrDl.
Qed.

Lemma fcalcZ V lam c f : fcalc V lam (fun x => c * f x) = c *: fcalc V lam f.
Proof.
apply/matrixP => i j; rewrite mxscaleE !fcalc_entry mulr_sumr; apply: eq_bigr => k _.
by rewrite mulrCA -!mulrA.
Qed.

Lemma fcalc_tr V lam f : (fcalc V lam f)^T = fcalc V lam f.
Proof. by rewrite /fcalc !trmx_mul trmxK tr_diag_mx mulmxA. Qed.

(* squared norm *)
Definition nrm2 (v : 'cV[R]_n.+1) : R := (v^T *m v) 0 0.

Lemma nrm2E v : nrm2 v = \sum_i v i 0 ^+ 2.
Proof. by rewrite /nrm2 dotE; apply: eq_bigr => i _; rewrite expr2. Qed.

Lemma nrm2_orth (V : 'M[R]_n.+1) v : V^T *m V = 1%:M -> nrm2 (V *m v) = nrm2 v.
Proof. by move=> oV; rewrite /nrm2 trmx_mul -!mulmxA [V^T *m (V *m v)]mulmxA oV mul1mx. Qed.

Lemma fcalc_nrm2 V lam f B v : V^T *m V = 1%:M -> (forall x, `|f x| <= B) ->
  nrm2 (fcalc V lam f *m v) <= B ^+ 2 * nrm2 v.
Proof.
move=> oV hB; have oV' : V *m V^T = 1%:M by exact: mulmx1C.
have oT : (V^T)^T *m V^T = 1%:M by rewrite trmxK.
rewrite /fcalc -!mulmxA nrm2_orth // -(nrm2_orth v oT).
rewrite !nrm2E mulr_sumr; apply: ler_sum => i _.
rewrite diag_mulE mxE exprMn; apply: ler_wpmul2r; first exact: sqr_ge0.
rewrite -(real_normK (num_real (f _))).
have B0 : 0 <= B by apply: le_trans (hB 0).
by rewrite ler_sqr ?nnegrE ?hB.
Qed.

Lemma nrm2_e0 : nrm2 (e0 R n) = 1.
Proof.
rewrite nrm2E (bigD1 0) //= mxE eqxx expr1n big1 ?addr0 // => i hi.
by rewrite mxE (negbTE hi) expr0n.
Qed.

Lemma fword_nrm2 (es : seq ('M[R]_n.+1 * 'rV[R]_n.+1)) (fs : seq (R -> R)) (Bs : seq R) :
  size fs = size es -> size Bs = size es ->
  all (fun e => e.1^T *m e.1 == 1%:M) es ->
  (forall a, (a < size fs)%N -> forall x, `|nth (fun=> 0) fs a x| <= nth 0 Bs a) ->
  nrm2 (fword es fs) <= \prod_(B <- Bs) B ^+ 2.
Proof.
elim: es fs Bs => [|e es IH] [|f fs] [|B Bs] //= hs hs' h hB.
  by rewrite big_nil nrm2_e0.
case/andP: h => /eqP oe h; rewrite big_cons.
apply: le_trans (fcalc_nrm2 _ _ oe (hB 0%N isT)) _.
apply: ler_wpmul2l; first exact: sqr_ge0.
apply: IH => //; [exact: succn_inj | exact: succn_inj | by move=> a ha; exact: (hB a.+1)].
Qed.

Lemma entry_nrm2 (v : 'cV[R]_n.+1) i : v i 0 ^+ 2 <= nrm2 v.
Proof.
rewrite nrm2E (bigD1 i) //= ler_addl; apply: sumr_ge0 => j _; exact: sqr_ge0.
Qed.
End Fc.

Section Place.
Variable R : rcfType.

(* one coordinate of place_nodes *)
Definition place1 (mean scale : option (seq R)) (a : nat) (y : R) : R :=
  match mean, scale with
  | None, _ => y
  | Some m, None => y + nth 0 m a
  | Some m, Some s => y * nth 0 s a + nth 0 m a
  end.

Lemma nth_place mean scale x a : (a < size x)%N ->
  nth 0 (place_nodes mean scale x) a = place1 mean scale a (nth 0 x a).
Proof.
by case: mean => [m|]; case: scale => [s|] //= ha; rewrite (nth_map 0%N) ?size_iota // nth_iota.
Qed.

Lemma sum_iota_prod m (F : nat -> R) : \prod_(i <- iota 0 m) F i = \prod_(i < m) F i.
Proof. by rewrite -(big_mkord xpredT) /index_iota subn0. Qed.

Lemma pfun_prod d (F : nat -> R -> R) x : size x = d ->
  pfun [seq F a | a <- iota 0 d] x = \prod_(a < d) F a (nth 0 x a).
Proof.
move=> hx; rewrite /pfun (big_nth (fun=> 0, 0)) size_zip size_map size_iota hx minnn big_mkord.
apply: eq_bigr => a _; rewrite nth_zip ?size_map ?size_iota ?hx //=.
by rewrite (nth_map 0%N) ?size_iota // nth_iota.
Qed.

Lemma fword_single n (es : nat -> 'M[R]_n.+1 * 'rV[R]_n.+1) (g : R -> R) (F : nat -> R -> R) a l :
  (forall b, (es b).1^T *m (es b).1 = 1%:M) -> a \in l -> uniq l ->
  (forall b y, F b y = if b == a then g y else 1) ->
  fword [seq es b | b <- l] [seq F b | b <- l] = fcalc (es a).1 (es a).2 g *m e0 R n.
Proof.
move=> oe + + hF.
have hno l' : a \notin l' -> fword [seq es b | b <- l'] [seq F b | b <- l'] = e0 R n.
  elim: l' => [|b l' IH] //=; rewrite inE negb_or => /andP [hb hl]; rewrite IH //.
  rewrite (@fcalc_ext _ _ _ _ _ (fun=> 1)) ?fcalc1 ?mul1mx // => y.
  by rewrite hF eq_sym (negbTE hb).
elim: l => [|b l IH] //=; rewrite inE => /orP [/eqP <-|hl] /andP [hb hu].
  by rewrite hno //; congr (_ *m _); apply: fcalc_ext => y; rewrite hF eqxx.
rewrite IH // (@fcalc_ext _ _ _ _ _ (fun=> 1)) ?fcalc1 ?mul1mx // => y.
by rewrite hF; case: eqP hb hl => [->|] // /negbTE ->.
Qed.
End Place.

Section Main.
Variables (R : rcfType).
Variable chol : forall n, 'M[R]_n -> 'M[R]_n.
Variable eigh : forall n, 'M[R]_n -> 'M[R]_n * 'rV[R]_n.
Hypothesis cholP : chol_spec chol.
Hypothesis eighP : eigh_spec eigh.

Section Gen.
Variables (d N : nat) (full : seq (seq nat)) (inds : seq (seq (seq int))).
Hypothesis hN : (0 < N)%N.
Hypothesis hf : generate_graded_lexico_multi_indices d (2 * N - 1) 0 = Some full.
Hypothesis hi : gram_and_hankel_indices_graded_lexico N d = Some inds.
Variable M : seq nat -> R.
Hypothesis ha : admissible_nd d N M.

(* product integrands *)
Lemma nd_prod mean scale ldl ws xs (F : nat -> R -> R) :
  moment_quadrature_nd chol eigh [seq M x | x <- full] inds mean scale ldl = Some (ws, xs) ->
  exists n, exists2 es : nat -> 'M[R]_n.+1 * 'rV[R]_n.+1,
    (forall a, (es a).1^T *m (es a).1 = 1%:M) &
  expect_nd ws xs (fun x => \prod_(a < d) F a (nth 0 x a)) =
  fword [seq es a | a <- iota 0 d]
        [seq (fun y => F a (place1 mean scale a y)) | a <- iota 0 d] 0 0.
Proof.
have [hd -> ->] := layoutE hN hf hi; have [n hn] := basis_pos hd hN.
rewrite -/(mvec d N M) => hq; exists n, (ef chol eigh d N n M ldl).
  by move=> a; case: (ef_eigh cholP eighP hN hn ha ldl a).
rewrite (expect_quad hd hn _ hq).
rewrite (@chain_ext _ _ _ _ _ (fun x => 1 * pfun [seq (fun y => F a (place1 mean scale a y)) | a <- iota 0 d] x)); last first.
  move=> x; rewrite size_map size_iota => hx; rewrite mul1r pfun_prod //.
  by apply: eq_bigr => a _; rewrite nth_place // hx.
by rewrite chain_pfun ?size_map ?size_iota // mul1r dotp_e0.
Qed.

Lemma nd_marginal_ge0 mean scale ldl ws xs a (g : R -> R) : (a < d)%N -> (forall y, 0 <= g y) ->
  moment_quadrature_nd chol eigh [seq M x | x <- full] inds mean scale ldl = Some (ws, xs) ->
  0 <= expect_nd ws xs (fun x => g (nth 0 x a)).
Proof.
move=> had hg /(nd_prod (fun b => if b == a then g else fun=> 1)) [n [es oe h]].
rewrite (@expect_nd_ext _ ws xs _ (fun x => \prod_(b < d) (if nat_of_ord b == a then g else fun=> 1) (nth 0 x b))).
  rewrite h (@fword_single _ _ es (fun y => g (place1 mean scale a y)) _ a) ?mem_iota ?iota_uniq //.
    rewrite mxE; apply: sumr_ge0 => k _; rewrite [e0 _ _ _ _]mxE.
    case: (k =P 0) => [->|_]; last by rewrite mulr0.
    rewrite mulr1 fcalc_entry; apply: sumr_ge0 => j _; rewrite mulrAC; apply: mulr_ge0 => //.
    by rewrite -expr2 sqr_ge0.
  by move=> b y; case: eqP => [->|].
move=> x; rewrite (bigD1 (Ordinal had)) //= eqxx big1 ?mulr1 // => b hb.
by rewrite ifN_eq //; apply: contra hb => /eqP e; apply/eqP/val_inj.
Qed.

Lemma nd_product_bound mean scale ldl ws xs (F : nat -> R -> R) (B : nat -> R) :
  (forall a, (a < d)%N -> forall y, `|F a y| <= B a) ->
  moment_quadrature_nd chol eigh [seq M x | x <- full] inds mean scale ldl = Some (ws, xs) ->
  `|expect_nd ws xs (fun x => \prod_(a < d) F a (nth 0 x a))| <= \prod_(a < d) B a.
Proof.
move=> hB /(nd_prod F) [n [es oe ->]].
have B0 a : (a < d)%N -> 0 <= B a by move=> h; apply: le_trans (hB a h 0).
have P0 : 0 <= \prod_(a < d) B a by apply: prodr_ge0 => a _; exact: B0.
rewrite -ler_sqr ?nnegrE ?normr_ge0 // real_normK ?num_real //.
apply: le_trans (entry_nrm2 _ _) _.
have := @fword_nrm2 _ _ [seq es a | a <- iota 0 d]
  [seq (fun y => F a (place1 mean scale a y)) | a <- iota 0 d] [seq B a | a <- iota 0 d].
rewrite !size_map !size_iota => /(_ erefl erefl) h; apply: le_trans (h _ _) _.
- by apply/allP => e /mapP [a _ ->]; rewrite oe.
- by move=> a hd y; rewrite !(nth_map 0%N) ?size_iota // nth_iota // add0n; exact: hB.
by rewrite big_map sum_iota_prod prodrXl.
Qed.
End Gen.
End Main.

(* ---- a law whose rule has a negative weight ---- *)
Section Neg.
Variables (R : rcfType).

Definition six_ws : seq R := [:: 3%:R / 40%:R; 3%:R / 40%:R; 2%:R / 40%:R; 8%:R / 40%:R; 8%:R / 40%:R; 16%:R / 40%:R].
Definition six_zs : seq (seq R) :=
  [:: [:: 2%:R; 2%:R]; [:: 2%:R; - 2%:R]; [:: 2%:R; 0];
      [:: - 2%:R^-1; 1]; [:: - 2%:R^-1; - 1]; [:: - 2%:R^-1; 0]].

Lemma six_unisolvent : unisolvent 2 2 six_zs.
Proof.
move=> b hb c hc.
have hperm : perm_eq b [:: [:: 0; 0]; [:: 0; 1]; [:: 1; 0]]%N.
  have [ub eb] := hb; apply: uniq_perm => // x; rewrite eb.
  by have := @mem_blocks 2 0 2 x => /= ->.
have e (z : seq R) : \sum_(x <- b) c x * mono z x =
   \sum_(x <- [:: [:: 0; 0]; [:: 0; 1]; [:: 1; 0]]%N) c x * mono z x by exact: perm_big.
have {}e (u v : R) : \sum_(x <- b) c x * mono [:: u; v] x =
   c [:: 0; 0]%N + c [:: 0; 1]%N * v + c [:: 1; 0]%N * u.
  by rewrite e !big_cons big_nil /mono /= !big_cons !big_nil /= !expr0 !expr1; ring.
set c0 := c [:: 0; 0]%N in e; set c1 := c [:: 0; 1]%N in e; set c2 := c [:: 1; 0]%N in e.
case: (c0 + c1 * 0 + c2 * 2%:R =P 0) => [e1|/eqP h]; last first.
  by exists [:: 2%:R; 0]; rewrite ?inE ?eqxx ?orbT // e.
case: (c0 + c1 * 2%:R + c2 * 2%:R =P 0) => [e2|/eqP h]; last first.
  by exists [:: 2%:R; 2%:R]; rewrite ?inE ?eqxx ?orbT // e.
case: (c0 + c1 * 0 + c2 * - 2%:R^-1 =P 0) => [e3|/eqP h]; last first.
  by exists [:: - 2%:R^-1; 0]; rewrite ?inE ?eqxx ?orbT // e.
have z1 : c1 = 0.
  have -> : c1 = ((c0 + c1 * 2%:R + c2 * 2%:R) - (c0 + c1 * 0 + c2 * 2%:R)) / 2%:R by field.
  by rewrite e1 e2 subr0 mul0r.
have z2 : c2 = 0.
  have -> : c2 = ((c0 + c1 * 0 + c2 * 2%:R) - (c0 + c1 * 0 + c2 * - 2%:R^-1)) * 2%:R / 5%:R by field.
  by rewrite e1 e3 subr0 !mul0r.
have z0 : c0 = 0 by move: e1; rewrite z1 z2 !mul0r !addr0.
case: hc => x; rewrite (perm_mem hperm) !inE => /or3P [] /eqP ->.
- by rewrite -/c0 z0 eqxx.
- by rewrite -/c1 z1 eqxx.
- by rewrite -/c2 z2 eqxx.
Qed.

Lemma six_w : all (fun w => 0 < w) six_ws.
Proof. by rewrite /= !divr_gt0 ?ltr0n. Qed.

Lemma six_adm : admissible_nd 2 2 (discrete_nd six_ws six_zs).
Proof. by apply: discrete_nd_admissible; rewrite ?six_w //; exact: six_unisolvent. Qed.

Lemma six_mom (i j : nat) : discrete_nd six_ws six_zs [:: i; j] =
  3%:R / 40%:R * (2%:R ^+ i * 2%:R ^+ j) + 3%:R / 40%:R * (2%:R ^+ i * (- 2%:R) ^+ j) +
  2%:R / 40%:R * (2%:R ^+ i * 0 ^+ j) + 8%:R / 40%:R * ((- 2%:R^-1) ^+ i * 1 ^+ j) +
  8%:R / 40%:R * ((- 2%:R^-1) ^+ i * (-1) ^+ j) + 16%:R / 40%:R * ((- 2%:R^-1) ^+ i * 0 ^+ j).
Proof.
rewrite /discrete_nd /six_ws /six_zs /= !big_cons big_nil addr0 /mono /= !big_cons !big_nil /= !mulr1.
by rewrite !addrA.
Qed.

Let M := discrete_nd six_ws six_zs.

Definition v3 (a b c : R) : 'cV[R]_3 := \col_i [:: a; b; c]`_i.

Lemma bas22 i : bas 2 2 i = nth [::] [:: [:: 0; 0]; [:: 0; 1]; [:: 1; 0]]%N i.
Proof. by []. Qed.

Lemma six_gram : gramM 2 2 2 M = 1%:M.
Proof.
apply/matrixP => i j; rewrite !mxE !bas22 /M.
by case: i => -[|[|[|i]]] //= hi; case: j => -[|[|[|j]]] //= hj; rewrite six_mom ?expr0n /=; field.
Qed.

Lemma six_hank1 a b c : hankM 2 2 2 M 0 *m v3 a b c = v3 c b (a + 3%:R / 2%:R * c).
Proof.
apply/matrixP => i j; rewrite !mxE !big_ord_recl big_ord0 !mxE !bas22 /M.
by case: i => -[|[|[|i]]] //= hi; rewrite /madd /munit /= !six_mom ?expr0n /=; field.
Qed.

Lemma six_hank2 a b c : hankM 2 2 2 M 1 *m v3 a b c = v3 b (a + c) b.
Proof.
apply/matrixP => i j; rewrite !mxE !big_ord_recl big_ord0 !mxE !bas22 /M.
by case: i => -[|[|[|i]]] //= hi; rewrite /madd /munit /= !six_mom ?expr0n /=; field.
Qed.

Variable chol : forall n, 'M[R]_n -> 'M[R]_n.
Variable eigh : forall n, 'M[R]_n -> 'M[R]_n * 'rV[R]_n.
Hypothesis cholP : chol_spec chol.
Hypothesis eighP : eigh_spec eigh.

Lemma is_chol1 n : is_chol (1%:M : 'M[R]_n) 1%:M.
Proof.
split; last by rewrite trmx1 mulmx1.
- by apply/is_trig_mxP => i j h; rewrite mxE -val_eqE /= ltn_eqF.
- by move=> i; rewrite mxE eqxx ltr01.
Qed.

Lemma mult_matrix1 n (H : 'M[R]_n) : mult_matrix 1%:M H = H.
Proof. by rewrite (mult_matrixE _ (is_chol1 n)) trmx1 invmx1 mul1mx mulmx1. Qed.

Definition qa (x : R) : R := x ^+ 2 + (- 2%:R^-1 * x ^+ 1 + - 2%:R^-1 * x ^+ 0).
Definition qb (y : R) : R := y ^+ 2 + - 2%:R * y ^+ 0.

Lemma v3_e0 : e0 R 2 = v3 1 0 0.
Proof. by apply/colP => i; rewrite !mxE; case: i => -[|[|[|i]]]. Qed.

Lemma v3D a b c a' b' c' : v3 a b c + v3 a' b' c' = v3 (a + a') (b + b') (c + c').
Proof. by apply/colP => i; rewrite !mxE; case: i => -[|[|[|i]]]. Qed.

Lemma v3Z k a b c : k *: v3 a b c = v3 (k * a) (k * b) (k * c).
Proof. by apply/colP => i; rewrite !mxE; case: i => -[|[|[|i]]]. Qed.

Lemma qa_v3 V lam : is_eigh (hankM 2 2 2 M 0) V lam -> forall a b c,
  fcalc V lam qa *m v3 a b c =
  v3 (2%:R^-1 * a + c) (0 * b) (a + (3%:R / 2%:R ^+ 1) ^+ 2 * c - 2%:R^-1 * (3%:R / 2%:R) * c + 2%:R^-1 * c).
Proof.
move=> he a b c; rewrite /qa.
rewrite fcalcD fcalcD !fcalcZ !(fcalc_pow _ he) /mxpow /= !mulmx1.
rewrite !mulmxDl -!scalemxAl mul1mx -!mulmxA !six_hank1 !v3Z !v3D.
by congr v3; field.
Qed.

Lemma qb_v3 V lam : is_eigh (hankM 2 2 2 M 1) V lam -> forall a b c,
  fcalc V lam qb *m v3 a b c = v3 (c - a) 0 (a - c).
Proof.
move=> he a b c; rewrite /qb.
rewrite fcalcD !fcalcZ !(fcalc_pow _ he) /mxpow /= !mulmx1.
rewrite !mulmxDl -!scalemxAl mul1mx -!mulmxA !six_hank2 !v3Z !v3D.
by congr v3; ring.
Qed.

Lemma six_negative full inds ldl ws xs :
  generate_graded_lexico_multi_indices 2 3 0 = Some full ->
  gram_and_hankel_indices_graded_lexico 2 2 = Some inds ->
  moment_quadrature_nd chol eigh [seq M x | x <- full] inds None None ldl = Some (ws, xs) ->
  expect_nd ws xs (fun x => qa (nth 0 x 0) ^+ 2 * qb (nth 0 x 1) ^+ 2) = - (5%:R / 2%:R).
Proof.
move=> hf hi; have [_ -> ->] := @layoutE 2 2 _ _ isT hf hi.
have hn : size (blocks 2 0 2) = 3%N by [].
rewrite -/(mvec 2 2 M) => hq; rewrite (expect_quad _ hn _ hq) //.
rewrite (@chain_ext _ _ _ _ _ (fun x => 1 * pfun [:: (fun x => qa x * qa x); (fun x => qb x * qb x)] x)); last first.
  case=> [|x [|y [|]]] //= _; rewrite mul1r /pfun /= !big_cons big_nil /= mulr1 !expr2 //.
rewrite chain_pfun // mul1r dotp_e0 /=.
have hL : Lf chol 2 2 2 M ldl = 1%:M.
  by apply: chol_unique (Lf_chol cholP _ hn six_adm ldl) _ => //; rewrite six_gram; exact: is_chol1.
have e1 := ef_eigh cholP eighP (isT : (0 < 2)%N) hn six_adm ldl 0.
have e2 := ef_eigh cholP eighP (isT : (0 < 2)%N) hn six_adm ldl 1.
have [o1 _] := e1; have [o2 _] := e2.
rewrite /KK -/M hL mult_matrix1 in e1; rewrite /KK -/M hL mult_matrix1 in e2.
rewrite -/M in o1 o2.
rewrite (fcalc_mul _ qa qa o1) (fcalc_mul _ qb qb o2) v3_e0.
move: (qa_v3 e1) (qb_v3 e2); move: (fcalc _ _ qa) (fcalc _ _ qb) => A B hA hB.
rewrite -!mulmxA !hB !hA mxE /=.
by field.
Qed.

Lemma sum_ge0_weights ws xs (f : seq R -> R) : all (fun w => 0 <= w) ws -> (forall x, 0 <= f x) ->
  0 <= expect_nd ws xs f.
Proof.
move=> hw hf; rewrite expect_ndE big_seq; apply: sumr_ge0 => p hp; apply: mulr_ge0 => //.
by apply: (allP hw); exact: (zip_mem hp).1.
Qed.
End Neg.

Section Final.
Variables (R : rcfType).

Lemma six_sum : jsum (six_ws R) = 1.
Proof. by rewrite /jsum /six_ws /=; field. Qed.

Lemma six_layout : exists full inds,
  generate_graded_lexico_multi_indices 2 3 0 = Some full /\
  gram_and_hankel_indices_graded_lexico 2 2 = Some inds.
Proof. by eexists; eexists; split; vm_compute. Qed.

Variable chol : forall n, 'M[R]_n -> 'M[R]_n.
Variable eigh : forall n, 'M[R]_n -> 'M[R]_n * 'rV[R]_n.
Variable ldl : bool.
Hypothesis cholP : chol_spec chol.
Hypothesis eighP : eigh_spec eigh.
Let M := discrete_nd (six_ws R) (six_zs R).

Lemma six_run : exists full inds ws xs,
  [/\ generate_graded_lexico_multi_indices 2 3 0 = Some full,
      gram_and_hankel_indices_graded_lexico 2 2 = Some inds
    & moment_quadrature_nd chol eigh [seq M x | x <- full] inds None None ldl = Some (ws, xs)].
Proof.
have [full [inds [hf hi]]] := six_layout.
have [ws [xs hq _]] := @nd_exact_raw R chol eigh cholP eighP 2 2 _ _ isT hf hi _ (@six_adm R) ldl.
by exists full, inds, ws, xs.
Qed.

Lemma six_has_negative : 
  exists ps, exists zs : seq (seq R),
  [/\ all (fun w => 0 < w) ps, jsum ps = 1, size ps = size zs,
      admissible_nd 2 2 (discrete_nd ps zs)
    & exists full inds ws xs,
      [/\ generate_graded_lexico_multi_indices 2 3 0 = Some full,
          gram_and_hankel_indices_graded_lexico 2 2 = Some inds,
          moment_quadrature_nd chol eigh [seq discrete_nd ps zs x | x <- full] inds None None ldl
            = Some (ws, xs)
        & exists2 w, w \in ws & w < 0]].
Proof.
exists (six_ws R), (six_zs R); split; rewrite ?six_w ?six_sum //; first exact: six_adm.
have [full [inds [ws [xs [hf hi hq]]]]] := six_run.
exists full, inds, ws, xs; split=> //.
have hneg := six_negative cholP eighP hf hi hq.
case: (boolP (all (fun w => 0 <= w) ws)) => [hw|].
  have := @sum_ge0_weights _ ws xs (fun x => qa (nth 0 x 0) ^+ 2 * qb (nth 0 x 1) ^+ 2) hw.
  rewrite hneg oppr_ge0 => /(_ (fun x => mulr_ge0 (sqr_ge0 _) (sqr_ge0 _))).
  by rewrite leNgt divr_gt0 ?ltr0n.
by case/allPn => w hw; rewrite -ltNge => h; exists w.
Qed.

Lemma six_negative_evidence :
  exists ps, exists2 zs : seq (seq R),
    [/\ all (fun w => 0 < w) ps, jsum ps = 1, size ps = size zs
      & admissible_nd 2 2 (discrete_nd ps zs)]
  & exists full inds, exists2 pdf : unit -> seq R -> R,
      [/\ generate_graded_lexico_multi_indices 2 3 0 = Some full,
          gram_and_hankel_indices_graded_lexico 2 2 = Some inds
        & forall y x, 0 < pdf y x]
    & (rms_nd_update chol eigh full inds pdf ldl tt [seq discrete_nd ps zs x | x <- full]).2 < 0.
Proof.
exists (six_ws R), (six_zs R); first by rewrite six_w six_sum; split=> //; exact: six_adm.
have [full [inds [ws [xs [hf hi hq]]]]] := six_run.
exists full, inds, (fun _ x => qa (nth 0 x 0) ^+ 2 * qb (nth 0 x 1) ^+ 2 + 1).
  by split=> // y x; exact: (ltr_paddl (mulr_ge0 (sqr_ge0 _) (sqr_ge0 _)) ltr01).
rewrite /rms_nd_update /quad_nd /= hq /=.
have [hs h1] := @nd_weights _ _ _ cholP eighP 2 2 _ _ isT hf hi _ (@six_adm R) _ _ _ _ _ hq.
have -> : expect_nd ws xs (fun x => qa (nth 0 x 0) ^+ 2 * qb (nth 0 x 1) ^+ 2 + 1) =
          expect_nd ws xs (fun x => qa (nth 0 x 0) ^+ 2 * qb (nth 0 x 1) ^+ 2) + expect_nd ws xs (fun=> 1).
  by rewrite !expect_ndE -big_split /=; apply: eq_bigr => p _; rewrite mulrDr.
rewrite (six_negative cholP eighP hf hi hq) expect_nd1 // h1 addrC subr_lt0.
by rewrite ltr_pdivl_mulr ?ltr0n // mul1r ltr_nat.
Qed.
End Final.

Lemma six_example (R : rcfType) :
  [/\ chol_spec (@chol_ref R), eigh_spec (@eigh_ref R) &
      exists full inds ws xs,
      [/\ generate_graded_lexico_multi_indices 2 (2 * 2 - 1) 0 = Some full,
          gram_and_hankel_indices_graded_lexico 2 2 = Some inds,
          admissible_nd 2 2 (discrete_nd (six_ws R) (six_zs R)),
          moment_quadrature_nd (@chol_ref R) (@eigh_ref R)
            [seq discrete_nd (six_ws R) (six_zs R) x | x <- full] inds None None false = Some (ws, xs)
        & expect_nd ws xs (fun x => mono x [:: 2; 0]%N) = 1]].
Proof.
have [hc he] := (@chol_ref_spec R, @eigh_ref_spec R); split=> //.
have [full [inds [hf hi]]] := six_layout.
have [ws [xs hq [_ _ _ _ h]]] := @nd_exact_raw R _ _ hc he 2 2 _ _ isT hf hi _ (@six_adm R) false.
exists full, inds, ws, xs; split=> //; first exact: six_adm.
by have := h [:: 2; 0]%N isT; rewrite /= !six_mom ?expr0n /= => ->; field.
Qed.
