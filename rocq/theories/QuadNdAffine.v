(* Affine changes of variables for multi-dimensional moments. *)
From mathcomp Require Import all_ssreflect all_algebra.
From mathcomp Require Import zify ring.
From Verif Require Import Prelude MultiIndexModel MultiIndexSpec MultiIndexProofs MultiIndexGramProofs.
From Verif Require Import NdIndexModel NdIndexProofs LinAlgSpec LinAlgProofs SpectralProofs LdlModel LdlProofs.
From Verif Require Import QuadModel QuadSpec QuadProofs QuadMain QuadNdModel QuadNdSpec QuadNdProofs QuadNdGram.
Set Implicit Arguments.
Unset Strict Implicit.
Unset Printing Implicit Defensive.
Import Order.TTheory GRing.Theory Num.Theory.
Local Open Scope ring_scope.

Section Tens.
Variable R : rcfType.
Implicit Types (M : seq nat -> R) (p q : {poly R}) (ps qs : seq {poly R}) (g : nat -> R).

Lemma mom_ext g g' p : g =1 g' -> mom_functional g p = mom_functional g' p.
Proof. by move=> h; apply: mom_eq => k _. Qed.

Lemma mom_linl I (r : seq I) (c : I -> R) (G : I -> nat -> R) p :
  mom_functional (fun j => \sum_(i <- r) c i * G i j) p = \sum_(i <- r) c i * mom_functional (G i) p.
Proof.
rewrite /mom_functional; under eq_bigr do rewrite mulr_sumr.
rewrite exchange_big /=; apply: eq_bigr => i _; rewrite mulr_sumr.
by apply: eq_bigr => k _; rewrite mulrCA.
Qed.

Lemma tens_ext M M' ps : (forall t, size t = size ps -> M t = M' t) ->
  tens_functional M ps = tens_functional M' ps.
Proof.
elim: ps M M' => [|p ps IH] M M' h /=; first exact: h.
by apply: mom_ext => j; apply: IH => t ht; apply: h; rewrite /= ht.
Qed.

Lemma tens_mono M k : tens_functional M [seq 'X^j | j <- k] = M k.
Proof. by elim: k M => [|j k IH] M //=; rewrite momXn IH. Qed.

Lemma tens_linl I (r : seq I) (c : I -> R) (G : I -> seq nat -> R) ps :
  tens_functional (fun t => \sum_(i <- r) c i * G i t) ps = \sum_(i <- r) c i * tens_functional (G i) ps.
Proof.
elim: ps G => [|p ps IH] G //=; rewrite -mom_linl.
by apply: mom_ext => j; rewrite IH.
Qed.

Definition pmul ps qs : seq {poly R} := [seq r.1 * r.2 | r <- zip ps qs].

Lemma size_pmul ps qs : size (pmul ps qs) = minn (size ps) (size qs).
Proof. by rewrite size_map size_zip. Qed.

Lemma nth_pmul ps qs a : (a < size ps)%N -> (a < size qs)%N -> (pmul ps qs)`_a = ps`_a * qs`_a.
Proof. by rewrite /pmul; elim: ps qs a => [|p ps IH] [|q qs] [|a] //=; exact: IH. Qed.

Lemma pmul1 m ps : size ps = m -> pmul ps (nseq m 1) = ps.
Proof.
rewrite /pmul; elim: m ps => [|m IH] [|p ps] //= hs.
by rewrite mulr1 IH //; apply: succn_inj.
Qed.

Definition pcoef ps (t : seq nat) : R := \prod_(r <- zip ps t) r.1`_r.2.

Lemma poly_widen N p : (size p <= N)%N -> p = \sum_(j < N) p`_j *: 'X^j.
Proof.
move=> hN; rewrite -poly_def; apply/polyP => k; rewrite coef_poly.
by case: ltnP => // hk; rewrite nth_default // (leq_trans hN).
Qed.

Lemma tens_expand N M ps qs : size ps = size qs -> all (fun p : {poly R} => size p <= N)%N ps ->
  tens_functional M (pmul ps qs) =
  \sum_(t <- itertools_product (nseq (size ps) (iota 0 N)))
     pcoef ps t * tens_functional M (pmul [seq 'X^j | j <- t] qs).
Proof.
elim: ps qs M => [|p ps IH] [|q qs] M //=.
  by rewrite /pmul /= big_seq1 /pcoef /= big_nil mul1r.
move=> hs /andP [hp hps]; move/succn_inj: hs => hs.
rewrite -[seq _]/(seq nat) big_flatten big_map sum_iota.
transitivity (\sum_(j < N) p`_j * mom_functional
   (fun i => tens_functional (fun t => M (i :: t)) (pmul ps qs)) ('X^j * q)).
  by rewrite {1}(poly_widen hp) mulr_suml mom_sum; apply: eq_bigr => j _; rewrite -scalerAl momZ.
apply: eq_bigr => j _; rewrite big_map.
under eq_bigr do rewrite /pcoef /= big_cons -mulrA.
rewrite -mulr_sumr -mom_linl; congr (_ * _); apply: mom_ext => i.
by rewrite IH.
Qed.

Lemma pmulA ps qs rs : size ps = size qs -> size qs = size rs ->
  pmul ps (pmul qs rs) = pmul (pmul ps qs) rs.
Proof.
rewrite /pmul; elim: ps qs rs => [|p ps IH] [|q qs] [|r rs] //= hs hs'.
by rewrite mulrA IH //; apply: succn_inj.
Qed.

Lemma pmul_mono k k' : size k = size k' ->
  pmul [seq 'X^j | j <- k] [seq 'X^j | j <- k'] = [seq 'X^j | j <- madd k k'].
Proof.
rewrite /pmul; elim: k k' => [|j k IH] [|j' k'] //= hs.
rewrite /madd /= exprD IH //; exact: succn_inj.
Qed.

Lemma tens_slot M ps1 ps2 a b p q :
  tens_functional M (ps1 ++ (a *: p + b *: q) :: ps2) =
  a * tens_functional M (ps1 ++ p :: ps2) + b * tens_functional M (ps1 ++ q :: ps2).
Proof.
elim: ps1 M => [|p1 ps1 IH] M /=; first by rewrite momD !momZ.
transitivity (mom_functional (fun j => \sum_(i <- [:: (a, p); (b, q)]) i.1 *
   tens_functional (fun t => M (j :: t)) (ps1 ++ i.2 :: ps2)) p1).
  by apply: mom_ext => j; rewrite IH !big_cons big_nil addr0.
by rewrite mom_linl !big_cons big_nil addr0.
Qed.
End Tens.

Section Affine.
Variables (R : rcfType) (d N n : nat) (M : seq nat -> R) (mean scale : seq R).
Hypothesis hd : (0 < d)%N.
Hypothesis hN : (0 < N)%N.
Local Notation basis := (blocks d 0 N).
Hypothesis hn : size basis = n.+1.
Hypothesis hpos : forall a, (a < d)%N -> 0 < nth 1 scale a.

Let af a := afpoly (nth 0 mean a) (nth 1 scale a).
Definition apows (k : seq nat) : seq {poly R} := [seq af a ^+ nth 0%N k a | a <- iota 0 d].
Let M' := affine_nd M mean scale.

Lemma affineE k : size k = d -> M' k = tens_functional M (apows k).
Proof. by move=> hk; rewrite /M' /affine_nd hk. Qed.

Lemma size_apows k : size (apows k) = d.
Proof. by rewrite size_map size_iota. Qed.

Lemma apowsD k k' : size k = d -> size k' = d -> apows (madd k k') = pmul (apows k) (apows k').
Proof.
move=> hk hk'; apply: (@eq_from_nth _ 0).
  by rewrite size_pmul !size_apows minnn.
move=> i; rewrite size_apows => hi.
rewrite nth_pmul ?size_apows //.
rewrite !(nth_map 0%N) ?size_iota // nth_iota // add0n.
by rewrite -maddE nth_mi_add ?hk ?hk' // exprD.
Qed.

Lemma af_size a k : (a < d)%N -> size (af a ^+ k) = k.+1.
Proof. by move=> ha; rewrite afpoly_exp_size // gt_eqF // hpos. Qed.

Definition Tmx : 'M[R]_n.+1 := \matrix_(i, l) pcoef (apows (bas d N i)) (bas d N l).

Lemma pcoefE k t : size t = d -> pcoef (apows k) t = \prod_(a < d) (af a ^+ nth 0%N k a)`_(nth 0%N t a).
Proof.
move=> ht; rewrite /pcoef (big_nth (0, 0%N)) size1_zip ?size_apows ?ht // big_mkord.
apply: eq_bigr => a _; rewrite nth_zip ?size_apows ?ht //=.
by rewrite (nth_map 0%N) ?size_iota // nth_iota.
Qed.

Lemma pcoef_neq0 k t a : size t = d -> (a < d)%N -> (nth 0%N k a < nth 0%N t a)%N ->
  pcoef (apows k) t = 0.
Proof.
move=> ht ha hlt; rewrite pcoefE // (bigD1 (Ordinal ha)) //= nth_default ?mul0r //.
by rewrite af_size.
Qed.

Lemma sumn_nth (s : seq nat) m : size s = m -> sumn s = (\sum_(a < m) nth 0%N s a)%N.
Proof. by move=> <-; rewrite sumnE (big_nth 0%N) big_mkord. Qed.

Lemma pcoef_out i t : (i < n.+1)%N -> size t = d -> t \notin basis ->
  pcoef (apows (bas d N i)) t = 0.
Proof.
move=> hi ht; rewrite mem_blocks ht eqxx /= add0n -leqNgt => hs.
have [a /= hlt|h] := pickP (fun a : 'I_d => nth 0%N (bas d N i) a < nth 0%N t a)%N.
  exact: pcoef_neq0 ht (ltn_ord a) hlt.
have [|hbs hbN] := @basis_nth N d i; rewrite ?hn //.
suff : (sumn t <= sumn (bas d N i))%N by move: hbN; rewrite -/(bas d N i); lia.
rewrite (sumn_nth ht) (sumn_nth hbs); apply: leq_sum => a _.
by have := h a; rewrite ltnNge => /negbFE.
Qed.

Lemma Tmx_trig : is_trig_mx Tmx.
Proof.
apply/is_trig_mxP => i l hil; rewrite mxE.
have hl := bas_size hn (ltn_ord l); have hi := bas_size hn (ltn_ord i).
have [a /= hlt|h] := pickP (fun a : 'I_d => nth 0%N (bas d N i) a < nth 0%N (bas d N l) a)%N.
  exact: pcoef_neq0 hl (ltn_ord a) hlt.
have hle (a : 'I_d) : (nth 0%N (bas d N l) a <= nth 0%N (bas d N i) a)%N.
  by have := h a; rewrite ltnNge => /negbFE.
have hsum : (sumn (bas d N i) <= sumn (bas d N l))%N.
  have := @blocks_glex_sorted d 0 N i l hil; rewrite hn => /(_ (ltn_ord l)).
  by case=> [/ltnW|[-> _]].
have heq : bas d N i = bas d N l.
  apply: (@eq_from_nth _ 0%N); first by rewrite hi hl.
  move=> a; rewrite hi => ha; apply/eqP; rewrite eqn_leq (hle (Ordinal ha)) andbT.
  rewrite leqNgt; apply/negP => hlt.
  move: hsum; rewrite (sumn_nth hi) (sumn_nth hl) leqNgt => /negP; apply.
  rewrite (bigD1 (Ordinal ha)) //= [X in (_ < X)%N](bigD1 (Ordinal ha)) //=.
  by rewrite -addSn leq_add //; apply: leq_sum => b _; apply: hle.
have := nth_uniq [::] (s := basis) (i := i) (j := l); rewrite hn => /(_ (ltn_ord _) (ltn_ord _) (uniq_blocks _ _ _)).
by rewrite -/(bas d N i) -/(bas d N l) heq eqxx (ltn_eqF hil).
Qed.

Lemma Tmx_diag i : 0 < Tmx i i.
Proof.
rewrite mxE pcoefE ?(bas_size hn) //; apply: prodr_gt0 => a _.
by rewrite afpoly_exp_lead ?gt_eqF ?hpos // exprn_gt0 // invr_gt0 hpos.
Qed.

Lemma sum_box (F : seq nat -> R) i : (i < n.+1)%N ->
  \sum_(t <- itertools_product (nseq d (iota 0 N))) pcoef (apows (bas d N i)) t * F t =
  \sum_(l < n.+1) pcoef (apows (bas d N i)) (bas d N l) * F (bas d N l).
Proof.
move=> hi; rewrite (bigID (fun t => t \in basis)) /= [X in _ + X]big1_seq ?addr0; last first.
  move=> t /andP [ht]; rewrite -/(nd_cartesian_prod_indices d N) mem_cartesian => /andP [/eqP hs _].
  by rewrite pcoef_out ?mul0r.
rewrite -big_filter.
have hp : perm_eq [seq t <- itertools_product (nseq d (iota 0 N)) | t \in basis] basis.
  apply: uniq_perm; rewrite ?uniq_blocks ?filter_uniq ?cartesian_uniq // => t.
  rewrite mem_filter -/(nd_cartesian_prod_indices d N) mem_cartesian mem_blocks.
  case: (size t == d) => //=; rewrite add0n; case hs : (sumn t < N)%N => //=.
  apply/allP => x hx; apply: (leq_ltn_trans _ hs); rewrite -[x]/(id x).
  by rewrite sumnE (big_rem x hx) /= leq_addr.
rewrite (perm_big _ hp) /= (big_nth [::]) big_mkord.
by rewrite (eq_bigr (fun l : 'I_(size basis) => pcoef (apows (bas d N i)) (bas d N l) * F (bas d N l))) // hn.
Qed.

Lemma apows_size_le i : (i < n.+1)%N -> all (fun p : {poly R} => size p <= N)%N (apows (bas d N i)).
Proof.
move=> hi; have [|hbs hbN] := @basis_nth N d i; rewrite ?hn //.
apply/allP => p /mapP [a]; rewrite mem_iota /= => ha ->; rewrite af_size //.
apply: (leq_trans _ hbN); rewrite -/(bas d N i) ltnS (sumn_nth hbs).
by rewrite (bigD1 (Ordinal ha)) //= leq_addr.
Qed.

(* the doubly expanded form *)
Lemma tens_congr (qs : seq {poly R}) : size qs = d ->
  (\matrix_(i < n.+1, j < n.+1)
     tens_functional M (pmul (apows (bas d N i)) (pmul (apows (bas d N j)) qs))) =
  Tmx *m (\matrix_(i, j) tens_functional M
     (pmul [seq 'X^t | t <- bas d N i] (pmul [seq 'X^t | t <- bas d N j] qs))) *m Tmx^T.
Proof.
move=> hq; apply/matrixP => i j.
have sp (ps qs' : seq {poly R}) : size ps = d -> size qs' = d -> size (pmul ps qs') = d.
  by move=> h1 h2; rewrite size_pmul h1 h2 minnn.
have szX k : size k = d -> size [seq 'X^t : {poly R} | t <- k] = d by rewrite size_map.
have comm (k : seq nat) (ps : seq {poly R}) : size k = d -> size ps = d ->
   pmul [seq 'X^t | t <- k] (pmul ps qs) = pmul ps (pmul [seq 'X^t | t <- k] qs).
  move=> h1 h2; apply: (@eq_from_nth _ 0); first by rewrite !sp ?szX.
  move=> a; rewrite sp ?szX ?sp // => ha.
  by rewrite !nth_pmul ?sp ?szX ?h2 ?hq // mulrCA.
rewrite mxE (@tens_expand _ N) ?apows_size_le ?sp ?size_apows // sum_box //.
rewrite mxE; under [RHS]eq_bigr do rewrite mxE mulr_suml.
rewrite exchange_big /=; apply: eq_bigr => l _.
have hl := bas_size hn (ltn_ord l).
rewrite comm ?size_apows // (@tens_expand _ N) ?apows_size_le ?sp ?szX ?size_apows // sum_box //.
rewrite mulr_sumr; apply: eq_bigr => m _; rewrite !mxE -comm ?szX ?(bas_size hn) //.
by rewrite [RHS]mulrAC -[RHS]mulrA.
Qed.

Lemma congr_gram : gramM d N n M' = Tmx *m gramM d N n M *m Tmx^T.
Proof.
have -> : gramM d N n M = \matrix_(i, j) tens_functional M
     (pmul [seq 'X^t | t <- bas d N i] (pmul [seq 'X^t | t <- bas d N j] (nseq d 1))).
  apply/matrixP => i j; rewrite !mxE pmul1 ?size_map ?(bas_size hn) //.
  by rewrite pmul_mono ?tens_mono ?(bas_size hn).
rewrite -tens_congr ?size_nseq //; apply/matrixP => i j; rewrite !mxE pmul1 ?size_apows //.
rewrite affineE; last by rewrite -maddE size_mi_add ?(bas_size hn).
by rewrite apowsD ?(bas_size hn).
Qed.

Lemma congr_hank a : (a < d)%N -> hankM d N n M' a =
  (nth 1 scale a)^-1 *: (Tmx *m (hankM d N n M a - nth 0 mean a *: gramM d N n M) *m Tmx^T).
Proof.
move=> ha; rewrite scalemxAl scalemxAr.
have hq : size (apows (munit d a)) = d by rewrite size_apows.
have hu : size (munit d a) = d by exact: size_munit.
have -> : (nth 1 scale a)^-1 *: (hankM d N n M a - nth 0 mean a *: gramM d N n M) =
  \matrix_(i, j) tens_functional M
     (pmul [seq 'X^t | t <- bas d N i] (pmul [seq 'X^t | t <- bas d N j] (apows (munit d a)))).
  apply/matrixP => i j; rewrite !mxE.
  have hbi := bas_size hn (ltn_ord i); have hbj := bas_size hn (ltn_ord j).
  rewrite pmulA ?size_map ?hbi ?hbj //; last by rewrite size_iota.
  rewrite pmul_mono ?hbi ?hbj //.
  have : size (madd (bas d N i) (bas d N j)) = d by rewrite -maddE size_mi_add hbi ?hbj.
  move: (madd (bas d N i) (bas d N j)) => k hk.
  have -> : pmul [seq 'X^t | t <- k] (apows (munit d a)) =
     [seq 'X^t | t <- take a k] ++
     ((nth 1 scale a)^-1 *: 'X^(nth 0%N k a).+1 + (- (nth 1 scale a)^-1 * nth 0 mean a) *: 'X^(nth 0%N k a))
     :: [seq 'X^t | t <- drop a.+1 k].
    apply: (@eq_from_nth _ 0).
      rewrite size_cat /= size_pmul !size_map size_iota size_take size_drop hk ha; lia.
    move=> b; rewrite size_pmul !size_map hk size_iota minnn => hb.
    rewrite nth_pmul ?size_map ?hk ?size_iota //.
    rewrite (nth_map 0%N) ?hk // (nth_map 0%N) ?size_iota // nth_iota // add0n nth_munit //.
    rewrite nth_cat size_map size_take hk ha; case: (ltngtP b a) => hba.
    - by rewrite expr0 mulr1 (nth_map 0%N) ?size_take ?hk ?ha // nth_take.
    - rewrite expr0 mulr1 -[(b - a)%N]prednK ?subn_gt0 //= (nth_map 0%N); last by rewrite size_drop hk; lia.
      by rewrite nth_drop; congr ('X^ (nth _ _ _)); lia.
    rewrite hba subnn /= expr1 /af /afpoly scalerBr mulrBr -scalerAr -scalerAr -exprSr.
    by rewrite ['X^_ * _%:P]mulrC mul_polyC scalerA mulNr scaleNr.
  rewrite tens_slot.
  have -> : [seq 'X^t : {poly R} | t <- take a k] ++ 'X^(nth 0%N k a).+1 :: [seq 'X^t | t <- drop a.+1 k] =
     [seq 'X^t | t <- madd k (munit d a)].
    rewrite -(@madd_incr d) // /mi_incr.
    have e : set_nth 0%N k a (nth 0%N k a).+1 = take a k ++ (nth 0%N k a).+1 :: drop a.+1 k.
      by rewrite set_nthE hk ha.
    by rewrite e map_cat.
  have -> : [seq 'X^t : {poly R} | t <- take a k] ++ 'X^(nth 0%N k a) :: [seq 'X^t | t <- drop a.+1 k] =
     [seq 'X^t | t <- k].
    by rewrite -map_cons -drop_nth ?hk // -map_cat cat_take_drop.
  rewrite !tens_mono; ring.
rewrite -tens_congr //; apply/matrixP => i j; rewrite !mxE.
have hbi := bas_size hn (ltn_ord i); have hbj := bas_size hn (ltn_ord j).
have hs : size (madd (bas d N i) (bas d N j)) = d by rewrite -maddE size_mi_add ?hbi ?hbj.
rewrite affineE; last by rewrite -maddE size_mi_add ?hs ?hu.
by rewrite apowsD ?hs // apowsD // pmulA ?size_apows.
Qed.
End Affine.
