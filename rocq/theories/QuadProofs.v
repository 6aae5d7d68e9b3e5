(* Proofs about the one-dimensional moment quadrature. *)
From mathcomp Require Import all_ssreflect all_algebra.
From mathcomp Require Import ring zify.
From Verif Require Import Prelude LinAlgSpec LinAlgProofs SpectralProofs LdlModel LdlProofs.
From Verif Require Import QuadModel QuadSpec.
Set Implicit Arguments.
Unset Strict Implicit.
Unset Printing Implicit Defensive.
Import Order.TTheory GRing.Theory Num.Theory.
Local Open Scope ring_scope.

(* ---------- The moment functional ---------- *)
Section Functional.
Variable R : rcfType.
Implicit Types (m : nat -> R) (p q : {poly R}).

Lemma mom_wide m p N : (size p <= N)%N -> mom_functional m p = \sum_(k < N) p`_k * m k.
Proof.
move=> hN; rewrite /mom_functional.
rewrite (big_ord_widen _ (fun k => p`_k * m k) hN) [RHS](bigID (fun k : 'I_N => (k < size p)%N)) /=.
rewrite [X in _ = _ + X]big1 ?addr0 //.
by move=> k hk; rewrite nth_default ?mul0r // leqNgt.
Qed.

Lemma momD m p q : mom_functional m (p + q) = mom_functional m p + mom_functional m q.
Proof.
pose N := maxn (size p) (size q).
rewrite (@mom_wide _ (p + q) N) ?size_add // (@mom_wide _ p N) ?leq_maxl //.
rewrite (@mom_wide _ q N) ?leq_maxr // -big_split /=.
by apply: eq_bigr => k _; rewrite coefD mulrDl.
Qed.

Lemma momZ m a p : mom_functional m (a *: p) = a * mom_functional m p.
Proof.
rewrite (@mom_wide _ (a *: p) (size p)) ?size_scale_leq // /mom_functional mulr_sumr.
by apply: eq_bigr => k _; rewrite coefZ mulrA.
Qed.

Lemma mom0 m : mom_functional m 0 = 0.
Proof. by rewrite /mom_functional size_poly0 big_ord0. Qed.

Lemma momB m p q : mom_functional m (p - q) = mom_functional m p - mom_functional m q.
Proof. by rewrite -[- q]scaleN1r momD momZ mulN1r. Qed.

Lemma mom_sum m I (r : seq I) (P : pred I) (F : I -> {poly R}) :
  mom_functional m (\sum_(i <- r | P i) F i) = \sum_(i <- r | P i) mom_functional m (F i).
Proof. by apply: (big_morph _ (momD m) (mom0 m)). Qed.

Lemma momXn m k : mom_functional m 'X^k = m k.
Proof.
rewrite (@mom_wide _ _ k.+1) ?size_polyXn // big_ord_recr /= coefXn eqxx mul1r.
by rewrite big1 ?add0r // => i _; rewrite coefXn ltn_eqF ?mul0r.
Qed.

Lemma mom_eq m m' p : (forall k, (k < size p)%N -> m k = m' k) ->
  mom_functional m p = mom_functional m' p.
Proof. by move=> h; apply: eq_bigr => k _; rewrite h. Qed.

Lemma momE m p : mom_functional m p = \sum_(k < size p) p`_k * m k.
Proof. by []. Qed.
End Functional.

(* ---------- Multiplication matrices ---------- *)
Section Mult.
Variable R : rcfType.

Lemma mult_matrixE n (L H G : 'M[R]_n) : is_chol L G ->
  mult_matrix L H = invmx L *m H *m invmx L^T.
Proof. by case=> tL _ _; rewrite /mult_matrix /tsolve_right_lower_t /tsolve_left_lower tril_id. Qed.

Lemma mult_matrix_sym n (L H G : 'M[R]_n) : is_chol L G -> symmetric H ->
  symmetric (mult_matrix L H).
Proof.
move=> cL sH; rewrite /symmetric (mult_matrixE H cL) !trmx_mul sH.
by rewrite trmx_inv trmxK -!trmx_inv mulmxA.
Qed.

(* H u = G v implies K (L^T u) = L^T v *)
Lemma mult_shift n p (L H G : 'M[R]_n) (u v : 'M[R]_(n, p)) : is_chol L G ->
  H *m u = G *m v -> mult_matrix L H *m (L^T *m u) = L^T *m v.
Proof.
move=> cL h; have uL := chol_unit cL.
rewrite (mult_matrixE H cL) -!mulmxA [invmx L^T *m _]mulmxA mulVmx ?unitmx_tr // mul1mx h.
by case: cL => _ _ <-; rewrite -!mulmxA mulKmx.
Qed.

Lemma mult_form n p q (L H G : 'M[R]_n) (u : 'M[R]_(n, p)) (v : 'M[R]_(n, q)) : is_chol L G ->
  (L^T *m u)^T *m mult_matrix L H *m (L^T *m v) = u^T *m H *m v.
Proof.
move=> cL; have uL := chol_unit cL.
rewrite (mult_matrixE H cL) trmx_mul trmxK -!mulmxA.
by rewrite [invmx L^T *m _]mulmxA mulVmx ?unitmx_tr // mul1mx mulKVmx.
Qed.

Lemma mult_gram n p q (L G : 'M[R]_n) (u : 'M[R]_(n, p)) (v : 'M[R]_(n, q)) : is_chol L G ->
  (L^T *m u)^T *m (L^T *m v) = u^T *m G *m v.
Proof. by case=> _ _ <-; rewrite trmx_mul trmxK !mulmxA. Qed.

Definition e0 n : 'cV[R]_n.+1 := delta_mx 0 0.

Lemma trigT_e0 n (L : 'M[R]_n.+1) : is_trig_mx L -> L^T *m e0 n = L 0 0 *: e0 n.
Proof.
move=> /is_trig_mxP tL; rewrite /e0 -colE; apply/colP => i; rewrite !mxE.
case: (eqVneq i 0) => [->|ni]; first by rewrite mulr1.
by rewrite tL ?mulr0 // lt0n; apply: contraNneq ni => h; apply/eqP/val_inj.
Qed.

Lemma e0_entry n (A : 'M[R]_n.+1) : ((e0 n)^T *m A *m e0 n) 0 0 = A 0 0.
Proof. by rewrite /e0 trmx_delta -rowE -colE !mxE. Qed.

(* Congruence: a triangular change of basis with an affine change of H. *)
Lemma mult_matrix_congr n (L G H T G' H' L' : 'M[R]_n) (mu sg : R) :
  is_chol L G -> is_trig_mx T -> (forall i, 0 < T i i) ->
  G' = T *m G *m T^T -> H' = sg *: (T *m (H - mu *: G) *m T^T) ->
  is_chol L' G' -> mult_matrix L' H' = sg *: (mult_matrix L H - mu%:M).
Proof.
move=> cL tT pT eG' eH' cL'; have uL := chol_unit cL.
have [tL pL eL] := cL.
have uT : T \in unitmx by apply: trig_unit.
have cTL : is_chol (T *m L) G'.
  split; [exact: trig_mul| by move=> i; rewrite trig_mul_diag // mulr_gt0|].
  by rewrite eG' trmx_mul -eL !mulmxA.
have -> : L' = T *m L by apply: chol_unique cL' cTL.
rewrite (mult_matrixE H' cTL) (mult_matrixE H cL) eH' -scalemxAr -scalemxAl; congr (_ *: _).
have uTL : T *m L \in unitmx by rewrite unitmx_mul uT uL.
have -> : invmx (T *m L) = invmx L *m invmx T.
  apply: (can_inj (mulKmx uTL)); rewrite mulmxV // mulmxA -[T *m L *m _]mulmxA mulmxV //.
  by rewrite mulmx1 mulmxV.
have -> : invmx (T *m L)^T = invmx T^T *m invmx L^T.
  have uTL' : (T *m L)^T \in unitmx by rewrite unitmx_tr.
  apply: (can_inj (mulKmx uTL')); rewrite mulmxV // trmx_mul mulmxA.
  by rewrite -[L^T *m T^T *m _]mulmxA mulmxV ?unitmx_tr // mulmx1 mulmxV ?unitmx_tr.
rewrite -!mulmxA [T^T *m (_ *m _)]mulmxA mulmxV ?unitmx_tr // mul1mx.
rewrite [invmx T *m (T *m _)]mulmxA mulVmx // mul1mx.
rewrite mulmxBl mulmxBr -scalemxAl -scalemxAr; congr (_ - _).
by rewrite -eL -!mulmxA mulKmx // mulmxV ?unitmx_tr // scalemx1.
Qed.
End Mult.

(* ---------- Rules as matrix functions ---------- *)
Section Rule.
Variable R : rcfType.

Lemma expectE n (V : 'M[R]_n.+1) lam mean scale f :
  let r := nodes_of (V, lam) mean scale in
  expect r.1 r.2 f = fcalc V lam (fun x => f (scale * x + mean)) 0 0.
Proof.
rewrite /= /expect /nodes_of /= zip_map -map_comp jsumE big_map /= big_enum /=.
by rewrite fcalc_entry; apply: eq_big => // i _; rewrite expr2 mulrAC.
Qed.

Lemma expect_some n (V : 'M[R]_n.+1) lam mean scale f ws xs :
  Some (ws, xs) = Some (nodes_of (V, lam) mean scale) ->
  expect ws xs f = fcalc V lam (fun x => f (scale * x + mean)) 0 0.
Proof. by rewrite -expectE => -[-> ->]. Qed.

Lemma expect_ext (ws xs : seq R) f g : (forall x, f x = g x) -> expect ws xs f = expect ws xs g.
Proof. by move=> h; rewrite /expect; congr jsum; apply: eq_map => p; rewrite h. Qed.

Lemma expect_sumE (ws xs : seq R) f : expect ws xs f = \sum_(p <- zip ws xs) p.1 * f p.2.
Proof. by rewrite /expect jsumE big_map. Qed.

Lemma weights_ge0 n (VL : 'M[R]_n.+1 * 'rV[R]_n.+1) mean scale :
  all (fun w => 0 <= w) (nodes_of VL mean scale).1.
Proof. by apply/allP => w /mapP [i _ ->]; exact: sqr_ge0. Qed.

Lemma weights_sum1 n (V : 'M[R]_n.+1) lam mean scale : V^T *m V = 1%:M ->
  jsum (nodes_of (V, lam) mean scale).1 = 1.
Proof.
move=> oV; rewrite jsumE big_map /= big_enum /=.
have := fcalc1 lam oV => /matrixP /(_ 0 0); rewrite fcalc_entry mxE eqxx mulr1n => <-.
by apply: eq_big => // i _; rewrite mulr1 expr2.
Qed.

Lemma expect_bounds (ws xs : seq R) f a b : size ws = size xs ->
  all (fun w => 0 <= w) ws -> jsum ws = 1 -> (forall x, x \in xs -> a <= f x <= b) ->
  a <= expect ws xs f <= b.
Proof.
move=> hs /allP hw h1 hf.
have hp p : p \in zip ws xs -> 0 <= p.1 /\ p.2 \in xs.
  case: p => w x hz; split.
    by apply: hw; rewrite -(unzip1_zip (eq_leq hs)); apply: (map_f fst hz).
  by rewrite -(unzip2_zip (eq_leq (esym hs))); apply: (map_f snd hz).
have sE c : c = \sum_(p <- zip ws xs) p.1 * c.
  rewrite -mulr_suml -(big_map fst xpredT id) /= -/(unzip1 _) unzip1_zip ?hs //.
  by rewrite -jsumE h1 mul1r.
apply/andP; split; rewrite expect_sumE.
  rewrite {1}(sE a) big_seq [X in _ <= X]big_seq; apply: ler_sum => p /hp [h0 h2].
  by rewrite ler_wpmul2l //; case/andP: (hf _ h2).
rewrite (sE b) big_seq [X in _ <= X]big_seq; apply: ler_sum => p /hp [h0 h2].
by rewrite ler_wpmul2l //; case/andP: (hf _ h2).
Qed.
End Rule.

(* ---------- moment_quadrature ---------- *)
Section Quadrature.
Variable R : rcfType.
Variable chol : forall n, 'M[R]_n -> 'M[R]_n.
Variable eigh : forall n, 'M[R]_n -> 'M[R]_n * 'rV[R]_n.
Hypothesis cholP : chol_spec chol.
Hypothesis eighP : eigh_spec eigh.
Implicit Types (ms : seq R) (ldl : bool).

Lemma hankel_G_sym ms n : symmetric (hankel_G ms n).
Proof. by apply/matrixP => i j; rewrite !mxE /= addnC. Qed.

Lemma hankel_H_sym ms n : symmetric (hankel_H ms n).
Proof. by apply/matrixP => i j; rewrite !mxE /= addnC. Qed.

Definition factor n (G : 'M[R]_n.+1) ldl := if ldl then ldl_chol G None else chol G.

Lemma factorP n (G : 'M[R]_n.+1) ldl : posdef G -> is_chol (factor G ldl) G.
Proof. by case: ldl => /= pG; [exact: ldl_chol_is_chol | exact: cholP]. Qed.

Lemma quadratureE ms mean scale ldl n : (size ms)./2 = n.+1 ->
  moment_quadrature chol eigh ms mean scale ldl =
  Some (nodes_of (eigh (mult_matrix (factor (hankel_G ms n.+1) ldl) (hankel_H ms n.+1))) mean scale).
Proof. by rewrite /moment_quadrature => ->. Qed.

Lemma hankel_lt ms n (i j : 'I_n) : (size ms)./2 = n -> ((i + j).+1 < size ms)%N.
Proof.
move=> hn; have := ltn_ord i; have := ltn_ord j.
have := odd_double_half (size ms); rewrite hn; lia.
Qed.

Lemma hankel_GE ms n (i j : 'I_n) : (size ms)./2 = n -> hankel_G ms n i j = ms`_(i + j).
Proof. by move=> hn; rewrite mxE jget_nth // ltnW // hankel_lt. Qed.

Lemma hankel_HE ms n (i j : 'I_n) : (size ms)./2 = n -> hankel_H ms n i j = ms`_(i + j).+1.
Proof. by move=> hn; rewrite mxE jget_nth // hankel_lt. Qed.

(* positive definiteness of the Gram matrix = admissibility *)
Definition cpoly n (u : 'cV[R]_n) : {poly R} := \sum_(i < n) u i 0 *: 'X^i.

Lemma cpoly_coef n (u : 'cV[R]_n) (i : 'I_n) : (cpoly u)`_i = u i 0.
Proof.
rewrite /cpoly coef_sum (bigD1 i) //= coefZ coefXn eqxx mulr1 big1 ?addr0 // => j hj.
by rewrite coefZ coefXn eq_sym -[_ == _ :> nat]/(j == i) (negbTE hj) mulr0.
Qed.

Lemma cpoly_size n (u : 'cV[R]_n) : (size (cpoly u) <= n)%N.
Proof.
apply: (leq_trans (size_sum _ _ _)); apply/bigmax_leqP => i _.
by rewrite (leq_trans (size_scale_leq _ _)) // size_polyXn.
Qed.

Lemma cpoly_of n (p : {poly R}) : (size p <= n)%N -> p = cpoly (\col_(i < n) p`_i).
Proof.
move=> sp; apply/polyP => k; case: (ltnP k n) => hk.
  by rewrite -[k]/(nat_of_ord (Ordinal hk)) cpoly_coef mxE.
by rewrite !nth_default // (leq_trans _ hk) // cpoly_size.
Qed.

Lemma qform_hankel ms n (u : 'cV[R]_n) : (size ms)./2 = n ->
  qform (hankel_G ms n) u = mom_functional (nth 0 ms) (cpoly u * cpoly u).
Proof.
move=> hn; rewrite qform_sum big_distrlr /= mom_sum; apply: eq_bigr => i _.
rewrite mom_sum; apply: eq_bigr => j _.
by rewrite -scalerAl -scalerAr -exprD !momZ momXn hankel_GE // mulrAC mulrA.
Qed.

Lemma gram_admissible ms n : (size ms)./2 = n ->
  posdef (hankel_G ms n) <-> admissible (nth 0 ms) n.
Proof.
move=> hn; split=> [[_ hp] p pn0 sp|ha].
  rewrite (cpoly_of sp) -qform_hankel //; apply: hp; apply: contraNneq pn0 => u0.
  by rewrite (cpoly_of sp) u0 /cpoly big1 // => i _; rewrite mxE scale0r.
split; first exact: hankel_G_sym.
move=> u un0; rewrite qform_hankel //; apply: ha; last exact: cpoly_size.
apply: contraNneq un0 => p0; apply/eqP/colP => i.
by rewrite -cpoly_coef p0 coef0 mxE.
Qed.

(* powers of the multiplication matrix on the first basis vector *)
Lemma hankel_shift ms n (j : nat) : (size ms)./2 = n.+1 -> (j.+1 < n.+1)%N ->
  hankel_H ms n.+1 *m delta_mx (inord j) 0 = hankel_G ms n.+1 *m delta_mx (inord j.+1) 0 :> 'cV_n.+1.
Proof.
move=> hn hj; rewrite -!colE; apply/colP => i.
by rewrite mxE hankel_HE // mxE hankel_GE // !inordK ?addnS // ltnW.
Qed.

Lemma pow_e0 ms n L (j : nat) : (size ms)./2 = n.+1 -> is_chol L (hankel_G ms n.+1) ->
  (j < n.+1)%N ->
  L 0 0 *: (mxpow (mult_matrix L (hankel_H ms n.+1)) j *m e0 R n) = L^T *m delta_mx (inord j) 0.
Proof.
move=> hn cL; elim: j => [|j IH] hj.
  rewrite mul1mx -trigT_e0; last by case: cL.
  by congr (_ *m delta_mx _ _); apply: val_inj; rewrite /= inordK.
rewrite mxpowS -mulmxA scalemxAr IH 1?ltnW //.
by rewrite (mult_shift cL (hankel_shift hn hj)).
Qed.

Lemma pow_entry ms n L (k : nat) : (size ms)./2 = n.+1 -> is_chol L (hankel_G ms n.+1) ->
  (k < n.+1.*2)%N ->
  (mxpow (mult_matrix L (hankel_H ms n.+1)) k) 0 0 = ms`_k / ms`_0.
Proof.
move=> hn cL hk; set K := mult_matrix _ _.
have sK : symmetric K by apply: mult_matrix_sym cL _; exact: hankel_H_sym.
have [tL pL eL] := cL.
have L2 : L 0 0 * L 0 0 = ms`_0.
  have := hankel_GE 0 0 hn; rewrite -eL mxE (bigD1 0) //= big1 ?addr0; first by rewrite mxE.
  move=> i hi; move/is_trig_mxP: tL => ->; first by rewrite mul0r.
  by rewrite lt0n; apply: contraNneq hi => h; apply/eqP/val_inj.
have Ln0 : L 0 0 != 0 by rewrite gt_eqF.
apply: (mulfI Ln0); apply: (mulfI Ln0).
have -> : L 0 0 * (L 0 0 * (ms`_k / ms`_0)) = ms`_k.
  by rewrite mulrA L2 [LHS]mulrC divfK // -L2 mulf_neq0.
have dl (u v : 'cV[R]_n.+1) (M : 'M[R]_n.+1) :
    L 0 0 * (L 0 0 * (u^T *m M *m v) 0 0) = ((L 0 0 *: u)^T *m M *m (L 0 0 *: v)) 0 0.
  by rewrite trZmx -!scalemxAl -scalemxAr !mxscaleE.
case: (leqP k n) => hkn.
  rewrite -(e0_entry (mxpow K k)).
  have -> : (e0 R n)^T *m mxpow K k *m e0 R n = (e0 R n)^T *m 1%:M *m (mxpow K k *m e0 R n).
    by rewrite mulmx1 mulmxA.
  rewrite dl pow_e0 // -trigT_e0 // mulmx1 (mult_gram _ _ cL) trmx_delta -rowE -colE.
  rewrite mxE mxE hankel_GE // inordK // add0n.
have -> : k = (n + ((k - n.+1).+1))%N by lia.
set j := (k - n.+1)%N; have hj : (j < n.+1)%N by rewrite /j; lia.
rewrite -(e0_entry (mxpow K _)) mxpowD mxpowS.
have -> : (e0 R n)^T *m (mxpow K n *m (K *m mxpow K j)) *m e0 R n =
          (mxpow K n *m e0 R n)^T *m K *m (mxpow K j *m e0 R n).
  by rewrite trmx_mul mxpow_tr // !mulmxA.
rewrite dl !pow_e0 // (mult_form _ _ _ cL) trmx_delta -rowE -colE.
by rewrite mxE mxE hankel_HE // !inordK // addnS.
Qed.
End Quadrature.
