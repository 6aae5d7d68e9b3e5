(* Golub-Welsch quadrature and Taylor quadrature. *)
From mathcomp Require Import all_ssreflect all_algebra.
From mathcomp Require Import ring zify.
From Verif Require Import Prelude LinAlgSpec LinAlgProofs SpectralProofs LdlModel LdlProofs.
From Verif Require Import QuadModel QuadSpec QuadProofs QuadMain.
Set Implicit Arguments.
Unset Strict Implicit.
Unset Printing Implicit Defensive.
Import Order.TTheory GRing.Theory Num.Theory.
Local Open Scope ring_scope.

Section Jacobi.
Variable R : rcfType.
Variable n : nat.
Variables (L : 'M[R]_n.+2) (K : 'M[R]_n.+1).
Let l (a b : nat) : R := L (inord a) (inord b).
Hypothesis tL : is_trig_mx L.
Hypothesis pL : forall i, 0 < L i i.
Hypothesis sK : symmetric K.
Hypothesis hK : forall i j : 'I_n.+1, \sum_(k < n.+1) K i k * l j k = l j.+1 i.

Lemma l_trig a b : (a < b <= n.+1)%N -> l a b = 0.
Proof. by move=> h; move/is_trig_mxP: tL; apply; rewrite !inordK //; lia. Qed.

Lemma l_pos a : (a <= n.+1)%N -> 0 < l a a.
Proof. by move=> h; exact: pL. Qed.

Lemma row_split (i j : 'I_n.+1) :
  \sum_(k < n.+1 | (k < j)%N) K i k * l j k + K i j * l j j = l j.+1 i.
Proof.
rewrite -hK [RHS](bigID (fun k : 'I_n.+1 => (k < j)%N)) /=; congr (_ + _).
rewrite (bigD1 j) ?ltnn //= big1 ?addr0 // => k /andP [h1 h2].
rewrite l_trig ?mulr0 //; have := ltn_ord k; have : (k != j :> nat) by [].
by lia.
Qed.

Lemma K_hess m (j i : 'I_n.+1) : (j < m)%N -> (j.+1 < i)%N -> K i j = 0.
Proof.
elim: m j => [|m IH] j //; rewrite ltnS => hjm hij.
have := row_split i j; rewrite big1 ?add0r.
  rewrite (@l_trig j.+1 i); last by have := ltn_ord i; lia.
  by move/eqP; rewrite mulf_eq0 => /orP [/eqP|] // /eqP h; have := l_pos (ltnW (ltn_ord j)); rewrite h ltxx.
by move=> k hk; rewrite IH ?mul0r //; lia.
Qed.

Lemma K_sub (j i : 'I_n.+1) : i = j.+1 :> nat -> K i j = l j.+1 j.+1 / l j j.
Proof.
move=> hij; have := row_split i j; rewrite big1 ?add0r => [|k hk].
  by rewrite hij => <-; rewrite mulfK // gt_eqF // l_pos // ltnW // ltn_ord.
by rewrite (@K_hess j.+1) ?mul0r //; lia.
Qed.

Lemma K_diag0 : K 0 0 = l 1 0 / l 0 0.
Proof.
have := row_split 0 0; rewrite big_pred0 ?add0r // => <-.
by rewrite mulfK // gt_eqF // l_pos.
Qed.

Lemma K_diagS (j j' : 'I_n.+1) : j = j'.+1 :> nat ->
  K j j = l j.+1 j / l j j - l j j' / l j' j'.
Proof.
move=> hj; have := row_split j j.
rewrite (bigD1 j') ?hj //= big1 ?addr0; last first.
  move=> k /andP [h1 h2]; rewrite (@K_hess j.+1) ?mul0r //; first by lia.
  by have : (k != j' :> nat) by []; lia.
rewrite (K_sub hj) -hj => <-.
have p1 : l j j != 0 by rewrite gt_eqF // l_pos // ltnW // ltn_ord.
have p2 : l j' j' != 0 by rewrite gt_eqF // l_pos // ltnW // ltn_ord.
by rewrite mulrDl mulfK // [l j j / l j' j' * _]mulrAC -[l j j * l j j' / _]mulrA [l j j * _]mulrC mulfK // addrAC subrr add0r.
Qed.

Lemma gw_rmE a b : gw_rm L^T a b = l b a.
Proof. by rewrite /gw_rm mxE. Qed.

Lemma gw_jacobiE : gw_jacobi L^T = K.
Proof.
apply/matrixP => i j; rewrite mxE.
case: eqP => [e|ne].
  have -> : i = j by apply: val_inj.
  case hj: (nat_of_ord j) => [|j'] /=.
    have -> : j = 0 by apply: val_inj.
    by rewrite !gw_rmE K_diag0.
  have hj' : (j' < n.+1)%N by have := ltn_ord j; rewrite hj; lia.
  rewrite !gw_rmE (@K_diagS j (Ordinal hj')) //=.
  by rewrite hj.
case: eqP => [e|ne2].
  by rewrite /gw_beta !gw_rmE (K_sub e).
case: eqP => [e|ne3].
  by rewrite /gw_beta !gw_rmE -[K]sK mxE (K_sub e).
case: (ltnP i j) => h; last by rewrite (@K_hess j.+1) //; lia.
by rewrite -[K]sK mxE (@K_hess i.+1) //; lia.
Qed.
End Jacobi.

Section GW.
Variable R : rcfType.
Variable chol : forall n, 'M[R]_n -> 'M[R]_n.
Variable eigh : forall n, 'M[R]_n -> 'M[R]_n * 'rV[R]_n.
Hypothesis cholP : chol_spec chol.
Hypothesis eighP : eigh_spec eigh.

Section Block.
Variables (sms : seq R) (n : nat) (L : 'M[R]_n.+2).
Hypothesis hn : (size sms)./2 = n.+2.
Hypothesis cL : is_chol L (hankel_G sms n.+2).

Definition trunc : seq R := take n.+1.*2 sms.

Lemma size_sms : (n.+1.*2.+2 <= size sms)%N.
Proof. by have := odd_double_half (size sms); rewrite hn; lia. Qed.

Lemma trunc_size : size trunc = n.+1.*2.
Proof. by rewrite size_takel // (leq_trans _ size_sms) // ltnW. Qed.

Lemma trunc_half : (size trunc)./2 = n.+1.
Proof. by rewrite trunc_size doubleK. Qed.

Lemma trunc_nth k : (k < n.+1.*2)%N -> trunc`_k = sms`_k.
Proof. by move=> h; rewrite nth_take. Qed.

Let w (i : 'I_n.+1) : 'I_n.+2 := inord i.
Let L' : 'M[R]_n.+1 := \matrix_(i, j) L (w i) (w j).

Lemma w_val i : w i = i :> nat.
Proof. by rewrite /w inordK // ltnS ltnW. Qed.

Lemma w_lift (i : 'I_n.+1) : w i = widen_ord (leqnSn n.+1) i.
Proof. by apply: val_inj; rewrite /= w_val. Qed.

Lemma block_sum (i : 'I_n.+1) (v : 'I_n.+2 -> R) :
  \sum_(k < n.+2) L (w i) k * v k = \sum_(k < n.+1) L (w i) (w k) * v (w k).
Proof.
have [/is_trig_mxP tL _ _] := cL.
rewrite big_ord_recr /= tL ?mul0r ?addr0 /=; last by rewrite w_val.
by apply: eq_bigr => k _; rewrite (w_lift k).
Qed.

Lemma L'_chol : is_chol L' (hankel_G trunc n.+1).
Proof.
have [tL pL eL] := cL; split.
- by apply/is_trig_mxP => i j hij; rewrite mxE; move/is_trig_mxP: tL => -> //; rewrite !w_val.
- by move=> i; rewrite mxE.
apply/matrixP => i j; rewrite mxE hankel_GE ?trunc_half // trunc_nth; last first.
  by have := ltn_ord i; have := ltn_ord j; lia.
have := hankel_GE (w i) (w j) hn; rewrite !w_val -eL => <-.
rewrite [RHS]mxE block_sum; apply: eq_bigr => k _.
by rewrite !mxE.
Qed.

Lemma K'_eq (i j : 'I_n.+1) :
  \sum_(k < n.+1) mult_matrix L' (hankel_H trunc n.+1) i k * L (inord j) (inord k)
  = L (inord j.+1) (inord i).
Proof.
have [tL pL eL] := cL.
pose S : 'M[R]_n.+1 := \matrix_(k, j) L (inord j.+1) (w k).
have HE : hankel_H trunc n.+1 = L' *m S.
  apply/matrixP => a b; rewrite hankel_HE ?trunc_half // trunc_nth; last first.
    by have := ltn_ord a; have := ltn_ord b; lia.
  have wb : (inord b.+1 : 'I_n.+2) = b.+1 :> nat by rewrite inordK // ltnS.
  have := hankel_GE (w a) (inord b.+1) hn; rewrite w_val wb addnS -eL => <-.
  rewrite mxE block_sum mxE; apply: eq_bigr => k _.
  by rewrite !mxE.
have KE : mult_matrix L' (hankel_H trunc n.+1) *m L'^T = S.
  have cL' := L'_chol; have uL' := chol_unit cL'.
  by rewrite (mult_matrixE _ cL') HE mulmxA mulVmx // mul1mx mulmxKV // unitmx_tr.
have := congr1 (fun X : 'M[R]_n.+1 => X i j) KE; rewrite [S]lock mxE -lock mxE => <-.
by apply: eq_bigr => k _; rewrite !mxE.
Qed.

Lemma gw_is_mult : gw_jacobi L^T = mult_matrix L' (hankel_H trunc n.+1).
Proof.
have [tL pL _] := cL; apply: gw_jacobiE => //.
  by apply: mult_matrix_sym L'_chol _; exact: hankel_H_sym.
exact: K'_eq.
Qed.
End Block.

(* The Golub-Welsch rule is the moment quadrature of the first 2n - 2 moments. *)
Lemma golub_welsch_eq sms mean scale ldl ws xs ws' xs' :
  admissible (nth 0 sms) (size sms)./2 ->
  gauss_quadrature_golub_welsch chol eigh sms mean scale = Some (ws, xs) ->
  moment_quadrature chol eigh (take (size sms)./2.-1.*2 sms) mean scale ldl = Some (ws', xs') ->
  forall f, expect ws xs f = expect ws' xs' f.
Proof.
rewrite /gauss_quadrature_golub_welsch; case hn: (size sms)./2 => [|[|n]] // ha hg hq f.
have pG : posdef (hankel_G sms n.+2) by apply/gram_admissible.
have cL := cholP pG.
have eG := gw_is_mult hn cL; set K := mult_matrix _ _ in eG.
have c' := L'_chol hn cL.
have ha' : admissible (nth 0 (trunc sms n)) n.+1.
  apply/gram_admissible; first exact: trunc_half.
  exact: chol_posdef c'.
have sK : symmetric K by apply: mult_matrix_sym c' _; exact: hankel_H_sym.
have [L2 [V [lam [cL2 eV hq2]]]] := quadrature_fcalc cholP eighP mean scale ldl (trunc_half hn) ha'.
rewrite -/(trunc sms n) hq2 in hq.
rewrite (expect_some _ (esym hq)).
rewrite eG [eigh K]surjective_pairing in hg.
rewrite (expect_some _ (esym hg)).
have eK := eighP sK.
by rewrite -(chol_unique c' cL2) in eV; rewrite (fcalc_unique _ eK eV).
Qed.

Lemma golub_welsch_defined sms mean scale : (3 < size sms)%N ->
  exists ws, exists2 xs, gauss_quadrature_golub_welsch chol eigh sms mean scale = Some (ws, xs)
    & size ws = (size sms)./2.-1 /\ size xs = (size sms)./2.-1.
Proof.
move=> h; rewrite /gauss_quadrature_golub_welsch.
case hn: (size sms)./2 => [|[|n]]; try by have := odd_double_half (size sms); rewrite hn; lia.
by eexists; eexists; first reflexivity; rewrite !size_map -enumT size_enum_ord.
Qed.

Lemma admissible_take (sms : seq R) n : (size sms)./2 = n.+1 -> admissible (nth 0 sms) n.+1 ->
  admissible (nth 0 (take n.*2 sms)) n.
Proof.
move=> hn ha p p0 sp.
rewrite (@mom_eq _ _ (nth 0 sms)); first by apply: ha => //; exact: leqW.
move=> k hk; rewrite nth_take // (leq_trans hk) //.
have := size_mul_leq p p; rewrite -!addnn.
have : (0 < size p)%N by rewrite lt0n size_poly_eq0.
lia.
Qed.

Lemma golub_welsch_moments sms mean scale ws xs : scale != 0 ->
  admissible (nth 0 sms) (size sms)./2 ->
  gauss_quadrature_golub_welsch chol eigh sms mean scale = Some (ws, xs) ->
  forall k, (k < ((size sms)./2.-1).*2)%N ->
  expect ws xs (fun x => ((x - mean) / scale) ^+ k) = sms`_k / sms`_0.
Proof.
move=> s0 ha hg k hk.
have hn2 : exists n, (size sms)./2 = n.+2.
  move: hg; rewrite /gauss_quadrature_golub_welsch; case: (size sms)./2 => [|[|n]] // _.
  by exists n.
have [n hn] := hn2; rewrite hn /= in hk.
have sz := trunc_size hn.
have [ws' [xs' hq _]] : exists ws, exists2 xs,
    moment_quadrature chol eigh (trunc sms n) mean scale false = Some (ws, xs) &
    size ws = (size (trunc sms n))./2 /\ size xs = (size (trunc sms n))./2.
  by apply: quadrature_defined; rewrite sz; lia.
have ha' : admissible (nth 0 (trunc sms n)) (size (trunc sms n))./2.
  by rewrite (trunc_half hn); apply: admissible_take => //; rewrite -hn.
rewrite (golub_welsch_eq (ldl := false) ha hg (ws' := ws') (xs' := xs')); last by rewrite hn.
rewrite (quadrature_moments cholP eighP s0 ha' hq); last by rewrite (trunc_half hn).
by rewrite !trunc_nth.
Qed.

Lemma golub_welsch_main sms mean scale : (3 < size sms)%N -> scale != 0 ->
  admissible (nth 0 sms) (size sms)./2 ->
  exists ws, exists2 xs, gauss_quadrature_golub_welsch chol eigh sms mean scale = Some (ws, xs)
   & [/\ size ws = (size sms)./2.-1, size xs = (size sms)./2.-1
       & forall k, (k < ((size sms)./2.-1).*2)%N ->
         expect ws xs (fun x => ((x - mean) / scale) ^+ k) = sms`_k / sms`_0].
Proof.
move=> h1 s0 ha; have [ws [xs hq [h2 h3]]] := golub_welsch_defined mean scale h1.
by exists ws, xs => //; split=> // k; apply: golub_welsch_moments hq k.
Qed.
End GW.

Section Taylor.
Variable R : rcfType.

Lemma foldl_add (f : nat -> R) a s : foldl (fun x r => x + f r) a s = a + \sum_(r <- s) f r.
Proof. by elim: s a => [|x s IH] a /=; rewrite ?big_nil ?addr0 // IH big_cons addrA. Qed.

(* [E] is any linear functional with the given central moments *)
Lemma taylor_exact (E : {linear {poly R} -> R^o}) (p : {poly R}) (derivs : nat -> R -> R)
    (cms : seq R) (mean : R) (N : nat) :
  (forall r x, derivs r x = p^`(r).[x]) -> (size p <= N.+1)%N -> (N < size cms)%N ->
  (forall r, (r <= N)%N -> E (('X - mean%:P) ^+ r) = cms`_r) -> cms`_0 = 1 ->
  taylor_quadrature derivs cms mean N = E p.
Proof.
move=> hd sp hs hE c0; rewrite /taylor_quadrature foldl_add.
have taylor : p = \sum_(i < N.+1) p^`N(i).[mean] *: ('X - mean%:P) ^+ i.
  have := @nderiv_taylor_wide _ N.+1 (p^:P) mean%:P ('X - mean%:P) (mulrC _ _).
  rewrite size_map_polyC => /(_ sp); rewrite addrC subrK => h.
  have e : p = p^:P.['X] by rewrite -[LHS](comp_polyXr) /comp_poly.
  rewrite [LHS]e h; apply: eq_bigr => i _.
  by rewrite nderivn_map horner_map /= mul_polyC.
rewrite [X in E X]taylor linear_sum big_ord_recl /=; congr (_ + _).
  by rewrite hd derivn0 nderivn0 expr0 linearZ /= -(expr0 ('X - mean%:P)) hE // c0 /= [_ *: _]mulr1.
rewrite -[1%N]addn0 iotaDl big_map -[X in iota 0 X]subn0 -/(index_iota 0 N) big_mkord.
apply: eq_bigr => i _; rewrite linearZ /= hE ?ltn_ord // hd nderivn_def.
rewrite jget_nth; last by rewrite (leq_trans _ hs) // ltnS.
rewrite /bump /= add1n hornerMn -[RHS]/(_ * _).
have f0 : (i.+1)`!%:R != 0 :> R by rewrite pnatr_eq0 -lt0n fact_gt0.
by rewrite -mulr_natr mulrAC mulfK.
Qed.
End Taylor.
