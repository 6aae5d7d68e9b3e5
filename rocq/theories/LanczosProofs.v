(* The Lanczos recursion: orthonormality, tridiagonalisation, Krylov powers. *)
From mathcomp Require Import all_ssreflect all_algebra.
From mathcomp Require Import zify ring.
From Verif Require Import Prelude LinAlgSpec LinAlgProofs SpectralProofs SmcProofs LanczosModel.
Set Implicit Arguments.
Unset Strict Implicit.
Unset Printing Implicit Defensive.
Import Order.TTheory GRing.Theory Num.Theory.
Local Open Scope ring_scope.

Section Dot.
Variables (R : rcfType) (n : nat).
Implicit Types u v w : 'cV[R]_n.

Lemma dotvC u v : dotv u v = dotv v u.
Proof. by apply: eq_bigr => i _; rewrite mulrC. Qed.
Lemma dotvDr u v w : dotv u (v + w) = dotv u v + dotv u w.
Proof. by rewrite /dotv -big_split; apply: eq_bigr => i _; rewrite mxE mulrDr. Qed.
Lemma dotvZr (c : R) u v : dotv u (c *: v) = c * dotv u v.
Proof. by rewrite /dotv mulr_sumr; apply: eq_bigr => i _; rewrite mxE mulrCA. Qed.
Lemma dotvNr u v : dotv u (- v) = - dotv u v.
Proof. by rewrite -scaleN1r dotvZr mulN1r. Qed.
Lemma dotv0r u : dotv u 0 = 0.
Proof. by rewrite /dotv big1 // => i _; rewrite mxE mulr0. Qed.
Lemma dotvDl u v w : dotv (v + w) u = dotv v u + dotv w u.
Proof. by rewrite !(dotvC _ u) dotvDr. Qed.
Lemma dotvZl (c : R) u v : dotv (c *: v) u = c * dotv v u.
Proof. by rewrite !(dotvC _ u) dotvZr. Qed.
Lemma dotvNl u v : dotv (- v) u = - dotv v u.
Proof. by rewrite !(dotvC _ u) dotvNr. Qed.
Lemma dotv_mx u v : dotv u v = (u^T *m v) 0 0.
Proof. by rewrite mxE; apply: eq_bigr => i _; rewrite mxE. Qed.
Lemma dotv_sym (a : 'M[R]_n) u v : symmetric a -> dotv (a *m u) v = dotv u (a *m v).
Proof. by move=> h; rewrite !dotv_mx trmx_mul h mulmxA. Qed.
Lemma norm2_sq w : norm2 w ^+ 2 = dotv w w.
Proof.
by rewrite /norm2 sqr_sqrtr; [apply: eq_bigr => i _; rewrite expr2|apply: sumr_ge0 => i _; exact: sqr_ge0].
Qed.
Lemma norm2_eq0 w : (norm2 w == 0) = (w == 0).
Proof. by rewrite -(dot_eq0 w) -dotv_mx -norm2_sq sqrf_eq0. Qed.
Lemma normalise_unit w : norm2 w != 0 -> dotv ((norm2 w)^-1 *: w) ((norm2 w)^-1 *: w) = 1.
Proof. by move=> h; rewrite dotvZl dotvZr -norm2_sq expr2 mulKf // mulVf. Qed.
End Dot.

Lemma neqS1 k : (k == k.+1) = false. Proof. by apply/negbTE; rewrite neq_ltn ltnSn. Qed.
Lemma neqS2 k : (k.+1 == k) = false. Proof. by rewrite eq_sym neqS1. Qed.
Lemma le_neqS i k : (i <= k)%N -> (i == k.+1) = false.
Proof. by move=> h; apply/negbTE; rewrite neq_ltn ltnS h. Qed.

Lemma neqS2' k : (k.+2 == k) = false. Proof. by apply/negbTE; rewrite neq_ltn orbC ltnS leqnSn. Qed.

Section Run.
Variables (R : rcfType) (n : nat) (a : 'M[R]_n) (v0 : 'cV[R]_n).
Hypothesis asym : symmetric a.
Hypothesis v0unit : dotv v0 v0 = 1.

Local Notation st := (fun j => iter j (fun c => (lanczos_body a c 0%N).1)
  (v0, a *m v0 - dotv (a *m v0) v0 *: v0)).
Local Notation q := (fun j => (st j).1).
Local Notation w := (fun j => (st j).2).
Definition lz_q j : 'cV[R]_n := (st j).1.
Definition lz_w j : 'cV[R]_n := (st j).2.
Definition lz_al j : R := dotv (a *m lz_q j) (lz_q j).
Definition lz_be j : R := if j is j'.+1 then norm2 (lz_w j') else 0.
Definition lz_qp j : 'cV[R]_n := if j is j'.+1 then lz_q j' else 0.

Lemma stS j : st j.+1 = (lanczos_body a (lz_q j, lz_w j) 0%N).1.
Proof. by rewrite /lz_q /lz_w iterS; case: (st j). Qed.

Lemma lz_qS j : lz_q j.+1 = (lz_be j.+1)^-1 *: lz_w j.
Proof. by rewrite {1}/lz_q stS. Qed.
Lemma lz_wE j : lz_w j = a *m lz_q j - lz_al j *: lz_q j - lz_be j *: lz_qp j.
Proof.
case: j => [|j]; first by rewrite scale0r subr0.
by rewrite {1}/lz_w stS /lz_al lz_qS.
Qed.

Lemma scan_lz j m xs : size xs = m ->
  (scan (lanczos_body a) (lz_q j, lz_w j) xs).2 =
  [seq (lz_q i.+1, lz_al i.+1, lz_be i.+1) | i <- iota j m].
Proof.
elim: xs j m => [|x xs IH] j [|m] // [hs].
have e : lanczos_body a (lz_q j, lz_w j) x =
    ((lz_q j.+1, lz_w j.+1), (lz_q j.+1, lz_al j.+1, lz_be j.+1)).
  by rewrite /lz_al /lz_q /lz_w stS.
by rewrite scan_cons' e [LHS]/= (IH j.+1 m hs).
Qed.

Lemma lanczosE m : lanczos a v0 m.+1 =
  ([seq lz_q i | i <- iota 0 m.+1], [seq lz_al i | i <- iota 0 m.+1], [seq lz_be i.+1 | i <- iota 0 m]).
Proof.
rewrite /lanczos.
have := @scan_lz 0 m (iota 0 m) (size_iota _ _); rewrite /= => ->.
have sh (T : Type) (f : nat -> T) : [seq f i | i <- iota 1 m] = [seq f i.+1 | i <- iota 0 m].
  by rewrite (iotaDl 1 0) -map_comp.
by rewrite -!map_comp !sh.
Qed.

Variable m : nat.
Hypothesis nobreak : forall j, (j < m)%N -> lz_be j.+1 != 0.

Lemma lz_beq j : (j < m)%N -> lz_be j.+1 *: lz_q j.+1 = lz_w j.
Proof. by move=> h; rewrite lz_qS scalerA mulfV ?scale1r ?nobreak. Qed.

Lemma three_term j : (j < m)%N ->
  a *m lz_q j = lz_be j.+1 *: lz_q j.+1 + lz_al j *: lz_q j + lz_be j *: lz_qp j.
Proof. by move=> h; rewrite lz_beq // lz_wE addrAC !subrK. Qed.

Lemma lz_ortho j : (j <= m)%N -> forall i k, (i <= j)%N -> (k <= j)%N ->
  dotv (lz_q i) (lz_q k) = (i == k)%:R.
Proof.
elim: j => [|j IH] hj.
  by case=> [|i] [|k] // _ _.
have {IH} IH := IH (ltnW hj).
have hu : dotv (lz_q j.+1) (lz_q j.+1) = 1.
  by rewrite lz_qS; apply: normalise_unit; exact: (nobreak hj).
have ho i : (i <= j)%N -> dotv (lz_q j.+1) (lz_q i) = 0.
  move=> hi; rewrite lz_qS dotvZl lz_wE !dotvDl !dotvNl !dotvZl (dotv_sym _ _ asym).
  rewrite (IH j i) //.
  have -> : lz_be j * dotv (lz_qp j) (lz_q i) = lz_be j * (j == i.+1)%:R.
    by case: j hj IH hu hi => [|j] hj IH hu hi; rewrite ?mul0r //= IH ?eqSS //; lia.
  move: hi; rewrite leq_eqVlt => /orP[/eqP ->|hi].
    rewrite eqxx (_ : (j == j.+1) = false); last by lia.
    by rewrite mulr1 mulr0 subr0 -(dotv_sym _ _ asym) subrr mulr0.
  rewrite three_term; last by lia.
  rewrite !dotvDr !dotvZr (IH j i.+1) // (IH j i) ?(ltnW hi) //.
  rewrite (_ : (j == i) = false); last by lia.
  have -> : lz_be i * dotv (lz_q j) (lz_qp i) = 0.
    case: i hi => [|i] hi; rewrite ?mul0r //= IH //; last by lia.
    by rewrite (_ : (j == i) = false) ?mulr0 //; lia.
  rewrite !mulr0 !addr0 subr0; case: eqP => [->|_]; rewrite ?mulr1 ?mulr0 subrr mulr0 //.
have hcase i : (i <= j.+1)%N -> i = j.+1 \/ (i <= j)%N by clear; lia.
move=> i k /hcase [->|hi] /hcase [->|hk].
- by rewrite eqxx.
- by rewrite ho // (_ : (j.+1 == k) = false) //; lia.
- by rewrite dotvC ho // (_ : (i == j.+1) = false) //; lia.
- exact: IH.
Qed.

Lemma lz_tri i k : (i <= m)%N -> (k <= m)%N -> dotv (lz_q i) (a *m lz_q k) =
  (if i == k then lz_al i else 0) + (if i == k.+1 then lz_be k.+1 else 0)
  + (if i.+1 == k then lz_be i.+1 else 0).
Proof.
wlog : i k / (i <= k)%N.
  move=> h hi hk; case: (leqP i k) => [|/ltnW] hik; first exact: h.
  rewrite -(dotv_sym _ _ asym) dotvC h // [k == i]eq_sym [k == i.+1]eq_sym [k.+1 == i]eq_sym addrAC.
  by congr (_ + _ + _); case: eqP => // ->.
move=> hik hi hk; case: (eqVneq i k) => [e|ne].
  by rewrite e neqS1 neqS2 !addr0 -(dotv_sym _ _ asym).
have lik : (i < k)%N by rewrite ltn_neqAle ne.
rewrite (le_neqS hik) !add0r.
rewrite -(dotv_sym _ _ asym) three_term; last exact: leq_trans lik hk.
rewrite !dotvDl !dotvZl (@lz_ortho m _ i.+1 k) //; last exact: leq_trans lik hk.
rewrite (@lz_ortho m _ i k) // (negbTE ne) mulr0 addr0.
have -> : lz_be i * dotv (lz_qp i) (lz_q k) = 0.
  case: i ne lik hik hi => [|i] ne lik hik hi; rewrite ?mul0r //= (@lz_ortho m) //; last exact: ltnW.
  by rewrite (_ : (i == k) = false) ?mulr0 //; move: lik; clear; lia.
by rewrite addr0; case: eqP; rewrite ?mulr1 ?mulr0.
Qed.

Definition lz_V : 'M[R]_(n, m.+1) := columns m.+1 (lanczos a v0 m.+1).1.1.
Definition lz_T : 'M[R]_m.+1 := tridiag m.+1 (lanczos a v0 m.+1).1.2 (lanczos a v0 m.+1).2.

Lemma lz_VE i (j : 'I_m.+1) : lz_V i j = lz_q j i 0.
Proof. by rewrite mxE lanczosE (nth_map 0%N) ?size_iota // nth_iota. Qed.

Lemma lz_V_col j : col j lz_V = lz_q j.
Proof. by apply/colP => i; rewrite mxE lz_VE. Qed.

Lemma lz_TE (i j : 'I_m.+1) : lz_T i j =
  (if i == j :> nat then lz_al i else 0) + (if i == j.+1 :> nat then lz_be j.+1 else 0)
  + (if i.+1 == j :> nat then lz_be i.+1 else 0).
Proof.
have hi := ltn_ord i; have hj := ltn_ord j.
rewrite mxE lanczosE /=; congr (_ + _ + _); case: eqP => // e.
- by rewrite -map_cons (nth_map 0%N) ?(nth_iota 0) // -[_ :: _]/(iota 0 m.+1) ?size_iota // nth_iota.
- by rewrite (nth_map 0%N) ?size_iota ?nth_iota //; move: e hi; clear; lia.
- by rewrite (nth_map 0%N) ?size_iota ?nth_iota //; move: e hj; clear; lia.
Qed.

Lemma lz_T_sym : symmetric lz_T.
Proof.
apply/matrixP => i j; rewrite mxE !lz_TE [j == i :> nat]eq_sym addrAC; congr (_ + _ + _).
- by case: eqP => // ->.
- by rewrite eq_sym.
- by rewrite eq_sym.
Qed.

Lemma lz_VtV : lz_V^T *m lz_V = 1%:M.
Proof.
apply/matrixP => i j; rewrite mxE [RHS]mxE -(@lz_ortho m) -1?ltnS //.
by apply: eq_bigr => k _; rewrite mxE !lz_VE.
Qed.

Lemma lz_VtAV : lz_V^T *m a *m lz_V = lz_T.
Proof.
apply/matrixP => i j; rewrite lz_TE -lz_tri -1?ltnS // -!lz_V_col -mulmxA mxE.
rewrite /dotv; apply: eq_bigr => k _; rewrite !mxE; congr (_ * _).
by apply: eq_bigr => l _; rewrite !mxE.
Qed.

(* A V = V T + w e_m^T *)
Lemma lz_AV : a *m lz_V = lz_V *m lz_T + lz_w m *m delta_mx 0 ord_max.
Proof.
have hT k : col k (lz_V *m lz_T) = \sum_(l < m.+1) lz_T l k *: lz_q l.
  apply/colP => i; rewrite !mxE summxE; apply: eq_bigr => l _.
  by rewrite lz_VE [RHS]mxE mulrC.
have hTs k : col k (lz_V *m lz_T) = lz_al k *: lz_q k + lz_be k *: lz_qp k +
    (if (k < m)%N then lz_be k.+1 *: lz_q k.+1 else 0).
  rewrite hT (eq_bigr (fun l : 'I_m.+1 => (if l == k :> nat then lz_al l *: lz_q l else 0) +
    (if l.+1 == k :> nat then lz_be l.+1 *: lz_q l else 0) +
    (if l == k.+1 :> nat then lz_be k.+1 *: lz_q l else 0))); last first.
    move=> l _; rewrite lz_TE !scalerDl -!addrA [X in _ + X = _]addrC.
    by congr (_ + (_ + _)); case: eqP; rewrite ?scale0r.
  rewrite !big_split /=; congr (_ + _ + _).
  - rewrite (bigD1 k) //= eqxx big1 ?addr0 // => l h; rewrite (_ : (l == k :> nat) = false) //.
    by apply: negbTE.
  - case: k => [[|k] hk] /=; first by rewrite scale0r big1.
    have hk' : (k < m.+1)%N by rewrite ltnW.
    rewrite (bigD1 (Ordinal hk')) //= eqxx big1 ?addr0 // => l h.
    by rewrite eqSS (_ : (l == k :> nat) = false) //; apply: negbTE.
  case: ifP => hk.
    have hk' : (k.+1 < m.+1)%N by rewrite ltnS.
    rewrite (bigD1 (Ordinal hk')) //= eqxx big1 ?addr0 // => l h.
    by rewrite (_ : (l == k.+1 :> nat) = false) //; apply: negbTE.
  apply: big1 => l _; case: eqP => // e; have := ltn_ord l; rewrite e.
  by move: hk; clear; lia.
have hc k : col k (a *m lz_V) = col k (lz_V *m lz_T) + (if (k < m)%N then 0 else lz_w m).
  rewrite hTs colE -mulmxA -colE lz_V_col; case: ifP => hk.
    by rewrite three_term // addr0 -addrA addrC.
  have e : k = m :> nat by have := ltn_ord k; move: hk; clear; lia.
  by rewrite addr0 lz_wE e -addrA -opprD [RHS]addrC subrK.
apply/matrixP => i j; have := congr1 (fun c : 'cV_n => c i 0) (hc j).
rewrite mxaddE ![col _ _ _ _]mxE => ->; rewrite mxaddE; congr (_ + _).
rewrite [RHS]mxE big_ord1 mxE /= -val_eqE /=.
case: ifP => hj; first by rewrite mxE (_ : (j == m :> nat) = false) ?mulr0 //; move: hj; clear; lia.
by rewrite (_ : (j == m :> nat)) ?mulr1 //; have := ltn_ord j; move: hj; clear; lia.
Qed.

Local Notation e1 := (delta_mx 0 0 : 'cV[R]_m.+1).

(* T^k e_1 has no component beyond k *)
Lemma lz_T_upper k (l : 'I_m.+1) : (k < l)%N -> (mxpow lz_T k *m e1) l 0 = 0.
Proof.
elim: k l => [|k IH] l hl.
  by rewrite mul1mx mxE -val_eqE /= (_ : (val l == 0%N) = false) //; apply: gtn_eqF.
rewrite mxpowS -mulmxA mxE big1 // => j _; case: (ltnP k j) => hj; first by rewrite IH ?mulr0.
have n1 : (l == j :> nat) = false by move: hl hj; clear; lia.
have n2 : (l == j.+1 :> nat) = false by move: hl hj; clear; lia.
have n3 : (l.+1 == j :> nat) = false by move: hl hj; clear; lia.
by rewrite lz_TE n1 n2 n3 !addr0 mul0r.
Qed.

Lemma lz_V1 : lz_V *m e1 = v0.
Proof. by rewrite -colE lz_V_col. Qed.

Lemma lz_krylov k : (k <= m)%N -> mxpow a k *m v0 = lz_V *m (mxpow lz_T k *m e1).
Proof.
elim: k => [|k IH] hk; first by rewrite !mul1mx lz_V1.
rewrite mxpowS -mulmxA IH ?(ltnW hk) // mulmxA lz_AV mulmxDl -[lz_w m *m _ *m _]mulmxA.
have -> : delta_mx 0 ord_max *m (mxpow lz_T k *m e1) = 0 :> 'M[R]_1.
  by rewrite -rowE; apply/matrixP => i j; rewrite !ord1 mxE lz_T_upper ?mxE.
by rewrite mulmx0 addr0 mxpowS !mulmxA.
Qed.

Lemma lz_invariant k : lz_w m = 0 -> mxpow a k *m v0 = lz_V *m (mxpow lz_T k *m e1).
Proof.
move=> h; elim: k => [|k IH]; first by rewrite !mul1mx lz_V1.
by rewrite mxpowS -mulmxA IH mulmxA lz_AV h mul0mx addr0 mxpowS !mulmxA.
Qed.

(* the quadratic forms of A^k agree up to degree 2 m + 1 *)
Lemma lz_moment k : (k <= m.*2.+1)%N -> dotv v0 (mxpow a k *m v0) = (mxpow lz_T k) 0 0.
Proof.
have e11 (A : 'M[R]_m.+1) : (e1^T *m (A *m e1)) 0 0 = A 0 0.
  by rewrite trmx_delta -rowE -colE !mxE.
have hh i j : (i <= m)%N -> (j <= m)%N ->
    dotv (mxpow a i *m v0) (mxpow a j *m v0) = (mxpow lz_T (i + j)) 0 0.
  move=> hi hj; rewrite !lz_krylov // dotv_mx !trmx_mul (mxpow_tr _ lz_T_sym) -!mulmxA.
  by rewrite [lz_V^T *m _]mulmxA lz_VtV mul1mx [mxpow lz_T i *m _]mulmxA -mxpowD e11.
have hp i j : dotv v0 (mxpow a (i + j) *m v0) = dotv (mxpow a i *m v0) (mxpow a j *m v0).
  by rewrite mxpowD -mulmxA !dotv_mx trmx_mul (mxpow_tr _ asym) mulmxA.
case: (leqP k m.*2) => [hk _|hk hk'].
  have -> : k = (k./2 + (k - k./2))%N by move: hk; clear; lia.
  by rewrite hp hh //; move: hk; clear; lia.
have -> : k = (m + m.+1)%N by move: hk hk'; clear; lia.
rewrite hp !mxpowS -mulmxA !lz_krylov // dotv_mx !trmx_mul (mxpow_tr _ lz_T_sym).
by rewrite -(e11 (mxpow lz_T _)) mxpowD mxpowS -lz_VtAV !mulmxA.
Qed.
End Run.

Section Main.
Variable R : rcfType.

Lemma betas_nobreak n (a : 'M[R]_n) v0 m : all (fun b => b != 0) (lanczos a v0 m.+1).2 ->
  forall j, (j < m)%N -> lz_be a v0 j.+1 != 0.
Proof.
rewrite lanczosE /= all_map => /allP h j hj; apply: (h j).
by rewrite mem_iota.
Qed.

Lemma lanczos_tridiag n (a : 'M[R]_n) v0 m vs al be : symmetric a -> dotv v0 v0 = 1 ->
  lanczos a v0 m.+1 = (vs, al, be) ->
  [/\ size vs = m.+1, size al = m.+1 & size be = m] /\
  (all (fun b => b != 0) be ->
   let V := columns m.+1 vs in
   let T := tridiag m.+1 al be in
   [/\ nth 0 vs 0 = v0, V^T *m V = 1%:M, V^T *m a *m V = T,
       forall k, (k <= m)%N -> mxpow a k *m v0 = V *m (mxpow T k *m delta_mx 0 0)
     & forall k, (k <= m.*2.+1)%N -> dotv v0 (mxpow a k *m v0) = (mxpow T k) 0 0]).
Proof.
move=> ha hv e; have hb := @betas_nobreak n a v0 m.
have hV : lz_V a v0 m = columns m.+1 vs by rewrite /lz_V e.
have hT : lz_T a v0 m = tridiag m.+1 al be by rewrite /lz_T e.
have hs := lanczosE a v0 m.
rewrite e in hb hs; have [evs eal ebe] := hs; split.
  by rewrite evs eal ebe /= !size_map !size_iota.
rewrite -hV -hT => /hb hnb; split; first by rewrite evs.
- exact: lz_VtV.
- exact: lz_VtAV.
- by move=> k hk; apply: lz_krylov.
- by move=> k hk; apply: lz_moment.
Qed.

Lemma lanczos_full n (a : 'M[R]_n.+1) v0 vs al be : symmetric a -> dotv v0 v0 = 1 ->
  lanczos a v0 n.+1 = (vs, al, be) -> all (fun b => b != 0) be ->
  let V := columns n.+1 vs in
  V *m V^T = 1%:M /\ a = V *m tridiag n.+1 al be *m V^T.
Proof.
move=> ha hv e hb V; have [_ /(_ hb) [_ h1 h2 _ _]] := lanczos_tridiag ha hv e.
have h3 := mulmx1C h1; split=> //.
by rewrite -h2 !mulmxA h3 mul1mx -mulmxA h3 mulmx1.
Qed.

(* the Krylov vectors v, A v, ..., A^(m-1) v as rows *)
Definition krylov n (a : 'M[R]_n) (v : 'cV[R]_n) m : 'M[R]_(m, n) :=
  \matrix_(k < m, i < n) (mxpow a k *m v) i 0.

Lemma krylov_fact n (a : 'M[R]_n) v0 m p (V : 'M[R]_(n, p)) (c : nat -> 'cV[R]_p) :
  (forall k, (k < m)%N -> mxpow a k *m v0 = V *m c k) ->
  krylov a v0 m = (\matrix_(k < m, i < p) c k i 0) *m V^T.
Proof.
move=> h; apply/matrixP => k i; rewrite mxE h // mxE mxE; apply: eq_bigr => l _.
by rewrite !mxE mulrC.
Qed.

Lemma krylov_nobreak n (a : 'M[R]_n) v0 m : symmetric a -> dotv v0 v0 = 1 ->
  row_free (krylov a v0 m.+1) -> all (fun b => b != 0) (lanczos a v0 m.+1).2.
Proof.
move=> ha hv hK; rewrite lanczosE /= all_map; apply/allP => j; rewrite mem_iota add0n /= => hj.
elim/ltn_ind: j hj => j IH hj; apply/negP => /eqP hb.
have hnb i : (i < j)%N -> lz_be a v0 i.+1 != 0 by move=> hi; apply: (IH i hi); apply: ltn_trans hi hj.
have hw : lz_w a v0 j = 0 by apply/eqP; rewrite -norm2_eq0; apply/eqP.
have hV k : mxpow a k *m v0 = lz_V a v0 j *m (mxpow (lz_T a v0 j) k *m delta_mx 0 0).
  exact: lz_invariant.
move: hK; rewrite /row_free (krylov_fact (fun k _ => hV k)) => /eqP hr.
have := mxrankM_maxr (\matrix_(k < m.+1, i < j.+1) (mxpow (lz_T a v0 j) k *m delta_mx 0 0 : 'cV_ _) i 0)
  (lz_V a v0 j)^T.
rewrite hr => h1; have := leq_trans h1 (rank_leq_row _).
by rewrite ltnNge hj.
Qed.

(* the diagonal of the triangular coordinates of the Krylov vectors *)
Lemma lz_T_diag n (a : 'M[R]_n) v0 m (l : 'I_m.+1) :
  (mxpow (lz_T a v0 m) l *m delta_mx 0 0 : 'cV_ _) l 0 = \prod_(i < l) lz_be a v0 i.+1.
Proof.
case: l => l hl /=; elim: l hl => [|l IH] hl.
  by rewrite big_ord0 mul1mx mxE -val_eqE.
have hl' := ltnW hl.
rewrite mxpowS -mulmxA mxE (bigD1 (Ordinal hl')) //= IH [X in _ + X]big1 ?addr0 => [|j hj].
  by rewrite lz_TE /= neqS2 eqxx neqS2' add0r addr0 big_ord_recr /= mulrC.
case: (ltnP l j) => hlj; first by rewrite lz_T_upper ?mulr0.
have n0 : (l != j :> nat) by rewrite eq_sym; apply: contra hj => /eqP e; apply/eqP/val_inj.
have n1 : (l.+1 == j :> nat) = false by move: hlj; clear; lia.
have n2 : (l.+1 == j.+1 :> nat) = false by rewrite eqSS (negbTE n0).
have n3 : (l.+2 == j :> nat) = false by move: hlj; clear; lia.
by rewrite lz_TE /= n1 n2 n3 !addr0 mul0r.
Qed.

Lemma nobreak_krylov n (a : 'M[R]_n) v0 m : symmetric a -> dotv v0 v0 = 1 ->
  all (fun b => b != 0) (lanczos a v0 m.+1).2 -> row_free (krylov a v0 m.+1).
Proof.
move=> ha hv hb; have hnb := betas_nobreak hb.
have hk k : (k < m.+1)%N -> mxpow a k *m v0 = lz_V a v0 m *m (mxpow (lz_T a v0 m) k *m delta_mx 0 0).
  by move=> hk; apply: lz_krylov.
rewrite (krylov_fact hk); set C := (X in X *m _).
have hC : C \in unitmx.
  have tC : is_trig_mx C.
    by apply/is_trig_mxP => i j hij; rewrite mxE lz_T_upper.
  rewrite unitmxE det_trig // unitfE; apply/prodf_neq0 => i _; rewrite mxE lz_T_diag.
  by apply/prodf_neq0 => j _; apply: hnb; have := ltn_ord j; have := ltn_ord i; clear; lia.
rewrite /row_free mxrankMfree; first by rewrite mxrank_unit.
apply/row_freeP; exists (lz_V a v0 m); exact: lz_VtV.
Qed.
End Main.

Section Ritz.
Variable R : rcfType.
Variable eigh : forall n, 'M[R]_n -> 'M[R]_n * 'rV[R]_n.
Hypothesis eighP : eigh_spec eigh.

Lemma krylovZ n (a : 'M[R]_n) (c : R) (v : 'cV[R]_n) m : c != 0 ->
  row_free (krylov a (c *: v) m) = row_free (krylov a v m).
Proof.
move=> hc; rewrite /row_free.
have -> : krylov a (c *: v) m = c *: krylov a v m.
  by apply/matrixP => k i; rewrite [LHS]mxE -scalemxAr [RHS]mxE mxscaleE [krylov _ _ _ _ _]mxE.
by rewrite mxrank_scale_nz.
Qed.

Lemma tridiag_sym m al be : symmetric (@tridiag R m al be).
Proof.
apply/matrixP => i j; rewrite 3!mxE [j == i :> nat]eq_sym addrAC; congr (_ + _ + _).
- by case: eqP => // ->.
- by rewrite eq_sym.
- by rewrite eq_sym.
Qed.

Lemma ritz_pow n (a : 'M[R]_n) v0 m X lam : symmetric a ->
  row_free (krylov a v0 m.+1) -> lanczos_ritz eigh a v0 m false = Some (X, lam) ->
  exists V : 'M[R]_(n, m.+1), exists T : 'M[R]_m.+1,
  [/\ V^T *m V = 1%:M, V^T *m a *m V = T, norm2 v0 != 0 &
  [/\ forall k, \sum_j (lam 0 j) ^+ k *: col j X = norm2 v0 *: (V *m (mxpow T k *m delta_mx 0 0)),
      forall k, (k <= m)%N -> mxpow a k *m v0 = norm2 v0 *: (V *m (mxpow T k *m delta_mx 0 0)),
      forall k, (k <= m.*2.+1)%N -> dotv v0 (mxpow a k *m v0) = norm2 v0 ^+ 2 * (mxpow T k) 0 0,
      v0 = norm2 v0 *: (V *m delta_mx 0 0)
    & exists U, is_eigh T U lam /\ forall j, col j X = (U 0 j * norm2 v0) *: (V *m col j U)]].
Proof.
move=> ha hK.
have hv : norm2 v0 != 0.
  rewrite norm2_eq0; apply/eqP => e; move: hK; rewrite e /row_free.
  have -> : krylov a 0 m.+1 = 0 by apply/matrixP => k i; rewrite mxE mulmx0 !mxE.
  by rewrite mxrank0.
rewrite /lanczos_ritz; set v := (norm2 v0)^-1 *: v0.
have v1 : dotv v v = 1 by exact: normalise_unit.
have v0E : v0 = norm2 v0 *: v by rewrite /v scalerA mulfV ?scale1r.
have hb := @krylov_nobreak R n a v m ha v1.
rewrite krylovZ ?invr_eq0 // in hb.
move: (hb hK); case e : (lanczos a v m.+1) => [[vs al] be] /= hbe.
have [_ /(_ hbe)] := lanczos_tridiag ha v1 e.
set V := columns m.+1 vs; set T := tridiag m.+1 al be.
cbv zeta => [[_ h1 h2 h3 h4]]; have Tsym : symmetric T by exact: tridiag_sym.
have [oU eU] := eighP Tsym.
move: oU eU; case: (eigh T) => U la /= oU eU [<- <-].
have hX j : col j (\matrix_(i < n, j < m.+1) \sum_k V i k * U k j * (U 0 j * norm2 v0)) =
    (U 0 j * norm2 v0) *: (V *m col j U).
  apply/colP => i; rewrite mxE mxE mxscaleE mxE mulr_sumr; apply: eq_bigr => k _.
  by rewrite [col j U _ _]mxE mulrC.
have hTk k : mxpow T k *m delta_mx 0 0 = \sum_j (la 0 j ^+ k * U 0 j) *: col j U.
  have hE : is_eigh T U la by split.
  rewrite -(fcalc_pow k hE) -colE; apply/colP => i; rewrite mxE fcalc_entry summxE.
  by apply: eq_bigr => j _; rewrite mxscaleE [col _ _ _ _]mxE -mulrA [RHS]mulrC.
exists V, T; split=> //; split.
- move=> k; rewrite hTk mulmx_sumr scaler_sumr; apply: eq_bigr => j _.
  by rewrite hX -scalemxAr !scalerA; congr (_ *: _); rewrite mulrA mulrC.
- by move=> k hk; rewrite {1}v0E -scalemxAr h3.
- move=> k hk; rewrite -h4 // {1 2}v0E -scalemxAr dotvZl dotvZr mulrA expr2 //.
- by rewrite {1}v0E -[X in _ = _ *: X]mul1mx -{1}[v]mul1mx (h3 0%N) // !mul1mx.
- by exists U.
Qed.
End Ritz.

Section Entries.
Variable R : rcfType.

Lemma tridiag_entry m (al be : seq R) (i j : 'I_m) : tridiag m al be i j =
  if i == j :> nat then nth 0 al i else if i == j.+1 :> nat then nth 0 be j
  else if j == i.+1 :> nat then nth 0 be i else 0.
Proof.
rewrite mxE [i.+1 == j]eq_sym; case: (eqVneq (i : nat) j) => [->|ne].
  by rewrite neqS1 !addr0.
rewrite add0r; case: (eqVneq (i : nat) j.+1) => [->|ne']; last by rewrite add0r.
by rewrite [j == _ :> nat]eq_sym neqS2' addr0.
Qed.

Lemma lanczos_entries n (a : 'M[R]_n) v0 m vs al be : symmetric a -> dotv v0 v0 = 1 ->
  lanczos a v0 m.+1 = (vs, al, be) ->
  [/\ size vs = m.+1, size al = m.+1 & size be = m] /\
  (all (fun b => b != 0) be ->
   let V : 'M[R]_(n, m.+1) := \matrix_(i, j) nth 0 vs j i 0 in
   [/\ nth 0 vs 0 = v0, V^T *m V = 1%:M &
       forall i j : 'I_m.+1, (V^T *m a *m V) i j =
         if i == j :> nat then nth 0 al i else if i == j.+1 :> nat then nth 0 be j
         else if j == i.+1 :> nat then nth 0 be i else 0]).
Proof.
move=> ha hv e; have [h1 h2] := lanczos_tridiag ha hv e; split=> // /h2 /= [e1 e2 e3 _ _].
by split=> // i j; rewrite -tridiag_entry -e3.
Qed.

Lemma lanczos_exact n (a : 'M[R]_n.+1) v0 vs al be : symmetric a -> dotv v0 v0 = 1 ->
  lanczos a v0 n.+1 = (vs, al, be) -> all (fun b => b != 0) be ->
  let V : 'M[R]_n.+1 := \matrix_(i, j) nth 0 vs j i 0 in
  let T : 'M[R]_n.+1 := \matrix_(i, j)
    (if i == j :> nat then nth 0 al i else if i == j.+1 :> nat then nth 0 be j
     else if j == i.+1 :> nat then nth 0 be i else 0) in
  V *m V^T = 1%:M /\ a = V *m T *m V^T.
Proof.
move=> ha hv e hb V T; have [h1 h2] := lanczos_full ha hv e hb; split=> //.
rewrite [LHS]h2; congr (_ *m _ *m _); apply/matrixP => i j.
by rewrite tridiag_entry mxE.
Qed.

Lemma lanczos_moments n (a : 'M[R]_n) v0 m vs al be : symmetric a -> dotv v0 v0 = 1 ->
  lanczos a v0 m.+1 = (vs, al, be) -> all (fun b => b != 0) be ->
  let T : 'M[R]_m.+1 := \matrix_(i, j)
    (if i == j :> nat then nth 0 al i else if i == j.+1 :> nat then nth 0 be j
     else if j == i.+1 :> nat then nth 0 be i else 0) in
  forall k, (k <= m.*2.+1)%N -> (v0^T *m (mxpow a k *m v0)) 0 0 = mxpow T k 0 0.
Proof.
move=> ha hv e hb T k hk; rewrite -dotv_mx.
have [_ /(_ hb) [_ _ _ _ h]] := lanczos_tridiag ha hv e.
rewrite h //; congr (mxpow _ k 0 0); apply/matrixP => i j.
by rewrite tridiag_entry mxE.
Qed.

Lemma breakdown_iff n (a : 'M[R]_n) v0 m : symmetric a -> dotv v0 v0 = 1 ->
  all (fun b => b != 0) (lanczos a v0 m.+1).2 <-> row_free (krylov a v0 m.+1).
Proof. by move=> ha hv; split; [exact: nobreak_krylov|exact: krylov_nobreak]. Qed.

Variable eigh : forall n, 'M[R]_n -> 'M[R]_n * 'rV[R]_n.
Hypothesis eighP : eigh_spec eigh.

Lemma ritz_powers n (a : 'M[R]_n) v0 m X lam : symmetric a ->
  row_free (krylov a v0 m.+1) -> lanczos_ritz eigh a v0 m false = Some (X, lam) ->
  [/\ forall k, (k <= m)%N -> \sum_j (lam 0 j) ^+ k *: col j X = mxpow a k *m v0,
      forall k, (k <= m.*2.+1)%N ->
        (v0^T *m \sum_j (lam 0 j) ^+ k *: col j X) 0 0 = (v0^T *m (mxpow a k *m v0)) 0 0
    & forall i j, i != j -> ((col i X)^T *m col j X) 0 0 = 0].
Proof.
move=> ha hK e; have [V [T [h1 h2 hv [h3 h4 h5 h6 [U [[oU eU] hX]]]]]] := ritz_pow eighP ha hK e.
have hVe (u w : 'cV_m.+1) : dotv (V *m u) (V *m w) = dotv u w.
  by rewrite !dotv_mx trmx_mul -!mulmxA [V^T *m _]mulmxA h1 mul1mx.
split.
- by move=> k hk; rewrite h3 h4.
- move=> k hk; rewrite h3 -!dotv_mx h5 // {1}h6 dotvZl dotvZr hVe mulrA -expr2; congr (_ * _).
  by rewrite dotv_mx trmx_delta -rowE -colE !mxE.
- move=> i j hij; rewrite -dotv_mx !hX dotvZl dotvZr hVe.
  have -> : dotv (col i U) (col j U) = 0.
    have := congr1 (fun M : 'M_m.+1 => M i j) oU; rewrite [RHS]mxE (negbTE hij) => h.
    by apply: etrans h; rewrite mxE; apply: eq_bigr => l _; rewrite !mxE.
  by rewrite !mulr0.
Qed.

(* when the Krylov space is the whole space, the Ritz pairs are eigenpairs *)
Lemma ritz_exact n (a : 'M[R]_n.+1) v0 X lam : symmetric a ->
  row_free (krylov a v0 n.+1) -> lanczos_ritz eigh a v0 n false = Some (X, lam) ->
  (forall j, a *m col j X = lam 0 j *: col j X) /\
  forall k, \sum_j (lam 0 j) ^+ k *: col j X = mxpow a k *m v0.
Proof.
move=> ha hK e; have [V [T [h1 h2 hv [h3 h4 h5 h6 [U [[oU eU] hX]]]]]] := ritz_pow eighP ha hK e.
have aV : a *m V = V *m T by rewrite -h2 !mulmxA (mulmx1C h1) mul1mx.
have TU j : T *m col j U = lam 0 j *: col j U.
  rewrite eU -[U *m _ *m _ *m _]mulmxA colE [U^T *m _]mulmxA oU mul1mx -mulmxA.
  have -> : diag_mx lam *m delta_mx j 0 = lam 0 j *: delta_mx j 0 :> 'cV_n.+1.
    apply/colP => i; rewrite diag_mulE mxscaleE mxE; case: eqP => [->//|_].
    by rewrite !mulr0.
  by rewrite -scalemxAr.
have haj j : a *m col j X = lam 0 j *: col j X.
  by rewrite hX -scalemxAr mulmxA aV -mulmxA TU -scalemxAr !scalerA mulrC.
split=> // k; elim: k => [|k IH].
  by rewrite h3 (h4 0%N).
rewrite mxpowS -mulmxA -IH mulmx_sumr; apply: eq_bigr => j _.
by rewrite -scalemxAr haj scalerA exprSr.
Qed.
End Entries.
