(* The error metrics of compute_errs.py, the grids and the empirical characteristic function. *)
From mathcomp Require Import all_ssreflect all_algebra.
From mathcomp Require Import ring zify complex.
From Verif Require Import Prelude QuadModel QuadSpec QuadProofs SsModel FourierModel FourierProofs DardelModel.
Set Implicit Arguments.
Unset Strict Implicit.
Unset Printing Implicit Defensive.
Import Order.TTheory GRing.Theory Num.Theory.
Local Open Scope ring_scope.

(* a distance on the points satisfying P *)
Definition metric_on (R : rcfType) (T : Type) (P : T -> Prop) (d : T -> T -> R) : Prop :=
  [/\ forall x y, P x -> P y -> 0 <= d x y,
      forall x y, P x -> P y -> d x y = 0 <-> x = y,
      forall x y, d x y = d y x
    & forall x y z, P x -> P y -> P z -> d x z <= d x y + d y z].

(* ---- weighted sums ---- *)
Section Weighted.
Variables (R : rcfType) (n : nat) (w : 'I_n -> R).
Hypothesis w0 : forall i, 0 <= w i.

Lemma wsum_ge0 f : (forall i, 0 <= f i) -> 0 <= \sum_i w i * f i.
Proof. by move=> h; apply: sumr_ge0 => i _; rewrite mulr_ge0. Qed.

Lemma wsum_le f g : (forall i, f i <= g i) -> \sum_i w i * f i <= \sum_i w i * g i.
Proof. by move=> h; apply: ler_sum => i _; rewrite ler_wpmul2l. Qed.

Lemma cauchy_schwarz (a b : 'I_n -> R) :
  (\sum_i w i * (a i * b i)) ^+ 2 <= (\sum_i w i * a i ^+ 2) * (\sum_i w i * b i ^+ 2).
Proof.
set C := \sum_i _ * (_ * _); set A := \sum_i _ * a _ ^+ 2; set B := \sum_i _ * b _ ^+ 2.
have B0 : 0 <= B by apply: wsum_ge0 => i; rewrite sqr_ge0.
have h : 0 <= B * (A * B - C ^+ 2).
  have -> : B * (A * B - C ^+ 2) = \sum_i w i * (B * a i - C * b i) ^+ 2.
    transitivity (\sum_i (B ^+ 2 * (w i * a i ^+ 2) - 2%:R * B * C * (w i * (a i * b i)) + C ^+ 2 * (w i * b i ^+ 2))).
      by rewrite big_split /= sumrB -!mulr_sumr -/A -/B -/C; ring.
    by apply: eq_bigr => i _; ring.
  by apply: wsum_ge0 => i; rewrite sqr_ge0.
have [b0|bp] := eqVneq B 0; last by move: h; rewrite pmulr_rge0 ?subr_ge0 // lt_neqAle eq_sym bp.
have c0 : C = 0.
  apply: big1 => i _; move/eqP: b0; rewrite /B psumr_eq0 => [/allP /(_ i (mem_index_enum i)) /=|j _]; last first.
    by rewrite mulr_ge0 ?sqr_ge0.
  by rewrite mulf_eq0 sqrf_eq0 => /orP[/eqP->|/eqP->]; rewrite ?mulr0 ?mul0r.
by rewrite c0 expr0n /= b0 mulr0.
Qed.

Lemma minkowski (a b : 'I_n -> R) : (forall i, 0 <= a i) -> (forall i, 0 <= b i) ->
  Num.sqrt (\sum_i w i * (a i + b i) ^+ 2)
  <= Num.sqrt (\sum_i w i * a i ^+ 2) + Num.sqrt (\sum_i w i * b i ^+ 2).
Proof.
move=> ha hb; set A := \sum_i _ * a _ ^+ 2; set B := \sum_i _ * b _ ^+ 2.
have A0 : 0 <= A by apply: wsum_ge0 => i; rewrite sqr_ge0.
have B0 : 0 <= B by apply: wsum_ge0 => i; rewrite sqr_ge0.
have S0 : 0 <= Num.sqrt A + Num.sqrt B by rewrite addr_ge0 ?sqrtr_ge0.
rewrite -[X in _ <= X](ger0_norm S0) -sqrtr_sqr; apply: ler_wsqrtr.
set C := \sum_i w i * (a i * b i).
have -> : \sum_i w i * (a i + b i) ^+ 2 = A + 2%:R * C + B.
  by rewrite /A /B /C mulr_sumr -!big_split /=; apply: eq_bigr => i _; ring.
have C0 : 0 <= C by apply: wsum_ge0 => i; rewrite mulr_ge0.
have hC : C <= Num.sqrt A * Num.sqrt B.
  by rewrite -sqrtrM // -[C](ger0_norm C0) -sqrtr_sqr; apply: ler_wsqrtr; exact: cauchy_schwarz.
have -> : (Num.sqrt A + Num.sqrt B) ^+ 2 = A + 2%:R * (Num.sqrt A * Num.sqrt B) + B.
  by rewrite sqrrD !sqr_sqrtr // -mulr_natl.
by rewrite ler_add2r ler_add2l ler_pmul2l // ltr0n.
Qed.
End Weighted.

(* ---- the trapezoidal rule as a weighted sum ---- *)
Section Trapz.
Variable R : rcfType.
Implicit Types (ys zs : seq R).

Definition tw zs (m j : nat) : R :=
  (if (j < m)%N then (zs`_j.+1 - zs`_j) / 2%:R else 0) +
  (if (0 < j)%N then (zs`_j - zs`_j.-1) / 2%:R else 0).

Lemma trapzW ys zs m : size ys = m.+1 -> size zs = m.+1 ->
  trapz ys zs = \sum_(j < m.+1) tw zs m j * ys`_j.
Proof.
move=> hy hz; rewrite trapzR ?hz //=.
transitivity (\sum_(k < m) (zs`_k.+1 - zs`_k) / 2%:R * ys`_k + \sum_(k < m) (zs`_k.+1 - zs`_k) / 2%:R * ys`_k.+1).
  by rewrite -big_split /=; apply: eq_bigr => k _; ring.
transitivity (\sum_(j < m.+1) (if (j < m)%N then (zs`_j.+1 - zs`_j) / 2%:R else 0) * ys`_j +
              \sum_(j < m.+1) (if (0 < j)%N then (zs`_j - zs`_j.-1) / 2%:R else 0) * ys`_j).
  rewrite big_ord_recr /= ltnn mul0r addr0 [X in _ = _ + X]big_ord_recl /= mul0r add0r.
  by congr (_ + _); apply: eq_bigr => k _ //; rewrite ltn_ord.
by rewrite -big_split /=; apply: eq_bigr => j _; rewrite -mulrDl.
Qed.

Lemma sorted_step zs k : sorted <%R zs -> (k.+1 < size zs)%N -> zs`_k < zs`_k.+1.
Proof. by move=> h hk; move/(sortedP 0): h; apply. Qed.

Lemma tw_gt0 zs m j : size zs = m.+1 -> (0 < m)%N -> (j < m.+1)%N -> sorted <%R zs -> 0 < tw zs m j.
Proof.
move=> hz m0 hj hs; rewrite /tw.
have h1 : (j < m)%N -> 0 < (zs`_j.+1 - zs`_j) / 2%:R.
  by move=> h; rewrite divr_gt0 ?ltr0n // subr_gt0 sorted_step // hz.
have h2 : (0 < j)%N -> 0 < (zs`_j - zs`_j.-1) / 2%:R.
  by case: j hj {h1} => // j hj _; rewrite divr_gt0 ?ltr0n // subr_gt0 sorted_step // hz.
case: ifP => a; case: ifP => b.
- by rewrite addr_gt0 ?h1 ?h2.
- by rewrite addr0 h1.
- by rewrite add0r h2.
- by move: a b; lia.
Qed.

Lemma trapz1 zs m : size zs = m.+1 -> \sum_(j < m.+1) tw zs m j = zs`_m - zs`_0.
Proof.
move=> hz; transitivity (trapz (nseq m.+1 1) zs).
  rewrite (@trapzW _ _ m) ?size_nseq //; apply: eq_bigr => j _.
  by rewrite nth_nseq ltn_ord mulr1.
rewrite trapzR ?size_nseq ?hz // -[m.+1.-1]/m (eq_bigr (fun k : 'I_m => zs`_k.+1 - zs`_k)); last first.
  move=> k _; rewrite !nth_nseq ltnS (ltnW (ltn_ord k)) [(k.+1 < _)%N](ltn_ord k); by move: (zs`_k.+1) (zs`_k) => x y; field.
by rewrite -[RHS](telescope_sumr (fun k => zs`_k)) // big_mkord.
Qed.
End Trapz.

(* ---- np.max, np.abs ---- *)
Section Max.
Variable R : rcfType.

Lemma npmax_ge (s : seq R) x : x \in s -> x <= npmax s.
Proof.
rewrite /npmax; case: s => // a s; rewrite /= inE.
elim: s a x => [|b s IH] a x /=; first by rewrite in_nil orbF => /eqP ->.
rewrite inE; case/or3P => [/eqP->|/eqP->|h].
- by apply: le_trans (IH (Num.max a b) (Num.max a b) _); rewrite ?eqxx // le_maxr lexx.
- by apply: le_trans (IH (Num.max a b) (Num.max a b) _); rewrite ?eqxx // le_maxr lexx orbT.
- by apply: IH; rewrite h orbT.
Qed.

Lemma npmax_mem (s : seq R) : (0 < size s)%N -> npmax s \in s.
Proof.
rewrite /npmax; case: s => // a s _ /=.
elim: s a => [|b s IH] a /=; first by rewrite mem_seq1.
have := IH (Num.max a b); rewrite !inE => /orP[/eqP->|->]; last by rewrite !orbT.
by case: leP; rewrite eqxx ?orbT.
Qed.

Lemma npmin_le (s : seq R) x : x \in s -> npmin s <= x.
Proof.
rewrite /npmin; case: s => // a s; rewrite /= inE.
elim: s a x => [|b s IH] a x /=; first by rewrite in_nil orbF => /eqP ->.
rewrite inE; case/or3P => [/eqP->|/eqP->|h].
- by apply: le_trans (IH (Num.min a b) (Num.min a b) _) _; rewrite ?eqxx // le_minl lexx.
- by apply: le_trans (IH (Num.min a b) (Num.min a b) _) _; rewrite ?eqxx // le_minl lexx orbT.
- by apply: IH; rewrite h orbT.
Qed.

Lemma npmin_mem (s : seq R) : (0 < size s)%N -> npmin s \in s.
Proof.
rewrite /npmin; case: s => // a s _ /=.
elim: s a => [|b s IH] a /=; first by rewrite mem_seq1.
have := IH (Num.min a b); rewrite !inE => /orP[/eqP->|->]; last by rewrite !orbT.
by case: leP; rewrite eqxx ?orbT.
Qed.

Lemma npmax_le (s : seq R) c : (0 < size s)%N -> (forall x, x \in s -> x <= c) -> npmax s <= c.
Proof. by move=> h0 h; apply: h; exact: npmax_mem. Qed.

Local Notation cx x := (real_complex R x).
Lemma cabsE (z : R[i]) : `|z| = cx (cabs z).
Proof. by rewrite normc_def. Qed.

Implicit Types z a b : R[i].
Lemma cabs_ge0 z : 0 <= cabs z. Proof. exact: sqrtr_ge0. Qed.
Lemma cabs_eq0 z : cabs z = 0 <-> z = 0.
Proof.
split=> [h|->]; last by rewrite /cabs /= expr0n /= addr0 sqrtr0.
by apply/eqP; rewrite -normr_eq0 cabsE h.
Qed.
Lemma cabsN z : cabs (- z) = cabs z.
Proof. by rewrite /cabs; case: z => a b /=; rewrite !sqrrN. Qed.
Lemma cabsD a b : cabs (a + b) <= cabs a + cabs b.
Proof. by rewrite -lecR rmorphD /= -!cabsE ler_norm_add. Qed.
Lemma cabs_sqr z : cabs z ^+ 2 = complex.Re z ^+ 2 + complex.Im z ^+ 2.
Proof. by rewrite sqr_sqrtr // addr_ge0 ?sqr_ge0. Qed.
End Max.

(* ---- the distances ---- *)
Section Dist.
Variable R : rcfType.
Variables (zs : seq R) (m : nat).
Hypothesis hz : size zs = m.+1.
Hypothesis m0 : (0 < m)%N.
Hypothesis hs : sorted <%R zs.
Implicit Types a b c : seq R[i].
Local Notation tw := (tw zs m).

Let w_ge0 (j : 'I_m.+1) : 0 <= tw j. Proof. by apply: ltW; apply: tw_gt0. Qed.

Lemma size_diff a b : size a = size zs -> size b = size zs -> size (cf_diff a b) = m.+1.
Proof. by move=> ha hb; rewrite size_map size_zip ha hb minnn. Qed.

Lemma nth_diff a b j : size a = size zs -> size b = size zs -> (j < m.+1)%N ->
  (cf_diff a b)`_j = cabs (a`_j - b`_j).
Proof.
move=> ha hb hj; rewrite (nth_map (0, 0)) ?nth_zip ?size_zip ?ha ?hb ?minnn ?hz //.
Qed.

Lemma diffC a b : cf_diff a b = cf_diff b a.
Proof.
rewrite /cf_diff; elim: a b => [|x a IH] [|y b] //=.
by rewrite -cabsN opprB IH.
Qed.

Lemma l1E a b : size a = size zs -> size b = size zs ->
  cf_l1 zs a b = \sum_(j < m.+1) tw j * cabs (a`_j - b`_j).
Proof.
move=> ha hb; rewrite /cf_l1 (trapzW (size_diff ha hb) hz).
by apply: eq_bigr => j _; rewrite nth_diff.
Qed.

Lemma l2E a b : size a = size zs -> size b = size zs ->
  cf_l2 zs a b = Num.sqrt (\sum_(j < m.+1) tw j * cabs (a`_j - b`_j) ^+ 2).
Proof.
move=> ha hb; rewrite /cf_l2 (@trapzW _ _ _ m) ?size_map -?/(cf_diff a b) ?size_diff //.
  by congr Num.sqrt; apply: eq_bigr => j _; rewrite (nth_map 0) ?size_diff ?nth_diff.
by rewrite size_zip ha hb hz minnn.
Qed.

Lemma sup_ge a b j : size a = size zs -> size b = size zs -> (j < m.+1)%N ->
  cabs (a`_j - b`_j) <= cf_sup a b.
Proof. by move=> ha hb hj; rewrite -nth_diff //; apply: npmax_ge; rewrite mem_nth ?size_diff. Qed.

Lemma sup_attained a b : size a = size zs -> size b = size zs ->
  exists2 j, (j < m.+1)%N & cf_sup a b = cabs (a`_j - b`_j).
Proof.
move=> ha hb; have := @npmax_mem _ (cf_diff a b); rewrite size_diff // => /(_ isT) /(nthP 0).
by rewrite size_diff // => -[j hj e]; exists j => //; rewrite /cf_sup -e nth_diff.
Qed.

Let eq_seq a b : size a = size zs -> size b = size zs ->
  (forall j, (j < m.+1)%N -> cabs (a`_j - b`_j) = 0) -> a = b.
Proof.
move=> ha hb h; apply: (@eq_from_nth _ 0) => [|j]; rewrite ?ha ?hb // hz => /h /cabs_eq0 /eqP.
by rewrite subr_eq0 => /eqP.
Qed.

Let wsum0 (f : 'I_m.+1 -> R) : (forall j, 0 <= f j) -> \sum_(j < m.+1) tw j * f j = 0 -> forall j, f j = 0.
Proof.
move=> f0 /eqP; rewrite psumr_eq0 => [/allP h j|j _]; last by rewrite mulr_ge0.
have := h j (mem_index_enum j); rewrite /= mulf_eq0 gt_eqF ?tw_gt0 //= => /eqP //.
Qed.

Let tri a b c (j : nat) : cabs (a`_j - c`_j) <= cabs (a`_j - b`_j) + cabs (b`_j - c`_j).
Proof. by apply: le_trans (cabsD _ _); rewrite addrA subrK. Qed.

Lemma diag0 a (j : nat) : cabs (a`_j - a`_j) = 0.
Proof. by apply/cabs_eq0; rewrite subrr. Qed.

Lemma l1_metric : metric_on (fun a => size a = size zs) (cf_l1 zs).
Proof.
split=> [a b ha hb|a b ha hb|a b|a b c ha hb hc].
- by rewrite l1E //; apply: wsum_ge0 => // j; exact: cabs_ge0.
- rewrite l1E //; split=> [h|->]; last by rewrite big1 // => j _; rewrite diag0 mulr0.
  apply: eq_seq => // j hj; exact: (@wsum0 (fun j : 'I_m.+1 => cabs (a`_j - b`_j)) (fun=> cabs_ge0 _) h (Ordinal hj)).
- by rewrite /cf_l1 diffC.
- rewrite !l1E // -big_split /=; apply: ler_sum => j _; rewrite -mulrDr ler_wpmul2l //; exact: tri.
Qed.

Lemma l2_metric : metric_on (fun a => size a = size zs) (cf_l2 zs).
Proof.
split=> [a b ha hb|a b ha hb|a b|a b c ha hb hc].
- exact: sqrtr_ge0.
- rewrite l2E //; split=> [/eqP|->]; last first.
    by rewrite big1 ?sqrtr0 // => j _; rewrite diag0 expr0n mulr0.
  rewrite sqrtr_eq0 => h; apply: eq_seq => // j hj.
  have h0 : \sum_(j < m.+1) tw j * cabs (a`_j - b`_j) ^+ 2 = 0.
    by apply: le_anti; rewrite h /= wsum_ge0 // => i; rewrite sqr_ge0.
  have /eqP := @wsum0 (fun j : 'I_m.+1 => cabs (a`_j - b`_j) ^+ 2) (fun=> sqr_ge0 _) h0 (Ordinal hj).
  by rewrite sqrf_eq0 => /eqP.
- by rewrite /cf_l2 diffC.
- rewrite !l2E //; apply: le_trans (minkowski w_ge0 (fun=> cabs_ge0 _) (fun=> cabs_ge0 _)).
  apply: ler_wsqrtr; apply: wsum_le => // j; rewrite ler_expn2r ?nnegrE ?cabs_ge0 ?addr_ge0 ?cabs_ge0 //.
Qed.

Lemma sup_metric : metric_on (fun a => size a = size zs) (@cf_sup R).
Proof.
split=> [a b ha hb|a b ha hb|a b|a b c ha hb hc].
- by have [j _ ->] := sup_attained ha hb; exact: cabs_ge0.
- split=> [h|->]; last by have [j _ ->] := sup_attained hb hb; rewrite diag0.
  apply: eq_seq => // j hj; apply: le_anti; rewrite cabs_ge0 andbT -h; exact: sup_ge.
- by rewrite /cf_sup diffC.
- have [j hj ->] := sup_attained ha hc; apply: le_trans (tri a b c j) _.
  by rewrite ler_add ?sup_ge.
Qed.

(* ---- comparisons ---- *)
Local Notation len := (zs`_m - zs`_0).

Lemma l1_le_sup a b : size a = size zs -> size b = size zs -> cf_l1 zs a b <= len * cf_sup a b.
Proof.
move=> ha hb; rewrite l1E // -(trapz1 hz) mulr_suml; apply: ler_sum => j _.
by rewrite ler_wpmul2l ?sup_ge.
Qed.

Lemma l2_le_sup a b : size a = size zs -> size b = size zs -> cf_l2 zs a b ^+ 2 <= len * cf_sup a b ^+ 2.
Proof.
move=> ha hb; rewrite l2E // sqr_sqrtr; last by apply: wsum_ge0 => // j; rewrite sqr_ge0.
rewrite -(trapz1 hz) mulr_suml; apply: ler_sum => j _.
by rewrite ler_wpmul2l // ler_expn2r ?nnegrE ?cabs_ge0 ?sup_ge //; case: sup_metric => h _ _ _; exact: h.
Qed.

Lemma l1_le_l2 a b : size a = size zs -> size b = size zs -> cf_l1 zs a b ^+ 2 <= len * cf_l2 zs a b ^+ 2.
Proof.
move=> ha hb; rewrite l1E // l2E // sqr_sqrtr; last by apply: wsum_ge0 => // j; rewrite sqr_ge0.
have := cauchy_schwarz w_ge0 (fun=> 1) (fun j : 'I_m.+1 => cabs (a`_j - b`_j)).
rewrite (eq_bigr (fun j : 'I_m.+1 => tw j * cabs (a`_j - b`_j))) => [|j _]; last by rewrite mul1r.
by rewrite [X in _ <= X * _](eq_bigr (fun j : 'I_m.+1 => tw j)) ?trapz1 // => j _; rewrite expr1n mulr1.
Qed.

Lemma l2_le_l1 a b : size a = size zs -> size b = size zs -> cf_l2 zs a b ^+ 2 <= cf_sup a b * cf_l1 zs a b.
Proof.
move=> ha hb; rewrite l1E // l2E // sqr_sqrtr; last by apply: wsum_ge0 => // j; rewrite sqr_ge0.
rewrite mulr_sumr; apply: ler_sum => j _; rewrite [X in _ <= X]mulrCA ler_wpmul2l // expr2 ler_wpmul2r ?cabs_ge0 ?sup_ge //.
Qed.

Lemma sup_le2 a b : size a = size zs -> size b = size zs -> all (fun z => cabs z <= 1) a ->
  all (fun z => cabs z <= 1) b -> cf_sup a b <= 2%:R.
Proof.
move=> ha hb /allP ka /allP kb; have [j hj ->] := sup_attained ha hb.
apply: le_trans (cabsD _ _) _; rewrite cabsN (natrD _ 1 1).
by apply: ler_add; [apply: ka|apply: kb]; apply: mem_nth; rewrite ?ha ?hb hz.
Qed.
End Dist.

(* ---- grids ---- *)
Section Grid.
Variable R : rcfType.

Lemma size_linspace (a b : R) m : size (linspace a b m) = m.
Proof. by rewrite size_map size_iota. Qed.

Lemma nth_linspace (a b : R) m i : (i < m)%N ->
  (linspace a b m)`_i = a + i%:R * ((b - a) / m.-1%:R).
Proof. by move=> h; rewrite (nth_map 0%N) ?size_iota // nth_iota. Qed.

Lemma linspace_ends (a b : R) m : (1 < m)%N -> (linspace a b m)`_0 = a /\ (linspace a b m)`_m.-1 = b.
Proof.
move=> h; have h0 : (m.-1)%:R != 0 :> R by rewrite pnatr_eq0; move: h; lia.
rewrite !nth_linspace; [|move: h; lia..].
by rewrite mul0r addr0 mulrCA divff // mulr1 addrC subrK.
Qed.

Lemma linspace_sorted (a b : R) m : a < b -> sorted <%R (linspace a b m).
Proof.
move=> ab; apply/(sortedP 0) => i; rewrite size_linspace => hi.
rewrite !nth_linspace //; last exact: ltn_trans hi.
rewrite ltr_add2l ltr_pmul2r ?ltr_nat // divr_gt0 ?subr_gt0 // ltr0n; move: hi; lia.
Qed.

Lemma linspace_spacing (a b : R) m i : (i.+1 < m)%N ->
  (linspace a b m)`_i.+1 - (linspace a b m)`_i = (b - a) / m.-1%:R.
Proof.
move=> h; rewrite (nth_linspace _ _ h) (nth_linspace _ _ (ltnW h)).
by rewrite -[i.+1]addn1 natrD; move: (_ / _) => d; ring.
Qed.

Lemma linspaceN (b : R) m : (1 < m)%N -> [seq - z | z <- linspace (- b) b m] = rev (linspace (- b) b m).
Proof.
move=> h; have h0 : (m.-1)%:R != 0 :> R by rewrite pnatr_eq0; move: h; lia.
apply: (@eq_from_nth _ 0) => [|i]; rewrite size_map ?size_rev // size_linspace => hi.
rewrite (nth_map 0) ?size_linspace // nth_rev ?size_linspace // !nth_linspace //; last by move: hi; lia.
have -> : (m - i.+1)%:R = (m.-1)%:R - i%:R :> R by rewrite -natrB; [congr (_%:R); move: hi; lia|move: hi; lia].
by move: h0; move: (m.-1)%:R i%:R => d j d0; field.
Qed.
End Grid.

(* ---- the empirical characteristic function ---- *)
Section Empirical.
Variable R : rcfType.
Variable cexp : R[i] -> R[i].
Local Notation cx x := (real_complex R x).

Lemma sum_zip_nseq (c : R) (s : seq R) (f : R -> R[i]) :
  \sum_(p <- zip (nseq (size s) c) s) cx p.1 * f p.2 = cx c * \sum_(x <- s) f x.
Proof. by elim: s => [|x s IH] /=; rewrite ?big_nil ?mulr0 // !big_cons IH mulrDr. Qed.

Lemma pf_cfE samples z :
  pf_cf cexp samples z = charsum cexp (nseq (size samples) (size samples)%:R^-1) samples z.
Proof.
rewrite /pf_cf /npmean /charsum size_map jsumE big_map (sum_zip_nseq _ _ (fun x => cexp ('i%C * cx (z * x)))) fmorphV rmorph_nat mulrC.
by congr (_ * _); apply: eq_bigr => x _; rewrite cxM mulrA.
Qed.

Lemma pf_weights (n : nat) : (0 < n)%N -> jsum (nseq n (n%:R^-1 : R)) = 1 /\ all (fun w : R => 0 <= w) (nseq n (n%:R^-1)).
Proof.
move=> n0; split; last by apply/allP => w /nseqP [-> _]; rewrite invr_ge0 ler0n.
by rewrite jsumE big_nseq iter_addr_0 -mulr_natr mulVf // pnatr_eq0 -lt0n.
Qed.

Lemma pf_cf_laws samples z : unit_exp cexp -> (0 < size samples)%N ->
  [/\ cabs (pf_cf cexp samples z) <= 1, pf_cf cexp samples (- z) = conjc (pf_cf cexp samples z)
    & pf_cf cexp samples 0 = 1].
Proof.
move=> he n0; have [h1 h2] := pf_weights n0; have hs : size (nseq (size samples) ((size samples)%:R^-1 : R)) = size samples.
  by rewrite size_nseq.
rewrite !pf_cfE; split; last by rewrite charsum0 // h1.
  by rewrite -lecR -cabsE; have := charsum_le z he hs h2; rewrite h1.
exact: charsumN.
Qed.

Lemma pf_cf_bochner samples n (c : 'I_n -> R[i]) (z : 'I_n -> R) : exp_morph cexp -> (0 < size samples)%N ->
  0 <= \sum_j \sum_k c j * conjc (c k) * pf_cf cexp samples (z j - z k).
Proof.
move=> he n0; have [_ h2] := pf_weights n0.
rewrite (eq_bigr (fun j => \sum_k c j * conjc (c k) *
  charsum cexp (nseq (size samples) (size samples)%:R^-1) samples (z j - z k))); last first.
  by move=> j _; apply: eq_bigr => k _; rewrite pf_cfE.
by apply: charsum_bochner; rewrite ?size_nseq.
Qed.

Lemma pf_mean_range (samples : seq R) (a b : R) : (0 < size samples)%N -> all (fun x => a <= x <= b) samples ->
  a <= pf_mean samples <= b.
Proof.
move=> n0 /allP h; rewrite /pf_mean /npmean jsumE; have np : 0 < (size samples)%:R :> R by rewrite ltr0n.
have sc (c : R) : \sum_(x <- samples) c = c * (size samples)%:R by rewrite big_const_seq count_predT iter_addr_0 mulr_natr.
rewrite ler_pdivl_mulr // ler_pdivr_mulr // -!sc.
by apply/andP; split; rewrite big_seq [X in _ <= X]big_seq; apply: ler_sum => x /h /andP[].
Qed.
End Empirical.

(* ---- the spatial grid of brute_force.py ---- *)
Section Spatial.
Variable R : rcfType.

(* every band of width rule standard deviations is inside the bounds *)
Lemma spatial_band (rule : R) means cmss i : size cmss = size means -> (i < size means)%N ->
  spatial_lb rule means cmss <= means`_i - rule * Num.sqrt (jget 0 (nth [::] cmss i) 2)
  /\ means`_i + rule * Num.sqrt (jget 0 (nth [::] cmss i) 2) <= spatial_ub rule means cmss.
Proof.
move=> hs hi; have hz : size (zip means cmss) = size means by rewrite size_zip hs minnn.
split; [apply: npmin_le|apply: npmax_ge]; apply/(nthP 0); exists i; rewrite ?size_map ?hz //;
  by rewrite (nth_map (0, [::])) ?hz // nth_zip.
Qed.

Lemma spatial_attained (rule : R) means cmss : size cmss = size means -> (0 < size means)%N ->
  (exists2 i, (i < size means)%N & spatial_lb rule means cmss = means`_i - rule * Num.sqrt (jget 0 (nth [::] cmss i) 2))
  /\ (exists2 i, (i < size means)%N & spatial_ub rule means cmss = means`_i + rule * Num.sqrt (jget 0 (nth [::] cmss i) 2)).
Proof.
move=> hs n0; have hz : size (zip means cmss) = size means by rewrite size_zip hs minnn.
have hl : spatial_lb rule means cmss \in [seq t.1 - rule * Num.sqrt (jget 0 t.2 2) | t <- zip means cmss].
  by apply: npmin_mem; rewrite size_map hz.
have hu : spatial_ub rule means cmss \in [seq t.1 + rule * Num.sqrt (jget 0 t.2 2) | t <- zip means cmss].
  by apply: npmax_mem; rewrite size_map hz.
split; [case/(nthP 0): hl => i|case/(nthP 0): hu => i]; rewrite size_map hz => hi <-; exists i => //;
  by rewrite (nth_map (0, [::])) ?hz // nth_zip.
Qed.

Lemma zip_fst (S T : eqType) (s : seq S) (t : seq T) p : p \in zip s t -> p.1 \in s.
Proof.
elim: s t => [|x s IH] [|y t] //=; rewrite !inE => /orP [/eqP -> /=|/IH ->]; rewrite ?eqxx ?orbT //.
Qed.

(* Chebyshev, for a discrete law and the moment of order 2k *)
Lemma chebyshev (ws xs : seq R) (m lb ub r v : R) k : all (fun w => 0 <= w) ws ->
  0 <= r -> 0 <= v -> lb <= m - r * Num.sqrt v -> m + r * Num.sqrt v <= ub ->
  (\sum_(t <- zip ws xs | ~~ (lb <= t.2 <= ub)) t.1) * (r ^+ 2 * v) ^+ k
    <= \sum_(t <- zip ws xs) t.1 * (t.2 - m) ^+ (2 * k).
Proof.
move=> /allP hw r0 v0 hl hu; rewrite mulr_suml big_mkcond /= big_seq [X in _ <= X]big_seq.
have wz (t : R * R) : t \in zip ws xs -> 0 <= t.1.
  by move=> /zip_fst ht; apply: hw.
apply: ler_sum => -[w x] /wz /= w0.
have q0 : 0 <= (x - m) ^+ (2 * k) by rewrite exprM exprn_ge0 ?sqr_ge0.
case: ifP => h; last by rewrite mulr_ge0.
rewrite ler_wpmul2l // exprM; apply: ler_expn2r; rewrite ?nnegrE ?sqr_ge0 ?mulr_ge0 ?sqr_ge0 //.
rewrite -[v in r ^+ 2 * v]sqr_sqrtr // -exprMn -[(x - m) ^+ 2]real_normK ?num_real //.
have rs : 0 <= r * Num.sqrt v by rewrite mulr_ge0 ?sqrtr_ge0.
rewrite ler_sqr ?nnegrE ?normr_ge0 //.
move: h; rewrite negb_and -!ltNge => /orP [h|h].
  rewrite ler0_norm; last by rewrite subr_le0; apply: (le_trans (ltW h)); apply: (le_trans hl); rewrite ler_subl_addr ler_addl.
  by rewrite opprB ler_subr_addl -ler_subr_addr; apply: (le_trans (ltW h)).
rewrite ger0_norm; last by rewrite subr_ge0; apply: (le_trans _ (ltW h)); apply: (le_trans _ hu); rewrite ler_addl.
by rewrite ler_subr_addl; apply: (le_trans hu); apply: ltW.
Qed.

(* the posterior mean of post_processing_brute_force.py *)
Lemma true_mean_range (grids ps : seq R) m : size grids = m.+1 -> size ps = m.+1 -> (0 < m)%N ->
  sorted <%R grids -> all (fun p => 0 <= p) ps -> trapz ps grids = 1 ->
  grids`_0 <= true_mean grids ps <= grids`_m.
Proof.
move=> hg hp m0 hs /allP h0 h1; rewrite /true_mean.
have hz : size (zip grids ps) = m.+1 by rewrite size_zip hg hp minnn.
move: h1; rewrite !(@trapzW _ _ _ m) ?size_map ?hz // => h1.
have mono i j : (i <= j)%N -> (j < m.+1)%N -> grids`_i <= grids`_j.
  move=> ij hj; apply: (@sorted_leq_nth _ <=%R) => //; rewrite ?inE ?hg //.
  - exact: le_trans.
  - by apply: (sub_sorted _ hs) => x y; apply: ltW.
  - exact: leq_ltn_trans hj.
rewrite -[grids`_0]mul1r -[grids`_m]mul1r -h1 !mulr_suml.
have hn (j : 'I_m.+1) : [seq t.1 * t.2 | t <- zip grids ps]`_j = grids`_j * ps`_j.
  by rewrite (nth_map (0, 0)) ?hz // nth_zip ?hg.
have wp (j : 'I_m.+1) : 0 <= tw grids m j * ps`_j.
  by rewrite mulr_ge0 ?(ltW (tw_gt0 hg m0 (ltn_ord j) hs)) // h0 // mem_nth ?hp.
apply/andP; split; apply: ler_sum => j _; rewrite hn [grids`_j * _]mulrC mulrA ler_wpmul2l //;
  apply: mono => //; rewrite -ltnS; exact: ltn_ord.
Qed.
End Spatial.
