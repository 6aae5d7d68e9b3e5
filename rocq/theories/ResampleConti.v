(* Proofs about continuous_resampling. *)
From mathcomp Require Import all_ssreflect all_algebra.
From mathcomp Require Import zify ring.
From Verif Require Import Prelude ResampleModel ResampleSpec ResampleProofs.
Set Implicit Arguments.
Unset Strict Implicit.
Unset Printing Implicit Defensive.
Import Order.TTheory GRing.Theory Num.Theory.
Local Open Scope ring_scope.

Section Interp.
Variable R : rcfType.
Variable ss : seq R -> R -> nat.
Hypothesis ssP : ss_right_spec ss.
Variable eps : R.
Hypothesis eps0 : 0 <= eps.
Variables xp fp : seq R.
Hypothesis hsz : size fp = size xp.
Hypothesis hxp : sorted <=%R xp.
Hypothesis hfp : sorted <=%R fp.
Local Notation n := (size xp).
Local Notation f := (interp ss eps xp fp).

Lemma sorted_le_nth (s : seq R) i j : sorted <=%R s -> (i <= j)%N -> (j < size s)%N -> nth 0 s i <= nth 0 s j.
Proof.
move=> hs hij hj; apply: (sorted_leq_nth le_trans le_refl 0 hs) => //.
by rewrite inE; exact: leq_ltn_trans hj.
Qed.

Definition interp_index (x : R) : nat := minn (maxn (ss xp x) 1) n.-1.
Local Notation idx := interp_index.

Lemma ss_mono x y : x <= y -> (ss xp x <= ss xp y)%N.
Proof.
move=> hxy; have [h1 h2 _] := ssP x hxp; have [h1' _ h3'] := ssP y hxp.
rewrite leqNgt; apply/negP => h; have := h2 _ h; have := h3' (ss xp y).
rewrite leqnn /= => /(_ (leq_trans h h1)) a b.
by have := le_lt_trans b (le_lt_trans hxy a); rewrite ltxx.
Qed.

Lemma idx_mono x y : x <= y -> (idx x <= idx y)%N.
Proof. by move=> /ss_mono; rewrite /idx; lia. Qed.

Section Many.
Hypothesis n2 : (1 < n)%N.

Lemma idx_range x : (0 < idx x < n)%N.
Proof. by rewrite /idx; move: n2; clear; lia. Qed.

(* the three pieces *)
Lemma interp_piece x : let i := idx x in
  [\/ x < nth 0 xp 0 /\ f x = nth 0 fp 0,
      nth 0 xp n.-1 < x /\ f x = nth 0 fp n.-1
    | [/\ nth 0 xp i.-1 <= x, x <= nth 0 xp i &
         f x = if nth 0 xp i - nth 0 xp i.-1 <= eps then nth 0 fp i.-1
               else nth 0 fp i.-1 + (x - nth 0 xp i.-1) / (nth 0 xp i - nth 0 xp i.-1)
                      * (nth 0 fp i - nth 0 fp i.-1)]].
Proof.
move=> i; have hi := idx_range x; rewrite -/i in hi.
have hmon := sorted_le_nth hxp.
rewrite /f /interp -/(idx x) -/i.
have -> : (if i is j.+1 then j else n.-1) = i.-1 by case: (i) hi.
case: (ltP (nth 0 xp n.-1) x) => hx; first by constructor 2.
case: (ltP x (nth 0 xp 0)) => hx0; first by constructor 1.
constructor 3; have [h1 h2 h3] := ssP x hxp.
have hd : 0 <= nth 0 xp i - nth 0 xp i.-1 by rewrite subr_ge0 hmon //; lia.
rewrite ger0_norm //; split=> //.
  case: (ltnP i.-1 (ss xp x)) => h; first exact: h2.
  have -> : i.-1 = 0%N by move: h; rewrite /i /idx; lia.
  by [].
case: (leqP (ss xp x) i) => h; first by apply/ltW/h3; rewrite h /=; case/andP: hi.
have -> : i = n.-1 by move: h; rewrite /i /idx; lia.
by [].
Qed.

Lemma idx_ltn x : (idx x < n)%N. Proof. by case/andP: (idx_range x). Qed.
Lemma idx_pred_le x : ((idx x).-1 <= idx x)%N. Proof. exact: leq_pred. Qed.
Lemma idx_le_last x : (idx x <= n.-1)%N. Proof. by rewrite /idx; move: n2; clear; lia. Qed.
Lemma last_ltn : (n.-1 < n)%N. Proof. by move: n2; clear; lia. Qed.

Lemma xp_le i j : (i <= j)%N -> (j < n)%N -> nth 0 xp i <= nth 0 xp j.
Proof. exact: sorted_le_nth. Qed.
Lemma fp_le i j : (i <= j)%N -> (j < n)%N -> nth 0 fp i <= nth 0 fp j.
Proof. by move=> hij hj; apply: sorted_le_nth; rewrite ?hsz. Qed.

Lemma idx_low x : x < nth 0 xp 0 -> idx x = 1%N.
Proof.
move=> hx; have [s1 s2 s3] := ssP x hxp.
case: (posnP (ss xp x)) => [e|h]; last by have := s2 _ h; rewrite leNgt hx.
by move: n2; clear -e; rewrite /idx e; lia.
Qed.

Lemma idx_high x : nth 0 xp n.-1 < x -> idx x = n.-1.
Proof.
move=> hx; have [s1 s2 s3] := ssP x hxp.
suff e : ss xp x = n by move: n2; clear -e; rewrite /idx e; lia.
apply/eqP; rewrite eqn_leq s1 leqNgt; apply/negP => h.
have hl : (ss xp x <= n.-1 < n)%N by move: n2 h; clear; lia.
by have := s3 _ hl; rewrite ltNge ltW.
Qed.

Lemma interp_between x : nth 0 fp (idx x).-1 <= f x <= nth 0 fp (idx x).
Proof.
have hf : nth 0 fp (idx x).-1 <= nth 0 fp (idx x) := fp_le (idx_pred_le x) (idx_ltn x).
case: (interp_piece x) => [[hx ->]|[hx ->]|[h1 h2 ->]].
- by rewrite (idx_low hx) lexx /= fp_le.
- by rewrite (idx_high hx) lexx andbT fp_le ?leq_pred // last_ltn.
case: ifP => he; first by rewrite lexx.
have he' : eps < nth 0 xp (idx x) - nth 0 xp (idx x).-1 by rewrite ltNge he.
have d0 := le_lt_trans eps0 he'.
set q := (x - _) / _; have q0 : 0 <= q by rewrite divr_ge0 ?(ltW d0) ?subr_ge0.
have q1 : q <= 1 by rewrite ler_pdivr_mulr // mul1r ler_add2r.
rewrite ler_addl mulr_ge0 ?subr_ge0 //= -ler_subr_addl.
by rewrite -[X in _ <= X]mul1r ler_wpmul2r // subr_ge0.
Qed.

Lemma interp_mono_many x y : x <= y -> f x <= f y.
Proof.
move=> hxy; have /andP [a1 a2] := interp_between x; have /andP [b1 b2] := interp_between y.
have := idx_mono hxy; rewrite leq_eqVlt => /orP [/eqP e|h]; last first.
  apply: (le_trans a2); apply: le_trans b1; apply: fp_le; last exact: leq_ltn_trans (idx_pred_le y) (idx_ltn y).
  by rewrite -ltnS; apply: (leq_trans h); exact: leqSpred.
case: (interp_piece y) => [[hyl e1]|[hyl e1]|[h1 h2 e1]].
- case: (interp_piece x) => [[_ ->]|[hx2 _]|[hx1 _ _]]; first by rewrite e1.
    have := lt_trans (lt_le_trans hx2 hxy) hyl; rewrite ltNge xp_le //; exact: last_ltn.
  have := le_lt_trans (le_trans hx1 hxy) hyl; rewrite ltNge xp_le //.
  exact: leq_ltn_trans (idx_pred_le x) (idx_ltn x).
- by rewrite e1; apply: (le_trans a2); apply: fp_le; [exact: idx_le_last|exact: last_ltn].
case: (interp_piece x) => [[hx0 ->]|[hx0 _]|[hx1 hx2 ->]].
- by apply: le_trans b1; apply: fp_le => //; exact: leq_ltn_trans (idx_pred_le y) (idx_ltn y).
- have := lt_le_trans hx0 (le_trans hxy h2); rewrite ltNge xp_le //; [exact: idx_le_last|exact: last_ltn].
rewrite e1 e; case: ifP => he //.
have he' : eps < nth 0 xp (idx y) - nth 0 xp (idx y).-1 by rewrite ltNge he.
have d0 := le_lt_trans eps0 he'.
rewrite ler_add2l ler_wpmul2r ?subr_ge0 ?fp_le ?idx_ltn ?idx_pred_le //.
by rewrite ler_pmul2r ?invr_gt0 // ler_add2r.
Qed.
End Many.

Lemma interp_one x : n = 1%N -> f x = nth 0 fp 0.
Proof.
move=> n1; rewrite /interp n1 /= minn0 /=.
by rewrite subrr normr0 eps0; do 2 case: ifP => //.
Qed.

Lemma interp_mono x y : (0 < n)%N -> x <= y -> f x <= f y.
Proof.
rewrite leq_eqVlt => /orP [/eqP e|h] hxy; last exact: interp_mono_many.
by rewrite !interp_one.
Qed.

Lemma interp_in x : (0 < n)%N -> nth 0 fp 0 <= f x <= nth 0 fp n.-1.
Proof.
rewrite leq_eqVlt => /orP [/eqP e|h]; first by rewrite !interp_one // -e /= !lexx.
have /andP [a1 a2] := interp_between h x; apply/andP; split.
  apply: le_trans a1; apply: fp_le => //; exact: leq_ltn_trans (idx_pred_le x) (idx_ltn h x).
by apply: (le_trans a2); apply: fp_le; [exact: idx_le_last|exact: last_ltn].
Qed.
End Interp.

Section Conti.
Variable R : rcfType.
Variable ss : seq R -> R -> nat.
Hypothesis ssP : ss_right_spec ss.
Variable eps : R.
Hypothesis eps0 : 0 <= eps.

Section Sorted.
Variable samples : seq R.
Local Notation n := (size samples).
Local Notation idx := (argsort samples).

Lemma argsort_perm : perm_eq idx (iota 0 n).
Proof. by rewrite /argsort perm_sort. Qed.
Lemma size_argsort : size idx = n.
Proof. by rewrite (perm_size argsort_perm) size_iota. Qed.
Lemma argsort_ltn i : (i < n)%N -> (nth 0%N idx i < n)%N.
Proof.
move=> hi; have : nth 0%N idx i \in iota 0 n.
  by rewrite -(perm_mem argsort_perm) mem_nth // size_argsort.
by rewrite mem_iota add0n.
Qed.

Lemma sorted_samples : sorted <=%R [seq nth 0 samples i | i <- idx].
Proof.
rewrite sorted_map; apply: sort_sorted => i j; exact: le_total.
Qed.

Lemma samples_perm : perm_eq [seq nth 0 samples i | i <- idx] samples.
Proof.
apply: (perm_trans (perm_map _ argsort_perm)).
have -> : [seq nth 0 samples i | i <- iota 0 n] = samples := mkseq_nth 0 samples.
exact: perm_refl.
Qed.
End Sorted.

Lemma lin_id (a b c d t : R) : 0 < a - b -> (d + (t - b) / (a - b) * (c - d) - d) * (a - b) = (t - b) * (c - d).
Proof. by move=> h; field; rewrite gt_eqF. Qed.

(* the abscissae: the mass before the particle and half of its own *)
Lemma cdf_avg (ws : seq R) i : (i < size ws)%N ->
  cdf (avg_n_nplusone ws) i.+1 = cdf ws i + nth 0 ws i / 2%:R.
Proof.
set a := avg_n_nplusone ws; have ha : size a = (size ws).+1.
  by rewrite size_map size_zip size_rcons /= size_map minnn.
have hn j : (j < size ws)%N ->
    nth 0 a j = nth 0 ws j / 2%:R + (if j is k.+1 then nth 0 ws k / 2%:R else 0).
  move=> hj; rewrite (nth_map (0, 0)); last by rewrite size_zip size_rcons /= size_map minnn ltnW.
  rewrite nth_zip /=; last by rewrite size_rcons size_map.
  rewrite nth_rcons size_map hj (nth_map 0) //; congr (_ + _).
  by case: j hj => [//|k] hk /=; rewrite (nth_map 0) // ltnW.
elim: i => [|i IH] hi; first by rewrite cdfS ?ha // !cdf0 hn // addr0.
have hi' := ltnW hi; rewrite (cdfS (w := a)) ?ha ?ltnS // IH // hn // cdfS //.
by move: (cdf _ _) (nth _ _ _) (nth _ _ _) => x y z; field.
Qed.

Section Main.
Variables (samples weights : seq R) (m : nat) (us : seq R).
Local Notation n := (size samples).
Hypothesis n0 : (0 < n)%N.
Hypothesis hw : size weights = n.
Hypothesis wpos : all (fun x => 0 <= x) weights.
Hypothesis hus : size us = m.
Hypothesis hu : all (fun u => 0 <= u < 1) us.

Local Notation idx := (argsort samples).
Local Notation xs := [seq nth 0 samples i | i <- idx].
Local Notation ws := [seq nth 0 weights i | i <- idx].
Local Notation cs := (take (size (cumsum (avg_n_nplusone ws))).-1 (cumsum (avg_n_nplusone ws))).
Local Notation zs := [seq (nth 0 us i + i%:R) / m%:R | i <- iota 0 m].

Lemma size_xs : size xs = n. Proof. by rewrite size_map size_argsort. Qed.
Lemma size_ws : size ws = n. Proof. by rewrite size_map size_argsort. Qed.
Lemma size_cs : size cs = n.
Proof.
by rewrite size_takel size_cumsum size_map size_zip size_rcons /= !size_map size_argsort minnn.
Qed.

Lemma nth_cs i : (i < n)%N -> nth 0 cs i = cdf ws i + nth 0 ws i / 2%:R.
Proof.
move=> hi; have hc : (i < (size (cumsum (avg_n_nplusone ws))).-1)%N.
  by move: size_cs; rewrite size_takel ?leq_pred // => ->.
rewrite nth_take // nth_cumsum; last by rewrite size_cumsum in hc; apply: (leq_trans hc); exact: leq_pred.
by rewrite cdf_avg // size_ws.
Qed.

Lemma ws_pos : all (fun x => 0 <= x) ws.
Proof.
apply/allP => x /mapP [i hi ->]; case: (ltnP i (size weights)) => h; last by rewrite nth_default.
exact: (all_nthP 0 wpos).
Qed.

Lemma cs_sorted : sorted <=%R cs.
Proof.
apply: sorted_nth => i; rewrite size_cs => hi; have hi' := ltnW hi.
rewrite !nth_cs // cdfS ?size_ws // -addrA ler_add2l.
have h1 : 0 <= nth 0 ws i by apply: (all_nthP 0 ws_pos); rewrite size_ws.
have h2 : 0 <= nth 0 ws i.+1 by apply: (all_nthP 0 ws_pos); rewrite size_ws.
apply: (le_trans (y := nth 0 ws i)); last by rewrite ler_addl divr_ge0 ?ler0n.
by rewrite ler_pdivr_mulr ?ltr0n // mulr_natr mulr2n ler_addl.
Qed.

Local Notation out := (continuous_resampling ss eps samples weights m us).

Lemma size_conti : size out = m.
Proof. by rewrite !size_map size_iota. Qed.

Lemma nth_conti i : (i < m)%N -> nth 0 out i = interp ss eps cs xs ((nth 0 us i + i%:R) / m%:R).
Proof.
move=> hi; rewrite (nth_map 0) ?size_map ?size_iota //.
by rewrite (nth_map 0%N) ?size_iota // nth_iota.
Qed.

Lemma conti_sorted : sorted <=%R out.
Proof.
apply: sorted_nth => i; rewrite size_conti => hi; rewrite !nth_conti //; last exact: ltnW.
have m0 : 0 < (m%:R : R) by rewrite ltr0n (leq_ltn_trans _ hi).
apply: (interp_mono ssP eps0); rewrite ?size_cs ?size_xs ?cs_sorted ?sorted_samples //.
rewrite ler_pmul2r ?invr_gt0 //.
have h k : (k < m)%N -> 0 <= nth 0 us k < 1 by move=> hk; apply: (all_nthP 0 hu); rewrite hus.
have /andP [_ h1] := h i (ltnW hi); have /andP [h2 _] := h i.+1 hi.
by rewrite mulrS addrA ler_add2r; apply: (le_trans (ltW h1)); rewrite ler_addr.
Qed.

(* every value lies between the smallest and the largest sample *)
Lemma conti_range y : y \in out -> exists a b, [/\ a \in samples, b \in samples & a <= y <= b].
Proof.
move=> /(nthP 0) [i]; rewrite size_conti => hi <-; rewrite nth_conti //.
have h := interp_in ssP eps0 (xp := cs) (fp := xs); rewrite size_cs size_xs in h.
have {}h := h erefl cs_sorted (sorted_samples samples) ((nth 0 us i + i%:R) / m%:R) n0.
exists (nth 0 xs 0), (nth 0 xs n.-1); split=> //.
  by rewrite -(perm_mem (samples_perm samples)) mem_nth // size_xs.
by rewrite -(perm_mem (samples_perm samples)) mem_nth // size_xs prednK.
Qed.

(* ---- distinct samples ---- *)
Hypothesis hx : uniq samples.

Lemma xs_lt i j : (i < n)%N -> (j < n)%N -> (nth 0 xs i < nth 0 xs j) = (i < j)%N.
Proof.
move=> hi hj; have hs : sorted <%R xs.
  by rewrite lt_sorted_uniq_le (perm_uniq (samples_perm samples)) hx sorted_samples.
case: (ltngtP i j) => h; last by rewrite h ltxx.
  by apply: (sorted_ltn_nth lt_trans 0 hs) => //; rewrite inE size_xs.
apply/negbTE; rewrite -leNgt ltW //.
by apply: (sorted_ltn_nth lt_trans 0 hs) => //; rewrite inE size_xs.
Qed.

Lemma nth_xs i : (i < n)%N -> nth 0 xs i = nth 0 samples (nth 0%N idx i).
Proof. by move=> hi; rewrite (nth_map 0%N) // size_argsort. Qed.

Lemma cs_mid i : (i < n)%N -> nth 0 cs i = mid_mass samples weights (nth 0%N idx i).
Proof.
move=> hi; rewrite nth_cs // (nth_map 0%N) ?size_argsort // /mid_mass; congr (_ + _).
rewrite -(perm_big _ (argsort_perm samples)) /= (big_nth 0%N) size_argsort.
rewrite /cdf (big_nth 0) size_takel ?size_ws ?(ltnW hi) // !big_mkord.
rewrite (eq_bigl (fun k : 'I_n => (k < i)%N)); last first.
  by move=> k; rewrite -!nth_xs // xs_lt.
rewrite (big_ord_widen_cond _ xpredT (fun k => nth 0 (take i ws) k) (ltnW hi)) /=.
apply: eq_bigr => k hk; rewrite nth_take // (nth_map 0%N) // size_argsort.
by case: k hk.
Qed.

Lemma conti_quantile i : (i < m)%N ->
  quantile eps samples weights ((nth 0 us i + i%:R) / m%:R) (nth 0 out i).
Proof.
move=> hi; rewrite nth_conti //; set z := _ / _.
have hxs k : (k < n)%N -> nth 0 samples (nth 0%N idx k) = nth 0 xs k by move=> hk; rewrite nth_xs.
have hall (P : nat -> Prop) : (forall k, (k < n)%N -> P (nth 0%N idx k)) -> forall l, (l < n)%N -> P l.
  move=> hP l hl; have : l \in idx by rewrite (perm_mem (argsort_perm samples)) mem_iota add0n.
  by move=> /(nthP 0%N) [k]; rewrite size_argsort => hk <-; exact: hP.
have hle k l : (k <= l)%N -> (l < n)%N -> nth 0 xs k <= nth 0 xs l.
  by move=> hkl hl; apply: sorted_le_nth => //; [exact: sorted_samples|rewrite size_xs].
have hn1 : (n.-1 < n)%N by rewrite prednK.
have [e1|n2] : n = 1%N \/ (1 < n)%N by move: n0; clear; lia.
  rewrite (interp_one ss eps0) ?size_cs //.
  have h1 l : (l < n)%N -> l = 0%N by rewrite e1; clear; lia.
  have h0 : (nth 0%N idx 0 < n)%N := argsort_ltn n0.
  have e0 := h1 _ h0; rewrite -hxs // e0.
  case: (ltgtP z (mid_mass samples weights 0)) => hz.
  - by constructor 1; exists 0%N; split=> // l /h1 ->.
  - by constructor 2; exists 0%N; split=> // l /h1 ->.
  constructor 3; exists 0%N, 0%N; rewrite hz !lexx !subrr eps0; split=> //.
  by split=> // l /h1 ->; rewrite ltxx.
have hp := interp_piece ssP eps0 (xp := cs) (fp := xs); rewrite size_cs size_xs in hp.
have {hp} := hp erefl cs_sorted (sorted_samples samples) n2 z.
have hr := idx_range ss (xp := cs); rewrite size_cs in hr; have {hr} := hr n2 z.
set k := interp_index _ _ _ => /andP [k0 kn].
have kp : (k.-1 < n)%N by apply: leq_ltn_trans kn; exact: leq_pred.
move=> [[hz ->]|[hz ->]|[h1 h2 ->]].
- constructor 1; exists (nth 0%N idx 0); rewrite -cs_mid // hxs //; split=> //; first exact: argsort_ltn.
  by apply: hall => l hl; rewrite hxs //; exact: hle.
- constructor 2; exists (nth 0%N idx n.-1); rewrite -cs_mid // hxs //; split=> //; first exact: argsort_ltn.
  by apply: hall => l hl; rewrite hxs //; apply: hle => //; rewrite -ltnS prednK.
constructor 3; exists (nth 0%N idx k.-1), (nth 0%N idx k).
rewrite -!cs_mid // !hxs // !argsort_ltn // h1 h2 hle ?leq_pred //; split=> //.
  split=> //; apply: hall => l hl; rewrite hxs // !xs_lt //; apply/negP.
  by move: k0; clear; lia.
case: (leP (nth 0 cs k - nth 0 cs k.-1) eps) => // he'; have := le_lt_trans eps0 he'.
exact: lin_id.
Qed.
End Main.

(* ---- the order of the particles does not matter ---- *)
Section Perm.
Variables (samples weights samples' weights' : seq R) (m : nat) (us : seq R).
Hypothesis hw : size weights = size samples.
Hypothesis hw' : size weights' = size samples'.
Hypothesis hx : uniq samples.
Hypothesis hp : perm_eq (zip samples weights) (zip samples' weights').

Let pr (p q : R * R) := p.1 < q.1.
Local Notation pairs s w := [seq (nth 0 s i, nth 0 w i) | i <- argsort s].

Lemma pairs_perm (s w : seq R) : size w = size s -> perm_eq (pairs s w) (zip s w).
Proof.
move=> h; apply: (perm_trans (perm_map _ (argsort_perm s))).
have -> : [seq (nth 0 s i, nth 0 w i) | i <- iota 0 (size s)] = zip s w; last exact: perm_refl.
apply: (@eq_from_nth _ (0, 0)); rewrite size_map size_iota ?size_zip ?h ?minnn // => i hi.
by rewrite (nth_map 0%N) ?size_iota // nth_iota // nth_zip.
Qed.

Lemma pairs_sorted (s w : seq R) : uniq s -> sorted pr (pairs s w).
Proof.
move=> hs; have : sorted <%R [seq nth 0 s i | i <- argsort s].
  by rewrite lt_sorted_uniq_le (perm_uniq (samples_perm s)) hs sorted_samples.
by rewrite !sorted_map; apply: sub_sorted.
Qed.

Lemma uniq' : uniq samples'.
Proof.
have := perm_map fst hp; rewrite -/(unzip1 _) -/(unzip1 _) !unzip1_zip ?hw ?hw' // => h.
by rewrite -(perm_uniq h).
Qed.

Lemma conti_perm : continuous_resampling ss eps samples weights m us
  = continuous_resampling ss eps samples' weights' m us.
Proof.
have e : pairs samples weights = pairs samples' weights'.
  apply: (@irr_sorted_eq _ pr); rewrite ?pairs_sorted ?uniq' //.
  - by move=> a b c; exact: lt_trans.
  - by move=> a; rewrite /pr ltxx.
  apply: perm_mem; apply: (perm_trans (pairs_perm hw)); apply: (perm_trans hp).
  by rewrite perm_sym pairs_perm.
rewrite /continuous_resampling.
have -> : [seq nth 0 samples i | i <- argsort samples] = unzip1 (pairs samples weights) by rewrite /unzip1 -map_comp.
have -> : [seq nth 0 weights i | i <- argsort samples] = unzip2 (pairs samples weights) by rewrite /unzip2 -map_comp.
by rewrite e /unzip1 /unzip2 -!map_comp.
Qed.
End Perm.
End Conti.
