(* The histogram and the frames of plot_benes_bernoulli_estimation.py: proofs. *)
From mathcomp Require Import all_ssreflect all_algebra.
From mathcomp Require Import zify ring.
From Verif Require Import Prelude SsModel PlotBbModel.
Set Implicit Arguments.
Unset Strict Implicit.
Unset Printing Implicit Defensive.
Import Order.TTheory GRing.Theory Num.Theory.
Local Open Scope ring_scope.

Lemma half_width (R : rcfType) (u w : R) : u + w / 2%:R - (u - w / 2%:R) = w.
Proof. by field. Qed.
Lemma half_shift (R : rcfType) (u w : R) : u + w - w / 2%:R = u + w / 2%:R.
Proof. by field. Qed.

Section Hist.
Variables (R : rcfType) (s : seq R) (b : nat).
Hypothesis s0 : (0 < size s)%N.
Hypothesis b0 : (0 < b)%N.
Let e := hist_edge s b.

Lemma lo_hi : hist_lo s \in s /\ {in s, forall x, hist_lo s <= x <= hist_hi s}.
Proof.
have aux (a : R) t : (foldr Num.min a t \in a :: t) /\ {in t, forall x, foldr Num.min a t <= x <= foldr Num.max a t}.
  elim: t => [|y t [h1 h2]] /=; first by split=> [|x]; rewrite ?inE ?eqxx.
  split.
    case: leP => _; first by rewrite !inE eqxx orbT.
    by move: h1; rewrite !inE => /orP [->|->]; rewrite ?orbT.
  move=> x; rewrite inE => /orP [/eqP ->|/h2 /andP [u v]]; first by rewrite le_minl lexx le_maxr lexx.
  by rewrite le_minl u orbT le_maxr v orbT.
have [h1 h2] := aux (head 0 s) s; split=> //.
by move: h1; rewrite /hist_lo; case: s s0 => //= y t _; rewrite !inE orbA orbb.
Qed.

Lemma range_lt : (hist_range s).1 < (hist_range s).2.
Proof.
have [h1 h2] := lo_hi; have /andP [_ h3] := h2 _ h1; rewrite /hist_range.
case: eqP => [->|/eqP ne] /=; last by rewrite lt_neqAle ne.
have p : (0 : R) < 2%:R^-1 by rewrite invr_gt0 ltr0n.
by rewrite (@lt_trans _ _ (hist_hi s)) ?ltr_addl // gtr_addl oppr_lt0.
Qed.

Lemma in_range x : x \in s -> (hist_range s).1 <= x <= (hist_range s).2.
Proof.
have [_ h] := lo_hi; move=> /h /andP [h1 h2]; rewrite /hist_range.
have p : (0 : R) <= 2%:R^-1 by rewrite invr_ge0 ler0n.
case: ifP => _ /=; last by rewrite h1 h2.
by rewrite (le_trans _ h1) ?ger_addl ?oppr_le0 // (le_trans h2) ?ler_addl.
Qed.

Lemma edgeE i : e i = (hist_range s).1 + ((hist_range s).2 - (hist_range s).1) * (i%:R / b%:R).
Proof. by rewrite /e /hist_edge; case: (hist_range s). Qed.

Let w := ((hist_range s).2 - (hist_range s).1) / b%:R.
Lemma w_gt0 : 0 < w.
Proof. by rewrite divr_gt0 ?subr_gt0 ?range_lt // ltr0n. Qed.
Lemma edge_step i : e i.+1 = e i + w.
Proof. by rewrite !edgeE -addrA; congr (_ + _); rewrite -mulrDr -addn1 natrD mulrDl mul1r. Qed.
Lemma edge0 : e 0 = (hist_range s).1.
Proof. by rewrite edgeE mul0r mulr0 addr0. Qed.
Lemma edgeb : e b = (hist_range s).2.
Proof. by rewrite edgeE divff ?mulr1 ?pnatr_eq0 -?lt0n // addrC subrK. Qed.
Lemma edge_mono i : e i < e i.+1.
Proof. by rewrite edge_step ltr_addl w_gt0. Qed.

(* every sample lies in exactly one bin *)
Lemma bin_sum x : x \in s -> \sum_(i < b) (in_bin s b i x : nat)%:R = 1 :> R.
Proof.
move=> hx; have /andP [h1 h2] := in_range hx.
have [c eb] : exists c, b = c.+1 by case: b b0 => // c; exists c.
rewrite -(big_mkord xpredT (fun i => (in_bin s b i x : nat)%:R)) eb big_nat_recr //= -eb.
have -> : \sum_(0 <= i < c) (in_bin s b i x : nat)%:R = - \sum_(0 <= i < c) ((e i.+1 <= x : nat)%:R - (e i <= x : nat)%:R) :> R.
  rewrite -sumrN big_nat [RHS]big_nat; apply: eq_bigr => i /andP [_ hi]; rewrite /in_bin -/e opprB.
  have -> : (i.+1 == b) = false by rewrite eb; lia.
  have [hl|hl] := ltP x (e i.+1); first by rewrite subr0 andbT.
  by rewrite (le_trans (ltW (edge_mono i)) hl) subrr.
rewrite telescope_sumr // opprB edge0 h1 /in_bin -/e eb eqxx -eb edgeb h2 andbT /=.
by rewrite subrK.
Qed.

Lemma bin_unique : {in s, forall x, exists! i, (i < b)%N && in_bin s b i x}.
Proof.
move=> x hx; have := bin_sum hx; rewrite -natr_sum => /eqP; rewrite pnatr_eq1 => /eqP hs.
have [i hi] : exists i : 'I_b, in_bin s b i x.
  case: (boolP [exists i : 'I_b, in_bin s b i x]) => [/existsP //|].
  rewrite negb_exists => /forallP hn; move: hs; rewrite big1 // => i _; by rewrite (negbTE (hn i)).
exists i; split=> [|j /andP [hj hj']]; first by rewrite ltn_ord hi.
apply/eqP; apply: contraT => ne; move: hs; rewrite (bigD1 i) //= hi (bigD1 (Ordinal hj)) /=; last by rewrite -val_eqE /= eq_sym.
by rewrite hj'.
Qed.

Lemma count_total : sumn [seq hist_count s b i | i <- iota 0 b] = size s.
Proof.
apply/eqP; rewrite -(eqr_nat R); apply/eqP; have -> : iota 0 b = index_iota 0 b by rewrite /index_iota subn0.
rewrite sumnE big_map natr_sum big_mkord.
transitivity (\sum_(i < b) \sum_(x <- s) (in_bin s b i x : nat)%:R : R).
  apply: eq_bigr => i _; rewrite /hist_count -sum1_count natr_sum big_mkcond; apply: eq_bigr => x _.
  by case: (in_bin _ _ _ _).
rewrite exchange_big (eq_big_seq (fun=> 1)); last by move=> x; exact: bin_sum.
by rewrite big_const_seq count_predT iter_addr_0.
Qed.

Lemma bars_area : \sum_(q <- hist_bars s b) (q.1.2 - q.1.1) * q.2 = 1.
Proof.
have w0 := w_gt0; have n0 : (size s)%:R != 0 :> R by rewrite pnatr_eq0 -lt0n.
rewrite big_map; rewrite -/e.
have -> : e 1 - e 0 = w by rewrite edge_step addrAC subrr add0r.
transitivity (\sum_(i <- iota 0 b) (hist_count s b i)%:R / (size s)%:R : R).
  apply: eq_bigr => i _; rewrite /= half_width /hist_density -/e count_total.
  have -> : e i.+1 - e i = w by rewrite edge_step addrAC subrr add0r.
  by rewrite mulrA mulrCA mulfV ?mulr1 // lt0r_neq0.
by rewrite -mulr_suml -(big_map (hist_count s b) xpredT (fun c => c%:R)) -natr_sum -sumnE count_total divff.
Qed.

Lemma bars_shift i : (i < b)%N -> let w := hist_edge s b 1 - hist_edge s b 0 in let q := nth (0, 0, 0) (hist_bars s b) i in
  0 < w /\ (q.1.1, q.1.2) = (hist_edge s b i + w / 2%:R, hist_edge s b i.+1 + w / 2%:R).
Proof.
move=> hi /=; rewrite (nth_map 0%N) ?size_iota // nth_iota //= -/e add0n.
have -> : e 1 - e 0 = w by rewrite edge_step addrAC subrr add0r.
split; first exact: w_gt0.
by rewrite edge_step half_shift.
Qed.

(* the smallest sample lies left of all bars, unless all samples are equal *)
Lemma lo_missed : hist_lo s != hist_hi s -> all (fun q => hist_lo s < q.1.1) (hist_bars s b).
Proof.
move=> ne; have el : (hist_range s).1 = hist_lo s by rewrite /hist_range (negbTE ne).
apply/(all_nthP (0, 0, 0)) => i; rewrite size_map size_iota => hi.
have [w0] := bars_shift hi; case=> -> _; rewrite -el -edge0.
have e0i : e 0 <= e i by elim: (i) => // j IH; rewrite (le_trans IH) // ltW // edge_mono.
by apply: le_lt_trans e0i _; rewrite ltr_addl divr_gt0 // ltr0n.
Qed.
End Hist.

Lemma linspace_ts (R : rcfType) (dt : R) T k : (1 < T)%N -> (k < T)%N -> nth 0 (linspace dt (dt * T%:R) T) k = dt * k.+1%:R.
Proof.
move=> hT hk; rewrite (nth_map 0%N) ?size_iota // nth_iota // add0n.
have -> : dt * T%:R - dt = dt * (T.-1)%:R by rewrite -{1}(ltn_predK hT) -addn1 natrD mulrDr mulr1 addrK.
have t0 : (T.-1)%:R != 0 :> R by rewrite pnatr_eq0; lia.
by rewrite mulfK // -addn1 natrD mulrDr mulr1 addrC [k%:R * _]mulrC.
Qed.

Lemma frames_spec (R : rcfType) (A : Type) (a0 : A) (res : seq A) (dt : R) T step : (1 < T)%N -> (0 < step)%N -> size res = T ->
  let ts := linspace dt (dt * T%:R) T in
  bb_last_bars_time ts T = dt * T%:R /\
  exists ks, [/\ bb_frames a0 res ts T step = [seq (dt * k.+1%:R, nth a0 res k) | k <- ks], sorted leq ks, last 0%N ks = T.-1
    & forall k, (k \in ks) = (k < T)%N && ((step %| k)%N || (k == T.-1))].
Proof.
move=> hT hs sr ts; have st : size ts = T by rewrite size_map size_iota.
have T1 : (T.-1 < T)%N by lia.
have mT : minn T T.-1 = T.-1 by lia.
split; first by rewrite /bb_last_bars_time /jget st mT linspace_ts // (ltn_predK hT).
set n := ((T + step.-1) %/ step)%N.
have hn j : (j < n)%N = (step * j < T)%N.
  rewrite /n leq_divRL // mulSn; move: (mulnC j step) => ->; by lia.
exists ([seq (step * j)%N | j <- iota 0 n] ++ [:: T.-1]); split.
- rewrite /bb_frames map_cat -map_comp; congr (_ ++ _).
    apply/eq_in_map => j; rewrite mem_iota add0n => /andP [_]; rewrite hn => hj /=.
    by rewrite /jget st sr (minn_idPl _) ?linspace_ts //; lia.
  by rewrite /jget sr mT -nth_last st linspace_ts // (ltn_predK hT).
- apply/(sortedP 0%N) => i; rewrite size_cat size_map size_iota addn1 ltnS => hi.
  rewrite !nth_cat size_map size_iota hi (nth_map 0%N) ?size_iota // nth_iota // add0n.
  case: ifP => hi'; first by rewrite (nth_map 0%N) ?size_iota // nth_iota // add0n leq_mul2l leqnSn orbT.
  have -> : (i.+1 - n = 0)%N by lia.
  by move: hi; rewrite hn /= ; lia.
- by rewrite last_cat.
move=> k; rewrite mem_cat inE; apply/orP/andP => [[/mapP [j]|/eqP ->]|[hk /orP [/dvdnP [j ej]|->]]].
- by rewrite mem_iota add0n => /andP [_]; rewrite hn => hj ->; rewrite hj dvdn_mulr.
- by rewrite T1 eqxx orbT.
- by left; apply/mapP; exists j; rewrite ?mem_iota ?add0n ?hn mulnC -?ej.
by right.
Qed.
