(* The statistics and slices of plot_convergence.py: proofs. *)
From mathcomp Require Import all_ssreflect all_algebra.
From mathcomp Require Import zify ring.
From Verif Require Import Prelude SsModel PlotBb PlotConvModel.
Set Implicit Arguments.
Unset Strict Implicit.
Unset Printing Implicit Defensive.
Import Order.TTheory GRing.Theory Num.Theory.
Local Open Scope ring_scope.

Lemma mem_neg_slice start e step T k : (0 < step)%N ->
  (k \in neg_slice start e step T) = [&& (start <= k)%N, (k + e < T)%N & (step %| k - start)%N].
Proof.
move=> s0; set n := ((T - e - start + step.-1) %/ step)%N.
have hn j : (j < n)%N = (start + step * j + e < T)%N.
  by rewrite /n leq_divRL // mulSn; move: (mulnC j step) => ->; lia.
apply/mapP/idP => [[j]|/and3P [h1 h2 /dvdnP [q hq]]].
  rewrite mem_iota add0n hn /= => hj ->; rewrite leq_addr hj addKn dvdn_mulr //.
exists q; last by rewrite mulnC -hq subnKC.
by rewrite mem_iota add0n hn mulnC -hq subnKC.
Qed.

Section Stat.
Variable R : rcfType.
Implicit Types (s : seq R) (errs : seq (seq R)).

Lemma jsum_big s : jsum s = \sum_(x <- s) x.
Proof. by elim: s => [|x s ih]; rewrite ?big_nil ?big_cons //= ih. Qed.

(* mean of means of rows of equal length *)
Lemma mean_flatten errs T : (0 < T)%N -> all (fun row => size row == T) errs ->
  np_mean (flatten errs) = np_mean [seq np_mean row | row <- errs].
Proof.
move=> T0 h; rewrite /np_mean !jsum_big size_map.
have sz : size (flatten errs) = (T * size errs)%N.
  by elim: errs h => [|r l ih] /=; rewrite ?muln0 // size_cat => /andP [/eqP -> /ih ->]; rewrite mulnS.
have sm : \sum_(x <- flatten errs) x = T%:R * \sum_(x <- [seq jsum row / (size row)%:R | row <- errs]) x.
  elim: errs h {sz} => [|r l ih] /=; first by rewrite !big_nil mulr0.
  case/andP=> /eqP hr /ih; rewrite big_cat big_cons /= => ->; rewrite hr jsum_big mulrDr; congr (_ + _); rewrite mulrC mulfVK //.
  by rewrite pnatr_eq0 -lt0n.
rewrite sm sz natrM; have t0 : T%:R != 0 :> R by rewrite pnatr_eq0 -lt0n.
by rewrite invfM mulrACA divff // mul1r.
Qed.

Lemma mean_time errs T : (0 < T)%N -> all (fun row => size row == T) errs ->
  np_mean [seq np_mean (column errs k) | k <- iota 0 T] = np_mean (flatten errs).
Proof.
move=> T0 h; rewrite (mean_flatten T0 h) /np_mean !jsum_big !size_map size_iota !big_map.
under eq_bigr do rewrite jsum_big big_map size_map.
rewrite -!mulr_suml exchange_big /=.
have -> : \sum_(j <- errs) \sum_(i <- iota 0 T) nth 0 j i = T%:R * \sum_(j <- errs) (jsum j / (size j)%:R).
  rewrite mulr_sumr; elim: errs h => [|r l ih] /=; first by rewrite !big_nil.
  case/andP=> /eqP hr /ih hl; rewrite !big_cons hl hr jsum_big; congr (_ + _).
  rewrite mulrC mulfVK ?pnatr_eq0 -?lt0n // [RHS](big_nth 0) hr /index_iota subn0 //.
by rewrite mulrC mulrA mulKf ?pnatr_eq0 -?lt0n.
Qed.

Lemma assign_ok runs vs : all (fun v : seq R => size v == runs) vs -> assign_columns runs vs = Some vs.
Proof. by elim: vs => [|v l ih] //= /andP [h /ih ->]; rewrite /assign_column h. Qed.

Lemma assign_bad runs vs v : v \in vs -> size v != runs -> size v != 1%N -> assign_columns (R := R) runs vs = None.
Proof.
move=> hv h1 h2; elim: vs hv => [|u l ih] //=; rewrite inE => /orP [/eqP <-|/ih ->]; last by case: assign_column.
by rewrite /assign_column (negbTE h1); case: v h2 {h1 ih} => [|x []].
Qed.

Lemma curve_ok runs (results : nat -> seq (seq R)) T : (0 < T)%N ->
  (forall N, (2 <= N < 16)%N -> size (results N) = runs /\ all (fun row => size row == T) (results N)) ->
  conv_curve runs results = Some [seq (N, pf_line (results N)) | N <- iota 2 14].
Proof.
move=> T0 h; rewrite /conv_curve /conv_vals assign_ok.
  rewrite /omap /obind /oapp -map_comp -[X in zip X _]map_id zip_map; congr Some; apply/eq_in_map => N.
  rewrite mem_iota => hN; have [_ h2] := h N hN; by rewrite /= /pf_line (mean_flatten T0 h2).
by apply/allP => v /mapP [N]; rewrite mem_iota => hN ->; rewrite size_map (h N hN).1.
Qed.

Lemma curve_bad runs (results : nat -> seq (seq R)) N : (2 <= N < 16)%N -> size (results N) != runs ->
  size (results N) != 1%N -> conv_curve runs results = None.
Proof.
move=> hN h1 h2; rewrite /conv_curve /conv_vals (@assign_bad _ _ [seq np_mean row | row <- results N]) ?size_map //.
by apply/mapP; exists N; rewrite ?mem_iota.
Qed.

Lemma std_ge0 s : 0 <= np_std s. Proof. exact: sqrtr_ge0. Qed.

Lemma band_pos (m s : R) : 0 <= m -> 0 <= s -> (0 < (band m s).1.2) = (4%:R * s ^+ 2 < m ^+ 2).
Proof.
move=> m0 s0; rewrite /= subr_gt0.
have -> : 4%:R * s ^+ 2 = (2%:R * s) ^+ 2 by ring.
by rewrite ltr_sqr ?nnegrE ?mulr_ge0 ?ler0n.
Qed.

Lemma std_sq s : np_std s ^+ 2 = np_mean [seq (x - np_mean s) ^+ 2 | x <- s].
Proof.
rewrite sqr_sqrtr // /np_mean mulr_ge0 ?invr_ge0 ?ler0n // jsum_big big_map sumr_ge0 // => x _; exact: sqr_ge0.
Qed.

Lemma one_bad n (m := (n.+2)%:R : R) : let s := 1 :: nseq n.+1 0 in
  np_mean s = m^-1 /\ np_std s ^+ 2 = m^-1 - m^-1 ^+ 2.
Proof.
have m0 : m != 0 by rewrite pnatr_eq0.
have sn (k : nat) (x : R) : \sum_(y <- nseq k x) y = k%:R * x.
  by elim: k => [|k ih]; rewrite ?big_nil ?mul0r //= big_cons ih -[k.+1]addn1 natrD mulrDl mul1r addrC.
have e : np_mean (1 :: nseq n.+1 0) = m^-1 :> R.
  by rewrite /np_mean jsum_big big_cons sn mulr0 addr0 mul1r /= size_nseq.
split=> //; rewrite std_sq e /np_mean jsum_big map_cons map_nseq big_cons sn -[size _]/(size (nseq n.+1 ((0 - m^-1) ^+ 2))).+1 size_nseq -/m.
have -> : n.+1%:R = m - 1 by rewrite /m -[n.+2]addn1 natrD addrK.
by field.
Qed.

Lemma time_curve_spec (dt : R) errs T : (1 < T)%N ->
  time_curve (linspace dt (dt * T%:R) T) errs T
  = [seq (dt * k.+1%:R, (\sum_(row <- errs) nth 0 row k) / (size errs)%:R) | k <- iota 0 T].
Proof.
move=> hT; rewrite /time_curve.
have -> : linspace dt (dt * T%:R) T = [seq nth 0 (linspace dt (dt * T%:R) T) k | k <- iota 0 T].
  have sl : size (linspace dt (dt * T%:R) T) = T by rewrite size_map size_iota.
  by rewrite -[LHS](mkseq_nth 0) /mkseq sl.
rewrite zip_map; apply/eq_in_map => k; rewrite mem_iota => /andP [_ hk].
by rewrite linspace_ts // /np_mean jsum_big size_map big_map.
Qed.

Lemma pf_line_spec errs T : (0 < T)%N -> all (fun row => size row == T) errs ->
  let m := (\sum_(row <- errs) \sum_(x <- row) x) / (size errs * T)%:R in
  let v := (\sum_(row <- errs) ((\sum_(x <- row) x) / T%:R - m) ^+ 2) / (size errs)%:R in
  pf_line errs = (m, m - 2%:R * Num.sqrt v, m + 2%:R * Num.sqrt v).
Proof.
move=> T0 h m v; rewrite /pf_line.
have em : np_mean (flatten errs) = m.
  rewrite /np_mean jsum_big /m; congr (_ / _%:R).
    by elim: errs {m v h} => [|r l ih] /=; rewrite ?big_nil // big_cat big_cons ih.
  by elim: errs h {m v} => [|r l ih] //=; rewrite size_cat => /andP [/eqP -> /ih ->]; rewrite mulSn.
rewrite em; suff -> : np_std [seq np_mean row | row <- errs] = Num.sqrt v by [].
rewrite /np_std -(mean_flatten T0 h) em; congr Num.sqrt; rewrite /np_mean jsum_big !big_map !size_map /v.
congr (_ / _); apply: eq_big_seq => row hr; by rewrite jsum_big (eqP (allP h _ hr)).
Qed.

Lemma nseq_stat n (x : R) : np_mean (nseq n.+1 x) = x /\ np_std (nseq n.+1 x) = 0.
Proof.
have sn (k : nat) (y : R) : \sum_(z <- nseq k y) z = k%:R * y.
  by elim: k => [|k ih]; rewrite ?big_nil ?mul0r //= big_cons ih -[k.+1]addn1 natrD mulrDl mul1r addrC.
have mn (y : R) : np_mean (nseq n.+1 y) = y by rewrite /np_mean jsum_big sn size_nseq mulrC mulKf // pnatr_eq0.
by split=> //; rewrite /np_std mn map_nseq mn subrr expr0n sqrtr0.
Qed.

(* runs of the wrong number one are repeated *)
Lemma curve_one runs (results : nat -> seq (seq R)) : (1 < runs)%N ->
  (forall N, (2 <= N < 16)%N -> size (results N) = 1%N) ->
  conv_curve runs results = Some [seq (N, let m := np_mean (head [::] (results N)) in (m, m, m)) | N <- iota 2 14].
Proof.
move=> r1 h; rewrite /conv_curve /conv_vals.
have -> : assign_columns runs [seq [seq np_mean row | row <- results N] | N <- iota 2 14] =
          Some [seq nseq runs (np_mean (head [::] (results N))) | N <- iota 2 14].
  have : all (fun N => size (results N) == 1%N) (iota 2 14).
    by apply/allP => N; rewrite mem_iota => /h ->.
  elim: (iota 2 14) => [|N l ih] //= /andP [/eqP hN /ih ->].
  case: (results N) hN => [|row []] //= _; by rewrite /assign_column /= ifN // eq_sym; lia.
rewrite /omap /obind /oapp -map_comp -[X in zip X _]map_id zip_map; congr Some; apply/eq_in_map => N _ /=.
case: runs r1 => [|n] // _; have [-> ->] := nseq_stat n (np_mean (head [::] (results N))).
by rewrite /band mulr0 subr0 addr0.
Qed.

Lemma violins_spec (dt : R) errs T : (1 < T)%N ->
  let ks := neg_slice 19 1 20 T in
  violins (linspace dt (dt * T%:R) T) errs T = [seq (dt * k.+1%:R, column errs k) | k <- ks]
  /\ forall k, (k \in ks) = [&& (19 <= k)%N, (k.+1 < T)%N & (20 %| k - 19)%N].
Proof.
move=> hT ks; split=> [|k]; last by rewrite mem_neg_slice // addn1.
rewrite /violins size_map size_iota zip_map; apply/eq_in_map => k; rewrite mem_neg_slice // addn1 => /and3P [_ hk _].
by rewrite linspace_ts // ltnW.
Qed.

(* the lower end of the band is below zero for one run with errors and n.+1 runs without *)
Lemma band_neg n : exists errs, [/\ size errs = n.+2, all (fun row => size row == 1%N) errs,
  all (fun row => all (fun x => 0 <= x) row) errs & (pf_line errs).1.2 < 0].
Proof.
exists ([:: 1] :: nseq n.+1 [:: 0]); split; rewrite /= ?size_nseq ?all_nseq /= ?ler01 ?lexx ?orbT //.
have sq x : np_mean [:: x] = x :> R by rewrite /np_mean /= addr0 divr1.
have -> : [:: 1 : R, 0 & flatten (nseq n [:: 0])] = 1 :: nseq n.+1 0 by congr [:: _, _ & _]; elim: n => //= n ->.
rewrite !sq map_nseq sq.
have [e1 e2] := one_bad n; rewrite -[[:: _, _ & _]]/(1 :: nseq n.+1 0) e1 subr_lt0.
set m := n.+2%:R in e1 e2 *.
have m0 : 0 < m by rewrite ltr0n.
rewrite -ltr_sqr ?nnegrE ?invr_ge0 ?mulr_ge0 ?ler0n ?std_ge0 //.
rewrite exprMn e2 -subr_gt0.
have -> : 2%:R ^+ 2 * (m^-1 - m^-1 ^+ 2) - m^-1 ^+ 2 = (4%:R * m - 5%:R) / m ^+ 2.
  by field; rewrite gt_eqF.
by rewrite divr_gt0 ?exprn_gt0 // subr_gt0 /m -natrM ltr_nat; lia.
Qed.
End Stat.
