(* Proofs: Bell polynomials (C22), cumulants (C21), Gaussian sums in 1-D (C37). *)
From mathcomp Require Import all_ssreflect all_algebra.
From mathcomp Require Import ring zify.
From Verif Require Import Prelude Egf QuadSpec QuadProofs QuadMain.
From Verif Require Import Moments1DModel Moments1DSpec Moments1DProofs Moments1DConv.
Set Implicit Arguments.
Unset Strict Implicit.
Unset Printing Implicit Defensive.
Import Order.TTheory GRing.Theory Num.Theory.
Local Open Scope ring_scope.

Section Bell.
Variable R : rcfType.
Implicit Types (xs : seq R) (x : nat -> R).

(* x_0 = 0, x_j = xs[j-1] *)
Definition bseq xs (j : nat) : R := if j == 0%N then 0 else xs`_j.-1.

Lemma jsum_iota1 (f : nat -> R) n : jsum [seq f i | i <- iota 1 n] = \sum_(i < n) f i.+1.
Proof. by rewrite -(jsum_iota (fun i => f i.+1)) (iotaDl 1 0 n) -map_comp. Qed.

Lemma partial_bellE xs n k : (n.+1 - k <= size xs)%N ->
  partial_bell n k xs = cpow (bseq xs) k n / (k`!)%:R.
Proof.
elim: k n => [|k IH] n hs /=.
  by rewrite /del fact0 divr1; case: eqP.
case: n hs => [|n] hs; first by rewrite -/(cpow (bseq xs) k.+1) cpow_small // mul0r.
rewrite jsum_iota1 -/(cpow (bseq xs) k.+1) -[cpow _ _ n.+1]/(shift (cpow (bseq xs) k.+1) n).
rewrite shift_cpow factS natrM -mulf_div divff ?pnatr_eq0 // mul1r convC /conv.
have hle : (n.+2 - k.+1 <= n.+1)%N by lia.
rewrite (big_ord_widen _ (fun i => 'C(n.+1.-1, i.+1.-1)%:R * jget 0 xs i.+1.-1 * partial_bell (n.+1 - i.+1)%N k xs) hle).
rewrite big_mkcond mulr_suml; apply: eq_bigr => i _ /=.
case: ifP => hi; last by rewrite cpow_small ?mulr0 ?mul0r //; move/negbT: hi; have := ltn_ord i; lia.
rewrite jget_nth; last by lia.
by rewrite IH ?mulrA // subSS; lia.
Qed.

Lemma bseq_egf xs N n k : (n <= N)%N ->
  cpow (bseq xs) k n = (n`!)%:R * (bell_series (fun j => xs`_j.-1) N ^+ k)`_n.
Proof.
move=> h; rewrite (@egf_cpow _ _ _ N.+1) //; congr (_ * _).
suff -> : egf (bseq xs) N.+1 = bell_series (fun j => xs`_j.-1) N by [].
apply/polyP => i; rewrite !coef_poly; case: ifP => // _; rewrite /bseq; case: eqP => // _.
by rewrite mul0r.
Qed.

Lemma partial_bell_coef xs n k : (n.+1 - k <= size xs)%N ->
  partial_bell n k xs = (n`!)%:R / (k`!)%:R * (bell_series (fun j => xs`_j.-1) n ^+ k)`_n.
Proof. by move=> h; rewrite partial_bellE // (bseq_egf _ _ (leqnn n)) mulrAC. Qed.

Lemma complete_bellE xs n : (n <= size xs)%N ->
  complete_bell n xs = \sum_(k < n.+1) cpow (bseq xs) k n / (k`!)%:R.
Proof.
rewrite /complete_bell; case: eqP => [->|h] hs.
  by rewrite big_ord1 /= /del fact0 divr1.
rewrite big_ord_recl /= /del (introF eqP h) mul0r add0r jsum_iota1.
by apply: eq_bigr => i _; rewrite /bump add1n partial_bellE //; lia.
Qed.

(* any N >= n will do *)
Lemma complete_bell_wide xs n N : (n <= size xs)%N -> (n <= N)%N ->
  complete_bell n xs = \sum_(k < N.+1) cpow (bseq xs) k n / (k`!)%:R.
Proof.
move=> hs hN; rewrite complete_bellE // (big_ord_widen N.+1 (fun k => cpow (bseq xs) k n / (k`!)%:R)) //.
rewrite big_mkcond; apply: eq_bigr => k _; case: ifP => // hk.
by rewrite cpow_small ?mul0r //; move/negbT: hk; lia.
Qed.

Lemma complete_bell_rec xs n : (n < size xs)%N ->
  complete_bell n.+1 xs = \sum_(i < n.+1) 'C(n, i)%:R * complete_bell (n - i)%N xs * xs`_i.
Proof.
move=> hs; rewrite (complete_bellE hs) big_ord_recl [cpow _ _ _]/(del _ _) /del mul0r add0r.
under eq_bigr do rewrite lift0 -/(shift (cpow (bseq xs) _.+1) n) shift_cpow factS natrM
  -mulf_div divff ?pnatr_eq0 // mul1r mulrC -convZl.
rewrite -conv_suml.
rewrite (eq_conv (a' := fun k => complete_bell k xs) (b' := shift (bseq xs))) //; last first.
  move=> k hk; rewrite (@complete_bell_wide _ _ n) //; last by lia.
  by apply: eq_bigr => i _; rewrite mulrC.
rewrite convC /conv; apply: eq_bigr => i _; rewrite /shift /bseq /=.
by rewrite mulrAC.
Qed.

Lemma complete_bell_sum xs n : complete_bell n xs = \sum_(k < n.+1) partial_bell n k xs.
Proof.
rewrite /complete_bell; case: eqP => [->|h]; first by rewrite big_ord1.
rewrite big_ord_recl [partial_bell _ _ _]/= (introF eqP h) add0r jsum_iota1.
by apply: eq_bigr => i _; rewrite lift0.
Qed.

End Bell.

(* ---------- cumulants ---------- *)
Section Cumulants.
Variable R : rcfType.
Implicit Types (m : nat -> R).

(* log(1 + x), order by order *)
Definition clog (x : nat -> R) (n : nat) : R :=
  \sum_(k < n) (-1) ^+ k * (k`!)%:R * (cpow x k.+1 n / (k.+1`!)%:R).

Lemma clog_wide x n N : x 0%N = 0 -> (n <= N)%N ->
  clog x n = \sum_(k < N) (-1) ^+ k / k.+1%:R * cpow x k.+1 n.
Proof.
move=> x0 h; rewrite /clog (big_ord_widen N (fun k => (-1) ^+ k * (k`!)%:R * (cpow x k.+1 n / (k.+1`!)%:R))) //.
rewrite big_mkcond; apply: eq_bigr => k _; case: ifP => hk.
  rewrite factS natrM; have := @fact_neq0 R k => h1.
  have h2 : k.+1%:R != 0 :> R by rewrite pnatr_eq0.
  move: h1 h2; move: (cpow x k.+1 n) ((-1) ^+ k : R) (k`!%:R : R) (k.+1%:R : R) => u w f g h1 h2.
  by field; rewrite h1 h2.
by rewrite cpow_small ?mulr0 //; move/negbT: hk; lia.
Qed.

(* K' (1 + x) = x' *)
Lemma clog_diff x n : x 0%N = 0 ->
  conv (shift (clog x)) (fun j => del _ j + x j) n = shift x n.
Proof.
move=> x0.
have hK j : (j <= n)%N -> shift (clog x) j = \sum_(k < n.+1) (-1) ^+ k * conv (cpow x k) (shift x) j.
  move=> hj; rewrite {1}/shift (@clog_wide _ _ n.+1) //; apply: eq_bigr => k _.
  rewrite -/(shift (cpow x k.+1) j) shift_cpow mulrA; congr (_ * _).
  by rewrite divfK // pnatr_eq0.
rewrite (eq_conv (a' := fun j => \sum_(k < n.+1) (-1) ^+ k * conv (cpow x k) (shift x) j) (b' := fun j => del _ j + x j)) //.
rewrite convDr conv1r.
rewrite [X in _ + X](_ : _ = - \sum_(k < n.+1) (-1) ^+ k.+1 * conv (cpow x k.+1) (shift x) n); last first.
  rewrite conv_suml -sumrN; apply: eq_bigr => k _; rewrite convZl exprS mulN1r mulNr opprK.
  congr (_ * _); rewrite -convA (eq_conv (a' := cpow x k) (b' := conv x (shift x))) //.
    by rewrite convA.
  by move=> j _; rewrite convC.
rewrite big_ord_recl [X in _ - X]big_ord_recr /= expr0 mul1r.
rewrite conv1l.
rewrite [X in _ - (_ + X)](_ : _ = 0); last first.
  rewrite {1}/conv big1 ?mulr0 // => i _.
  by rewrite [conv _ _ i](@cpow_small _ x n.+1 i x0 (ltn_ord i)) mulr0 mul0r.
by rewrite addr0 -addrA -sumrB big1 ?addr0 // => i _; rewrite /bump add1n subrr.
Qed.

Lemma nth_cumulants (sms : seq R) mean scale j : (j < (size sms).-1)%N ->
  (sms_to_cumulants sms mean scale)`_j = nth_cumulant sms mean scale j.+1.
Proof.
by move=> h; rewrite /sms_to_cumulants (nth_map 0%N) ?size_iota // nth_iota.
Qed.

Lemma nth_cumulantE (sms : seq R) mean scale n : (1 < n)%N -> (n < size sms)%N ->
  nth_cumulant sms mean scale n = clog (bseq (behead (scaled_to_central sms scale))) n.
Proof.
move=> h1 h2; rewrite /nth_cumulant gtn_eqF // jsum_iota1 /clog; apply: eq_bigr => k _.
by rewrite partial_bellE // size_behead size_scaled_to_central; lia.
Qed.

Lemma clog1 (x : nat -> R) : clog x 1 = x 1%N.
Proof. by rewrite /clog big_ord1 expr0 fact0 !mul1r divr1 /= conv1l. Qed.

Lemma bseq_behead (c : seq R) j : c`_0 = 1 -> del R j + bseq (behead c) j = c`_j.
Proof.
by rewrite /del /bseq => h; case: j => [|j] /=; rewrite ?addr0 ?add0r ?h ?nth_behead.
Qed.

Lemma cumulants_raw (rms : seq R) : rms`_0 = 1 ->
  is_cumulants (nth 0 rms) (fun j => (sms_to_cumulants rms 0 1)`_j.-1) (size rms).-1.
Proof.
move=> h0 n hn; have hn' : (n.+1 < size rms)%N by lia.
pose c := scaled_to_central rms 1.
have hc j : (j < size rms)%N -> c`_j = rms`_j.
  by move=> hj; rewrite scaled_to_centralE // expr1n mulr1.
have c0 : c`_0 = 1 by rewrite hc ?h0 //; lia.
have := @clog_diff (bseq (behead c)) n erefl; rewrite /shift.
have -> : bseq (behead c) n.+1 = rms`_n.+1 by rewrite /bseq /= nth_behead hc.
move=> <-; apply: eq_bigr => j _.
have hj : (j <= n)%N by rewrite -ltnS.
rewrite bseq_behead // hc; last by lia.
congr (_ * _ * _); rewrite nth_cumulants; last by lia.
case: (j : nat) hj => [|j'] hj.
  rewrite clog1 /bseq /= nth_behead hc; last by lia.
  by rewrite /nth_cumulant /= eqxx jget_nth //; lia.
by rewrite nth_cumulantE //; lia.
Qed.

Lemma cumulants_scaled (sms : seq R) mean scale : sms`_0 = 1 -> sms`_1 = 0 ->
  is_cumulants (fun n => mom_functional (nth 0 sms) ((mean%:P + scale *: 'X) ^+ n))
    (fun j => (sms_to_cumulants sms mean scale)`_j.-1) (size sms).-1.
Proof.
move=> h0 h1 n hn; have hn' : (n.+1 < size sms)%N by lia.
pose c := scaled_to_central sms scale.
have hc j : (j < size sms)%N -> c`_j = scale ^+ j * sms`_j.
  by move=> hj; rewrite scaled_to_centralE // mulrC.
have c0 : c`_0 = 1 by rewrite hc ?h0 ?expr0 ?mulr1 //; lia.
have c1 : c`_1 = 0 by rewrite hc ?h1 ?mulr0 //; lia.
pose m := conv (cexp mean) (nth 0 c).
have hm k : (k < size sms)%N -> mom_functional (nth 0 sms) ((mean%:P + scale *: 'X) ^+ k) = m k.
  by move=> hk; rewrite mom_aff /aff; apply: eq_conv => // i hi; rewrite hc // (leq_ltn_trans hi).
pose K := clog (bseq (behead c)).
have hK i : conv (shift K) (nth 0 c) i = shift (nth 0 c) i.
  have := @clog_diff (bseq (behead c)) i erefl; rewrite -/K.
  rewrite (eq_conv (a' := shift K) (b' := nth 0 c)) // => [->|k _]; last exact: bseq_behead.
  by rewrite /shift /bseq /= nth_behead.
have key : shift m n = mean * m n + conv (shift K) m n.
  rewrite /m shift_conv (eq_conv (a' := fun k => mean * cexp mean k) (b' := nth 0 c)) //; last first.
    by move=> k _; rewrite shift_cexp.
  rewrite convZl; congr (_ + _).
  rewrite (eq_conv (a' := cexp mean) (b' := conv (shift K) (nth 0 c))) // convA [RHS]convA.
  by apply: eq_conv => // k _; rewrite convC.
rewrite hm // -/(shift m n) key -[X in mean * X]conv1l -convZl -convDl.
apply: eq_bigr => j _; have hj : (j <= n)%N by rewrite -ltnS.
rewrite hm; last by lia.
congr (_ * _ * _); rewrite nth_cumulants; last by lia.
case: (j : nat) hj => [|j'] hj.
  rewrite /del mulr1 /shift /K clog1 /bseq /= nth_behead c1 addr0 /nth_cumulant /=.
  by case: eqP => [->|//]; rewrite jget_nth ?h1 //; lia.
by rewrite /del mulr0 add0r nth_cumulantE //; lia.
Qed.

Lemma bell_of_cumulants m (ks : seq R) : m 0%N = 1 ->
  is_cumulants m (fun j => ks`_j.-1) (size ks) ->
  forall n, (n <= size ks)%N -> complete_bell n ks = m n.
Proof.
move=> m0 hk; elim/ltn_ind => [[|n]] IH hn; first by rewrite m0.
rewrite complete_bell_rec // hk //; apply: eq_bigr => j _.
rewrite IH ?ltnS ?leq_subr //; last by lia.
by rewrite mulrAC.
Qed.

Lemma cumulants_unique m (k k' : nat -> R) N : m 0%N = 1 ->
  is_cumulants m k N -> is_cumulants m k' N -> forall n, (0 < n <= N)%N -> k n = k' n.
Proof.
move=> m0 hk hk'; elim/ltn_ind => [[|n]] IH // hn.
have /eqP := hk n hn; rewrite hk' // !big_ord_recr /= subnn m0 !mulr1 binn !mul1r.
rewrite (eq_bigr (fun j : 'I_n => 'C(n, j)%:R * k j.+1 * m (n - j)%N)).
  by rewrite (inj_eq (addrI _)) => /eqP ->.
by move=> j _; rewrite IH //; have := ltn_ord j; lia.
Qed.
End Cumulants.

(* ---------- Gaussian sums ---------- *)
Section GSum.
Variable R : rcfType.
Variables (means variances weights : seq R).
Hypothesis vpos : all (fun v => 0 <= v) variances.
Let T := zip (zip means variances) weights.

Definition gsum_moment (p : nat) : R :=
  \sum_(t <- zip (zip means variances) weights) gauss_moment t.1.1 t.1.2 p * t.2.

Lemma T_pos t : t \in T -> 0 <= t.1.2.
Proof.
move/allP: vpos => h; rewrite /T; elim: means variances weights h => [|m ms IH] [|v vs] [|w ws] //= h.
rewrite inE => /orP [/eqP -> /=|]; first by apply: h; rewrite mem_head.
by apply: IH => x hx; apply: h; rewrite inE hx orbT.
Qed.

Lemma mom_lin (I : eqType) (r : seq I) (f : I -> nat -> R) (g : I -> R) p :
  mom_functional (fun k => \sum_(t <- r) f t k * g t) p = \sum_(t <- r) mom_functional (f t) p * g t.
Proof.
rewrite /mom_functional; under [LHS]eq_bigr do rewrite mulr_sumr.
rewrite exchange_big /=; apply: eq_bigr => t _; rewrite mulr_suml.
by apply: eq_bigr => k _; rewrite mulrA.
Qed.

Variable N : nat.
Let g := gaussian_sum1d_new means variances weights N.

Lemma gs_rmsE p : (p < 2 * N)%N -> (gs_rms g)`_p = gsum_moment p.
Proof.
move=> h; rewrite /= nth_iota_map // jsumE big_map; apply: eq_big_seq => t ht.
by rewrite (gaussian_unique (raw_normal_gauss _ (T_pos ht))).
Qed.

Lemma gs_cmsE p : (p < 2 * N)%N -> (gs_cms g)`_p = central_moment gsum_moment (gs_mean g) p.
Proof.
move=> h; rewrite /= nth_iota_map // jsumE big_map /central_moment mom_lin; apply: eq_big_seq => t ht.
by rewrite normal_central ?(T_pos ht).
Qed.

Hypothesis sizes : size means = size variances /\ size weights = size means.

Lemma gs_meanE : gs_mean g = gsum_moment 1.
Proof.
rewrite /= jsumE big_map /gsum_moment; case: sizes => h1 h2.
have -> : zip means weights = [seq (t.1.1, t.2) | t <- zip (zip means variances) weights].
  elim: means variances weights h1 h2 => [|m ms IH] [|v vs] [|w ws] //= [h1] [h2].
  by rewrite (IH vs ws).
by rewrite big_map; apply: eq_bigr.
Qed.

Hypothesis wsum : jsum weights = 1.
Hypothesis N1 : (0 < N)%N.

Lemma gs_rms0 : gsum_moment 0 = 1.
Proof.
rewrite /gsum_moment -wsum jsumE; case: sizes => h1 h2.
have {2}-> : weights = [seq t.2 | t <- zip (zip means variances) weights].
  by rewrite -/(unzip2 _) unzip2_zip // size_zip h2 h1 minnn.
rewrite big_map; apply: eq_bigr => t _; rewrite /gauss_moment /=.
by rewrite mul1r.
Qed.

Lemma gs_cms_conv : gs_cms g = raw_to_central (gs_rms g).
Proof.
have hs : size (gs_rms g) = (2 * N)%N by rewrite /= size_map size_iota.
apply: (@eq_from_nth _ 0) => [|n]; first by rewrite size_raw_to_central hs /= size_map size_iota.
rewrite [size _](_ : _ = (2 * N)%N); last by rewrite /= size_map size_iota.
move=> hn; rewrite gs_cmsE // raw_to_centralE ?hs // gs_rmsE -?gs_meanE; last by lia.
by apply: central_ext => k hk; rewrite gs_rmsE // (leq_ltn_trans hk).
Qed.

Lemma gs_variance_cms : (1 < N)%N -> gs_variance g = (gs_cms g)`_2.
Proof. by move=> h; rewrite /= jget_nth // size_map size_iota; lia. Qed.

Lemma gs_varianceE : (1 < N)%N ->
  gs_variance g = \sum_(t <- zip (zip means variances) weights) t.2 * (t.1.2 + t.1.1 ^+ 2) - (gs_mean g) ^+ 2.
Proof.
move=> h; rewrite gs_variance_cms // gs_cmsE; last by lia.
rewrite central2 gs_rms0 -gs_meanE mulr1 -mulrA -expr2.
have -> : gsum_moment 2 = \sum_(t <- zip (zip means variances) weights) t.2 * (t.1.2 + t.1.1 ^+ 2).
  by apply: eq_bigr => t _; rewrite /gauss_moment /=; ring.
by move: (gs_mean g) => x; ring.
Qed.

Lemma gs_scms_conv : (1 < N)%N -> gs_scms g = raw_to_scaled (gs_rms g) None.
Proof.
move=> h; have hs : size (gs_rms g) = (2 * N)%N by rewrite /= size_map size_iota.
rewrite raw_to_scaled_default ?hs; last by lia.
rewrite /raw_to_scaled -gs_cms_conv hs -[gs_scms g]/(jdiv (gs_cms g) [seq Num.sqrt (gs_variance g) ^+ n | n <- iota 0 (2 * N)]).
congr (jdiv _ _); apply: eq_map => n; congr (Num.sqrt _ ^+ _).
rewrite gs_variance_cms // gs_cmsE; last by lia.
rewrite !gs_rmsE; try lia.
by rewrite central2 gs_rms0 -gs_meanE; move: (gs_mean g) (gsum_moment 2) => x y; ring.
Qed.

(* with N = 1 the array has no order-2 entry and the gather is clamped to order 1 *)
Lemma gs_variance_N1 : N = 1%N -> gs_variance g = 0.
Proof.
move=> h; have -> : gs_variance g = (gs_cms g)`_1.
  by rewrite /= /jget size_map size_iota h.
by rewrite gs_cmsE ?h // central1 gs_rms0 -gs_meanE mulr1 subrr.
Qed.
End GSum.
