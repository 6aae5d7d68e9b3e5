(* Proofs: moment conversions, conditional moments, Bell polynomials, cumulants. *)
From mathcomp Require Import all_ssreflect all_algebra.
From mathcomp Require Import ring zify.
From Verif Require Import Prelude Egf QuadSpec QuadProofs QuadMain.
From Verif Require Import Moments1DModel Moments1DSpec Moments1DProofs.
Set Implicit Arguments.
Unset Strict Implicit.
Unset Printing Implicit Defensive.
Import Order.TTheory GRing.Theory Num.Theory.
Local Open Scope ring_scope.

Section Lists.
Variable R : rcfType.

Lemma jsum_if (f : nat -> R) s n : (n < s)%N ->
  jsum [seq (if (j <= n)%N then f j else 0) | j <- iota 0 s] = \sum_(j < n.+1) f j.
Proof.
move=> h; rewrite jsum_iota (big_ord_widen _ f h) [RHS]big_mkcond /=.
by apply: eq_bigr => j _; rewrite ltnS.
Qed.

Lemma nth_jmul (a b : seq R) n : (n < size a)%N -> (n < size b)%N -> (jmul a b)`_n = a`_n * b`_n.
Proof.
move=> ha hb; rewrite /jmul (nth_map (0, 0)) ?size_zip ?leq_min ?ha ?hb // .
by rewrite nth_zip_cond size_zip leq_min ha hb.
Qed.
Lemma nth_jdiv (a b : seq R) n : (n < size a)%N -> (n < size b)%N -> (jdiv a b)`_n = a`_n / b`_n.
Proof.
move=> ha hb; rewrite /jdiv (nth_map (0, 0)) ?size_zip ?leq_min ?ha ?hb // .
by rewrite nth_zip_cond size_zip leq_min ha hb.
Qed.
Lemma size_jmul (a b : seq R) : size (jmul a b) = minn (size a) (size b).
Proof. by rewrite size_map size_zip. Qed.
Lemma size_jdiv (a b : seq R) : size (jdiv a b) = minn (size a) (size b).
Proof. by rewrite size_map size_zip. Qed.
Lemma nth_iota_map (f : nat -> R) N n : (n < N)%N -> [seq f i | i <- iota 0 N]`_n = f n.
Proof. by move=> h; rewrite (nth_map 0%N) ?size_iota // nth_iota. Qed.
End Lists.

(* ---------- C18, C19 ---------- *)
Section Conv.
Variable R : rcfType.
Implicit Types (rms cms sms : seq R) (mean scale : R).

Lemma size_raw_to_central rms : size (raw_to_central rms) = size rms.
Proof. by rewrite size_map size_iota. Qed.
Lemma size_central_to_raw cms mean : size (central_to_raw cms mean) = size cms.
Proof. by rewrite size_map size_iota. Qed.
Lemma size_raw_to_scaled rms s : size (raw_to_scaled rms s) = size rms.
Proof. by rewrite size_jdiv size_map !size_iota size_map size_iota minnn. Qed.
Lemma size_scaled_to_central sms s : size (scaled_to_central sms s) = size sms.
Proof. by rewrite size_jmul size_map size_iota minnn. Qed.

Lemma raw_to_centralE rms n : (n < size rms)%N ->
  (raw_to_central rms)`_n = central_moment (nth 0 rms) rms`_1 n.
Proof.
move=> h; rewrite nth_iota_map // (jsum_if (fun j => 'C(n, j)%:R * (-1) ^+ (n - j) * jget 0 rms j * jget 0 rms 1 ^+ (n - j))) //.
rewrite central_aff /aff convC /conv; apply: eq_bigr => k _.
have hk : (k <= n)%N by rewrite -ltnS.
rewrite jget_nth ?(leq_ltn_trans hk) // expr1n mul1r /cexp -[- rms`_1]mulN1r exprMn.
have -> : jget 0 rms 1 ^+ (n - k) = rms`_1 ^+ (n - k).
  case: (ltnP 1 (size rms)) => h1; first by rewrite jget_nth.
  by have -> : (n - k = 0)%N by lia.
by rewrite [_ * _ * rms`_k]mulrAC !mulrA.
Qed.

Lemma central_to_rawE cms mean n : (n < size cms)%N ->
  (central_to_raw cms mean)`_n = mom_functional (nth 0 cms) (('X + mean%:P) ^+ n).
Proof.
move=> h; rewrite nth_iota_map // (jsum_if (fun j => 'C(n, j)%:R * jget 0 cms j * mean ^+ (n - j))) //.
rewrite addrC -['X]scale1r mom_aff /aff convC /conv; apply: eq_bigr => k _.
have hk : (k <= n)%N by rewrite -ltnS.
by rewrite jget_nth ?(leq_ltn_trans hk) // expr1n mul1r.
Qed.

Lemma central_to_raw_aff cms mean n : (n < size cms)%N ->
  (central_to_raw cms mean)`_n = aff (nth 0 cms) mean 1 n.
Proof. by move=> h; rewrite central_to_rawE // -mom_aff scale1r addrC. Qed.

Lemma raw_central_raw rms : central_to_raw (raw_to_central rms) rms`_1 = rms.
Proof.
apply: (@eq_from_nth _ 0) => [|n]; rewrite size_central_to_raw size_raw_to_central // => h.
rewrite central_to_raw_aff ?size_raw_to_central //.
rewrite (@aff_ext _ _ (aff (nth 0 rms) (- rms`_1) 1)); last first.
  by move=> k hk; rewrite raw_to_centralE ?central_aff // (leq_ltn_trans hk).
by rewrite aff_aff mul1r mulr1 addrC addNr aff_id.
Qed.

Lemma central_raw_central cms mean : cms`_0 = 1 -> cms`_1 = 0 ->
  raw_to_central (central_to_raw cms mean) = cms.
Proof.
move=> h0 h1; apply: (@eq_from_nth _ 0) => [|n]; rewrite size_raw_to_central size_central_to_raw // => h.
case: (ltnP 1 (size cms)) => hs; last first.
  have ? : n = 0%N by lia. subst n.
  rewrite raw_to_centralE ?size_central_to_raw // central_aff /aff /conv big_ord1 /cexp !expr0 !mul1r.
  by rewrite central_to_raw_aff // /aff /conv big_ord1 /cexp !expr0 !mul1r.
have hm : (central_to_raw cms mean)`_1 = mean.
  rewrite central_to_raw_aff // /aff /conv big_ord_recr big_ord1 /= /cexp h0 h1.
  by rewrite !expr0 !expr1 !mulr0 !mulr1 !mul1r add0r.
rewrite raw_to_centralE ?size_central_to_raw // hm central_aff.
rewrite (@aff_ext _ _ (aff (nth 0 cms) mean 1)); last first.
  by move=> k hk; rewrite central_to_raw_aff // (leq_ltn_trans hk).
by rewrite aff_aff mul1r mulr1 addNr aff_id.
Qed.

Lemma central_discrete (ws xs : seq R) c n :
  central_moment (discrete_moment ws xs) c n = \sum_(q <- zip ws xs) q.1 * (q.2 - c) ^+ n.
Proof.
rewrite /central_moment mom_discrete; apply: eq_bigr => q _.
by rewrite horner_exp !hornerE.
Qed.

Lemma central_ext (m m' : nat -> R) c n : (forall k, (k <= n)%N -> m k = m' k) ->
  central_moment m c n = central_moment m' c n.
Proof. by move=> h; rewrite !central_aff; apply: aff_ext. Qed.

Lemma raw_to_central_discrete rms (ws xs : seq R) :
  (forall k, (k < size rms)%N -> rms`_k = discrete_moment ws xs k) ->
  forall n, (n < size rms)%N ->
  (raw_to_central rms)`_n = \sum_(q <- zip ws xs) q.1 * (q.2 - rms`_1) ^+ n.
Proof.
move=> h n hn; rewrite raw_to_centralE // -central_discrete.
by apply: central_ext => k hk; rewrite h // (leq_ltn_trans hk).
Qed.

Lemma central_to_raw_discrete cms mean (ws xs : seq R) :
  (forall k, (k < size cms)%N -> cms`_k = \sum_(q <- zip ws xs) q.1 * (q.2 - mean) ^+ k) ->
  forall n, (n < size cms)%N -> (central_to_raw cms mean)`_n = discrete_moment ws xs n.
Proof.
move=> h n hn; rewrite central_to_raw_aff //.
rewrite (@aff_ext _ _ (aff (discrete_moment ws xs) (- mean) 1)).
  by rewrite aff_aff mul1r mulr1 addrC addNr aff_id.
by move=> k hk; rewrite h ?(leq_ltn_trans hk) // -central_aff central_discrete.
Qed.

Definition scale_of rms (scale : option R) : R :=
  if scale is Some s then s else Num.sqrt (rms`_2 - rms`_1 ^+ 2).

Lemma raw_to_scaledE rms s n : (n < size rms)%N ->
  (raw_to_scaled rms (Some s))`_n = scaled_moment (nth 0 rms) rms`_1 s n.
Proof.
move=> h; rewrite /raw_to_scaled nth_jdiv ?size_raw_to_central ?size_map ?size_iota //.
by rewrite raw_to_centralE // nth_iota_map // scaled_central.
Qed.

Lemma raw_to_scaled_default rms : (2 < size rms)%N ->
  raw_to_scaled rms None = raw_to_scaled rms (Some (Num.sqrt (rms`_2 - rms`_1 ^+ 2))).
Proof. by move=> h; rewrite /raw_to_scaled !jget_nth //; apply: ltn_trans h. Qed.

Lemma central0 (m : nat -> R) c : central_moment m c 0 = m 0%N.
Proof. by rewrite central_aff /aff /conv big_ord1 /cexp !expr0 !mul1r. Qed.
Lemma central1 (m : nat -> R) c : central_moment m c 1 = m 1%N - c * m 0%N.
Proof.
by rewrite central_aff /aff /conv big_ord_recr big_ord1 /= /cexp !expr0 !expr1 !mul1r mulNr addrC.
Qed.
Lemma central2 (m : nat -> R) c : central_moment m c 2 = m 2%N - 2%:R * c * m 1%N + c ^+ 2 * m 0%N.
Proof.
rewrite central_aff /aff /conv !big_ord_recr big_ord0 /= /cexp !expr1n !mul1r.
by rewrite bin1 subn0 subnn subn1 /= !expr1; move: (m 2%N) (m 1%N) (m 0%N) => x y z; ring.
Qed.

Lemma raw_to_scaled_normalised rms : (2 < size rms)%N -> rms`_0 = 1 ->
  0 < rms`_2 - rms`_1 ^+ 2 ->
  [/\ (raw_to_scaled rms None)`_0 = 1, (raw_to_scaled rms None)`_1 = 0
    & (raw_to_scaled rms None)`_2 = 1].
Proof.
move=> h h0 hv; have h1 : (1 < size rms)%N by apply: ltn_trans h.
have h2 : (0 < size rms)%N by apply: ltn_trans h1.
rewrite raw_to_scaled_default // !raw_to_scaledE // !scaled_central.
rewrite central0 central1 central2 h0 expr0 divr1 mulr1 subrr mul0r; split=> //.
rewrite sqr_sqrtr ?ltW //.
have -> : rms`_2 - 2%:R * rms`_1 * rms`_1 + rms`_1 ^+ 2 * 1 = rms`_2 - rms`_1 ^+ 2 by ring.
by rewrite divff // gt_eqF.
Qed.

Lemma scaled_to_centralE sms s n : (n < size sms)%N -> (scaled_to_central sms s)`_n = sms`_n * s ^+ n.
Proof. by move=> h; rewrite nth_jmul ?size_map ?size_iota // nth_iota_map. Qed.

Lemma scaled_to_central_inverse rms s : s != 0 ->
  scaled_to_central (raw_to_scaled rms (Some s)) s = raw_to_central rms.
Proof.
move=> s0; apply: (@eq_from_nth _ 0) => [|n].
  by rewrite size_scaled_to_central size_raw_to_scaled size_raw_to_central.
rewrite size_scaled_to_central size_raw_to_scaled => h.
rewrite scaled_to_centralE ?size_raw_to_scaled // raw_to_scaledE // scaled_central.
by rewrite divfK ?expf_neq0 // raw_to_centralE.
Qed.
End Conv.

(* ---------- C20 ---------- *)
Section Cond.
Variable R : rcfType.

Lemma normal_cond_rawE (mv : R -> R * R) N x n : (n < 2 * N)%N -> 0 <= (mv x).2 ->
  normal_cond_raw mv N x n = gauss_moment (mv x).1 (mv x).2 n.
Proof.
rewrite /normal_cond_raw; case: (mv x) => m v /= h hv.
rewrite jget_nth ?size_map ?size_iota // nth_iota_map //.
by apply: gaussian_unique; apply: raw_normal_gauss.
Qed.

Lemma normal_cond_centralE (mv : R -> R * R) N x n c : (n < 2 * N)%N -> 0 <= (mv x).2 ->
  normal_cond_central mv N x n c = central_moment (gauss_moment (mv x).1 (mv x).2) c n.
Proof.
rewrite /normal_cond_central; case: (mv x) => m v /= h hv.
by rewrite jget_nth ?size_map ?size_iota // nth_iota_map // normal_central.
Qed.

Lemma prod_scale (s : R) n : jprod [seq s ^+ i | i <- iota 0 n] = s ^+ 'C(n, 2).
Proof.
rewrite jprod_iota; elim: n => [|n IH]; first by rewrite big_ord0 expr0.
by rewrite big_ord_recr /= IH -exprD binS bin1.
Qed.

Lemma normal_cond_scaledE (mv : R -> R * R) N x n c s : (n < 2 * N)%N -> 0 <= (mv x).2 ->
  normal_cond_scaled mv N x n c s =
  central_moment (gauss_moment (mv x).1 (mv x).2) c n / s ^+ 'C(2 * N, 2).
Proof.
move=> h hv; rewrite -(normal_cond_centralE c h hv).
by rewrite /normal_cond_scaled /normal_cond_central; case: (mv x) => m v; rewrite prod_scale.
Qed.

Lemma euler_rawE drift dispersion (dt : R) N x n : 0 <= dt -> (n < 2 * N)%N ->
  euler_cond_raw drift dispersion dt N x n =
  gauss_moment (x + drift x * dt) (dispersion x ^+ 2 * dt) n.
Proof. by move=> hd h; rewrite /euler_cond_raw normal_cond_rawE //= mulr_ge0 ?sqr_ge0. Qed.

Lemma euler_centralE drift dispersion (dt : R) N x n c : 0 <= dt -> (n < 2 * N)%N ->
  euler_cond_central drift dispersion dt N x n c =
  central_moment (gauss_moment (x + drift x * dt) (dispersion x ^+ 2 * dt)) c n.
Proof. by move=> hd h; rewrite /euler_cond_central normal_cond_centralE //= mulr_ge0 ?sqr_ge0. Qed.

Lemma euler_scaledE drift dispersion (dt : R) N x n c s : 0 <= dt -> (n < 2 * N)%N ->
  euler_cond_scaled drift dispersion dt N x n c s =
  central_moment (gauss_moment (x + drift x * dt) (dispersion x ^+ 2 * dt)) c n / s ^+ 'C(2 * N, 2).
Proof. by move=> hd h; rewrite /euler_cond_scaled normal_cond_scaledE //= mulr_ge0 ?sqr_ge0. Qed.

(* order zero is never one for a scale above one *)
Lemma euler_scaled_wrong drift dispersion (dt : R) N x c s : 0 <= dt -> (0 < N)%N -> 1 < s ->
  euler_cond_scaled drift dispersion dt N x 0 c s
  != scaled_moment (gauss_moment (x + drift x * dt) (dispersion x ^+ 2 * dt)) c s 0.
Proof.
move=> hd hN hs; rewrite euler_scaledE ?muln_gt0 // scaled_central !central0 expr0 divr1 mul1r.
rewrite [gauss_moment _ _ _]/(1 : R) invr_eq1 pexprn_eq1; last exact: le_trans ler01 (ltW hs).
by rewrite negb_or -lt0n bin_gt0 leq_pmulr // gt_eqF.
Qed.

(* TME with a linear expectation *)
Lemma tme_centralE (E : (R -> R) -> R -> R) (x : R) (L : {linear {poly R} -> R^o}) c n :
  (forall p : {poly R}, E (fun u => p.[u]) x = L p) ->
  (forall f g : R -> R, f =1 g -> E f x = E g x) ->
  tme_cond_central E x n c = central_moment (tme_cond_raw E x) c n.
Proof.
move=> hL hE; have -> : tme_cond_central E x n c = L (('X - c%:P) ^+ n).
  by rewrite -hL; apply: hE => u; rewrite horner_exp !hornerE.
rewrite /central_moment /mom_functional.
set p := ('X - c%:P) ^+ n; rewrite -[p in LHS]coefK poly_def linear_sum.
apply: eq_bigr => k _; rewrite linearZ -hL; congr (_ * _).
by apply: hE => u; rewrite hornerXn.
Qed.

Lemma tme_scaledE (E : (R -> R) -> R -> R) (x : R) (L : {linear {poly R} -> R^o}) c s n :
  (forall p : {poly R}, E (fun u => p.[u]) x = L p) ->
  (forall f g : R -> R, f =1 g -> E f x = E g x) ->
  tme_cond_scaled E x n c s = scaled_moment (tme_cond_raw E x) c s n.
Proof.
move=> hL hE; rewrite scaled_central -(tme_centralE _ _ hL hE).
have -> : tme_cond_scaled E x n c s = L ((s^-1 *: ('X - c%:P)) ^+ n).
  by rewrite -hL; apply: hE => u; rewrite horner_exp !hornerE mulrC.
rewrite exprZn linearZ /= -hL exprVn [RHS]mulrC; congr (_ * _).
by apply: hE => u; rewrite horner_exp !hornerE.
Qed.
End Cond.
