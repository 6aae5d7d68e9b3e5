(* Properties C124-C126: what the models compute from moments of normal laws are integrals over the real line, the
   Kalman recursion is the Bayesian filter, and the Gaussian characteristic function is the one of its law. *)
From Coq Require Import Reals.
From mathcomp Require Import all_ssreflect all_algebra ring complex.
From Verif Require Import Prelude LinAlgSpec LdlProofs SpectralProofs QuadSpec QuadModel QuadProofs QuadProps Moments1DModel Moments1DSpec Moments1DConv.
From Verif Require Import Moments1DProofs Moments1DProps Filter1DProofs PdfModel PdfProps GramCharlier.
From Verif Require Import SsModel SsProofs ConvModel ConvFilter ConvProofs ConvProps DardelModel.
From Verif Require Import LawSpec LawProps RealField RealWitness RealGauss RealNormal RealBayes RealChar.
Set Implicit Arguments.
Unset Strict Implicit.
Unset Printing Implicit Defensive.
Import Order.TTheory GRing.Theory Num.Theory.
Local Open Scope ring_scope.
Arguments line_integral _ _ : clear scopes.
Local Notation K := R_rcfType.
Local Notation rexp := (Rtrigo_def.exp : K -> K).
Local Notation rln := (Rpower.ln : K -> K).
Local Notation rcos := (Rtrigo_def.cos : K -> K).
Local Notation rsin := (Rtrigo_def.sin : K -> K).
Local Notation pi := (PI : K).

(* C124: the density of N(m, v) integrates to one and its law has every polynomial, every bounded continuous function
   and the indicators of half lines integrable *)
Theorem normal_density_is_law (m v : K) : 0 < v ->
  [/\ line_integral (normal_density m v) 1, forall x, 0 < normal_density m v x,
      is_law (fun=> true) (normal_integrable m v) (normal_law m v)
    & forall c, normal_integrable m v (fun x => ((x <= c)%R)%:R) /\ normal_integrable m v (fun x => ((x < c)%R)%:R)].
Proof.
move=> v0; split; [exact: dens_integral|by move=> x; exact: density_gt0|exact: normal_is_law|].
by move=> c; exact: normal_indicator.
Qed.

(* norm.pdf and norm.logpdf, as called with scale = sqrt v, are that density and its logarithm *)
Theorem norm_pdf_is_density (x loc v : K) : 0 < v ->
  norm_pdf rexp rln pi x loc (Num.sqrt v) = normal_density loc v x /\
  norm_logpdf rln pi x loc (Num.sqrt v) = rln (normal_density loc v x).
Proof. by move=> v0; split; [exact: norm_pdfE|exact: norm_logpdfE]. Qed.

(* the moments of the normal law are integrals *)
Theorem moments_of_normal_integrals (m v : K) (n : nat) : 0 < v ->
  line_integral (fun x => x ^+ n * normal_density m v x) (raw_moment_of_normal m v n) /\
  line_integral (fun x => (x - m) ^+ n * normal_density m v x) (central_moment_of_normal v n).
Proof.
move=> v0; split.
- have := line_normal 'X^n m v0; rewrite momXn -(gaussian_unique (raw_normal_gauss m (ltW v0))).
  by apply: line_ext => x; rewrite hornerXn.
- have := line_normal (('X - m%:P) ^+ n) m v0.
  rewrite central_normalE -(subrr m) normal_central ?ltW // /central_moment.
  by apply: line_ext => x; rewrite horner_exp hornerXsubC.
Qed.

(* the Gram-Charlier density has the moments its cumulants encode (C24), now as integrals *)
Theorem gram_charlier_integrals (ks : seq K) (m : nat -> K) :
  (1 < size ks)%N -> 0 < ks`_1 -> m 0%N = 1 -> is_cumulants m (fun j => ks`_j.-1) (size ks) ->
  forall n, (n <= size ks)%N -> line_integral (fun x => x ^+ n * gram_charlier rexp pi ks x) (m n).
Proof.
move=> h1 h2 h3 h4 n hn; have [q hq hm] := gram_charlier_matches_moments h1 h2 h3 h4.
rewrite -(hm n hn); apply: line_ext (line_normal ('X^n * q) ks`_0 h2) => x.
by rewrite hornerM hornerXn gram_charlier_base // hq -[LHS]mulrA [q.[x] * _]mulrC.
Qed.

(* the error of convergence_mf.py and convergence_pf.py is the divergence of the two normal laws, an integral *)
Theorem conv_kl_integral (m v m' v' : K) : 0 < v -> 0 < v' ->
  line_integral (fun x => normal_density m v x * (rln (normal_density m v x) - rln (normal_density m' v' x)))
    (err_kl rexp rln m v m' v').
Proof.
move=> v0 v'0.
have [_ _ [p [hp ->]]] := conv_kl_divergence m m' real_log_mult real_log_spec real_log_lt pi_gt0 v0 v'0.
by apply: line_ext (line_normal p m v0) => x; rewrite -!norm_logpdfE // hp mulrC.
Qed.

(* a quadrature rule built from the moments of N(m, v) integrates polynomials against its density, and its distribution
   function is within the largest weight of that of N(m, v) *)
Theorem normal_quadrature_integrals (chol : forall n, 'M[K]_n -> 'M[K]_n) (eigh : forall n, 'M[K]_n -> 'M[K]_n * 'rV[K]_n)
    (m v : K) (n : nat) (ldl : bool) ws xs :
  chol_spec chol -> eigh_spec eigh -> 0 < v ->
  moment_quadrature chol eigh (mkseq (raw_moment_of_normal m v) n.*2) 0 1 ldl = Some (ws, xs) ->
  (forall p : {poly K}, (size p <= n.*2)%N ->
     line_integral (fun x => p.[x] * normal_density m v x) (expect ws xs (fun x => p.[x]))) /\
  forall t e, all (fun w => w <= e) ws ->
    exists2 c : K, line_integral (fun x => ((x <= t)%R)%:R * normal_density m v x) c
      & `|c - expect ws xs (fun x => ((x <= t)%R)%:R)| <= e.
Proof.
move=> hc he v0 hq; set ms := mkseq _ _ in hq.
have hs : size ms = n.*2 by rewrite size_mkseq.
have hn : (size ms)./2 = n by rewrite hs doubleK.
have hnth k : (k < n.*2)%N -> ms`_k = gauss_moment m v k.
  by move=> hk; rewrite nth_mkseq // (gaussian_unique (raw_normal_gauss m (ltW v0))).
have ha : admissible (nth 0 ms) (size ms)./2.
  rewrite hn; apply: (adm_ext _ (gauss_admissible m v0)) => k hk; by rewrite hnth.
have hm : has_moments (normal_law m v) 0 1 ms (size ms)./2.*2.
  move=> k; rewrite hn => hk; rewrite hnth //.
  have [_] := normal_law_poly m 'X^k v0; rewrite momXn => <-; congr normal_law.
  by apply: FunctionalExtensionality.functional_extensionality => x; rewrite hornerXn subr0 divr1.
split=> [p hp|t e hw].
- have := moment_quadrature_polynomials hc he (oner_neq0 _) ha hq (p := p); rewrite hn => /(_ hp) e.
  have -> : expect ws xs (fun x => p.[x]) = mom_functional (gauss_moment m v) p.
    have e2 : expect ws xs (fun x => p.[(x - 0) / 1]) = expect ws xs (fun x => p.[x]).
      by congr expect; apply: FunctionalExtensionality.functional_extensionality => x; rewrite subr0 divr1.
    case: (posnP n) => [n0|n0].
      have -> : p = 0 by apply/eqP; rewrite -size_poly_leq0 (leq_trans hp) // n0.
      rewrite mom0 /expect jsumE big_map; apply: big1 => i _; by rewrite horner0 mulr0.
    rewrite -e2 e hnth ?double_gt0 // divr1; apply: mom_eq => k hk; rewrite hnth //.
    exact: leq_trans hk hp.
  exact: line_normal.
- exists (normal_law m v (fun x => ((x <= t)%R)%:R)).
    by apply: normal_lawP; have [] := normal_indicator m t v0.
  apply: (quadrature_distribution t hc he (normal_is_law m v0) (oner_neq0 _) ha hm hq _ hw) => c.
  exact: normal_indicator.
Qed.

(* C125: the update of the Kalman filter is Bayes' rule: for every integrable test function the posterior law of a
   normal prior under a linear Gaussian measurement is the normal law with the Kalman mean and variance *)
Theorem kalman_update_is_bayes (a b m v r y : K) (f : K -> K) : 0 < v -> 0 < r ->
  let s := a ^+ 2 * v + r in
  let k := v * a / s in
  let m' := m + k * (y - (a * m + b)) in
  let v' := v - k * a * v in
  normal_integrable m' v' f ->
  bayes_update (fun y x => normal_density (a * x + b) r y) y (normal_law m v) f = normal_law m' v' f.
Proof. exact: normal_update. Qed.

(* the prediction is the average of the transition law: all its moments are those of the predicted normal law, and
   its density is the predicted density *)
Theorem kalman_prediction_is_bayes (a b m v q : K) : 0 < v -> 0 < q ->
  (forall n, bayes_predict (fun x => normal_law (a * x + b) q) (normal_law m v) (fun z => z ^+ n) =
     normal_law (a * m + b) (a ^+ 2 * v + q) (fun z => z ^+ n)) /\
  forall x', line_integral (fun x => normal_density (a * x + b) q x' * normal_density m v x)
    (normal_density (a * m + b) (a ^+ 2 * v + q) x').
Proof. by move=> v0 q0; split=> [n|x']; [exact: normal_predict|exact: product_integral]. Qed.

(* the recursion kf of convergence_mf.py: the normal densities with the returned means and variances are the posterior
   densities of the Bayesian filter, and the returned number is minus the logarithm of the likelihood of the
   measurements *)
Theorem conv_kf_is_bayes (dt ell sigma noise_var : K) (ys : seq K) :
  0 < dt -> 0 < ell -> 0 < sigma -> 0 < noise_var ->
  let trans x x' := norm_pdf rexp rln pi x' (conv_F rexp dt ell * x) (Num.sqrt (conv_Sigma rexp dt ell sigma)) in
  let lik y x := norm_pdf rexp rln pi y x (Num.sqrt noise_var) in
  let '(ms, vs, nell) := conv_kf rexp rln pi dt ell sigma noise_var ys in
  exists Zs, [/\ bayes_filter trans lik (normal_density 0 (sigma ^+ 2)) ys
                   [seq normal_density o.1 o.2 | o <- zip ms vs] Zs,
                 size Zs = size ys & nell = - \sum_(Z <- Zs) rln Z].
Proof.
move=> dt0 ell0 s0 r0 trans lik; have v0 : 0 < sigma ^+ 2 by rewrite exprn_gt0.
have [Zs [hb hc]] := kf_scan_bayes dt0 ell0 s0 r0 ys 0 0 v0.
rewrite /conv_kf; move: hb hc; rewrite /conv_mean0 /conv_var0.
case: (scan _ _ ys) => carry out /= hb hc; exists Zs; split.
- suff -> : zip (map fst out) (map snd out) = out by [].
  by elim: out {hb} => // [[u w] out IH] /=; rewrite IH.
- move: hb; move: (normal_density _ _) (map _ out) => p; elim: ys Zs p {hc} => [|y ys IH] [|Z Zs] p [|q qs] //=.
  by case=> _ h; rewrite (IH _ _ _ h).
by rewrite hc sub0r.
Qed.

(* the posterior densities and likelihoods of a Bayesian filter are determined *)
Theorem bayes_filter_unique trans lik (prior : K -> K) ys posts Zs posts' Zs' :
  bayes_filter trans lik prior ys posts Zs -> bayes_filter trans lik prior ys posts' Zs' ->
  Zs = Zs' /\ forall i x, nth prior posts i x = nth prior posts' i x.
Proof.
suff h : forall p p', (forall x, p x = p' x) -> bayes_filter trans lik p ys posts Zs ->
    bayes_filter trans lik p' ys posts' Zs' -> Zs = Zs' /\ forall i x, nth prior posts i x = nth prior posts' i x.
  by apply: h.
elim: ys posts Zs posts' Zs' => [|y ys IH] [|p ps] [|Z Zs] [|p' ps'] [|Z' Zs'] //= q q' hq [h1 h2] [k1 k2].
have h1' : bayes_step trans lik q' y p Z.
  have [pr [a1 a2 a3 a4]] := h1; exists pr; split=> // x'.
  by apply: line_ext (a1 x') => x; rewrite hq.
have [eZ ep] := bayes_step_unique h1' k1.
have [-> e] := IH _ _ _ _ _ _ ep h2 k2.
by split=> [|[|i] x]; rewrite ?eZ //=.
Qed.

(* C126: the characteristic function ghf_cf of dardel/benes_bernoulli scripts is E[exp(i z X)] of the normal law: its
   real and imaginary parts are the integrals of cos(z x) and sin(z x) *)
Theorem gaussian_characteristic_function (z m v : K) : 0 < v ->
  line_integral (fun x => rcos (z * x) * normal_density m v x) (complex.Re (ghf_cf real_cexp z m v)) /\
  line_integral (fun x => rsin (z * x) * normal_density m v x) (complex.Im (ghf_cf real_cexp z m v)).
Proof. by move=> v0; rewrite ghf_cfE; exact: char_parts. Qed.

Example normal_ex : (0 < 1 :> K) /\ line_integral (fun x => x ^+ 4 * normal_density 0 1 x) 3%:R.
Proof.
split; first exact: ltr01.
have [+ _] := moments_of_normal_integrals 0 4 (ltr01 : 0 < (1 : K)).
suff -> : raw_moment_of_normal 0 1 4 = 3%:R :> K by [].
have -> : raw_moment_of_normal 0 1 4 = gauss_moment 0 1 4 :> K by exact: gaussian_unique (raw_normal_gauss 0 ler01) 4%N.
by rewrite /gauss_moment /= !mul0r !add0r !mulr1.
Qed.

Print Assumptions normal_density_is_law.
Print Assumptions norm_pdf_is_density.
Print Assumptions moments_of_normal_integrals.
Print Assumptions gram_charlier_integrals.
Print Assumptions conv_kl_integral.
Print Assumptions normal_quadrature_integrals.
Print Assumptions kalman_update_is_bayes.
Print Assumptions kalman_prediction_is_bayes.
Print Assumptions conv_kf_is_bayes.
Print Assumptions bayes_filter_unique.
Print Assumptions gaussian_characteristic_function.
