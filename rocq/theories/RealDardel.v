(* The experiment scripts over the real numbers: derivatives of the characteristic functions of
   compute_errs.py and pf.py, and the filters with the real exponential and logarithm. *)
From Coq Require Import Reals Lra.

(* before the field tactic of mathcomp *)
Lemma tanh_alg (a b : R) : (0 < a -> 0 < b -> (a - b) / 2 / ((a + b) / 2) = (a - b) * / (a + b))%R.
Proof. intros; field; lra. Qed.
Lemma slope_alg : ((1 * 1 - 0 * 0) / (Rsqr 1) = 1)%R.
Proof. unfold Rsqr; field. Qed.

From mathcomp Require Import all_ssreflect all_algebra complex polyrcf ring.
From Verif Require Import Prelude LinAlgSpec LinAlgProofs LdlProofs SpectralProofs QuadModel QuadSpec QuadProofs QuadProps.
From Verif Require Import Moments1DModel Moments1DSpec SdeModel SdeSpec SdeDeriv FourierModel FourierProofs FourierProps.
From Verif Require Import GfsModel GfsSpec EkfLin GfsKf SigmaModel SigmaSpec SigmaProps SsModel SsProofs ConvProofs ConvFilter.
From Verif Require Import DardelModel DardelErrs DardelGauss DardelProps CfMoments.
From Verif Require Import RealField RealWitness RealSeries RealExpm RealLti RealProps RealConv RealJac.
Set Implicit Arguments.
Unset Strict Implicit.
Unset Printing Implicit Defensive.
Import Order.TTheory GRing.Theory Num.Theory.
Local Open Scope ring_scope.
Local Notation K := R_rcfType.
Local Notation rexp := (Rtrigo_def.exp : K -> K).
Local Notation rln := (ln : K -> K).
Local Notation cx x := (real_complex R x).

Lemma deriv_shape (F : rcfType) (c t e : F) : 2%:R * (c * t) * e = e * (c * (1 * t + t * 1)).
Proof. by ring. Qed.
Lemma double_half (F : rcfType) (v t : F) : - (v * t) = 2%:R * (- (v / 2%:R) * t).
Proof. by field. Qed.

Lemma halves (F : rcfType) : 2%:R^-1 + 2%:R^-1 = 1 :> F.
Proof. by field. Qed.

Definition cis (t : K) : K[i] := Complex (cos t) (sin t).

Lemma cisD : cderiv cis (fun t => ('i%C : K[i]) * cis t).
Proof.
split; apply: derivative_Reals => t.
  have := derivable_pt_lim_cos t; rewrite CfMoments.ReM /= mul0r mul1r sub0r; exact.
by have := derivable_pt_lim_sin t; rewrite CfMoments.ImM /= mul0r mul1r add0r; exact.
Qed.
Lemma cis0 : cis 0 = 1.
Proof. by apply/eqP; rewrite eq_complex /= cos_0 sin_0 !eqxx. Qed.

Lemma charsum_cis (ws xs : seq K) z : charsum real_cexp ws xs z = \sum_(p <- zip ws xs) cx p.1 * cis (p.2 * z).
Proof. by apply: eq_bigr => p _; rewrite cexp_imag [z * _]mulrC. Qed.

Lemma square_exp_deriv (c t : K) :
  derivable_pt_lim (fun z : K => rexp (c * z ^+ 2)) t (2%:R * (c * t) * rexp (c * t ^+ 2)).
Proof.
have h : derivable_pt_lim (mult_real_fct c (mult_fct id id)) t (Rmult c (Rplus (Rmult 1 (id t)) (Rmult (id t) 1))).
  by apply: derivable_pt_lim_scal; apply: derivable_pt_lim_mult; exact: derivable_pt_lim_id.
have := derivable_pt_lim_comp (mult_real_fct c (mult_fct id id)) Rtrigo_def.exp t _ _ h (derivable_pt_lim_exp _).
have -> : (2%:R * (c * t) * rexp (c * t ^+ 2))%R =
  Rmult (Rtrigo_def.exp (mult_real_fct c (mult_fct id id) t)) (Rmult c (Rplus (Rmult 1 (id t)) (Rmult (id t) 1))).
  rewrite /mult_real_fct /mult_fct /id !RmultE !RplusE expr2 [1]/(1%R); move: (Rtrigo_def.exp _) => e.
  exact: (@deriv_shape K).
have -> : (fun z : K => rexp (c * z ^+ 2)) = Ranalysis1.comp Rtrigo_def.exp (mult_real_fct c (mult_fct id id)).
  by apply: FunctionalExtensionality.functional_extensionality => z; rewrite expr2.
by [].
Qed.

(* ---- C100: characteristic functions and moments ---- *)
(* pf.py lines 65-71: the n-th derivative at zero is i^n times the n-th moment of the particles *)
Theorem particle_cf_moments (samples : seq K) n : (0 < size samples)%N ->
  cf_moments n (pf_cf real_cexp samples) (fun k => npmean [seq x ^+ k | x <- samples]).
Proof.
move=> n0; pose ws : seq K := nseq (size samples) (size samples)%:R^-1.
have [g [h0 h1 h2]] := discrete_cf cis0 cisD ws samples n; exists g; split=> //.
  by move=> z; rewrite h0 pf_cfE charsum_cis.
move=> k hk; rewrite h2 //; congr (_ * cx _); rewrite /discrete_moment /npmean size_map jsumE big_map.
by rewrite (@sum_zip_nseqr K _ samples (fun x => x ^+ k)) mulrC.
Qed.

(* moments.py lines 309-337: the characteristic function computed from 2N moments has these 2N
   moments *)
Theorem characteristic_fn_moments (chol : forall n, 'M[K]_n -> 'M[K]_n) (eigh : forall n, 'M[K]_n -> 'M[K]_n * 'rV[K]_n)
    (ms : seq K) mean scale : chol_spec chol -> eigh_spec eigh -> (1 < size ms)%N -> ms`_0 = 1 -> scale != 0 ->
  admissible (nth 0 ms) (size ms)./2 ->
  exists2 phi, forall z, characteristic_fn chol eigh real_cexp z ms mean scale = Some (phi z) &
    cf_moments (size ms)./2.*2 phi
      (fun k => mom_functional (nth 0 ms) ((mean%:P + scale *: 'X) ^+ k)).
Proof.
move=> hc he s1 m0 sc ha.
have [ws [xs eq [s2 s3 hm]]] := moment_quadrature_reproduces_moments mean false hc he s1 sc ha.
exists (charsum real_cexp ws xs) => [z|].
  exact: cfE.
have [g [h0 h1 h2]] := discrete_cf cis0 cisD ws xs (size ms)./2.*2; exists g; split=> //.
  by move=> z; rewrite h0 charsum_cis.
move=> k hk; rewrite h2 //; congr (_ * cx _).
have := moment_quadrature_polynomials hc he sc ha eq (p := (mean%:P + scale *: 'X) ^+ k).
rewrite m0 divr1 => <-; last by apply: (leq_trans (size_affine_exp _ _ _)).
by rewrite expect_affine.
Qed.

(* compute_errs.py lines 54-55: the characteristic function of the Gaussian filters has the moments
   of N(m, v) *)
Theorem ghf_cf_moments (m v : K) n : 0 <= v ->
  cf_moments n (fun z => ghf_cf real_cexp z m v) (raw_moment_of_normal m v).
Proof.
move=> v0; pose E (z : K) : K := rexp (- (v / 2%:R) * z ^+ 2).
have E0 : E 0 = 1 by rewrite /E expr0n mulr0 exp_0.
have ED : derivative E (fun z => - (v * z) * E z).
  apply: derivative_Reals => t; have h := square_exp_deriv (- (v / 2%:R)) t.
  by have -> : - (v * t) * E t = 2%:R * (- (v / 2%:R) * t) * E t by congr (_ * _); exact: (@double_half K).
have [g [h0 h1 h2]] := gauss_cf cis0 cisD m E0 ED n; exists g; split=> //.
  by move=> z; rewrite h0 /ghf_cf ghf_arg /real_cexp /= polar.
by move=> k hk; rewrite h2 // normalE.
Qed.

Print Assumptions particle_cf_moments.
Print Assumptions characteristic_fn_moments.
Print Assumptions ghf_cf_moments.

(* three particles; four moments of a two-point law *)
Example cf_moments_ex :
  let ms : seq K := [seq discrete_moment [:: 2%:R^-1; 2%:R^-1] [:: -1; 1 : K] k | k <- iota 0 4] in
  [/\ (0 < size ([:: 0; 1; 2%:R : K])%R)%N, (1 < size ms)%N, ms`_0 = 1 & admissible (nth 0 ms) (size ms)./2].
Proof.
have [[h1 h2 h3 h4 h5] h6] := @characteristic_ex K; split=> //.
by rewrite /= /discrete_moment /= !big_cons big_nil /= !expr0 !mulr1 addr0; exact: (@halves K).
Qed.

(* ---- C97 over the reals ---- *)
Lemma jac_of_deriv (g : K -> K) (x : 'cV[K]_1) (l : K) : derivable_pt_lim g (x 0 0) l ->
  has_jacobian (fun x : 'cV[K]_1 => vec1 (g (x 0 0))) x (mat1 l).
Proof.
move=> h e /RltE e0; have [[dl /RltE dl0] /= hdl] := h e e0.
exists dl => // u hu i; rewrite !ord1 big_ord1.
have -> : (vec1 (g ((x + u) 0 0)) - vec1 (g (x 0 0)) - mat1 l *m u) 0 0 = g (x 0 0 + u 0 0) - g (x 0 0) - l * u 0 0.
  by rewrite !mxE big_ord1 !mxE !eqxx !mulr1n.
move: (hu 0); move: (u 0 0) (x 0 0) hdl => y t hdl hy.
case: (eqVneq y 0) => [->|y0]; first by rewrite addr0 subrr mulr0 subr0 normr0 mulr0.
have hy' : Rlt (Rabs y) dl by apply/RltE.
have /RltE/ltW := hdl y (elimN eqP y0) hy'.
rewrite /Rdiv RinvE // !RplusE !RminusE RmultE RabsE => hh.
have -> : g (t + y) - g t - l * y = y * ((g (t + y) - g t) / y - l).
  by rewrite mulrBr mulrCA divff // mulr1 [l * y]mulrC.
by rewrite normrM mulrC ler_wpmul2r.
Qed.

(* the Benes drift vanishes at zero and has slope one there *)
Lemma real_tanhE (x : K) : bb_drift rexp x = Rtrigo_def.tanh x.
Proof.
rewrite /Rtrigo_def.tanh /sinh /cosh tanh_alg; [|exact: exp_pos|exact: exp_pos].
have e0 := exp_pos x; have e1 := exp_pos (Ropp x).
rewrite RinvE; last by apply/eqP; apply: Rgt_not_eq; exact: Rplus_lt_0_compat.
by [].
Qed.
Lemma tanh_slope : derivable_pt_lim Rtrigo_def.tanh 0 1.
Proof.
have := derivable_pt_lim_div sinh cosh 0 _ _ (derivable_pt_lim_sinh 0) (derivable_pt_lim_cosh 0).
rewrite sinh_0 cosh_0 => /(_ R1_neq_R0); rewrite slope_alg.
by [].
Qed.
Lemma real_exp_ge1 (x : K) : 1 + x <= rexp x.
Proof. by apply/RleE; exact: exp_ineq1_le. Qed.

(* the transition of order one: mean x + tanh(x) dt, covariance dt *)
Definition bb_euler (x : 'cV[K]_1) (dt : K) : 'cV[K]_1 * 'M[K]_1 :=
  (vec1 (x 0 0 + bb_drift rexp (x 0 0) * dt), mat1 dt).
Section RealBlind.
Local Notation E := bb_euler.
Lemma bb_euler_jac (dt : K) : has_jacobian (fun x : 'cV[K]_1 => (E x dt).1) 0 (mat1 (1 + dt)).
Proof.
apply: (@jac_of_deriv (fun x => x + bb_drift rexp x * dt)); rewrite mxE.
have -> : (fun x : K => (x + bb_drift rexp x * dt)%R) = plus_fct id (mult_real_fct dt Rtrigo_def.tanh).
  apply: FunctionalExtensionality.functional_extensionality => x.
  by rewrite /plus_fct /mult_real_fct real_tanhE RplusE RmultE mulrC.
have := derivable_pt_lim_plus id (mult_real_fct dt Rtrigo_def.tanh) 0 1 (Rmult dt 1) (derivable_pt_lim_id 0)
  (derivable_pt_lim_scal _ dt 0 1 tanh_slope).
by rewrite Rmult_1_r.
Qed.

(* C97 with the Euler--Maruyama transition and the real functions: the filter never moves *)
Theorem benes_bernoulli_ekf_blind_real (dt : K) v0 (ys : seq bool) fw :
  ekf (@chol_ref K) rln PI real_jac real_jac E (bb_meas rexp) (vec1 (gs_mean (ss_init_cond K 2))) v0 dt
      [seq vec1 (y%:R : K) | y : bool <- ys] fw
  = Some (nseq (size ys) 0, traj (fun v (_ : bool) => (1 + dt) ^+ 2 *: v + mat1 dt) v0 ys,
          [seq k.+1%:R * ((1 + rln (PI / 2%:R)) / 2%:R) | k <- iota 0 (size ys)]).
Proof.
have f0 : (E 0 dt).1 = 0.
  by apply/matrixP => i j; rewrite !ord1 !mxE real_tanhE /Rtrigo_def.tanh sinh_0 cosh_0 /Rdiv Rmult_0_l mul0r addr0 mul0rn.
rewrite (benes_bernoulli_ekf_blind _ _ _ _ _ _ real_exp_spec real_exp_ge1 real_jac_spec real_jac_spec f0 (bb_euler_jac dt)).
congr (Some (_, _, _)); congr (traj _ _ _).
apply: FunctionalExtensionality.functional_extensionality => v.
apply: FunctionalExtensionality.functional_extensionality => _.
by congr (_ + _); apply/matrixP => i j; rewrite !ord1 !mxE big_ord1 !mxE big_ord1 !mxE !eqxx !mulr1n mulrC mulrA expr2.
Qed.
End RealBlind.

(* C98 with the real functions: the objectives differ and the gh file is not the Gauss--Hermite
   estimate *)
Theorem gh_file_not_correct_real n : (1 < n)%N ->
  ~ gh_file_correct rexp rln PI (@chol_ref K) real_jac real_jac (gauss_hermite (fun c : seq K => rootsR (Poly (rev c))) 1 1 n).
Proof.
move=> n1; have [h1 h2 h3] := gh_rules_ex (@roots_ref_spec K) n1.
apply: gh_file_not_correct h1 h2 h3; [exact: real_exp_spec|exact: real_exp_add|exact: real_log_spec
  |exact: real_log_mult|by apply/RltE; exact: PI_RGT_0|exact: chol_ref_spec].
Qed.

Print Assumptions benes_bernoulli_ekf_blind_real.
Print Assumptions gh_file_not_correct_real.
