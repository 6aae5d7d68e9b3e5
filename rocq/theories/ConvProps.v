(* The Ornstein-Uhlenbeck convergence experiment (dardel/convergence): properties C87-C92. *)
From Coq Require Import String.
From mathcomp Require Import all_ssreflect all_algebra.
From mathcomp Require Import ring zify.
From Verif Require Import Prelude LinAlgSpec LinAlgProofs LdlProofs SpectralProofs QuadModel QuadSpec Moments1DModel
  Moments1DSpec Moments1DProofs Moments1DConv Filter1DModel Filter1DProofs GfsModel GfsRts ResampleModel SsModel SsProofs ConvModel ConvProofs ConvFilter ConvGp.
From Verif Require GfsSpec.
Set Implicit Arguments.
Unset Strict Implicit.
Unset Printing Implicit Defensive.
Import Order.TTheory GRing.Theory Num.Theory.
Local Open Scope ring_scope.

Section Props.
Variable R : rcfType.
Variables (exp log : R -> R) (pi : R).
Variables (dt ell sigma noise_var : R).
Hypotheses (eA : exp_add exp) (eP : exp_spec exp).
Hypotheses (dt0 : 0 < dt) (ell0 : 0 < ell) (s0 : 0 < sigma) (r0 : 0 < noise_var).
Local Notation F := (conv_F exp dt ell).
Local Notation Sg := (conv_Sigma exp dt ell sigma).
Local Notation K T := (matern12 exp ell sigma T (conv_ts dt T) (conv_ts dt T)).
Local Notation KF := (conv_kf exp log pi dt ell sigma noise_var).

(* C87: the kernel matrix is the covariance of the stationary chain with coefficients F and Sigma. *)
Theorem conv_kernel_chain (T : nat) (C : nat -> nat -> R) :
  chain_cov F (sigma ^+ 2) Sg C -> forall i j : 'I_T, K T i j = C i j.
Proof. by move=> h i j; rewrite maternE // (chain_covP eA eP h). Qed.

(* C87: the stationary variance is kept by a step, and the kernel matrix can be factorised. *)
Theorem conv_stationary (T : nat) :
  [/\ 0 < F < 1, 0 < Sg, F ^+ 2 * sigma ^+ 2 + Sg = sigma ^+ 2 & posdef (K T)].
Proof.
split; first by rewrite (F_gt0 _ _ eP) (F_lt1 eA eP).
- exact: Sg_gt0.
- exact: stationary.
exact: matern_posdef.
Qed.

(* C87: the trajectory drawn through the Cholesky factor is a trajectory of the chain, driven by the same
   standard normal draws. *)
Theorem conv_simulation (chol : forall n, 'M[R]_n -> 'M[R]_n) (T : nat) (w v : 'cV[R]_T.+1)
    (x := conv_xs exp chol dt ell sigma w) : chol_spec chol ->
  [/\ x 0 0 = sigma * w 0 0,
      forall i : 'I_T, x (lift 0 i) 0 = F * x (widen_ord (leqnSn T) i) 0 + Num.sqrt Sg * w (lift 0 i) 0
    & conv_ys exp chol dt ell sigma noise_var w v = x + Num.sqrt noise_var *: v].
Proof. by move=> hc; have [h1 h2] := xs_recursion eA eP dt0 ell0 s0 hc w. Qed.

(* C88: the means and variances of the reference Kalman filter are those of Gaussian process regression on the
   measurements seen so far, and its last output is the negative log density of the measurements under the law
   they are simulated from. *)
Theorem conv_kf_regression (ys : seq R) : GfsSpec.log_spec log -> 0 < pi ->
  [/\ size (KF ys).1.1 = size ys, size (KF ys).1.2 = size ys,
      forall k, (k < size ys)%N ->
        (KF ys).1.1`_k = (K k.+1 *m invmx (K k.+1 + noise_var%:M) *m \col_i ys`_i) ord_max 0 /\
        (KF ys).1.2`_k = (K k.+1 - K k.+1 *m invmx (K k.+1 + noise_var%:M) *m K k.+1) ord_max ord_max
    & (KF ys).2 = - GfsSpec.log_gauss log pi (\col_i ys`_i) 0 (K (size ys) + noise_var%:M)].
Proof.
move=> lM pi0; have [h1 h2] := size_KF exp log pi dt ell sigma noise_var ys; split=> //.
- by move=> k hk; exact: conv_steps_gp.
- exact: conv_nell.
Qed.

(* C88: the library's rts on its output is regression on all the measurements. *)
Theorem conv_rts_regression (chol : forall n, 'M[R]_n -> 'M[R]_n) n (ys : seq R) : chol_spec chol -> size ys = n.+1 ->
  let r := rts chol (F%:M : 'M_1) Sg%:M [seq m%:M | m <- (KF ys).1.1] [seq v%:M | v <- (KF ys).1.2] in
  size r.1 = n.+1 /\ size r.2 = n.+1 /\ forall k : 'I_n.+1,
    r.1`_k = ((K n.+1 *m invmx (K n.+1 + noise_var%:M) *m \col_i ys`_i) k 0)%:M /\
    r.2`_k = ((K n.+1 - K n.+1 *m invmx (K n.+1 + noise_var%:M) *m K n.+1) k k)%:M.
Proof.
move=> hc hs r; have [h1 h2 _ _] := conv_smoother_gp log pi eA eP dt0 ell0 s0 r0 hc (ltn0Sn n) hs.
split=> //; split=> // k; have [_ _ h3 h4] := conv_smoother_gp log pi eA eP dt0 ell0 s0 r0 hc (ltn_ord k) hs.
by split; [rewrite h3|rewrite h4]; congr (_ %:M); congr (_ _ _); apply: val_inj.
Qed.

(* C88: it is the library's kf at one state, one measurement and the identity measurement matrix. *)
Theorem conv_kf_library (chol : forall n, 'M[R]_n -> 'M[R]_n) ys :
  exists es,
    kf chol log pi (F%:M : 'M_1) Sg%:M (1%:M : 'M_1) noise_var%:M 0 (sigma ^+ 2)%:M [seq y%:M | y <- ys]
    = Some ([seq m%:M | m <- (KF ys).1.1], [seq v%:M | v <- (KF ys).1.2], es)
    /\ last 0 es = (KF ys).2.
Proof. exact: conv_kf_kf. Qed.

(* C89: the proposal is the law of the state given the ancestor and the measurement: likelihood times transition
   is proposal times the predictive density of the measurement, which does not depend on the state drawn. *)
Theorem conv_optimal_proposal y x a : GfsSpec.log_spec log -> 0 < pi ->
  conv_pdf exp log pi noise_var y x * norm_pdf exp log pi x (F * a) (Num.sqrt Sg) =
  norm_pdf exp log pi y (F * a) (Num.sqrt (Sg + noise_var)) *
  norm_pdf exp log pi x (prop_mean exp dt ell sigma noise_var a y) (Num.sqrt (prop_cov exp dt ell sigma noise_var))
  /\ 0 < prop_cov exp dt ell sigma noise_var < Sg.
Proof.
move=> lM pi0; split; first exact: optimal_factor.
have S0 := Sg_gt0 eA eP dt0 ell0 s0.
rewrite prop_cov_gt0 //= /prop_cov gtr_addl oppr_lt0 mulr_gt0 // /prop_K.
by apply: divr_gt0 => //; exact: addr_gt0.
Qed.

(* C89: hence the weights of a step of the particle filter are functions of the ancestors alone. *)
Theorem conv_pf_weights (Key : Type) (split1 : Key -> Key) (normal : Key -> nat -> seq R)
    (resampling : seq R -> Key -> seq nat) (ancestors : seq R) y key :
  GfsSpec.log_spec log -> 0 < pi -> (forall k n, size (normal k n) = n) ->
  particle_body 0 split1 (proposal_sampler exp dt ell sigma noise_var normal)
    (proposal_density exp log pi dt ell sigma noise_var) (transition_density exp log pi dt ell sigma)
    (likelihood_density exp log pi noise_var) resampling ancestors (y, key) =
  let ws := [seq norm_pdf exp log pi y (F * a) (Num.sqrt (Sg + noise_var)) | a <- ancestors] in
  let samples := proposal_sampler exp dt ell sigma noise_var normal ancestors y key in
  let s := gather 0 samples (resampling [seq w / jsum ws | w <- ws] (split1 key)) in
  (s, s).
Proof.
move=> lM pi0 hn; rewrite /particle_body.
set samples := proposal_sampler _ _ _ _ _ _ _ _ _.
have hs : size samples = size ancestors by rewrite size_map size_zip hn minnn.
have -> : [seq t.1.1 * t.1.2 / t.2 | t <- zip (zip (likelihood_density exp log pi noise_var y samples)
    (transition_density exp log pi dt ell sigma samples ancestors))
    (proposal_density exp log pi dt ell sigma noise_var samples ancestors y)] =
  [seq norm_pdf exp log pi y (F * a) (Num.sqrt (Sg + noise_var)) | a <- ancestors].
  clearbody samples; rewrite /likelihood_density /transition_density /proposal_density.
  elim: samples ancestors hs => [|x xs IH] [|a as_] //= [hs]; rewrite IH //; congr (_ :: _).
  exact: optimal_weight.
by [].
Qed.

(* C89: averaged over keys whose draws are standardised, the samplers have the stationary law's first two moments and
   those of the state given its ancestor and the measurement. *)
Theorem conv_pf_samplers (Key : eqType) (normal : Key -> nat -> seq R) (keys : seq Key) (ws : seq R) n i :
  (forall k n, size (normal k n) = n) -> size keys = size ws -> jsum ws = 1 -> (i < n)%N ->
  \sum_(p <- zip ws keys) p.1 * (normal p.2 n)`_i = 0 -> \sum_(p <- zip ws keys) p.1 * (normal p.2 n)`_i ^+ 2 = 1 ->
  let x0 k := (conv_init_sampler sigma normal k n)`_i in
  [/\ \sum_(p <- zip ws keys) p.1 * x0 p.2 = 0, \sum_(p <- zip ws keys) p.1 * x0 p.2 ^+ 2 = sigma ^+ 2
    & forall (ancestors : seq R) y, size ancestors = n ->
      let x k := (proposal_sampler exp dt ell sigma noise_var normal ancestors y k)`_i in
      let m := F * ancestors`_i + Sg / (Sg + noise_var) * (y - F * ancestors`_i) in
      \sum_(p <- zip ws keys) p.1 * x p.2 = m /\
      \sum_(p <- zip ws keys) p.1 * (x p.2 - m) ^+ 2 = Sg * noise_var / (Sg + noise_var)].
Proof.
move=> hn hk h1 hi m0 m2 x0.
have hw : \sum_(p <- zip ws keys) p.1 = 1.
  by rewrite -h1 -[in RHS](@unzip1_zip _ _ ws keys) ?hk // jsumE big_map.
have aff (m s : R) (g : Key -> R) : (forall k, g k = m + s * (normal k n)`_i) ->
    \sum_(p <- zip ws keys) p.1 * g p.2 = m /\ \sum_(p <- zip ws keys) p.1 * (g p.2 - m) ^+ 2 = s ^+ 2.
  move=> hg; split.
    transitivity (m * (\sum_(p <- zip ws keys) p.1) + s * (\sum_(p <- zip ws keys) p.1 * (normal p.2 n)`_i)).
      rewrite !mulr_sumr -big_split; apply: eq_bigr => p _ /=; rewrite hg.
      by move: (nth 0 _ i) (p.1) => *; ring.
    by rewrite m0 hw mulr0 addr0 mulr1.
  transitivity (s ^+ 2 * (\sum_(p <- zip ws keys) p.1 * (normal p.2 n)`_i ^+ 2)); last by rewrite m2 mulr1.
  rewrite !mulr_sumr; apply: eq_bigr => p _ /=; rewrite hg.
  by move: (nth 0 _ i) (p.1) => *; ring.
have [|a1 a2] := aff 0 sigma x0.
  by move=> k; rewrite /x0 /conv_init_sampler (nth_map 0) ?hn // /conv_mean0 /conv_var0 sqrtr_sqr gtr0_norm.
split=> //.
  by rewrite -a2; apply: eq_bigr => p _; rewrite subr0.
move=> ancestors y ha x m.
have S0 := Sg_gt0 eA eP dt0 ell0 s0; have SR : 0 < Sg + noise_var by exact: addr_gt0.
have [|b1 b2] := aff m (Num.sqrt (prop_cov exp dt ell sigma noise_var)) x.
  by move=> k; rewrite /x /proposal_sampler (nth_map (0, 0)) ?size_zip ?hn ?ha ?minnn // nth_zip ?hn ?ha.
split=> //; rewrite b2 sqr_sqrtr; last by apply: ltW; apply: prop_cov_gt0.
rewrite /prop_cov /prop_K; move: (lt0r_neq0 SR); move: Sg => S; move: noise_var => r h.
by field.
Qed.

(* C89: the outputs are the mean and the variance of the particles of each step. *)
Theorem conv_pf_statistics (Key : Type) (split1 : Key -> Key) (split_keys : Key -> nat -> seq Key)
    (normal : Key -> nat -> seq R) (stratified : seq R -> Key -> seq nat) (ys : seq R) key n :
  let samples := particle_filter 0 split1 split_keys (proposal_sampler exp dt ell sigma noise_var normal)
    (proposal_density exp log pi dt ell sigma noise_var) (transition_density exp log pi dt ell sigma)
    (likelihood_density exp log pi noise_var) stratified ys (conv_init_sampler sigma normal) key n in
  let out := conv_pf exp log pi dt ell sigma noise_var split1 split_keys normal stratified ys key n in
  let E (g : R -> R) (s : seq R) := (\sum_(x <- s) g x) / (size s)%:R in
  [/\ size out.1 = size samples, size out.2 = size samples
    & forall t, (t < size samples)%N -> let s := nth [::] samples t in (0 < size s)%N ->
      out.1`_t = E id s /\ out.2`_t = E (fun x => x ^+ 2) s - E id s ^+ 2].
Proof.
move=> samples out E; split=> [||t ht s hs]; rewrite ?size_map //.
have n0 : (size s)%:R != 0 :> R by rewrite pnatr_eq0 -lt0n.
rewrite /out /conv_pf -/samples !(nth_map [::]) // -/s !jsumE; split=> //.
rewrite /E /=; set m := (\sum_(x0 <- s) x0) / _; rewrite size_map big_map.
have -> : \sum_(j <- s) (j - m) ^+ 2 = \sum_(x <- s) x ^+ 2 - m ^+ 2 *+ size s.
  transitivity (\sum_(x <- s) x ^+ 2 - (2%:R * m) * (\sum_(x <- s) x) + \sum_(x <- s) m ^+ 2).
    rewrite mulr_sumr -sumrB -big_split; apply: eq_bigr => x _ /=; ring.
  have -> : \sum_(x <- s) x = m * (size s)%:R by rewrite /m divfK.
  rewrite big_const_seq count_predT iter_addr_0 -[m ^+ 2 *+ _]mulr_natr; move: (size s)%:R => N.
  by move: (\sum_(x <- s) x ^+ 2) => A; ring.
rewrite mulrBl -[m ^+ 2 *+ _]mulr_natr mulfK //.
Qed.

(* C90: the error of a mean and variance is a divergence: non-negative, zero only at the exact ones. *)
Theorem conv_kl_divergence m v m' v' : GfsSpec.log_spec log -> SsProofs.log_spec exp log ->
  (forall u, 0 < u -> u != 1 -> log u < u - 1) -> 0 < pi -> 0 < v -> 0 < v' ->
  [/\ 0 <= err_kl exp log m v m' v', err_kl exp log m v m' v' = 0 <-> m = m' /\ v = v'
    & exists p : {poly R},
        (forall x, norm_logpdf log pi x m (Num.sqrt v) - norm_logpdf log pi x m' (Num.sqrt v') = p.[x]) /\
        err_kl exp log m v m' v' = mom_functional (gauss_moment m v) p].
Proof.
move=> lM lP lL pi0 v0 v'0; have [h1 h2] := err_kl_ge0 lM lP lL m m' v0 v'0; split=> //.
have [a [b [c [hp he]]]] := err_kl_divergence lM pi0 lP m m' v0 v'0.
exists (a%:P + b *: 'X + c *: 'X^2); split=> [x|].
  by rewrite hp !(hornerD, hornerZ, hornerC, hornerX, hornerXn).
have [g0 g1 g2] := gauss_momentP m v.
have gm2 : gauss_moment m v 2 = v + m ^+ 2 by rewrite g2 g0 g1; ring.
have e0 : mom_functional (gauss_moment m v) a%:P = a by rewrite -alg_polyC momZ -(expr0 'X) momXn g0 mulr1.
have e1 : mom_functional (gauss_moment m v) 'X = m by rewrite -['X]expr1 momXn g1.
by rewrite he !momD !momZ e0 e1 momXn gm2.
Qed.

(* C91: a prediction step of the moment filters maps the moments of a Gaussian to those of its image under the
   transition, exactly, and the stationary law is a fixed point. *)
Theorem conv_mf_predict (chol : forall n, 'M[R]_n -> 'M[R]_n) (eigh : forall n, 'M[R]_n -> 'M[R]_n * 'rV[R]_n)
    (N : nat) st (m v : R) : chol_spec chol -> eigh_spec eigh -> (0 < N)%N -> 0 < v ->
  let gm m v := [seq gauss_moment m v k | k <- iota 0 (2 * N)] in
  [/\ rms_predict chol eigh (conv_cond_raw exp dt ell sigma (2 * N)) st (gm m v) = gm (F * m) (F ^+ 2 * v + Sg),
      cms_predict chol eigh (conv_cond_central exp dt ell sigma (2 * N)) (conv_cond_mean exp dt ell) st (gm 0 v, m)
      = (gm 0 (F ^+ 2 * v + Sg), F * m),
      conv_rms0 sigma (2 * N) = gm 0 (sigma ^+ 2), conv_cms0 sigma (2 * N) = gm 0 (sigma ^+ 2)
    & rms_predict chol eigh (conv_cond_raw exp dt ell sigma (2 * N)) st (conv_rms0 sigma (2 * N))
      = conv_rms0 sigma (2 * N)].
Proof.
move=> hc he hN v0 gm.
have i0 : conv_rms0 sigma (2 * N) = gm 0 (sigma ^+ 2).
  by apply: (@eq_from_nth _ 0); rewrite ?size_rms0 ?size_map ?size_iota // => k hk; rewrite conv_rms0E // nth_iota_map.
have i1 : conv_cms0 sigma (2 * N) = gm 0 (sigma ^+ 2).
  by apply: (@eq_from_nth _ 0); rewrite ?size_cms0 ?size_map ?size_iota // => k hk; rewrite conv_cms0E // nth_iota_map.
split=> //; first exact: conv_predict_raw.
- exact: conv_predict_central.
rewrite (conv_predict_raw eA eP dt0 ell0 s0 hc he st hN (v := sigma ^+ 2) (m := 0)) ?exprn_gt0 //.
by rewrite mulr0 stationary // i0.
Qed.

(* C90: the error of the mean is a distance *)
Theorem conv_mean_error (m1 m2 m3 : R) :
  [/\ 0 <= err_mean m1 m2, (err_mean m1 m2 == 0) = (m1 == m2), err_mean m1 m2 = err_mean m2 m1,
      err_mean m1 m3 <= err_mean m1 m2 + err_mean m2 m3 & forall c, err_mean (m1 + c) (m2 + c) = err_mean m1 m2].
Proof.
split; first exact: normr_ge0.
- by rewrite /err_mean normr_eq0 subr_eq0.
- by rewrite /err_mean distrC.
- by rewrite /err_mean ler_dist_add.
by move=> c; rewrite /err_mean opprD addrACA subrr addr0.
Qed.

(* C91: the raw and the central mode return the same means and variances. *)
Theorem conv_mf_modes (chol : forall n, 'M[R]_n -> 'M[R]_n) (eigh : forall n, 'M[R]_n -> 'M[R]_n * 'rV[R]_n)
    (N : nat) ys : chol_spec chol -> eigh_spec eigh -> (1 < N)%N ->
  conv_mf_raw exp log pi chol dt ell sigma noise_var eigh (2 * N) ys =
  conv_mf_central exp log pi chol dt ell sigma noise_var eigh (2 * N) ys.
Proof. by move=> hc he hN; exact: conv_modes. Qed.
End Props.
Print Assumptions conv_kernel_chain.
Print Assumptions conv_stationary.
Print Assumptions conv_simulation.
Print Assumptions conv_kf_regression.
Print Assumptions conv_rts_regression.
Print Assumptions conv_kf_library.
Print Assumptions conv_optimal_proposal.
Print Assumptions conv_pf_weights.
Print Assumptions conv_pf_samplers.
Print Assumptions conv_pf_statistics.
Print Assumptions conv_kl_divergence.
Print Assumptions conv_mean_error.
Print Assumptions conv_mf_predict.
Print Assumptions conv_mf_modes.

(* C92: each mode of the script reaches the library filter of its name.  False: the jitted wrappers rebind the names
   they call, so a wrapper calls itself with the wrong number of arguments. *)
Definition mf_mode_runs (mode : string) : Prop :=
  exists fuel, mf_run fuel mode = inl (if String.eqb mode "raw" then "moment_filter_rms" else "moment_filter_cms")%string.
Theorem convergence_mf_type_error (mode : string) : mode = "raw"%string \/ mode = "central"%string ->
  (forall fuel, (2 <= fuel)%N -> mf_run fuel mode = inr TypeError) /\ ~ mf_mode_runs mode.
Proof.
move=> h; have e fuel : (2 <= fuel)%N -> mf_run fuel mode = inr TypeError.
  by case: h => ->; case: fuel => [//|[//|fuel]].
split=> // -[fuel]; case: fuel => [|[|fuel]]; last by rewrite e.
  by case: h => ->.
by case: h => ->.
Qed.
Theorem convergence_mf_runs_refuted : exists mode, (mode = "raw"%string \/ mode = "central"%string) /\ ~ mf_mode_runs mode.
Proof. by exists "raw"%string; split; [left|apply: (proj2 (convergence_mf_type_error _)); left]. Qed.
Print Assumptions convergence_mf_type_error.
Print Assumptions convergence_mf_runs_refuted.
(* Without the wrappers the calls of their bodies would reach the library, and the calls of lines 154-159 would not. *)
Theorem convergence_mf_imports :
  [/\ py_call 1 mf_imports "moment_filter_rms" 4 = inl "moment_filter_rms"%string,
      py_call 1 mf_imports "moment_filter_cms" 6 = inl "moment_filter_cms"%string,
      py_call 1 mf_imports "moment_filter_rms" 1 = inr TypeError
    & py_call 1 mf_imports "moment_filter_cms" 1 = inr TypeError].
Proof. by []. Qed.
Print Assumptions convergence_mf_imports.
(* With the library filters bound to names l1 and l2 that the wrappers do not rebind, each mode would reach its own
   filter; any other mode is refused. *)
Theorem convergence_mf_unshadowed (g : globals) (l1 l2 : string) :
  lookup g "moment_filter_rms" = Some (PyFun 1 1 (Calls l1 4)) ->
  lookup g "moment_filter_cms" = Some (PyFun 1 1 (Calls l2 6)) ->
  lookup g l1 = Some (PyFun 4 5 Library) -> lookup g l2 = Some (PyFun 6 7 Library) ->
  [/\ mf_run_in g 2 "raw" = inl l1, mf_run_in g 2 "central" = inl l2
    & forall fuel mode, mode <> "raw"%string -> mode <> "central"%string ->
        mf_run_in g fuel mode = inr NotImplementedError].
Proof.
move=> h1 h2 h3 h4; split; [by rewrite /mf_run_in /= h1 /= h3|by rewrite /mf_run_in /= h2 /= h4|].
move=> fuel mode /String.eqb_neq e1 /String.eqb_neq e2; by rewrite /mf_run_in e1 e2.
Qed.
Print Assumptions convergence_mf_unshadowed.
Example convergence_mf_unshadowed_ex : let g := [:: ("moment_filter_cms", PyFun 1 1 (Calls "cms" 6));
    ("moment_filter_rms", PyFun 1 1 (Calls "rms" 4)); ("rms", PyFun 4 5 Library); ("cms", PyFun 6 7 Library)]%string in
  mf_run_in g 2 "raw" = inl "rms"%string /\ mf_run_in g 2 "central" = inl "cms"%string.
Proof. by []. Qed.
(* two keys with the draws 1 and -1 meet the hypotheses of conv_pf_samplers *)
Example standard_draws_ex (R : rcfType) : let normal (k : bool) n := nseq n ((-1) ^+ k : R) in
  let ws : seq R := [:: 2%:R^-1; 2%:R^-1] in let keys := [:: true; false] in
  [/\ jsum ws = 1, \sum_(p <- zip ws keys) p.1 * (normal p.2 3%N)`_1 = 0
    & \sum_(p <- zip ws keys) p.1 * (normal p.2 3%N)`_1 ^+ 2 = 1].
Proof. by move=> normal ws keys; rewrite /ws /keys jsumE /= !big_cons !big_nil /= expr1 expr0; split; field. Qed.

(* the chain of C87 has a covariance *)
Example conv_chain_ex (R : rcfType) (exp : R -> R) (dt ell sigma : R) : exp_add exp -> exp_spec exp ->
  chain_cov (conv_F exp dt ell) (sigma ^+ 2) (conv_Sigma exp dt ell sigma)
    (fun i j => sigma ^+ 2 * conv_F exp dt ell ^+ (maxn i j - minn i j)).
Proof.
move=> eA eP; split=> [|i j|i j h|i].
- by rewrite maxnn subnn expr0 mulr1.
- by rewrite maxnC minnC.
- rewrite (maxn_idPl h) (minn_idPr h) (maxn_idPl (leqW h)) (minn_idPr (leqW h)) (subSn h).
  by rewrite [conv_F exp dt ell ^+ _.+1]exprS mulrCA.
by rewrite !maxnn !minnn !subnn !expr0 !mulr1 stationary.
Qed.
