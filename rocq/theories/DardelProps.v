(* C93-C99: the experiment scripts of dardel/. *)
From mathcomp Require Import all_ssreflect all_algebra.
From mathcomp Require Import ring zify complex polyrcf.
From Verif Require Import Prelude LinAlgSpec LinAlgProofs LdlProofs QuadModel QuadSpec Moments1DModel Moments1DSpec.
From Verif Require Import MultiIndexModel MultiIndexSpec MultiIndexProps.
From Verif Require Import GfsModel GfsSpec GfsProofs GfsKf GfsVec EkfLin SgpNl SigmaModel SigmaSpec SigmaGhRule SigmaProps NlProps.
From Verif Require Import SsModel SsProofs SsProps ConvProofs FourierModel FourierProofs FourierProps DardelModel DardelErrs DardelGauss DardelTrack.
Set Implicit Arguments.
Unset Strict Implicit.
Unset Printing Implicit Defensive.
Import Order.TTheory GRing.Theory Num.Theory.
Local Open Scope ring_scope.

(* ---- C93: the distances of compute_errs.py ---- *)
Section Metrics.
Variable R : rcfType.

(* on the characteristic functions sampled on a strictly increasing grid of at least two points
   each of the three is a metric *)
Theorem cf_errors_metric (zs : seq R) : (1 < size zs)%N -> sorted <%R zs ->
  let on a := size a = size zs in
  [/\ metric_on on (cf_l1 zs), metric_on on (cf_l2 zs) & metric_on on (@cf_sup R)].
Proof.
case: zs => [|z [|z' zs]] // _ hs on.
by split; [exact: (@l1_metric _ _ (size zs).+1)|exact: (@l2_metric _ _ (size zs).+1)|exact: (@sup_metric _ _ (size zs).+1)].
Qed.

(* the errors of the means: one distance per time step; they vanish exactly when the two sequences agree *)
Theorem mean_errors (a b c : seq R) : size b = size a -> size c = size a ->
  [/\ size (abs_errs a b) = size a,
      forall k, (k < size a)%N -> [/\ 0 <= (abs_errs a b)`_k, (abs_errs a b)`_k <= (abs_errs a c)`_k + (abs_errs c b)`_k
        & ((abs_errs a b)`_k == 0) = (a`_k == b`_k)],
      abs_errs a b = abs_errs b a & (abs_errs a b == nseq (size a) 0) = (a == b)].
Proof.
move=> sb sc; have sz x y : size y = size x -> size (abs_errs x y) = size x.
  by move=> h; rewrite size_map size_zip h minnn.
have e x y k : size y = size x -> (k < size x)%N -> (abs_errs x y)`_k = `|x`_k - y`_k|.
  by move=> h hk; rewrite (nth_map (0, 0)) ?size_zip ?h ?minnn // nth_zip.
split; first exact: sz.
- move=> k hk; rewrite !e ?sb ?sc //; split; first exact: normr_ge0.
    by rewrite ler_dist_add.
  by rewrite normr_eq0 subr_eq0.
- apply: (@eq_from_nth _ 0); first by rewrite !sz ?sb.
  by move=> k; rewrite sz // => hk; rewrite !e ?sb // distrC.
apply/eqP/eqP => [h|->]; last first.
  apply: (@eq_from_nth _ 0); first by rewrite sz ?size_nseq.
  by move=> k; rewrite sz // => hk; rewrite e // subrr normr0 nth_nseq if_same.
apply: (@eq_from_nth _ 0) => // k hk; have := e _ a b k sb hk; rewrite h nth_nseq if_same => /esym /eqP.
by rewrite normr_eq0 subr_eq0 => /eqP.
Qed.

(* how they compare: L is the length of the grid *)
Theorem cf_errors_compare (zs : seq R) (a b : seq R[i]) : (1 < size zs)%N -> sorted <%R zs ->
  size a = size zs -> size b = size zs ->
  let L := last 0 zs - head 0 zs in
  [/\ cf_l1 zs a b <= L * cf_sup a b, cf_l2 zs a b ^+ 2 <= L * cf_sup a b ^+ 2,
      cf_l1 zs a b ^+ 2 <= L * cf_l2 zs a b ^+ 2, cf_l2 zs a b ^+ 2 <= cf_sup a b * cf_l1 zs a b
    & all (fun z => cabs z <= 1) a -> all (fun z => cabs z <= 1) b -> cf_sup a b <= 2%:R].
Proof.
move=> n1 hs ha hb L; have hz : size zs = (size zs).-1.+1 by rewrite prednK // ltnW.
have m0 : (0 < (size zs).-1)%N by rewrite -ltnS -hz.
have eL : L = zs`_(size zs).-1 - zs`_0 by rewrite nth_last nth0.
rewrite eL; split.
- exact: l1_le_sup.
- exact: l2_le_sup.
- exact: l1_le_l2.
- exact: (l2_le_l1 hz m0 hs).
by move=> ka kb; apply: (sup_le2 hz).
Qed.

(* the grid of line 36 is strictly increasing from -b to b, evenly spaced and symmetric *)
Theorem cf_grid_laws (b : R) m : 0 < b -> (1 < m)%N ->
  [/\ size (cf_grid b m) = m, sorted <%R (cf_grid b m), head 0 (cf_grid b m) = - b /\ last 0 (cf_grid b m) = b,
      forall i, (i.+1 < m)%N -> (cf_grid b m)`_i.+1 - (cf_grid b m)`_i = 2%:R * b / m.-1%:R
    & [seq - z | z <- cf_grid b m] = rev (cf_grid b m)].
Proof.
move=> b0 m1; have [h1 h2] := linspace_ends (- b) b m1; split.
- exact: size_linspace.
- by apply: linspace_sorted; apply: (@lt_trans _ _ 0); rewrite ?oppr_lt0.
- by rewrite -nth0 -nth_last size_linspace.
- by move=> i hi; rewrite /cf_grid linspace_spacing // opprK -mulr2n mulr_natl.
- exact: linspaceN.
Qed.
End Metrics.

(* ---- C94: the characteristic function of the particles, pf.py lines 65-71 ---- *)
Section Empirical.
Variable R : rcfType.
Variable cexp : R[i] -> R[i].

Theorem particle_cf_laws (samples : seq R) : exp_morph cexp -> (0 < size samples)%N ->
  [/\ pf_cf cexp samples 0 = 1, forall z, cabs (pf_cf cexp samples z) <= 1,
      forall z, pf_cf cexp samples (- z) = conjc (pf_cf cexp samples z),
      forall n (c : 'I_n -> R[i]) (z : 'I_n -> R),
        0 <= \sum_j \sum_k c j * conjc (c k) * pf_cf cexp samples (z j - z k)
    & forall a b, all (fun x => a <= x <= b) samples -> a <= pf_mean samples <= b].
Proof.
move=> he n0; have hu := morph_unit he; split.
- by have [_ _] := pf_cf_laws 0 hu n0.
- by move=> z; have [] := pf_cf_laws z hu n0.
- by move=> z; have [] := pf_cf_laws z hu n0.
- by move=> n c z; exact: pf_cf_bochner.
- by move=> a b; exact: pf_mean_range.
Qed.
End Empirical.

(* ---- C95: the spatial grid of brute_force.py ---- *)
Section Spatial.
Variable R : rcfType.

(* the grid runs from the least mean - rule * sd to the greatest mean + rule * sd *)
Theorem spatial_grid_bounds (rule : R) ngrids means cmss : (1 < ngrids)%N -> 0 < rule ->
  size cmss = size means -> (0 < size means)%N -> (forall c, c \in cmss -> 0 < jget 0 c 2) ->
  let g := spatial_grids rule ngrids means cmss in
  let sd i := Num.sqrt (jget 0 (nth [::] cmss i) 2) in
  [/\ size g = ngrids, sorted <%R g,
      exists2 i, (i < size means)%N & head 0 g = means`_i - rule * sd i,
      exists2 i, (i < size means)%N & last 0 g = means`_i + rule * sd i
    & forall i, (i < size means)%N -> head 0 g <= means`_i - rule * sd i /\ means`_i + rule * sd i <= last 0 g].
Proof.
move=> n1 r0 hs n0 hv g sd; have [e1 e2] := linspace_ends (spatial_lb rule means cmss) (spatial_ub rule means cmss) n1.
have eh : head 0 g = spatial_lb rule means cmss by rewrite -nth0.
have el : last 0 g = spatial_ub rule means cmss by rewrite -nth_last size_linspace.
have [a1 a2] := spatial_attained rule hs n0; rewrite eh el; split=> //.
- exact: size_linspace.
- apply: linspace_sorted; have [b1 b2] := spatial_band rule hs n0.
  apply: (le_lt_trans b1); apply: (lt_le_trans _ b2); rewrite ltr_add2l gt0_cp // mulr_gt0 // sqrtr_gt0 hv //.
  by rewrite mem_nth // hs.
- by move=> i hi; exact: spatial_band.
Qed.

(* Chebyshev's inequality with every even moment: a discrete law whose moments about means[i] are
   cmss[i] puts mass at most c_2k / (rule^2 c_2)^k outside the grid *)
Theorem spatial_grid_mass (rule : R) ngrids means cmss i (ws xs : seq R) k : (1 < ngrids)%N -> 0 < rule ->
  size cmss = size means -> (i < size means)%N -> (forall c, c \in cmss -> 0 < jget 0 c 2) ->
  all (fun w => 0 <= w) ws ->
  let g := spatial_grids rule ngrids means cmss in let c := nth [::] cmss i in
  jget 0 c (2 * k) = \sum_(t <- zip ws xs) t.1 * (t.2 - means`_i) ^+ (2 * k) ->
  (\sum_(t <- zip ws xs | ~~ (head 0 g <= t.2 <= last 0 g)) t.1) * (rule ^+ 2 * jget 0 c 2) ^+ k <= jget 0 c (2 * k).
Proof.
move=> n1 r0 hs hi hv hw g c ->.
have n0 : (0 < size means)%N by exact: leq_ltn_trans hi.
have [_ _ _ _ /(_ _ hi) [h1 h2]] := spatial_grid_bounds n1 r0 hs n0 hv.
by apply: chebyshev => //; [exact: ltW|apply: ltW; apply: hv; rewrite mem_nth // hs].
Qed.

(* the posterior mean of a density on the grid lies inside the grid *)
Theorem true_mean_in_grid (grids ps : seq R) : (1 < size grids)%N -> size ps = size grids ->
  sorted <%R grids -> all (fun p => 0 <= p) ps -> trapz ps grids = 1 ->
  head 0 grids <= true_mean grids ps <= last 0 grids.
Proof.
move=> n1 hp hs h0 h1; have hz : size grids = (size grids).-1.+1 by rewrite prednK // ltnW.
rewrite -nth0 -nth_last; apply: (@true_mean_range _ _ _ (size grids).-1) => //; rewrite ?hp //.
by rewrite -ltnS -hz.
Qed.
End Spatial.

(* ---- C96: the measurement models handed to the Gaussian filters ---- *)
Section Matched.
Variable R : rcfType.
Variables (exp log : R -> R) (pi : R).
Variable chol : forall n, 'M[R]_n -> 'M[R]_n.

(* the mean and the variance of a binary measurement with probabilities pmf *)
Definition binary_moments (pmf : int -> R) : R * R :=
  let mean := 0 * pmf 0 + 1 * pmf 1 in (mean, (0 - mean) ^+ 2 * pmf 0 + (1 - mean) ^+ 2 * pmf 1).

(* ghf.py lines 35-37 and prey_predator/ghf_ekf.py lines 43-45: the first two moments of the
   Bernoulli measurement of the state-space model, with a positive variance *)
Theorem bernoulli_matched : exp_spec exp ->
  (forall x : 'cV[R]_1, let mv := binary_moments (fun y => bb_pmf exp y (x 0 0)) in
     bb_meas exp x = (vec1 mv.1, mat1 mv.2) /\ posdef (bb_meas exp x).2) /\
  (forall x : 'cV[R]_2, let mv := binary_moments (fun y => pp_pmf exp y x) in
     pp_meas exp x = (vec1 mv.1, mat1 mv.2) /\ posdef (pp_meas exp x).2).
Proof.
move=> he; have main p : 0 < p < 1 -> binary_moments (fun y => bernoulli_pmf y p) = (p, p * (1 - p)) /\ 0 < p * (1 - p).
  move=> /andP [p0 p1]; split; last by rewrite mulr_gt0 // subr_gt0.
  by rewrite /binary_moments /bernoulli_pmf !eqxx /= ; congr (_, _); ring.
split=> x mv.
- have h : 0 < bb_logistic exp (x 0 0) < 1 by rewrite /bb_logistic sigm_gt0 // sigm_lt1.
  have [e p] := main _ h; rewrite /mv /bb_pmf e; split=> //; exact: scalar_posdef.
- have h : 0 < pp_emission exp (x 0 0) < 1 by rewrite /pp_emission sigm_gt0 // sigm_lt1.
  have [e p] := main _ h; rewrite /mv /pp_pmf e; split=> //; exact: scalar_posdef.
Qed.

(* the Gauss-Hermite objective of parameter_estimation/ghf_ekf.py on any data: every step of the
   filter behind it is the best linear estimate under the sigma-point law *)
Theorem well_poisson_ghf (sgps : sigma_points R 1) p1 p2 ys : exp_spec exp -> SsProofs.log_spec exp log ->
  chol_spec chol -> sg_rule (sg_w sgps) (sg_xi sgps) ->
  (forall p, p \in zip (sg_w sgps) (sg_xi sgps) -> 0 <= p.1) ->
  let init := ss_init_cond R 2 in
  let f := fun x => (wp_euler p1 x (ss_dt R)) in let h := wp_meas exp log p2 in
  exists outs, [/\ size outs = size ys,
    exists es, sgp_filter chol log pi (wp_euler p1) h sgps (vec1 (gs_mean init)) (mat1 (gs_variance init))
                 (ss_dt R) ys false = Some ([seq s.1 | s <- outs], [seq s.2 | s <- outs], es) &
    chain_of (sigma_step (sg_w sgps) (sg_xi sgps) (fun x => (f x).1) (fun x => (f x).2) (fun x => (h x).1) (fun x => (h x).2))
      (vec1 (gs_mean init), mat1 (gs_variance init)) ys outs].
Proof.
move=> he hl hc hsg w0 init f h; apply: sgp_filter_nonlinear => //.
- by move=> x; exact: wp_euler_posdef.
- by move=> x; exact: (wp_meas_posdef he hl).
- exact: init_posdef.
Qed.

(* and every step moves the mean in the direction of the innovation *)
Theorem well_poisson_ghf_tracks (sgps : sigma_points R 1) p1 p2 ys : exp_spec exp -> SsProofs.log_spec exp log ->
  chol_spec chol -> sg_rule (sg_w sgps) (sg_xi sgps) ->
  (forall p, p \in zip (sg_w sgps) (sg_xi sgps) -> 0 <= p.1) -> 0 < p2 ->
  let init := ss_init_cond R 2 in
  exists outs, [/\ size outs = size ys,
    exists es, sgp_filter chol log pi (wp_euler p1) (wp_meas exp log p2) sgps (vec1 (gs_mean init)) (mat1 (gs_variance init))
                 (ss_dt R) ys false = Some ([seq s.1 | s <- outs], [seq s.2 | s <- outs], es) &
    chain_of (tracking_step (sg_w sgps) (sg_xi sgps) (fun x => (wp_euler p1 x (ss_dt R)).1)
        (fun x => (wp_euler p1 x (ss_dt R)).2) (fun x => (wp_meas exp log p2 x).1))
      (vec1 (gs_mean init), mat1 (gs_variance init)) ys outs].
Proof.
move=> he hl hc hsg w0 p20 init; have [outs [h1 h2 h3]] := well_poisson_ghf p1 p2 ys he hl hc hsg w0.
exists outs; split=> //; apply: chain_impl h3 => s y s'; apply: (sigma_tracks hsg w0) => x x' hx.
rewrite !mxE !eqxx !mulr1n /wp_emission (log_ltE he hl) ?addr_gt0 ?ltr01 ?exp_gt0 //.
by rewrite ltr_add2l; apply: (exp_lt he); rewrite ltr_pmul2l.
Qed.
End Matched.

(* prey_predator/ghf_ekf.py lines 35-36: for every law of the noise with mean 0 and unit covariance
   these are the moments of one Euler-Maruyama step; the covariance is positive definite exactly
   away from the axes *)
Theorem prey_predator_euler (R : rcfType) (w : seq R) (xi : seq 'cV[R]_2) x dt : sg_rule w xi -> 0 < dt ->
  let X z := x + dt *: pp_drift x + Num.sqrt dt *: (pp_dispersion x *m z) in
  pp_euler x dt = (wmean w xi X, wcov w xi X X) /\ (posdef (pp_euler x dt).2 <-> x 0 0 != 0 /\ x 1 0 != 0).
Proof.
move=> hsg dt0 X; split.
  have eX z : X z = (x + dt *: pp_drift x) + (Num.sqrt dt *: pp_dispersion x) *m z by rewrite /X scalemxAl.
  rewrite (Eext _ _ eX) (Eaff hsg); congr pair.
  have -> : wcov w xi X X = wcov w xi (fun z => x + dt *: pp_drift x + (Num.sqrt dt *: pp_dispersion x) *m z)
      (fun z => x + dt *: pp_drift x + (Num.sqrt dt *: pp_dispersion x) *m z).
    by rewrite /wcov (Eext _ _ eX); apply: Eext => z; rewrite !eX.
  rewrite (wcov_pts hsg) linearZ /= -scalemxAl -scalemxAr scalerA -expr2 sqr_sqrtr ?ltW //.
have eS : (pp_euler x dt).2 = diag_mx (\row_i (dt * (pp_sigma R * x i 0) ^+ 2)).
  rewrite /pp_euler /= /pp_dispersion /pp_dispersion_of tr_diag_mx mulmx_diag; apply/matrixP => i j.
  by rewrite !mxE mulrnAr expr2.
have q u : qform (pp_euler x dt).2 u = dt * (pp_sigma R * x 0 0) ^+ 2 * u 0 0 ^+ 2 + dt * (pp_sigma R * x 1 0) ^+ 2 * u 1 0 ^+ 2.
  rewrite eS /qform [LHS]mxE big_ord_recl big_ord1 !mul_mx_diag !mxE.
  have -> : lift 0 0 = 1 :> 'I_2 by apply: val_inj.
  by move: (u 0 0) (u 1 0) (x 0 0) (x 1 0) (pp_sigma R) => *; ring.
have s0 : 0 < pp_sigma R by rewrite divr_gt0 ?ltr01 ?ltr0n.
have sym : symmetric (pp_euler x dt).2 by rewrite eS /symmetric tr_diag_mx.
split=> [[_ h]|[x0 x1]].
  have d i : (delta_mx i 0 : 'cV[R]_2) != 0.
    by apply/eqP => /matrixP /(_ i 0); rewrite !mxE !eqxx => /eqP; rewrite oner_eq0.
  have := h _ (d 0); have := h _ (d 1); rewrite !q !mxE !eqxx /= !expr0n !expr1n !mulr0 !mulr1 addr0 add0r.
  by move=> h1 h0; split; apply/eqP => e; move: h0 h1; rewrite e mulr0 expr0n mulr0 ltxx.
split=> // u u0; rewrite q.
have p i : x i 0 != 0 -> 0 < dt * (pp_sigma R * x i 0) ^+ 2.
  by move=> xi0; rewrite mulr_gt0 // exprn_even_gt0 //= mulf_neq0 // gt_eqF.
have [e0|n0] := eqVneq (u 0 0) 0; last first.
  by apply: ltr_paddr; [rewrite mulr_ge0 ?sqr_ge0 // ltW // p|rewrite mulr_gt0 ?p ?exprn_even_gt0].
have [e1|n1] := eqVneq (u 1 0) 0; last first.
  by apply: ltr_paddl; [rewrite mulr_ge0 ?sqr_ge0 // ltW // p|rewrite mulr_gt0 ?p ?exprn_even_gt0].
case/negP: u0; apply/eqP/matrixP => i j; rewrite ord1 mxE.
by case: i => [[|[|i]]] hi //; [rewrite -[RHS]e0|rewrite -[RHS]e1]; congr (u _ _); apply: val_inj.
Qed.

(* benes_bernoulli/pf.py lines 37-39: for draws with mean 0 and variance 1 a proposed particle has
   the moments of the discretised transition *)
Theorem proposal_moments (R : rcfType) (K : Type) (normal : K -> nat -> seq R) (tme : R -> R * R)
    (ws : seq R) (keys : seq K) xs i : (i < size xs)%N -> (forall k n, size (normal k n) = n) ->
  size ws = size keys -> \sum_(w <- ws) w = 1 -> 0 <= (tme xs`_i).2 ->
  \sum_(p <- zip ws keys) p.1 * (normal p.2 (size xs))`_i = 0 ->
  \sum_(p <- zip ws keys) p.1 * (normal p.2 (size xs))`_i ^+ 2 = 1 ->
  let x k := (bb_proposal normal tme xs k)`_i in
  [/\ forall k, size (bb_proposal normal tme xs k) = size xs,
      \sum_(p <- zip ws keys) p.1 * x p.2 = (tme xs`_i).1
    & \sum_(p <- zip ws keys) p.1 * (x p.2 - (tme xs`_i).1) ^+ 2 = (tme xs`_i).2].
Proof.
move=> hi hn hk h1 v0 m0 m2 x.
have ex k : x k = (tme xs`_i).1 + Num.sqrt (tme xs`_i).2 * (normal k (size xs))`_i.
  rewrite /x /bb_proposal (nth_map (0, 0)) ?size_zip ?hn ?minnn // nth_zip ?hn //.
have hw : \sum_(p <- zip ws keys) p.1 = 1.
  by rewrite -h1 -[in RHS](@unzip1_zip _ _ ws keys) ?hk // /unzip1 big_map.
split=> [k||]; first by rewrite size_map size_zip hn minnn.
  transitivity ((tme xs`_i).1 * (\sum_(p <- zip ws keys) p.1)
    + Num.sqrt (tme xs`_i).2 * (\sum_(p <- zip ws keys) p.1 * (normal p.2 (size xs))`_i)).
    rewrite !mulr_sumr -big_split; apply: eq_bigr => p _ /=; rewrite ex.
    by move: (nth 0 _ i) (Num.sqrt _) (tme _).1 (p.1) => *; ring.
  by rewrite m0 hw mulr0 addr0 mulr1.
transitivity (Num.sqrt (tme xs`_i).2 ^+ 2 * (\sum_(p <- zip ws keys) p.1 * (normal p.2 (size xs))`_i ^+ 2)).
  rewrite !mulr_sumr; apply: eq_bigr => p _ /=; rewrite ex.
  by move: (nth 0 _ i) (Num.sqrt _) (tme _).1 (p.1) => *; ring.
by rewrite m2 mulr1 sqr_sqrtr.
Qed.

(* ---- C97: "the extended Kalman filter will fail for this model by definition", ghf.py line 4 ---- *)
Section Blind.
Variable R : rcfType.
Variables (exp log : R -> R) (pi : R).
Variable chol : forall n, 'M[R]_n -> 'M[R]_n.
Variables jacfwd jacrev : forall n m, ('cV[R]_n -> 'cV[R]_m) -> 'cV[R]_n -> 'M[R]_(m, n).

(* started at the initial mean of the model, with any transition that fixes 0 the mean stays at 0
   whatever the binary data, the covariances are those of prediction alone, and the negative log
   likelihood depends on the number of measurements only *)
Theorem benes_bernoulli_ekf_blind (f : 'cV[R]_1 -> R -> 'cV[R]_1 * 'M[R]_1) JF dt v0 (ys : seq bool) fw :
  exp_spec exp -> (forall x, 1 + x <= exp x) -> jac_spec jacfwd -> jac_spec jacrev ->
  (f 0 dt).1 = 0 -> has_jacobian (fun x => (f x dt).1) 0 JF ->
  ekf chol log pi jacfwd jacrev f (bb_meas exp) (vec1 (gs_mean (ss_init_cond R 2))) v0 dt
      [seq vec1 (y%:R : R) | y : bool <- ys] fw
  = Some (nseq (size ys) 0, traj (fun v (_ : bool) => JF *m v *m JF^T + (f 0 dt).2) v0 ys,
          [seq k.+1%:R * ((1 + log (pi / 2%:R)) / 2%:R) | k <- iota 0 (size ys)]).
Proof.
move=> he h1 jf jr f0 hF; rewrite init_mean vec10.
rewrite (ekf_blind_lem _ _ _ _ _ _ jf jr f0 hF (bb_meas_flat he h1)); last first.
  by rewrite bb_meas0 // mxE eqxx mulr1n divr_gt0 ?ltr01 ?ltr0n.
rewrite bb_meas0 //= size_map; congr (Some (_, _, _)).
  by elim: ys v0 => //= y ys IH v; rewrite IH.
have -> : [seq k.+1%:R * ((1 + log (pi / 2%:R)) / 2%:R) | k <- iota 0 (size ys)]
  = running (fun=> (1 + log (pi / 2%:R)) / 2%:R) 0 ys.
  by rewrite (running_const _ _ (fun=> erefl)); apply: eq_map => k; rewrite add0r.
elim: ys (0 : R) => //= y ys IH e; rewrite half_data !mulNr opprK [2%:R^-1 * _]mulrC.
by rewrite IH.
Qed.

(* The Gauss-Hermite filter of the same file is not blind: whatever the transition, the mean moves
   up on every 1 and down on every 0. *)
Theorem benes_bernoulli_ghf_tracks (sgps : sigma_points R 1) (f : 'cV[R]_1 -> R -> 'cV[R]_1 * 'M[R]_1) (ys : seq bool) :
  exp_spec exp -> chol_spec chol -> sg_rule (sg_w sgps) (sg_xi sgps) ->
  (forall p, p \in zip (sg_w sgps) (sg_xi sgps) -> 0 <= p.1) -> (forall x, posdef (f x (ss_dt R)).2) ->
  exists outs, [/\ size outs = size ys,
    exists es, bb_ghf exp log pi chol sgps f [seq vec1 (y%:R : R) | y : bool <- ys]
               = Some ([seq s.1 | s <- outs], [seq s.2 | s <- outs], es) &
    chain_of (fun s (y : bool) s' => exists2 L, is_chol L s.2 &
        let predicted := wmean (sg_w sgps) (sg_xi sgps) (fun z => (f (s.1 + L *m z) (ss_dt R)).1) in
        if y then predicted 0 0 < s'.1 0 0 else s'.1 0 0 < predicted 0 0)
      (vec1 (gs_mean (ss_init_cond R 2)), mat1 (gs_variance (ss_init_cond R 2))) ys outs].
Proof.
move=> he hc hsg w0 pS.
have pX (x : 'cV[R]_1) : posdef (bb_meas exp x).2.
  by have [/(_ x) [] _] := bernoulli_matched he.
have hk : false -> forall x x' : 'cV[R]_1, (bb_meas exp x).2 = (bb_meas exp x').2 by [].
have [outs [so [es eo] ch]] := sgp_filter_nonlinear log pi (vec1 (gs_mean (ss_init_cond R 2)))
  [seq vec1 (y%:R : R) | y : bool <- ys] hc hsg w0 pS pX hk (init_posdef R).
exists outs; split=> //; [by rewrite so size_map|by exists es|].
have {ch} := chain_impl (fun s y s' => sigma_tracks hsg w0 (f := fun x => (f x (ss_dt R)).1)
  (Sigma := fun x => (f x (ss_dt R)).2) (h := fun x => (bb_meas exp x).1) (s := s) (y := y) (s' := s') _) ch.
have hm (x x' : 'cV[R]_1) : x 0 0 < x' 0 0 -> (bb_meas exp x).1 0 0 < (bb_meas exp x').1 0 0.
  by move=> h; rewrite !mxE !eqxx; have [_ hl _ _] := benes_bernoulli_logistic he; exact: hl.
move=> /(_ hm); elim: ys outs (vec1 _, mat1 _) {so eo} => [|y ys IH] [|o os] s //= [[L [L' [h1 h2 h3]]] h4].
split; last exact: IH.
exists L => //; move: h3; set Q := wmean _ _ _; rewrite /sigma_moments /=; set P := wmean _ _ _.
have hQ : 0 < Q 0 0 < 1.
  have hl t : 0 < vec1 (bb_logistic exp t) 0 0 < 1.
    by rewrite mxE eqxx mulr1n; have [hl _ _ _] := benes_bernoulli_logistic he; exact: hl.
  apply/andP; split; [apply: (wmean_gt hsg w0) => z|apply: (wmean_lt hsg w0) => z].
    by have /andP [h _] := hl (((sigma_moments (sg_w sgps) (sg_xi sgps) (fun x => (f x (ss_dt R)).1)
        (fun x => (f x (ss_dt R)).2) s.1 L).1 + L' *m z) 0 0).
  by have /andP [_ h] := hl (((sigma_moments (sg_w sgps) (sg_xi sgps) (fun x => (f x (ss_dt R)).1)
        (fun x => (f x (ss_dt R)).2) s.1 L).1 + L' *m z) 0 0).
have sub (a b : 'cV[R]_1) : (a - b) 0 0 = a 0 0 - b 0 0 by rewrite !mxE.
have v1 (a : R) : vec1 a 0 0 = a by rewrite mxE eqxx mulr1n.
rewrite !sub v1; move: hQ => /andP [Q0 Q1]; case: (y).
  by rewrite [RHS]gtr0_sg ?subr_gt0 // => /eqP; rewrite sgr_cp0 subr_gt0.
by rewrite [RHS]ltr0_sg ?subr_lt0 // => /eqP; rewrite sgr_cp0 subr_lt0.
Qed.
End Blind.

(* ---- C98: the two estimates of parameter_estimation/ghf_ekf.py ---- *)
Section Estimate.
Variable R : rcfType.
Variables (exp log : R -> R) (pi : R).
Variable chol : forall n, 'M[R]_n -> 'M[R]_n.
Variables jacfwd jacrev : forall n m, ('cV[R]_n -> 'cV[R]_m) -> 'cV[R]_n -> 'M[R]_(m, n).
Local Notation objective := (gf_objective exp log pi chol jacfwd jacrev).
Local Notation estimate := (gf_estimate exp log pi chol jacfwd jacrev).

(* Full statement: the gh file holds the estimate that minimise finds for the Gauss-Hermite
   objective. *)
Definition gh_file_correct (sgps : sigma_points R 1) : Prop :=
  forall minimise p1_init p2_init ys,
    (estimate sgps minimise p1_init p2_init ys).1
    = let r := minimise (objective sgps Ghf) (initial_params exp log p1_init, initial_params exp log p2_init) ys in
      (positive_params exp log r.1, positive_params exp log r.2).

(* Both files hold the same numbers, and these do not depend on the sigma points. *)
Theorem gh_file_is_ekf_file sgps sgps' minimise p1_init p2_init ys :
  (estimate sgps minimise p1_init p2_init ys).1 = (estimate sgps minimise p1_init p2_init ys).2 /\
  (estimate sgps minimise p1_init p2_init ys).2
  = let r := minimise (objective sgps' Ekf) (initial_params exp log p1_init, initial_params exp log p2_init) ys in
    (positive_params exp log r.1, positive_params exp log r.2).
Proof. by []. Qed.

Hypotheses (eP : exp_spec exp) (eA : exp_add exp) (lP : SsProofs.log_spec exp log).
Hypotheses (lG : GfsSpec.log_spec log) (pi0 : 0 < pi) (hc : chol_spec chol).

(* For every rule with nonnegative weights and the moments of N(0, 1) up to the third the two
   objectives differ at every parameter, already on one of the counts 0, 1, 2. *)
Theorem ghf_ekf_objectives_differ (sgps : sigma_points R 1) q1 q2 :
  sg_rule (sg_w sgps) (sg_xi sgps) -> (forall p, p \in zip (sg_w sgps) (sg_xi sgps) -> 0 <= p.1) ->
  (forall i j k, \sum_(p <- zip (sg_w sgps) (sg_xi sgps)) p.1 * (p.2 i 0 * p.2 j 0 * p.2 k 0) = 0) ->
  exists2 y : nat, (y < 3)%N & objective sgps Ghf q1 q2 [:: vec1 y%:R] <> objective sgps Ekf q1 q2 [:: vec1 y%:R].
Proof. by move=> *; exact: objectives_differ. Qed.

Theorem gh_file_refuted (sgps : sigma_points R 1) :
  sg_rule (sg_w sgps) (sg_xi sgps) -> (forall p, p \in zip (sg_w sgps) (sg_xi sgps) -> 0 <= p.1) ->
  (forall i j k, \sum_(p <- zip (sg_w sgps) (sg_xi sgps)) p.1 * (p.2 i 0 * p.2 j 0 * p.2 k 0) = 0) ->
  exists minimise p1_init p2_init ys,
    (estimate sgps minimise p1_init p2_init ys).1
    <> let r := minimise (objective sgps Ghf) (initial_params exp log p1_init, initial_params exp log p2_init) ys in
       (positive_params exp log r.1, positive_params exp log r.2).
Proof.
move=> h1 h2 h3; have [y _ hy] := ghf_ekf_objectives_differ 0 0 h1 h2 h3.
pose mini (obj : R -> R -> seq 'cV[R]_1 -> option R) (_ : R * R) (ys : seq 'cV[R]_1) : R * R :=
  if obj 0 0 ys == objective sgps Ghf 0 0 ys then (0, 0) else (1, 0).
exists mini, 1, 1, [:: vec1 y%:R]; rewrite /gf_estimate /= /mini eqxx.
case: eqP => [e|_] /=; first by case: hy; rewrite e.
move=> [h]; have := congr1 exp h; have [_ le] := lP; rewrite /positive_params !le ?addr_gt0 ?ltr01 ?exp_gt0 //.
by move/addIr => h'; have := exp_lt eP (@ltr01 R); rewrite h' ltxx.
Qed.

Corollary gh_file_not_correct (sgps : sigma_points R 1) :
  sg_rule (sg_w sgps) (sg_xi sgps) -> (forall p, p \in zip (sg_w sgps) (sg_xi sgps) -> 0 <= p.1) ->
  (forall i j k, \sum_(p <- zip (sg_w sgps) (sg_xi sgps)) p.1 * (p.2 i 0 * p.2 j 0 * p.2 k 0) = 0) ->
  ~ gh_file_correct sgps.
Proof. by move=> h1 h2 h3 bad; have [m [a [b [ys []]]]] := gh_file_refuted h1 h2 h3; exact: bad. Qed.
End Estimate.

(* ---- C99: the means of prey_predator/mf.py in the mode 'raw' ---- *)
Theorem prey_predator_raw_means (R : rcfType) N indices (ws : seq R) (xs : seq 'cV[R]_2) : (0 < N)%N ->
  generate_graded_lexico_multi_indices 2 (2 * N - 1) 0 = Some indices ->
  pp_raw_means [seq \sum_(p <- zip ws xs) p.1 * \prod_(i < 2) p.2 i 0 ^+ nth 0%N mi i | mi : seq nat <- indices]
  = \sum_(p <- zip ws xs) p.1 *: p.2.
Proof.
move=> N0 hg; have pos x k : in_range 2 0 (2 * N - 1) x ->
    graded_lexico_indexof_multi_index x (Posz 0) = Some (Posz k) -> (k < size indices)%N /\ nth [::] indices k = x.
  by move=> hr hk; have [p] := indexof_is_position (leq0n _) hg hr; rewrite hk => -[->].
have [s1 e1] : (1 < size indices)%N /\ nth [::] indices 1 = [:: 0; 1]%N by apply: pos; rewrite // /in_range /=; lia.
have [s2 e2] : (2 < size indices)%N /\ nth [::] indices 2 = [:: 1; 0]%N by apply: pos; rewrite // /in_range /=; lia.
apply/matrixP => i j; rewrite ord1 [LHS]mxE summxE.
rewrite !jget_nth ?size_map // !(nth_map [::]) // e1 e2.
case: i => [[|[|i]]] hi //=; apply: eq_bigr => p _; rewrite !big_ord_recl big_ord0 mxE /= !expr0 expr1 !mulr1 ?mul1r //.
  by congr (_ * p.2 _ _); apply: val_inj.
by congr (_ * p.2 _ _); apply: val_inj.
Qed.

(* ---- C93: the distances bound the error of the moment filters ---- *)
Section CfError.
Variable R : rcfType.
Variable chol : forall n, 'M[R]_n -> 'M[R]_n.
Variable eigh : forall n, 'M[R]_n -> 'M[R]_n * 'rV[R]_n.
Variable cexp : R[i] -> R[i].

(* The characteristic function computed from 2N moments, sampled on the grid of line 36, against
   that of any discrete law with these moments. *)
Theorem cf_errors_bound (b : R) m (ms as_ zs : seq R) (cfs : seq R[i]) :
  chol_spec chol -> eigh_spec eigh -> 0 < b -> (1 < m)%N ->
  size as_ = size zs -> all (fun w => 0 <= w) as_ ->
  (forall k, (k < (size ms)./2.*2)%N -> ms`_k = discrete_moment as_ zs k) -> jsum as_ = 1 ->
  admissible (nth 0 ms) (size ms)./2 -> taylor_exp (size ms)./2.*2 cexp ->
  [seq characteristic_fn chol eigh cexp z ms 0 1 | z <- cf_grid b m] = [seq Some c | c <- cfs] ->
  let truth := [seq \sum_(p <- zip as_ zs) real_complex R p.1 * cexp ('i%C * real_complex R (z * p.2)) | z <- cf_grid b m] in
  let e := 2%:R * b ^+ (size ms)./2.*2 / ((size ms)./2.*2)`!%:R * discrete_moment as_ zs (size ms)./2.*2 in
  [/\ cf_sup cfs truth <= e, cf_l1 (cf_grid b m) cfs truth <= 2%:R * b * e
    & cf_l2 (cf_grid b m) cfs truth ^+ 2 <= 2%:R * b * e ^+ 2].
Proof.
move=> hc he b0 m1 h1 h2 hm hs ha ht hcf truth e.
have [sg og [hg lg] _ _] := cf_grid_laws b0 m1.
have sc : size cfs = m by have := congr1 size hcf; rewrite size_map sg size_map.
have st : size truth = m by rewrite size_map.
have L : last 0 (cf_grid b m) - head 0 (cf_grid b m) = 2%:R * b.
  by rewrite hg lg opprK -mulr2n mulr_natl.
have n1 : (1 < size (cf_grid b m))%N by rewrite sg.
have [c1 c2 _ _ _] := cf_errors_compare n1 og (etrans sc (esym sg)) (etrans st (esym sg)).
rewrite L in c1 c2.
have sup : cf_sup cfs truth <= e.
  apply: npmax_le => [|x /(nthP 0) [j]]; first by rewrite size_map size_zip sc st minnn ltnW.
  rewrite size_map size_zip sc st minnn => hj <-; rewrite (nth_map (0, 0)) ?size_zip ?sc ?st ?minnn // nth_zip ?sc ?st //=.
  set z := (cf_grid b m)`_j; have zin : z \in cf_grid b m by rewrite mem_nth // sg.
  have ez : characteristic_fn chol eigh cexp z ms 0 1 = Some cfs`_j.
    have := congr1 (fun s => nth None s j) hcf; rewrite (nth_map 0) ?sg // => ->.
    by rewrite (nth_map 0) ?sc.
  have := characteristic_fn_error hc he h1 h2 hm hs ha ht ez; rewrite cabsE (nth_map 0) ?sg // -/z.
  rewrite lecR => /le_trans; apply; rewrite /e -!mulrA ler_wpmul2l ?ler0n // ler_wpmul2r //.
    rewrite mulr_ge0 ?invr_ge0 ?ler0n // /discrete_moment big_seq; apply: sumr_ge0 => p hp.
    rewrite mulr_ge0 //; last by rewrite -muln2 mulnC exprM exprn_ge0 // sqr_ge0.
    by apply: (allP h2); exact: (zip_fst hp).
  have hz : `|z| <= b.
    have mono := sorted_leq_nth (@le_trans _ R) (@lexx _ R) 0 (sub_sorted (@ltW _ R) og).
    rewrite ler_norml -{1}hg -{2}lg -nth0 -nth_last sg /z; apply/andP.
    by split; apply: mono; rewrite ?inE ?sg //; lia.
  rewrite -[z ^+ _]ger0_norm; last by rewrite -muln2 mulnC exprM exprn_ge0 // sqr_ge0.
  by rewrite normrX ler_expn2r ?nnegrE ?normr_ge0 // ltW.
have s0 : 0 <= cf_sup cfs truth.
  have h : size (cf_diff cfs truth) = m by rewrite size_map size_zip sc st minnn.
  have : npmax (cf_diff cfs truth) \in cf_diff cfs truth by apply: npmax_mem; rewrite h ltnW.
  by move=> /mapP [t _ e0]; rewrite /cf_sup e0; exact: cabs_ge0.
have e0 : 0 <= e by exact: le_trans sup.
have bb : 0 <= 2%:R * b by rewrite mulr_ge0 ?ler0n // ltW.
split=> //; first by apply: (le_trans c1); rewrite ler_wpmul2l.
apply: (le_trans c2); by rewrite ler_wpmul2l // ler_expn2r ?nnegrE.
Qed.
End CfError.

Print Assumptions cf_errors_metric.
Print Assumptions cf_errors_compare.
Print Assumptions mean_errors.
Print Assumptions cf_grid_laws.
Print Assumptions cf_errors_bound.
Print Assumptions particle_cf_laws.
Print Assumptions spatial_grid_bounds.
Print Assumptions spatial_grid_mass.
Print Assumptions true_mean_in_grid.
Print Assumptions bernoulli_matched.
Print Assumptions well_poisson_ghf.
Print Assumptions well_poisson_ghf_tracks.
Print Assumptions prey_predator_euler.
Print Assumptions proposal_moments.
Print Assumptions benes_bernoulli_ekf_blind.
Print Assumptions benes_bernoulli_ghf_tracks.
Print Assumptions gh_file_is_ekf_file.
Print Assumptions ghf_ekf_objectives_differ.
Print Assumptions gh_file_refuted.
Print Assumptions gh_file_not_correct.
Print Assumptions prey_predator_raw_means.

(* The Gauss-Hermite rules of the scripts (--gh, order at least two) meet the hypotheses of C96, C97
   and C98. *)
Example gh_rules_ex (R : rcfType) (roots : seq R -> seq R) n : roots_spec roots -> (1 < n)%N ->
  let sg := gauss_hermite roots 1 1 n in
  [/\ sg_rule (sg_w sg) (sg_xi sg), forall p, p \in zip (sg_w sg) (sg_xi sg) -> 0 <= p.1 &
      forall i j k, \sum_(p <- zip (sg_w sg) (sg_xi sg)) p.1 * (p.2 i 0 * p.2 j 0 * p.2 k 0) = 0].
Proof.
move=> hr n1 sg; split.
- by have [] := gauss_hermite_moments hr (@ltr01 R) 1 n1.
- exact: gauss_hermite_w0.
- exact: (gh_third hr (@ltr01 R) n1).
Qed.

(* two distinct characteristic functions on the grid of line 36 with three points *)
Example cf_errors_ex (R : rcfType) : let zs := cf_grid (1 : R) 3 in
  (1 < size zs)%N /\ sorted <%R zs /\ cf_sup (nseq 3 (1 : R[i])) (nseq 3 0) = 1.
Proof.
have [h1 h2 _ _ _] := @cf_grid_laws R 1 3 ltr01 isT; move=> zs; rewrite /zs h1; split=> //; split=> //.
have e : cabs (1 - 0 : R[i]) = 1 by rewrite subr0 /cabs /= expr0n addr0 expr1n sqrtr1.
by rewrite /cf_sup /cf_diff /= /npmax /= !e !maxxx.
Qed.

(* means 0 and 1 with variances 1 and 4, three standard deviations: the grid runs from -5 to 7 *)
Example spatial_grid_ex (R : rcfType) : let means := [:: 0; 1 : R] in let cmss := [:: [:: 1; 0; 1]; [:: 1; 0; 4%:R]] in
  (forall c, c \in cmss -> 0 < jget 0 c 2) /\
  spatial_lb 3%:R means cmss = - 5%:R /\ spatial_ub 3%:R means cmss = 7%:R.
Proof.
move=> means cmss; have s4 : Num.sqrt (4%:R : R) = 2%:R.
  by rewrite (_ : 4%:R = 2%:R ^+ 2) ?sqrtr_sqr ?ger0_norm ?ler0n // -natrX.
split.
  by move=> c; rewrite !inE => /orP [] /eqP -> /=; rewrite ?ltr01 ?ltr0n.
rewrite /spatial_lb /spatial_ub /npmin /npmax /= s4 sqrtr1; split.
  rewrite min_r; first by ring.
  have h : (0 - 3%:R * 1) - (1 - 3%:R * 2%:R) = 2%:R :> R by ring.
  by rewrite -subr_ge0 h ler0n.
rewrite max_r; first by ring.
have h : (1 + 3%:R * 2%:R) - (0 + 3%:R * 1) = 4%:R :> R by ring.
by rewrite -subr_ge0 h ler0n.
Qed.

(* the generator succeeds for N = 2, and the two entries picked are the means of a two-point law *)
Example raw_means_ex : generate_graded_lexico_multi_indices 2 (2 * 2 - 1) 0
  = Some [:: [:: 0; 0]; [:: 0; 1]; [:: 1; 0]; [:: 0; 2]; [:: 1; 1]; [:: 2; 0]; [:: 0; 3]; [:: 1; 2]; [:: 2; 1]; [:: 3; 0]]%N.
Proof. by vm_compute. Qed.
