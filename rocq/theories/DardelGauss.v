(* Proofs on the Gaussian filters of dardel/: the measurement models, and the two objective
   functions of parameter_estimation/ghf_ekf.py. *)
From mathcomp Require Import all_ssreflect all_algebra.
From mathcomp Require Import ring zify.
From Verif Require Import Prelude LinAlgSpec LinAlgProofs QuadModel Moments1DModel Moments1DSpec BellProofs.
From Verif Require Import GfsModel GfsSpec GfsProofs GfsKf GfsVec GfsRts GfsSgp EkfLin SgpNl.
From Verif Require Import SsModel SsProofs ConvProofs DardelModel.
Set Implicit Arguments.
Unset Strict Implicit.
Unset Printing Implicit Defensive.
Import Order.TTheory GRing.Theory Num.Theory.
Local Open Scope ring_scope.

(* ---- the softplus function lies strictly above its tangent at 0 ---- *)
Section Softplus.
Variable R : rcfType.
Variables (exp log : R -> R).
Hypotheses (eP : exp_spec exp) (eA : exp_add exp) (lP : SsProofs.log_spec exp log).

Lemma log_ltE x y : 0 < x -> 0 < y -> (log x < log y) = (x < y).
Proof. by case: lP => _ h x0 y0; rewrite -(exp_ltE eP) !h. Qed.

Lemma log_gt0 x : 1 < x -> 0 < log x.
Proof.
move=> h; have -> : 0 = log 1 by case: lP => h1 _; rewrite -(SsProofs.exp0 eP) h1.
by rewrite log_ltE ?ltr01 // (lt_trans ltr01).
Qed.

Lemma softplus_gt0 u : 0 < log (1 + exp u).
Proof. by rewrite log_gt0 // ltr_addl exp_gt0. Qed.

Lemma positive_params_gt0 q : 0 < positive_params exp log q.
Proof. by rewrite /positive_params addrC softplus_gt0. Qed.

Lemma softplus_tangent u : u != 0 -> log 2%:R + u / 2%:R < log (1 + exp u).
Proof.
move=> u0; have [h1 h2] := lP; rewrite -(exp_ltE eP) eA !h2 ?ltr0n ?addr_gt0 ?ltr01 ?exp_gt0 //.
have e : exp u = exp (u / 2%:R) ^+ 2 by rewrite expr2 -eA; congr exp; field.
rewrite e; set t := exp (u / 2%:R).
have t1 : t != 1.
  apply: contra u0 => /eqP; rewrite -(SsProofs.exp0 eP) /t => h.
  have : u / 2%:R == 0 by rewrite -(h1 (u / 2%:R)) h h1.
  by rewrite mulf_eq0 invr_eq0 pnatr_eq0 orbF.
rewrite -subr_gt0; have -> : 1 + t ^+ 2 - 2%:R * t = (t - 1) ^+ 2 by ring.
by rewrite lt_def sqrf_eq0 subr_eq0 t1 sqr_ge0.
Qed.

Lemma softplus_tangent_le u : log 2%:R + u / 2%:R <= log (1 + exp u).
Proof.
case: (eqVneq u 0) => [->|/softplus_tangent /ltW //].
by rewrite mul0r addr0 (SsProofs.exp0 eP) -(natrD _ 1 1).
Qed.
End Softplus.

(* ---- two quadratics agreeing at 0, 1, 2 ---- *)
Section Quad.
Variable R : rcfType.
Lemma quad_agree (a b S T c d : R) : 0 < S -> 0 < T ->
  (0 - a) ^+ 2 / S + c = (0 - b) ^+ 2 / T + d ->
  (1 - a) ^+ 2 / S + c = (1 - b) ^+ 2 / T + d ->
  (2%:R - a) ^+ 2 / S + c = (2%:R - b) ^+ 2 / T + d -> a = b.
Proof.
move=> S0 T0; have: S^-1 != 0 by rewrite invr_eq0 gt_eqF.
have: T^-1 != 0 by rewrite invr_eq0 gt_eqF.
move: S^-1 T^-1 => i j j0 i0 h0 h1 h2.
have e1 : i = j.
  have : 2%:R * i = 2%:R * j.
    have -> : 2%:R * i = ((2%:R - a) ^+ 2 * i + c) - 2%:R * ((1 - a) ^+ 2 * i + c) + ((0 - a) ^+ 2 * i + c) by ring.
    by rewrite h0 h1 h2; ring.
  by apply: mulfI; rewrite pnatr_eq0.
subst j; have : (2%:R * i) * a = (2%:R * i) * b.
  have -> : 2%:R * i * a = i - (((1 - a) ^+ 2 * i + c) - ((0 - a) ^+ 2 * i + c)) by ring.
  by rewrite h0 h1; ring.
by apply: mulfI; rewrite mulf_neq0 ?pnatr_eq0.
Qed.
End Quad.

(* ---- the means of the sigma-point rule in one dimension ---- *)
Section Rule.
Variable R : rcfType.
Variables (w : seq R) (xi : seq 'cV[R]_1).
Hypothesis hsg : sg_rule w xi.
Hypothesis w0 : forall p, p \in zip w xi -> 0 <= p.1.
Local Notation E g := (\sum_(p <- zip w xi) p.1 * g (p.2 0 0)).

Lemma rule1 : E (fun=> 1) = 1.
Proof. by case: hsg => _ h _ _; rewrite -[RHS]h; apply: eq_bigr => p _; rewrite mulr1. Qed.
Lemma ruleX : E id = 0.
Proof.
case: hsg => _ _ h _; transitivity ((\sum_(p <- zip w xi) p.1 *: p.2) 0 0); last by rewrite h mxE.
by rewrite summxE; apply: eq_bigr => p _; rewrite mxE.
Qed.
Lemma ruleX2 : E (fun x => x ^+ 2) = 1.
Proof.
case: hsg => _ _ _ h; transitivity ((\sum_(p <- zip w xi) p.1 *: (p.2 *m p.2^T)) 0 0); last by rewrite h mxE eqxx.
by rewrite summxE; apply: eq_bigr => p _; rewrite !mxE big_ord1 mxE expr2.
Qed.

(* a nonnegative function with strict values off 0 has positive mean *)
Lemma rule_pos (g : R -> R) : (forall x, 0 <= g x) -> (forall x, x != 0 -> 0 < g x) -> 0 < E g.
Proof.
move=> g0 g1; rewrite lt_def; apply/andP; split; last first.
  by rewrite big_seq; apply: sumr_ge0 => p hp; rewrite mulr_ge0 ?w0.
apply/negP => /eqP h.
have hz p : p \in zip w xi -> p.1 * g (p.2 0 0) = 0.
  move: h; rewrite big_seq => /eqP; rewrite psumr_eq0; last by move=> q hq; rewrite mulr_ge0 ?w0.
  by move=> /allP hA hp; have := hA p hp; rewrite hp => /eqP.
have : E (fun x => x ^+ 2) = 0.
  rewrite big_seq big1 // => p hp; have := hz p hp => /eqP; rewrite mulf_eq0 => /orP [/eqP ->|/eqP hg].
    by rewrite mul0r.
  case: (eqVneq (p.2 0 0) 0) => [->|/g1]; first by rewrite expr0n mulr0.
  by rewrite hg ltxx.
by rewrite ruleX2 => /eqP; rewrite oner_eq0.
Qed.
End Rule.

Section Objective.
Variable R : rcfType.
Variables (exp log : R -> R) (pi : R).
Variable chol : forall n, 'M[R]_n -> 'M[R]_n.
Variables jacfwd jacrev : forall n m, ('cV[R]_n -> 'cV[R]_m) -> 'cV[R]_n -> 'M[R]_(m, n).
Hypotheses (eP : exp_spec exp) (eA : exp_add exp) (lP : SsProofs.log_spec exp log).

Lemma init_variance : gs_variance (ss_init_cond R 2) = 3%:R / 10%:R.
Proof.
transitivity ((gs_cms (ss_init_cond R 2))`_2); last by rewrite init_cms nth_mkseq // sym_2.
by apply: gs_variance_cms => //; rewrite /= !divr_ge0 ?ler01 ?ler0n.
Qed.

Lemma ss_dt_gt0 : 0 < ss_dt R.
Proof. by rewrite /ss_dt divr_gt0 ?ltr01 ?ltr0n. Qed.

Lemma init_posdef : posdef (mat1 (gs_variance (ss_init_cond R 2))).
Proof. by rewrite init_variance; apply: scalar_posdef; rewrite divr_gt0 ?ltr0n. Qed.

Lemma wp_euler_posdef (p1 : R) x t : posdef (wp_euler p1 x t).2.
Proof. by apply: scalar_posdef; rewrite /ss_dispersion expr1n mul1r ss_dt_gt0. Qed.

Lemma wp_meas_posdef p2 x : posdef (wp_meas exp log p2 x).2.
Proof. by apply: scalar_posdef; exact: (softplus_gt0 eP lP). Qed.

Lemma vec10 : vec1 (0 : R) = 0.
Proof. by rewrite /vec1 raddf0. Qed.

Lemma logdet1 (x mu S : R) : log_gauss log pi (vec1 x) (vec1 mu) (mat1 S)
  = - 2%:R^-1 * ((x - mu) ^+ 2 / S + log (2%:R * pi * S)).
Proof.
rewrite /log_gauss qform11 /mat1 invmx_scalar det_scalar !expr1 -(raddfB (scalar_mx_additive R 1)) !mxE eqxx !mulr1n.
by rewrite [S^-1 * _]mulrC.
Qed.

Lemma ekf_first sgps q1 q2 : exists2 S, 0 < S & forall y,
  gf_objective exp log pi chol jacfwd jacrev sgps Ekf q1 q2 [:: vec1 y]
  = Some (- log_gauss log pi (vec1 y) (vec1 (log 2%:R)) (mat1 S)).
Proof.
rewrite /gf_objective; set p1 := positive_params _ _ q1; set p2 := positive_params _ _ q2.
set v0 := mat1 _; pose F := jacfwd (fun u => (wp_euler p1 u (ss_dt R)).1) 0.
pose vp := F *m v0 *m F^T + (wp_euler p1 0 (ss_dt R)).2.
pose H := jacrev (fun x => (wp_meas exp log p2 x).1) 0.
have pv : posdef vp.
  by apply: semi_pos_add; [apply: semi_congr; apply: posdef_semi; exact: init_posdef|exact: wp_euler_posdef].
have pI := innov_posdef H (wp_meas_posdef p2 0) (posdef_semi pv).
exists (innov H vp (wp_meas exp log p2 0).2 0 0); first exact: posdef11.
move=> y; rewrite init_mean vec10 /ekf /run_filter /= /ekf_predict /=.
pose z : 'cV[R]_1 := 0; have z0 : z 0 0 = 0 by rewrite mxE.
have e0 : vec1 (z 0 0 + wp_drift (z 0 0) p1 * ss_dt R) = 0 by rewrite /wp_drift z0 !mul0r addr0 vec10.
have ew : wp_emission exp log (z 0 0) p2 = log 2%:R by rewrite /wp_emission z0 mulr0 (SsProofs.exp0 eP) -(natrD _ 1 1).
rewrite -/z e0 -/z sub0r; congr (Some (- _)).
have := log_normal_pdfE log pi (vec1 y) (vec1 (wp_emission exp log (z 0 0) p2)) (posdef11 pI).
move=> e; apply: (etrans e); rewrite [in LHS]ew; congr (log_gauss _ _ _ _ _).
by rewrite /mat1 -mx11_scalar.
Qed.

Lemma ghf_first (sgps : sigma_points R 1) q1 q2 : chol_spec chol -> GfsSpec.log_spec log -> 0 < pi ->
  sg_rule (sg_w sgps) (sg_xi sgps) -> (forall p, p \in zip (sg_w sgps) (sg_xi sgps) -> 0 <= p.1) ->
  (forall i j k, \sum_(p <- zip (sg_w sgps) (sg_xi sgps)) p.1 * (p.2 i 0 * p.2 j 0 * p.2 k 0) = 0) ->
  exists S m, [/\ 0 < S, log 2%:R < m & forall y,
  gf_objective exp log pi chol jacfwd jacrev sgps Ghf q1 q2 [:: vec1 y]
  = Some (- log_gauss log pi (vec1 y) (vec1 m) (mat1 S))].
Proof.
move=> hc lG pi0 hsg w0 h3; rewrite /gf_objective; set p1 := positive_params _ _ q1; set p2 := positive_params _ _ q2.
set v0 := mat1 _; have pv0 : posdef v0 := init_posdef.
set w := sg_w sgps in hsg w0 h3 *; set xi := sg_xi sgps in hsg w0 h3 *.
pose P := sigma_moments w xi (fun x => (wp_euler p1 x (ss_dt R)).1) (fun x => (wp_euler p1 x (ss_dt R)).2) 0 (chol v0).
have pP : posdef P.2 by apply: (moments_posdef hsg w0) => x; exact: wp_euler_posdef.
pose Q := sigma_moments w xi (fun x => (wp_meas exp log p2 x).1) (fun x => (wp_meas exp log p2 x).2) P.1 (chol P.2).
have pQ : posdef Q.2 by apply: (moments_posdef hsg w0) => x; exact: wp_meas_posdef.
have P1 : P.1 = 0.
  apply/matrixP => i j; rewrite !ord1 [RHS]mxE /P /sigma_moments /wmean /= summxE.
  set s := chol v0 0 0; set t := ss_dt R.
  rewrite (eq_bigr (fun p : R * 'cV[R]_1 => (s * (1 + t)) * (p.1 * p.2 0 0) - (p1 * t * s ^+ 3) * (p.1 * (p.2 0 0 * p.2 0 0 * p.2 0 0)))); last first.
    move=> p _; rewrite !mxE big_ord1 eqxx mulr1n add0r -/s /wp_drift.
    by move: (p.1) (p.2 0 0) => a b; ring.
  by rewrite sumrB -!mulr_sumr h3 (ruleX hsg) !mulr0 subr0.
exists (Q.2 0 0), (Q.1 0 0); split; first exact: posdef11.
  have [_ sp _] := hc _ _ pP; have s0 := sp 0; rewrite /Q P1 /sigma_moments /wmean /= summxE.
  set s := chol P.2 0 0 in s0 *.
  have ps : 0 < p2 by exact: (positive_params_gt0 eP lP).
  have key : 0 < \sum_(p <- zip w xi) p.1 * log (1 + exp (p2 * (s * p.2 0 0))) - log 2%:R.
    have := @rule_pos _ w xi hsg w0 (fun x => log (1 + exp (p2 * (s * x))) - (log 2%:R + p2 * (s * x) / 2%:R)).
    have -> : \sum_(p <- zip w xi) p.1 * (log (1 + exp (p2 * (s * p.2 0 0))) - (log 2%:R + p2 * (s * p.2 0 0) / 2%:R))
       = \sum_(p <- zip w xi) p.1 * log (1 + exp (p2 * (s * p.2 0 0)))
         - (log 2%:R * (\sum_(p <- zip w xi) p.1 * 1) + (p2 * s / 2%:R) * (\sum_(p <- zip w xi) p.1 * p.2 0 0)).
      rewrite !mulr_sumr -big_split -sumrB; apply: eq_bigr => p _ /=.
      by move: (log (1 + exp (p2 * (s * p.2 0 0)))) (log 2%:R) (p.1) (p.2 0 0) => l k a b; field.
    rewrite (rule1 hsg) (ruleX hsg) mulr1 mulr0 addr0.
    apply=> [x|x x0]; first by rewrite subr_ge0; exact: (softplus_tangent_le eP eA lP).
    rewrite subr_gt0; apply: (softplus_tangent eP eA lP).
    by rewrite !mulf_neq0 // gt_eqF.
  rewrite -subr_gt0; suff -> : \sum_(k <- zip w xi) (k.1 *: vec1 (wp_emission exp log ((0 + chol P.2 *m k.2) 0 0) p2)) 0 0
    = \sum_(p <- zip w xi) p.1 * log (1 + exp (p2 * (s * p.2 0 0))) by [].
  by apply: eq_bigr => p _; rewrite !mxE big_ord1 eqxx mulr1n add0r.
move=> y; rewrite init_mean vec10.
rewrite (nl_filterE hc log pi hsg w0 (fun x => wp_euler_posdef p1 x _) (wp_meas_posdef p2)) //=.
congr Some; rewrite /nl_upd -/v0 -/P /= -/Q add0r (chol11 lG pi0 _ _ (hc _ _ pQ)).
by rewrite /mat1 -mx11_scalar /vec1 -mx11_scalar.
Qed.

(* the two objectives are different functions of the data *)
Lemma objectives_differ (sgps : sigma_points R 1) q1 q2 : chol_spec chol -> GfsSpec.log_spec log -> 0 < pi ->
  sg_rule (sg_w sgps) (sg_xi sgps) -> (forall p, p \in zip (sg_w sgps) (sg_xi sgps) -> 0 <= p.1) ->
  (forall i j k, \sum_(p <- zip (sg_w sgps) (sg_xi sgps)) p.1 * (p.2 i 0 * p.2 j 0 * p.2 k 0) = 0) ->
  exists2 y : nat, (y < 3)%N & let ys := [:: vec1 (y%:R : R)] in
    gf_objective exp log pi chol jacfwd jacrev sgps Ghf q1 q2 ys
    <> gf_objective exp log pi chol jacfwd jacrev sgps Ekf q1 q2 ys.
Proof.
move=> hc lG pi0 hsg w0 h3; have [S [m [S0 hm hG]]] := ghf_first q1 q2 hc lG pi0 hsg w0 h3.
have [T T0 hE] := ekf_first sgps q1 q2.
pose same y := gf_objective exp log pi chol jacfwd jacrev sgps Ghf q1 q2 [:: vec1 y]
   == gf_objective exp log pi chol jacfwd jacrev sgps Ekf q1 q2 [:: vec1 y].
have hs y : same y -> (y - m) ^+ 2 / S + log (2%:R * pi * S) = (y - log 2%:R) ^+ 2 / T + log (2%:R * pi * T).
  rewrite /same hG hE => /eqP [/oppr_inj]; rewrite !logdet1; apply: mulfI.
  by rewrite oppr_eq0 invr_eq0 pnatr_eq0.
case e0 : (same 0); last by exists 0%N => //=; apply/eqP; rewrite -/(same 0) e0.
case e1 : (same 1); last by exists 1%N => //=; apply/eqP; rewrite -/(same 1) e1.
case e2 : (same 2%:R); last by exists 2%N => //=; apply/eqP; rewrite -/(same 2%:R) e2.
have := quad_agree S0 T0 (hs _ e0) (hs _ e1) (hs _ e2) => h.
by move: hm; rewrite h ltxx.
Qed.
End Objective.

(* ---- the extended filter at a point where the measurement mean is stationary ---- *)
Section Blind.
Variable R : rcfType.
Variables (exp log : R -> R) (pi : R).
Variable chol : forall n, 'M[R]_n -> 'M[R]_n.
Variables jacfwd jacrev : forall n m, ('cV[R]_n -> 'cV[R]_m) -> 'cV[R]_n -> 'M[R]_(m, n).

(* the running sums of the increments *)
Fixpoint running (T : Type) (inc : T -> R) (e : R) (ys : seq T) : seq R :=
  if ys is y :: ys' then (e + inc y) :: running inc (e + inc y) ys' else [::].

Lemma size_running (T : Type) (inc : T -> R) e ys : size (running inc e ys) = size ys.
Proof. by elim: ys e => //= y ys IH e; rewrite IH. Qed.

Lemma zip3_maps (A B C : Type) n (a : seq A) (b : seq B) (c : seq C) : size a = n -> size b = n -> size c = n ->
  let z := zip (zip a b) c in [/\ [seq o.1.1 | o <- z] = a, [seq o.1.2 | o <- z] = b & [seq o.2 | o <- z] = c].
Proof.
move=> <-; elim: a b c => [|x a IH] [|y b] [|t c] //= [hb] [hc].
by have [-> -> ->] := IH b c hb hc.
Qed.

Lemma ekf_blind_lem dx dt (f : 'cV[R]_dx -> R -> 'cV[R]_dx * 'M[R]_dx) (h : 'cV[R]_dx -> 'cV[R]_1 * 'M[R]_1)
    (JF : 'M[R]_dx) m v0 ys fw :
  jac_spec jacfwd -> jac_spec jacrev ->
  (f m dt).1 = m -> has_jacobian (fun x => (f x dt).1) m JF ->
  has_jacobian (fun x => (h x).1) m 0 -> 0 < (h m).2 0 0 ->
  ekf chol log pi jacfwd jacrev f h m v0 dt ys fw
  = Some (nseq (size ys) m, traj (fun v _ => JF *m v *m JF^T + (f m dt).2) v0 ys,
          running (fun y => - log_gauss log pi y (h m).1 (h m).2) 0 ys).
Proof.
move=> h1 h2 fm hF hH px; rewrite /ekf /run_filter.
set predict := ekf_predict _ _ _; set upd := fun mp vp y => _.
have step v y : let p := predict m v in upd p.1 p.2 y
    = Some (m, JF *m v *m JF^T + (f m dt).2, - log_gauss log pi y (h m).1 (h m).2).
  rewrite /predict /ekf_predict (h1 _ _ _ _ _ hF) /upd.
  case e : (f m dt) fm => [mp Sg] /= ->; rewrite /ekf_update.
  have -> : (if fw then jacfwd (fun x => (h x).1) m else jacrev (fun x => (h x).1) m) = 0.
    by rewrite (h1 _ _ _ _ _ hH) (h2 _ _ _ _ _ hH); case: (fw).
  case: (h m) px => [hm hX] /= px.
  have ei (vp : 'M[R]_dx) : innov 0 vp hX = hX by rewrite /innov !mul0mx add0r.
  rewrite linear_update_scalarE ei // /postcov /gain ei trmx0 !mulmx0 !mul0mx addr0 ?subr0 //.
pose st (v : 'M[R]_dx) (_ : 'cV[R]_1) := JF *m v *m JF^T + (f m dt).2.
pose inc y := - log_gauss log pi y (h m).1 (h m).2.
have := zip3_maps (size_nseq (size ys) m) (size_traj st v0 ys) (size_running inc 0 ys) => -[e1 e2 e3].
suff -> : oscan (filter_body predict upd) (m, v0, 0) ys
   = Some (last (m, v0, 0) (zip (zip (nseq (size ys) m) (traj st v0 ys)) (running inc 0 ys)),
           zip (zip (nseq (size ys) m) (traj st v0 ys)) (running inc 0 ys)).
  by rewrite e1 e2 e3.
elim: ys v0 0 {e1 e2 e3} => [|y ys IH] v e //=; have := step v y.
case ep : (predict m v) => [mp vp] /= -> /=.
by rewrite IH.
Qed.

Hypotheses (eP : exp_spec exp) (e1 : forall x, 1 + x <= exp x).

(* the logistic map is flat to the second order at 0 *)
Lemma logistic_flat x : `|bb_logistic exp x - 1 / 2%:R| <= `|x| ^+ 3.
Proof.
rewrite /bb_logistic -normrX; have -> : - x ^+ 3 / 5%:R = - (x ^+ 3 / 5%:R) by rewrite mulNr.
have sN u : `|1 / (1 + exp (- u)) - 1 / 2%:R| = `|1 / (1 + exp u) - 1 / 2%:R|.
  rewrite (sigmN eP) -[RHS]normrN; congr `|_|; by move: (1 / (1 + exp u)) => t; field.
have main u : 0 <= u -> `|1 / (1 + exp (- u)) - 1 / 2%:R| <= u.
  move=> u0; have h0 := exp_gt0 eP (- u); have h1 := e1 (- u); set t := exp (- u) in h0 h1 *.
  have t1 : t <= 1.
    rewrite /t; case: (eqVneq u 0) => [->|un]; first by rewrite oppr0 (SsProofs.exp0 eP).
    by rewrite -(SsProofs.exp0 eP) ltW // (exp_lt eP) // oppr_lt0 lt_def un.
  have d0 : 0 < 2%:R * (1 + t) by rewrite mulr_gt0 ?ltr0n ?addr_gt0 ?ltr01.
  have -> : 1 / (1 + t) - 1 / 2%:R = (1 - t) / (2%:R * (1 + t)) by field; rewrite gt_eqF ?addr_gt0 ?ltr01.
  rewrite ger0_norm; last by rewrite divr_ge0 ?subr_ge0 // ltW.
  rewrite ler_pdivr_mulr //; apply: (@le_trans _ _ u).
    by rewrite ler_subl_addr -ler_subl_addl -[1 - u]/(1 + - u).
  rewrite ler_pemulr // mulrDr mulr1; apply: (@le_trans _ _ 2%:R); first by rewrite ler1n.
  by rewrite ler_addl mulr_ge0 ?ler0n // ltW.
have n5 : `|x ^+ 3 / 5%:R| <= `|x ^+ 3|.
  rewrite normrM ler_pimulr ?normr_ge0 // normfV normr_nat invf_le1 ?ltr0n // ler1n //.
apply: le_trans n5; case: (lerP 0 (x ^+ 3 / 5%:R)) => [h|h].
  by apply: le_trans (main _ h) _; rewrite ?ler_norm.
by have := main _ (ltW (etrans (oppr_gt0 _) h)); rewrite opprK sN (ltr0_norm h).
Qed.

Lemma bb_meas_flat : has_jacobian (fun x => (bb_meas exp x).1) 0 (0 : 'M[R]_1).
Proof.
move=> e e0; exists (Num.min 1 e); first by rewrite lt_minr ltr01.
move=> u hu i; have := hu 0; rewrite lt_minr => /andP [h1 h2].
rewrite ord1 mul0mx subr0 add0r big_ord1 !mxE eqxx !mulr1n.
have -> : bb_logistic exp 0 = 1 / 2%:R.
  by rewrite /bb_logistic expr0n oppr0 mul0r (SsProofs.exp0 eP) -(natrD _ 1 1).
apply: le_trans (logistic_flat _) _; rewrite exprSr ler_wpmul2r ?normr_ge0 // expr2.
by rewrite -[e]mul1r ler_pmul ?normr_ge0 // ltW.
Qed.

Lemma bb_meas0 : bb_meas exp 0 = (vec1 (1 / 2%:R), mat1 (1 / 4%:R)).
Proof.
rewrite /bb_meas mxE /bb_logistic expr0n oppr0 mul0r (SsProofs.exp0 eP) -(natrD _ 1 1).
by congr (_, mat1 _); field.
Qed.

(* under the predictive law N(1/2, 1/4) the two values of a binary measurement are equally likely *)
Lemma half_data (b : bool) : log_gauss log pi (vec1 (b%:R : R)) (vec1 (1 / 2%:R)) (mat1 (1 / 4%:R))
  = - 2%:R^-1 * (1 + log (pi / 2%:R)).
Proof.
rewrite logdet1; congr (_ * (_ + log _)); last by field.
by case: b; [rewrite -[true%:R]/(1%:R)|rewrite -[false%:R]/(0%:R)]; field.
Qed.

Lemma running_const (T : Type) (inc : T -> R) c e ys : (forall y, inc y = c) ->
  running inc e ys = [seq e + k.+1%:R * c | k <- iota 0 (size ys)].
Proof.
move=> hc; elim: ys e => [|y ys IH] e //=; rewrite hc mul1r; congr cons.
rewrite IH -[1%N]addn0 iotaDl -map_comp; apply: eq_map => k /=.
by rewrite add1n -[k.+2]addn1 [in RHS]natrD; move: (k.+1%:R) => t; ring.
Qed.
End Blind.
