(* Properties C77 - C82: the test models. *)
From mathcomp Require Import all_ssreflect all_algebra.
From mathcomp Require Import ring zify.
From Verif Require Import Prelude LinAlgSpec LinAlgProofs LdlProofs SpectralProofs.
From Verif Require Import QuadModel QuadSpec QuadProofs QuadMain.
From Verif Require Import Moments1DModel Moments1DSpec Moments1DProofs Moments1DConv.
From Verif Require Import Filter1DModel Filter1DSpec Filter1DProofs FilterAffine FilterAffineProps.
From Verif Require Import SmcProofs MomentsNdModel SsModel SsProofs.
Set Implicit Arguments.
Unset Strict Implicit.
Unset Printing Implicit Defensive.
Import Order.TTheory GRing.Theory Num.Theory.
Local Open Scope ring_scope.

Section Props.
Variable R : rcfType.
Variables (exp log sin : R -> R).
Variable chol : forall n, 'M[R]_n -> 'M[R]_n.
Variable eigh : forall n, 'M[R]_n -> 'M[R]_n * 'rV[R]_n.

(* ---- C77: the Benes--Bernoulli model ---- *)
Theorem benes_bernoulli_logistic :
  exp_spec exp ->
  [/\ forall x, 0 < bb_logistic exp x < 1,
      forall x y, x < y -> bb_logistic exp x < bb_logistic exp y,
      forall x, bb_logistic exp (- x) = 1 - bb_logistic exp x
    & bb_logistic exp 0 = 1 / 2%:R].
Proof.
move=> he; split=> [x|x y h|x|].
- by rewrite /bb_logistic sigm_gt0 // sigm_lt1.
- by rewrite /bb_logistic sigm_lt // ltr_pmul2r ?invr_gt0 ?ltr0n // ltr_opp2 cube_lt.
- rewrite /bb_logistic -sigmN //; congr (1 / (1 + exp _)).
  by rewrite -[RHS]mulNr; congr (_ / _); ring.
- by rewrite /bb_logistic expr0n oppr0 mul0r exp0.
Qed.

Theorem benes_bernoulli_pmf :
  exp_spec exp ->
  [/\ forall y x, 0 <= bb_pmf exp y x,
      forall x, bb_pmf exp 0 x + bb_pmf exp 1 x = 1,
      forall y x, (0 < bb_pmf exp y x) = ((y == 0) || (y == 1))
    & forall y x, bb_pmf exp (1 - y) (- x) = bb_pmf exp y x].
Proof.
move=> he; have [h1 h2 h3 h4] := benes_bernoulli_logistic he.
split=> [y x|x|y x|y x]; rewrite /bb_pmf /bernoulli_pmf.
- have /andP[a b] := h1 x; case: ifP => _; first by rewrite subr_ge0 ltW.
  by case: ifP => _ //; apply: ltW.
- by rewrite eqxx /= subrK.
- have /andP[a b] := h1 x; case: ifP => _; first by rewrite subr_gt0.
  by case: ifP => _ //; rewrite ltxx.
- rewrite h3 subr_eq0 [1 == y]eq_sym; have -> : (1 - y == 1) = (y == 0) by lia.
  case: (eqVneq y 0) => [->|hy] //=.
  by case: eqP => // _; rewrite subKr.
Qed.

Theorem benes_bernoulli_drift :
  exp_spec exp ->
  [/\ forall x, bb_drift exp (- x) = - bb_drift exp x,
      forall x, `|bb_drift exp x| < 1
    & forall x y, x < y -> bb_drift exp x < bb_drift exp y].
Proof.
move=> he; split=> [x|x|x y h]; [exact: tanhN|exact: tanh_lt1|exact: tanh_lt].
Qed.

(* The common initial condition, any order N: normalised, symmetric, positive definite; the time grids. *)
Theorem initial_condition_symmetric (N : nat) :
  let g := ss_init_cond R N in
  [/\ gs_mean g = 0, size (gs_rms g) = (2 * N)%N, gs_cms g = gs_rms g,
      forall k, (k < 2 * N)%N -> odd k -> (gs_rms g)`_k = 0
    & [/\ (0 < N)%N -> (gs_rms g)`_0 = 1, (1 < N)%N -> gs_variance g = 3%:R / 10%:R
        & admissible (nth 0 (gs_rms g)) N]].
Proof.
move=> g; rewrite /g init_mean init_rms init_cms size_mkseq; split=> //.
  by move=> k hk ho; rewrite nth_mkseq // sym_odd.
split; last exact: sym_adm_seq.
- by move=> hN; rewrite nth_mkseq ?sym_0 // mul2n double_gt0.
move=> hN; have h2 : (2 < 2 * N)%N by rewrite -{1}[2%N]muln1 ltn_pmul2l.
have -> : gs_variance (ss_init_cond R N) = jget 0 (gs_cms (ss_init_cond R N)) 2 by [].
by rewrite init_cms jget_nth ?size_mkseq // nth_mkseq // sym_2.
Qed.

Theorem time_grids :
  [/\ forall k, (k < 100)%N -> (bb_ts R)`_k = ss_dt R * k.+1%:R,
      forall k, (k < 1000)%N -> (wp_ts R)`_k = ss_dt R * k.+1%:R
    & forall k, (k < 2000)%N -> (pp_ts R)`_k = pp_dt R * k.+1%:R].
Proof.
have grid (dt : R) T k : (1 < T)%N -> (k < T)%N -> (linspace dt (dt * T%:R) T)`_k = dt * k.+1%:R.
  case: T => // T; rewrite ltnS => hT hk; rewrite nth_iota_map // /= mulrSr.
  have -> : dt * (T%:R + 1) - dt = dt * T%:R by rewrite mulrDr mulr1 addrK.
  by rewrite mulfK ?pnatr_eq0 ?gtn_eqF // mulrSr mulrDr mulr1 addrC [k%:R * _]mulrC.
by split=> k hk; apply: grid.
Qed.

(* C78: reflecting the data of the Benes--Bernoulli model reflects the filter and keeps the likelihood *)
Definition reflected (ms : seq R) : seq R := [seq (-1) ^+ k * ms`_k | k <- iota 0 (size ms)].

Theorem benes_bernoulli_reflection (N : nat) st (ys : seq bool) :
  chol_spec chol -> eigh_spec eigh -> exp_spec exp ->
  let run ys := moment_filter_rms chol eigh log (euler_cond_raw (bb_drift exp) (@ss_dispersion R) (ss_dt R) N)
    (fun (y : bool) x => bb_pmf exp (Posz y) x) st (gs_rms (ss_init_cond R N)) ys in
  run [seq ~~ y | y <- ys] = omap (fun o => ([seq reflected r | r <- o.1], o.2)) (run ys).
Proof.
move=> hc he hx run; have [h1 h2 h3] := benes_bernoulli_drift hx.
have [p1 p2 p3 p4] := benes_bernoulli_pmf hx.
have pos (y : bool) x : 0 < bb_pmf exp (Posz y) x by rewrite p3; case: y.
have [i1 i2 i3 i4 [i5 i6 i7]] := initial_condition_symmetric N.
rewrite /run; case: (posnP N) => [->|hN].
  by rewrite /moment_filter_rms /= .
have := @euler_filter_affine_equivariant R chol eigh log bool bool 0 (-1) negb (bb_drift exp) (bb_drift exp)
  (@ss_dispersion R) (@ss_dispersion R) (ss_dt R) N (fun y => bb_pmf exp (Posz y)) (fun y => bb_pmf exp (Posz y))
  st st (gs_rms (ss_init_cond R N)) ys hc he.
have -> : recentred 0 (-1) (gs_rms (ss_init_cond R N)) = gs_rms (ss_init_cond R N).
  by rewrite recentred_reflect init_rms reflect_sym.
move=> -> //.
- by case: (moment_filter_rms _ _ _ _ _ _ _ _) => [[o n]|] //=; congr (Some (_, _)); apply: eq_map => r; rewrite recentred_reflect.
- by rewrite oppr_eq0 oner_eq0.
- exact: i5.
- split=> [|x|x|x].
  + by rewrite divr_gt0 ?ltr01 ?ltr0n.
  + by rewrite oner_eq0.
  + by rewrite subr0 invrN invr1 !mulrN1 h1.
  + by rewrite sqrrN !expr1n divr1.
- move=> y x; rewrite subr0 invrN invr1 mulrN1 -[RHS]p4; congr bb_pmf; by case: y.
Qed.

(* ---- C79: the Well--Poisson model ---- *)
Theorem well_poisson_emission :
  exp_spec exp -> log_spec exp log ->
  [/\ forall x p, 0 < wp_emission exp log x p,
      forall x x' p, 0 < p -> x < x' -> wp_emission exp log x p < wp_emission exp log x' p,
      forall x p, wp_emission exp log (- x) (- p) = wp_emission exp log x p
    & forall x p, exp (wp_emission exp log x p) = 1 + exp (p * x)].
Proof.
move=> hx [l1 l2]; have pos u : 0 < 1 + exp u by rewrite addr_gt0 ?ltr01 ?exp_gt0.
split=> [x p|x x' p hp h|x p|x p]; rewrite /wp_emission.
- by rewrite -(exp_ltE hx) l2 // exp0 // ltr_addl exp_gt0.
- by rewrite -(exp_ltE hx) !l2 // ltr_add2l exp_lt // ltr_pmul2l.
- by rewrite mulrNN.
- by rewrite l2.
Qed.

Theorem well_poisson_pmf :
  exp_spec exp -> log_spec exp log ->
  [/\ forall y x p, 0 < wp_pmf exp log y x p,
      forall x p, wp_pmf exp log 0 x p = 1 / (1 + exp (p * x)),
      forall y x p, wp_pmf exp log y.+1 x p * y.+1%:R = wp_pmf exp log y x p * wp_emission exp log x p,
      forall n x p, \sum_(y < n.+1) y%:R * wp_pmf exp log y x p =
                    wp_emission exp log x p * \sum_(y < n) wp_pmf exp log y x p
    & forall y x p, wp_pmf exp log y (- x) (- p) = wp_pmf exp log y x p].
Proof.
move=> hx hl; have [e1 e2 e3 e4] := well_poisson_emission hx hl.
have hrec y x p : wp_pmf exp log y.+1 x p * y.+1%:R = wp_pmf exp log y x p * wp_emission exp log x p.
  rewrite /wp_pmf /poisson_pmf factS natrM exprS.
  have f0 : (y`!)%:R != 0 :> R by rewrite pnatr_eq0 -lt0n fact_gt0.
  have y0 : y.+1%:R != 0 :> R by rewrite pnatr_eq0.
  move: (wp_emission _ _ _ _) (exp _) f0 y0 => mu e; move: (y`!)%:R (y.+1%:R) (mu ^+ y) => f s r f0 y0.
  by field; rewrite f0 y0.
split=> [y x p|x p|//|n x p|y x p].
- rewrite /wp_pmf /poisson_pmf; apply: divr_gt0; last by rewrite ltr0n fact_gt0.
  by apply: mulr_gt0; [apply: exprn_gt0; apply: e1|apply: exp_gt0].
- by rewrite /wp_pmf /poisson_pmf expr0 mul1r fact0 divr1 expN // e4 div1r.
- rewrite big_ord_recl mul0r add0r mulr_sumr; apply: eq_bigr => y _.
  by rewrite mulrC lift0 hrec mulrC.
- by rewrite /wp_pmf e3.
Qed.

Theorem well_poisson_drift (p : R) :
  [/\ forall x, wp_drift (- x) p = - wp_drift x p,
      forall x, (wp_drift x p == 0) = (x == 0) || (p * x ^+ 2 == 1)
    & forall x, 0 < p -> 1 < p * x ^+ 2 -> x * wp_drift x p < 0].
Proof.
split=> [x|x|x hp h]; rewrite /wp_drift.
- by ring.
- by rewrite mulf_eq0 subr_eq0 [1 == _]eq_sym.
- have x0 : x != 0 by apply: contraTneq h => ->; rewrite expr0n mulr0 -leNgt ler01.
  by rewrite mulrA -expr2 pmulr_rlt0 ?subr_lt0 // lt_def sqrf_eq0 x0 sqr_ge0.
Qed.

(* C80: the objective of the parameter estimation. The likelihood is even in the emission parameter,
   which the positive parametrisation resolves. *)
Theorem parameter_estimation_likelihood_even (N : nat) (p1 p2 : R) (ys : seq nat) :
  chol_spec chol -> eigh_spec eigh -> exp_spec exp -> log_spec exp log ->
  wp_nell exp log chol eigh N p1 (- p2) ys = wp_nell exp log chol eigh N p1 p2 ys.
Proof.
move=> hc he hx hl; have [p3 p4 p5 p6 p7] := well_poisson_pmf hx hl.
have [h1 _ _] := well_poisson_drift p1.
have [i1 i2 i3 i4 [i5 i6 i7]] := initial_condition_symmetric N.
rewrite /wp_nell; case: (posnP N) => [->|hN] //.
have := @euler_central_filter_affine_equivariant R chol eigh log nat nat 0 (-1) id
  (fun x => wp_drift x p1) (fun x => wp_drift x p1)
  (@ss_dispersion R) (@ss_dispersion R) (ss_dt R) N (fun y x => wp_pmf exp log y x p2)
  (fun y x => wp_pmf exp log y x (- p2))
  false false (gs_cms (ss_init_cond R N)) (gs_mean (ss_init_cond R N)) ys hc he.
have -> : rescaled (-1) (gs_cms (ss_init_cond R N)) = gs_cms (ss_init_cond R N).
  by rewrite rescaled_reflect init_cms reflect_sym.
rewrite i1 subr0 mul0r map_id => -> //.
- by case: (moment_filter_cms _ _ _ _ _ _ _ _ _ _) => [[o n]|].
- by rewrite oppr_eq0 oner_eq0.
- by rewrite i3.
- by rewrite i3; exact: i5.
- by rewrite i3 i4 // mul2n -addnn; case: (N) hN => // n _; rewrite addSn addnS.
- by rewrite i3.
- split=> [|x|x|x].
  + by rewrite divr_gt0 ?ltr01 ?ltr0n.
  + by rewrite oner_eq0.
  + by rewrite subr0 invrN invr1 !mulrN1 h1.
  + by rewrite sqrrN !expr1n divr1.
- by move=> y x; rewrite subr0 invrN invr1 mulrN1 p7.
Qed.

Theorem parameter_transforms :
  exp_spec exp -> log_spec exp log ->
  [/\ forall q, 0 < positive_params exp log q,
      forall p, 0 < p -> positive_params exp log (initial_params exp log p) = p,
      forall q, initial_params exp log (positive_params exp log q) = q
    & forall q q', q < q' -> positive_params exp log q < positive_params exp log q'].
Proof.
move=> hx [l1 l2]; have pos u : 0 < exp u + 1 by rewrite addr_gt0 ?ltr01 ?exp_gt0.
split=> [q|p hp|q|q q' h]; rewrite /positive_params /initial_params.
- by rewrite -(exp_ltE hx) l2 // exp0 // ltr_addr exp_gt0.
- have h1 : 0 < exp p - 1 by rewrite subr_gt0 -(exp0 hx) exp_lt.
  by rewrite l2 // subrK l1.
- by rewrite l2 // addrK l1.
- by rewrite -(exp_ltE hx) !l2 // ltr_add2r exp_lt.
Qed.

(* At the initial guess of line 70 the objective is the negative log-likelihood of the moment filter
   with drift x (1 - p1 x^2), unit dispersion, step 1/100 and Poisson counts of rate
   log(1 + exp(p2 x)). *)
Theorem parameter_estimation_objective (N : nat) (p1 p2 : R) (ys : seq nat) :
  exp_spec exp -> log_spec exp log -> 0 < p1 -> 0 < p2 ->
  wp_objective exp log chol eigh N (initial_params exp log p1) (initial_params exp log p2) ys
  = let drift (x : R) := x * (1 - p1 * x ^+ 2) in
    let rate (x : R) := log (1 + exp (p2 * x)) in
    let init := gaussian_sum1d_new [:: - (1 / 2%:R); 1 / 2%:R] [:: 1 / 20%:R; 1 / 20%:R] [:: 1 / 2%:R; 1 / 2%:R] N in
    omap snd (moment_filter_cms chol eigh log (euler_cond_central drift (fun=> 1) (1 / 100%:R) N)
      (euler_cond_mean drift (fun=> 1) (1 / 100%:R)) (fun y x => rate x ^+ y * exp (- rate x) / (y`!)%:R) false
      (gs_cms init) (gs_mean init) ys).
Proof.
move=> hx hl h1 h2; have [_ h _ _] := parameter_transforms hx hl.
by rewrite /wp_objective !h.
Qed.

(* ---- C81: the prey--predator model ---- *)
Lemma ord2 (i : 'I_2) : i = 0 \/ i = 1.
Proof. by case: i => [[|[|n]] h] //; [left|right]; apply: val_inj. Qed.
Lemma rev0 : rev_ord (0 : 'I_2) = 1. Proof. by apply: val_inj. Qed.
Lemma rev1 : rev_ord (1 : 'I_2) = 0. Proof. by apply: val_inj. Qed.

Lemma pp0 a b d g (x : 'cV[R]_2) : pp_drift_of a b d g x 0 0 = x 0 0 * (a - b * x 1 0).
Proof. by rewrite mxE /= rev0; ring. Qed.
Lemma pp1 a b d g (x : 'cV[R]_2) : pp_drift_of a b d g x 1 0 = x 1 0 * (d * x 0 0 - g).
Proof. by rewrite mxE /= rev1; ring. Qed.

(* the Lotka--Volterra field, its equilibria and the gradient of its first integral
   delta x - gamma log x + beta y - alp log y *)
Theorem prey_predator_field (alp beta delta gamma : R) (x : 'cV[R]_2) :
  x 0 0 != 0 -> x 1 0 != 0 ->
  (delta - gamma / x 0 0) * pp_drift_of alp beta delta gamma x 0 0
  + (beta - alp / x 1 0) * pp_drift_of alp beta delta gamma x 1 0 = 0.
Proof.
by rewrite pp0 pp1; move: (x 0 0) (x 1 0) => a b a0 b0; field; rewrite a0 b0.
Qed.

Theorem prey_predator_equilibria (x : 'cV[R]_2) :
  pp_drift x = 0 <-> (x = 0 \/ x = const_mx 1).
Proof.
have e0 : pp_drift x 0 0 = x 0 0 * (4%:R * (1 - x 1 0)) by rewrite /pp_drift pp0 [4%:R * (_ - _)]mulrBr mulr1.
have e1 : pp_drift x 1 0 = x 1 0 * (4%:R * (x 0 0 - 1)) by rewrite /pp_drift pp1 [4%:R * (_ - _)]mulrBr mulr1.
split=> [h|[] ->].
- move: e0 e1; rewrite h !mxE => /esym/eqP; rewrite !mulf_eq0 pnatr_eq0 /= => h0 /esym/eqP.
  rewrite !mulf_eq0 pnatr_eq0 /= => h1.
  case/orP: h0 h1 => /eqP h0 /orP [] /eqP h1.
  + by left; apply/colP => i; rewrite mxE; case: (ord2 i) => ->.
  + by move: h1; rewrite h0 sub0r => /eqP; rewrite oppr_eq0 oner_eq0.
  + by move: h0; rewrite h1 subr0 => /eqP; rewrite oner_eq0.
  + right; apply/colP => i; rewrite mxE; case: (ord2 i) => ->; [exact: subr0_eq|].
    by apply/esym/subr0_eq.
- by apply/colP => i; rewrite !mxE mul0r.
- by apply/colP => i; case: (ord2 i) => ->; rewrite ?/pp_drift ?pp0 ?pp1 !mxE; ring.
Qed.

(* the Milstein step is the Euler step of the library's drift and dispersion plus the correction *)
Theorem prey_predator_milstein a b d g s (ddt : R) (x w : 'cV[R]_2) :
  milstein_of a b d g s ddt x w =
  x + ddt *: pp_drift_of a b d g x + pp_dispersion_of s x *m w
  + \col_i (1 / 2%:R * s ^+ 2 * x i 0 * (w i 0 ^+ 2 - ddt)).
Proof.
apply/colP => i; rewrite mxE !mxaddE mxscaleE [ddt * _]mulrC; congr (_ + _ + _ + _); rewrite ?mxE //.
rewrite (bigD1 i) //= big1 ?addr0 => [|j hj]; rewrite !mxE ?eqxx ?mulr1n //.
by rewrite eq_sym (negbTE hj) mulr0n mul0r.
Qed.

(* Each coordinate is multiplied by a factor; so the axes are invariant along the whole path. *)
Lemma milsteinE a b d g s (ddt : R) (x w : 'cV[R]_2) i :
  milstein_of a b d g s ddt x w i 0 =
  x i 0 * (1 / 2%:R + (1 + s * w i 0) ^+ 2 / 2%:R
           + (x (rev_ord i) 0 * (if i == 0 then - b else d) + (if i == 0 then a else - g) - s ^+ 2 / 2%:R) * ddt).
Proof. by rewrite !mxE; move: (x (rev_ord i) 0) (x i 0) (w i 0) => u v r; case: ifP => _; field. Qed.

Lemma path_ind (step : 'cV[R]_2 -> 'cV[R]_2 -> 'cV[R]_2) (P : 'cV[R]_2 -> Prop) x0 wss :
  (forall x w, P x -> P (step x w)) -> P x0 ->
  forall x, x \in (scan (fun x dws => let x := foldl step x dws in (x, x)) x0 wss).2 -> P x.
Proof.
move=> hstep; elim: wss x0 => [|ws wss IH] x0 h0 x //; rewrite scan_cons' /=.
have h1 : P (foldl step x0 ws) by elim: ws x0 h0 => [|w ws IHw] x0 h0 //=; apply: IHw; apply: hstep.
by rewrite inE => /orP [/eqP -> //|]; apply: IH.
Qed.

Theorem prey_predator_axes_invariant a b d g s (ddt : R) (x0 : 'cV[R]_2) ddws i :
  x0 i 0 = 0 -> forall x, x \in pp_path_of a b d g s ddt x0 ddws -> x i 0 = 0.
Proof.
by move=> h0; apply: path_ind => // x w h; rewrite milsteinE h mul0r.
Qed.

Lemma pathE (step : 'cV[R]_2 -> 'cV[R]_2 -> 'cV[R]_2) x0 wss x :
  x \in (scan (fun x dws => let x := foldl step x dws in (x, x)) x0 wss).2 ->
  exists k, x = foldl step x0 (take k (flatten wss)).
Proof.
elim: wss x0 => [|ws wss IH] x0 //; rewrite scan_cons' /= inE => /orP [/eqP ->|/IH [k ->]].
  by exists (size ws); rewrite take_size_cat.
by exists (size ws + k)%N; rewrite take_cat ltnNge leq_addr addKn foldl_cat.
Qed.

(* Full statement: the states of a path started in the open quadrant stay there. It fails (next
   theorem) when the predator population is huge; proved while beta y stays below the bound. *)
Theorem prey_predator_positive_partial a b d g s (ddt : R) (x0 : 'cV[R]_2) ddws :
  0 <= ddt -> 0 <= d -> (g + s ^+ 2 / 2%:R) * ddt < 1 / 2%:R -> (forall i, 0 < x0 i 0) ->
  (forall k, let x := foldl (milstein_of a b d g s ddt) x0 (take k (flatten ddws)) in
     (b * x 1 0 + s ^+ 2 / 2%:R - a) * ddt < 1 / 2%:R) ->
  forall x, x \in pp_path_of a b d g s ddt x0 ddws -> forall i, 0 < x i 0.
Proof.
move=> hdt hd hg h0 hb x /pathE [k ->]; elim: k => [|k IH]; first by rewrite take0.
case: (ltnP k (size (flatten ddws))) => hk; last by rewrite take_oversize ?leqW // -{1}(take_oversize hk).
rewrite (take_nth 0 hk) -cats1 foldl_cat /= => i; rewrite milsteinE.
move: (hb k) IH => /=; set y := foldl _ _ _; set w := nth _ _ _ => hbk hy.
rewrite mulr_gt0 //; have hs : 0 <= (1 + s * w i 0) ^+ 2 / 2%:R by rewrite divr_ge0 ?sqr_ge0 ?ler0n.
case: (ord2 i) hs => -> hs; rewrite /= ?rev0 ?rev1.
- have -> : (y 1 0 * - b + a - s ^+ 2 / 2%:R) * ddt = - ((b * y 1 0 + s ^+ 2 / 2%:R - a) * ddt).
    by move: (y 1 0) => u; field.
  by rewrite subr_gt0 (lt_le_trans hbk) // ler_addl.
- have -> : (y 0 0 * d - g - s ^+ 2 / 2%:R) * ddt = y 0 0 * d * ddt - (g + s ^+ 2 / 2%:R) * ddt.
    by rewrite -mulrBl opprD addrA.
  have h1 : 0 <= y 0 0 * d * ddt by rewrite !mulr_ge0 // ltW.
  rewrite addrC -addrA ltr_paddl // addrC subr_gt0 (lt_le_trans hg) // ler_addl //.
Qed.

(* the library's parameters: with n integration steps a bound of 100 n predators is enough *)
Theorem prey_predator_positive_pp_partial (n : nat) (x0 : 'cV[R]_2) ddws :
  (0 < n)%N -> (forall i, 0 < x0 i 0) ->
  (forall k, foldl (milstein_of 4%:R 4%:R 4%:R 4%:R (pp_sigma R) (pp_ddt R n)) x0 (take k (flatten ddws)) 1 0
     <= 100%:R * n%:R) ->
  forall x, x \in pp_path n x0 ddws -> forall i, 0 < x i 0.
Proof.
move=> hn h0 hb; have n0 : 0 < n%:R :> R by rewrite ltr0n.
have n1 : 1 <= n%:R :> R by rewrite ler1n.
have dE (u : R) : (u * pp_ddt R n < 1 / 2%:R) = (u < 500%:R * n%:R).
  have -> : u * pp_ddt R n = u / (1000%:R * n%:R).
    by rewrite /pp_ddt /pp_dt div1r -invfM.
  rewrite ltr_pdivr_mulr; last by rewrite mulr_gt0 ?ltr0n.
  by have -> : 1 / 2%:R * (1000%:R * n%:R) = 500%:R * n%:R :> R by field.
apply: prey_predator_positive_partial; rewrite ?dE ?ler0n //.
- by rewrite !divr_ge0 ?ler01 ?ler0n.
- have h4 : 4%:R + pp_sigma R ^+ 2 / 2%:R < 500%:R :> R.
    have -> : pp_sigma R ^+ 2 / 2%:R = 1 / 200%:R by rewrite /pp_sigma; field.
    rewrite -ltr_subr_addl ltr_pdivr_mulr ?ltr0n // -natrB // -natrM ltr1n.
    by [].
  by rewrite (lt_le_trans h4) // ler_pemulr ?ler0n.
move=> k /=; rewrite dE; have := hb k; set y := foldl _ _ _ => hy.
have e : pp_sigma R ^+ 2 / 2%:R = 1 / 200%:R by rewrite /pp_sigma; field.
have h4 : 4%:R * y 1 0 <= 400%:R * n%:R.
  by rewrite -[400%N]/(4 * 100)%N natrM -mulrA ler_pmul2l ?ltr0n.
rewrite e; have h5 : 1 / 200%:R - 4%:R < 0 :> R.
  by rewrite subr_lt0 ltr_pdivr_mulr ?ltr0n // -natrM ltr1n.
rewrite -addrA (le_lt_trans (ler_add h4 (ltW h5))) // addr0 ltr_pmul2r // ltr_nat.
by [].
Qed.

Theorem prey_predator_positive_refuted :
  exists (n : nat) (x0 : 'cV[R]_2) (ddws : seq (seq 'cV[R]_2)),
    [/\ (0 < n)%N, forall i, 0 < x0 i 0 & exists2 x, x \in pp_path n x0 ddws & x 0 0 < 0].
Proof.
pose x0 : 'cV[R]_2 := \col_i (if i == 0 then 1 else 1000%:R).
pose w : 'cV[R]_2 := \col_i (- 10%:R).
exists 1%N, x0, [:: [:: w]]; split=> //.
  by move=> i; rewrite mxE; case: ifP; rewrite ?ltr01 ?ltr0n.
exists (milstein_of 4%:R 4%:R 4%:R 4%:R (pp_sigma R) (pp_ddt R 1) x0 w); first by rewrite inE.
rewrite milsteinE rev0 !mxE /= /pp_ddt /pp_dt /pp_sigma.
have -> : 1 + 1 / 10%:R * - 10%:R = 0 :> R by field.
rewrite expr0n mul0r addr0 mul1r divr1 -ltr_subr_addl sub0r [1 / 1000%:R]div1r ltr_pdivr_mulr ?ltr0n //.
have t0 : 0 <= (1 / 10%:R) ^+ 2 / 2%:R :> R by rewrite divr_ge0 ?sqr_ge0 ?ler0n.
apply: (@le_lt_trans _ _ (1000%:R * - 4%:R + 4%:R)); first by rewrite ger_addl oppr_le0.
have -> : - (1 / 2%:R) * 1000%:R = - 500%:R :> R by field.
by rewrite mulrN addrC -opprB ltr_opp2 -natrM -natrB // ltr_nat.
Qed.

Theorem prey_predator_observation :
  exp_spec exp ->
  [/\ forall x, 0 < pp_emission exp x < 1, forall x y, x < y -> pp_emission exp x < pp_emission exp y,
      pp_emission exp 1 = 1 / 2%:R
    & forall x : 'cV[R]_2, pp_pmf exp 0 x + pp_pmf exp 1 x = 1].
Proof.
move=> he; split=> [x|x y h||x].
- by rewrite /pp_emission sigm_gt0 // sigm_lt1.
- by rewrite /pp_emission sigm_lt // ltr_add2r ltr_opp2 cube_lt.
- by rewrite /pp_emission expr1n addNr exp0.
- by rewrite /pp_pmf /bernoulli_pmf eqxx /= subrK.
Qed.

Theorem prey_predator_initial (mi : seq (seq nat)) :
  gsn_mean (pp_gs R mi) = const_mx 1 /\ gsn_cov (pp_gs R mi) = (3%:R / 2000%:R)%:M.
Proof.
have hm : gsn_mean (pp_gs R mi) = const_mx 1.
  rewrite /pp_gs /gaussian_sum_nd_new /gsn_mean /= !big_cons big_nil /= addr0 -scalerDl.
  by have -> : 1 / 2%:R + 1 / 2%:R = 1 :> R by [field]; rewrite scale1r.
split=> //; move: hm; rewrite /pp_gs /gaussian_sum_nd_new /gsn_mean /gsn_cov => ->.
rewrite /= !big_cons big_nil addr0 -scalerDr addrACA scalerDr -mulr2n -scaler_nat scalerA.
have -> : 1 / 2%:R * 2%:R = 1 :> R by field.
rewrite scale1r addrK -rmorphD /= scale_scalar_mx; congr (_%:M).
by field.
Qed.

(* ---- C82: the satellite model ---- *)
Theorem satellite_model (a b c : R) (x : 'cV[R]_2) :
  (forall t, sin (- t) = - sin t) ->
  [/\ sat_drift sin b c (- x) = - sat_drift sin b c x,
      sat_dispersion sin a b (- x) = - sat_dispersion sin a b x,
      sat_drift sin b c 0 = 0 /\ sat_dispersion sin a b 0 = 0,
      x 1 0 * sat_drift sin b c x 1 0 + (sin (x 0 0) + c * sin (2%:R * x 0 0)) * sat_drift sin b c x 0 0
        = - b * x 1 0 ^+ 2
    & forall j, sat_dispersion sin a b x 0 j = 0].
Proof.
move=> hs; have s0 : sin 0 = 0.
  by have := hs 0; rewrite oppr0 => /eqP; rewrite -addr_eq0 -mulr2n mulrn_eq0 => /eqP.
split.
- apply/colP => i; rewrite !mxE; case: ifP => // _; rewrite [2%:R * - _]mulrN !hs.
  by move: (sin (2%:R * x 0 0)) (sin (x 0 0)) (x 1 0) => w v u; ring.
- apply/matrixP => i j; rewrite !mxE; case: ifP => _; last by rewrite oppr0.
  by rewrite hs; move: (sin (x 0 0)) (x 1 0) => u v; ring.
- split; [apply/colP => i|apply/matrixP => i j]; rewrite !mxE ?mulr0 ?s0 ?mulr0 ?subr0; by case: ifP.
- by rewrite !mxE /=; move: (sin (2%:R * x 0 0)) (sin (x 0 0)) (x 1 0) => w v u; ring.
- by move=> j; rewrite mxE.
Qed.
End Props.
Print Assumptions benes_bernoulli_logistic.
Print Assumptions benes_bernoulli_pmf.
Print Assumptions benes_bernoulli_drift.
Print Assumptions initial_condition_symmetric.
Print Assumptions time_grids.
Print Assumptions benes_bernoulli_reflection.
Print Assumptions well_poisson_emission.
Print Assumptions well_poisson_pmf.
Print Assumptions well_poisson_drift.
Print Assumptions parameter_estimation_likelihood_even.
Print Assumptions parameter_transforms.
Print Assumptions parameter_estimation_objective.
Print Assumptions prey_predator_field.
Print Assumptions prey_predator_equilibria.
Print Assumptions prey_predator_milstein.
Print Assumptions prey_predator_axes_invariant.
Print Assumptions prey_predator_positive_partial.
Print Assumptions prey_predator_positive_pp_partial.
Print Assumptions prey_predator_positive_refuted.
Print Assumptions prey_predator_observation.
Print Assumptions prey_predator_initial.
Print Assumptions satellite_model.

(* Functions on any real closed field with the properties asked of jnp.exp and jnp.log, and an odd
   function for jnp.sin. *)
Definition exp_ref (R : rcfType) (x : R) : R := if 0 <= x then 1 + x else (1 - x)^-1.
Definition log_ref (R : rcfType) (u : R) : R := if 1 <= u then u - 1 else 1 - u^-1.

Example exp_log_spec_ex (R : rcfType) : exp_spec (@exp_ref R) /\ log_spec (@exp_ref R) (@log_ref R).
Proof.
have pos (x : R) : 0 < exp_ref x.
  rewrite /exp_ref; case: (lerP 0 x) => h; first by rewrite ltr_paddr ?ltr01.
  by rewrite invr_gt0 subr_gt0 (lt_trans h) ?ltr01.
have neg (x : R) : x < 0 -> exp_ref x = (1 - x)^-1 by move=> h; rewrite /exp_ref leNgt h.
have nng (x : R) : 0 <= x -> exp_ref x = 1 + x by move=> h; rewrite /exp_ref h.
split; split=> //.
- move=> x; case: (ltrgtP x 0) => h; last by rewrite h oppr0 nng // addr0 mulr1.
  + by rewrite neg // nng ?oppr_ge0 ?ltW // mulVf // gt_eqF // subr_gt0 (lt_trans h) ?ltr01.
  + by rewrite nng ?ltW // neg ?oppr_lt0 // opprK mulfV // gt_eqF // ltr_paddl ?ltW ?ltr01.
- move=> x y h; case: (lerP 0 x) => hx.
  + by rewrite !nng ?ltr_add2l // (le_trans hx) ?ltW.
  + have h1 : 0 < 1 - x by rewrite subr_gt0 (lt_trans hx) ?ltr01.
    case: (lerP 0 y) => hy; rewrite (neg _ hx).
      rewrite (nng _ hy); apply: (@lt_le_trans _ _ 1); last by rewrite ler_addl.
      by rewrite invf_lt1 // ltr_addl oppr_gt0.
    have h2 : 0 < 1 - y by rewrite subr_gt0 (lt_trans hy) ?ltr01.
    by rewrite (neg _ hy) ltf_pinv ?posrE // ltr_add2l ltr_opp2.
- move=> x; rewrite /log_ref; case: (lerP 0 x) => hx.
  + by rewrite nng // ler_addl hx addrAC subrr add0r.
  + have h1 : 0 < 1 - x by rewrite subr_gt0 (lt_trans hx) ?ltr01.
    by rewrite neg // invf_ge1 // leNgt ltr_addl oppr_gt0 hx /= invrK subKr.
- move=> u u0; rewrite /log_ref; case: (lerP 1 u) => h.
  + by rewrite nng ?subr_ge0 // addrC subrK.
  + by rewrite neg ?subKr ?invrK // subr_lt0 invf_gt1.
Qed.

(* The hypotheses of the filtering theorems can be met at once. *)
Example reflection_hypotheses_ex (R : rcfType) :
  [/\ chol_spec (@chol_ref R), eigh_spec (@eigh_ref R) & exp_spec (@exp_ref R)].
Proof. by split; [exact: chol_ref_spec|exact: eigh_ref_spec|case: (exp_log_spec_ex R)]. Qed.

(* a predator path below the bound: one step without noise from the equilibrium *)
Example prey_predator_bound_ex (R : rcfType) :
  let x0 : 'cV[R]_2 := const_mx 1 in
  (forall i, 0 < x0 i 0) /\
  (forall k, foldl (milstein_of 4%:R 4%:R 4%:R 4%:R (pp_sigma R) (pp_ddt R 100)) x0
     (take k (flatten [:: [:: 0]])) 1 0 <= 100%:R * 100%:R).
Proof.
move=> x0; split=> [i|]; first by rewrite mxE ltr01.
have big : 1 <= 100%:R * 100%:R :> R by rewrite -natrM ler1n.
case=> [|k] /=; first by rewrite mxE.
rewrite milsteinE rev1 !mxE /=; apply: le_trans big.
have -> : 1 * (1 / 2%:R + (1 + pp_sigma R * 0) ^+ 2 / 2%:R + (1 * 4%:R - 4%:R - pp_sigma R ^+ 2 / 2%:R) * pp_ddt R 100)
  = 1 - pp_sigma R ^+ 2 / 2%:R * pp_ddt R 100 by field.
rewrite ger_addl oppr_le0 mulr_ge0 //; first by rewrite divr_ge0 ?sqr_ge0 ?ler0n.
by rewrite /pp_ddt /pp_dt !divr_ge0 ?ler01 ?ler0n.
Qed.
Example satellite_sin_ex (R : rcfType) : forall t : R, id (- t) = - id t.
Proof. by []. Qed.
