(* Theorems about the samplers and the particle-filter scripts. *)
From mathcomp Require Import all_ssreflect all_algebra.
From mathcomp Require Import zify ring.
From Verif Require Import Prelude LinAlgSpec LinAlgProofs Moments1DModel Moments1DSpec Moments1DProofs MomentsNdModel SsModel SsProofs
  ResampleModel ResampleSpec ResampleProofs ResampleConti ResampleRefs SmcProofs SigmaModel DardelModel SdeSim
  NearSpec ResampleCont BootCont PfModel PfCont PfJump ResampleTie PfSampler PfRun SsProps.
Set Implicit Arguments.
Unset Strict Implicit.
Unset Printing Implicit Defensive.
Import Order.TTheory GRing.Theory Num.Theory.
Local Open Scope ring_scope.

(* ---- C101 ---- *)
(* The outputs of continuous resampling are continuous where equal samples have equal weights. *)
Theorem continuous_resampling_continuous (R : rcfType) (ss : seq R -> R -> nat) (eps : R)
    (T : Type) (t0 : T) (near : (T -> Prop) -> Prop) (s w : T -> seq R) (n m : nat) (us : seq R) (i : nat) :
  ss_right_spec ss -> 0 <= eps -> nearness t0 near ->
  (forall t, size (s t) = n) -> (forall t, size (w t) = n) -> (0 < n)%N ->
  (forall j, (j < n)%N -> tends t0 near (fun t => (s t)`_j)) ->
  (forall j, (j < n)%N -> tends t0 near (fun t => (w t)`_j)) ->
  (forall j, (j < n)%N -> eps < (w t0)`_j) ->
  (forall j k, (j < n)%N -> (k < n)%N -> (s t0)`_j = (s t0)`_k -> (w t0)`_j = (w t0)`_k) ->
  (i < m)%N -> tends t0 near (fun t => (continuous_resampling ss eps (s t) (w t) m us)`_i).
Proof. by move=> h1 h2 nP h3 h4 h5 h6 h7 h8 h9; apply: conti_tends. Qed.
Print Assumptions continuous_resampling_continuous.

(* The likelihood and the particles of the bootstrap filter with continuous resampling are continuous in the
   parameters of the transition and of the likelihood. *)
Theorem bootstrap_filter_parameters (R : rcfType) (log : R -> R) (ss : seq R -> R -> nat) (eps : R)
    (T : Type) (t0 : T) (near : (T -> Prop) -> Prop) (Y K : Type) (y0 : Y) (k0 : K)
    (split1 : K -> K) (split_keys : K -> nat -> seq K) (uniform init_sampler : K -> nat -> seq R)
    (trans : T -> seq R -> K -> seq R) (g : T -> Y -> R -> R) (ys : seq Y) (key : K) (n : nat) :
  (forall a, 0 < a -> cont_at log a) -> ss_right_spec ss -> 0 <= eps -> nearness t0 near -> (0 < n)%N ->
  (forall k m, size (split_keys k m) = m) -> (forall k m, size (init_sampler k m) = m) ->
  (forall t s k, size s = n -> size (trans t s k) = n) ->
  (forall (s : T -> seq R) k, (forall t, size (s t) = n) -> (forall i, (i < n)%N -> tends t0 near (fun t => (s t)`_i)) ->
     forall i, (i < n)%N -> tends t0 near (fun t => (trans t (s t) k)`_i)) ->
  (forall y (x : T -> R), tends t0 near x -> tends t0 near (fun t => g t y (x t))) -> (forall y x, 0 < g t0 y x) ->
  let pdf t y (s : seq R) := [seq g t y x | x <- s] in
  let run t := bootstrap_filter log split1 split_keys (trans t) (pdf t)
    (continuous_resample ss eps uniform n) ys init_sampler key n in
  let prev k := if k is k'.+1 then nth [::] (run t0).1 k' else init_sampler key n in
  let lik k := pdf t0 (nth y0 ys k) (trans t0 (prev k) (nth k0 (split_keys key (size ys)) k)) in
  (forall k i, (k < size ys)%N -> (i < n)%N -> eps * jsum (lik k) < (lik k)`_i) ->
  tends t0 near (fun t => (run t).2) /\
  (forall k i, (k < size ys)%N -> (i < n)%N -> tends t0 near (fun t => (nth [::] (run t).1 k)`_i)).
Proof.
by move=> h1 h2 h3 nP h5 h6 h7 h8 h9 h10 h11 pdf run prev lik hw; apply: (boot_tends nP h1 h2 h3 h5 h8 h9 h10 h11 h6 h7 hw).
Qed.
Print Assumptions bootstrap_filter_parameters.

Section Objective.
Variables (R : rcfType) (exp log : R -> R) (K : Type) (k0 : K) (ss_left ss_right : seq R -> R -> nat).
Variables (split1 : K -> K) (split_keys : K -> nat -> seq K) (uniform normal : K -> nat -> seq R).
Hypotheses (expP : exp_spec exp) (logP : log_spec exp log).
Hypothesis split_size : forall k m, size (split_keys k m) = m.
Hypothesis uniform_size : forall k m, size (uniform k m) = m.
Hypothesis normal_size : forall k m, size (normal k m) = m.

(* What the objective computes: with p = log(exp q + 1), the particles of step t are
   x + x (1 - p1 x^2) / 100 + z / 10, the likelihood of y is that of a Poisson variable of mean log(1 + exp(p2 x)),
   and the value is the sum of the negative logarithms of the mean likelihoods. *)
Theorem pf_objective_formula (eps : R) (cr : bool) (n : nat) (q : R * R) (ys : seq nat) (key : K) :
  let p1 := log (exp q.1 + 1) in let p2 := log (exp q.2 + 1) in
  let keys := split_keys key (size ys) in
  exists sol : seq (seq R),
    let prev t := if t is t'.+1 then nth [::] sol t'
      else [seq (if (t.1 == 0)%N then - (1 / 2%:R) else 1 / 2%:R) + Num.sqrt (1 / 20%:R) * t.2
           | t <- zip (jax_choice ss_left uniform key n [:: 1 / 2%:R; 1 / 2%:R]) (normal (split1 key) n)] in
    let prop t := [seq p.1 + p.1 * (1 - p1 * p.1 ^+ 2) / 100%:R + Num.sqrt (1 / 100%:R) * p.2
                  | p <- zip (prev t) (normal (nth k0 keys t) n)] in
    let lam x := log (1 + exp (p2 * x)) in
    let lik t := [seq lam x ^+ nth 0%N ys t * exp (- lam x) / (nth 0%N ys t)`!%:R | x <- prop t] in
    let w t := [seq x / \sum_(v <- lik t) v | x <- lik t] in
    [/\ size sol = size ys,
        forall t, (t < size ys)%N -> nth [::] sol t =
          if cr then continuous_resampling ss_right eps (prop t) (w t) n (uniform (split1 (nth k0 keys t)) n)
          else [seq jget 0 (prop t) j | j <- stratified ss_left (w t) (uniform (split1 (nth k0 keys t)) (size (w t)))]
      & wp_pf_objective exp log ss_left ss_right eps split1 split_keys uniform normal (@wp_pf_euler R) cr n q ys key
        = - \sum_(0 <= t < size ys) log ((\sum_(x <- lik t) x) / (size (lik t))%:R)].
Proof.
move=> p1 p2 keys.
pose resample := if cr then continuous_resample ss_right eps uniform n
    else discrete_resample 0 (fun w k => stratified ss_left w (uniform k (size w))).
pose pmf y (xs : seq R) := [seq wp_pmf exp log y x p2 | x <- xs].
have := @bootstrap_steps R log R nat K 0%N k0 split1 split_keys split_size
  (wp_pf_proposal normal (wp_pf_euler p1) n) pmf resample (wp_init_sampler ss_left split1 uniform normal) ys key n.
set r := bootstrap_filter _ _ _ _ _ _ _ _ _ _; move=> [h1 h2 h3].
exists r.1 => prev prop lam lik w.
have hinit : wp_init_sampler ss_left split1 uniform normal key n = prev 0%N.
  rewrite /wp_init_sampler /gs_sampler /prev; apply: eq_map => -[j z] /=.
  by rewrite /jget /=; case: j => [|[|j]].
have hprev t : (match t with 0%N => wp_init_sampler ss_left split1 uniform normal key n | t'.+1 => nth [::] r.1 t' end) = prev t.
  by case: t.
have hprop t : wp_pf_proposal normal (wp_pf_euler p1) n (prev t) (nth k0 keys t) = prop t.
  rewrite /wp_pf_proposal /prop; elim: (prev t) (normal _ n) => [|x s IH] [|z zs] //=.
  by congr (_ :: _); [rewrite /wp_drift /ss_dispersion /ss_dt expr1n !mul1r|exact: IH].
have hlik t : pmf (nth 0%N ys t) (prop t) = lik t by [].
split=> // [t ht|].
  rewrite h2 // hprev hprop hlik /resample /discrete_resample /gather.
  have -> : [seq x / jsum (lik t) | x <- lik t] = w t by rewrite /w jsumE.
  by case: (cr).
rewrite /wp_pf_objective -/p1 -/p2 -/pmf -/resample h3; congr (- _); apply: eq_bigr => t _.
by rewrite hprev hprop hlik /jmean jsumE.
Qed.

(* With --cr the objective is continuous at every parameter. *)
Let euler1 p x : tends (p, x) (near2 (p, x)) (fun q : R * R => (wp_pf_euler q.1 q.2 (ss_dt R)).1).
Proof.
have nP := near2P (p, x).
have t1 : tends (p, x) (near2 (p, x)) (fun q : R * R => q.1) by move=> e e0; exists e.
have t2 : tends (p, x) (near2 (p, x)) (fun q : R * R => q.2) by move=> e e0; exists e.
apply: (tends_add nP) => //; apply: (tends_mul nP); last exact: (tends_const nP).
apply: (tends_mul nP) => //; apply: (tends_sub nP); first exact: (tends_const nP).
by apply: (tends_mul nP) => //; exact: (tends_exp nP).
Qed.
Let euler2 p x : tends (p, x) (near2 (p, x)) (fun q : R * R => Num.sqrt (wp_pf_euler q.1 q.2 (ss_dt R)).2).
Proof. exact: (tends_const (near2P (p, x)) (Num.sqrt (1 ^+ 2 * ss_dt R))). Qed.

Theorem pf_objective_continuous (n : nat) (q : R * R) (ys : seq nat) (key : K) :
  ss_right_spec ss_right -> (0 < n)%N ->
  let obj := wp_pf_objective exp log ss_left ss_right 0 split1 split_keys uniform normal (@wp_pf_euler R) true n in
  forall e, 0 < e -> exists2 d, 0 < d & forall q', `|q'.1 - q.1| < d -> `|q'.2 - q.2| < d ->
    `|obj q' ys key - obj q ys key| < e.
Proof.
move=> ssP n0 obj; apply: (objective_tends expP logP ssP (lexx 0) split_size uniform_size normal_size n0 euler1 euler2 (k0 := k0)).
move=> k i hk hi; rewrite mul0r (nth_map 0); first exact: (wp_pmf_gt0 expP logP).
rewrite /wp_pf_proposal size_map size_zip size_map normal_size.
rewrite leq_min hi andbT; apply: leq_trans hi _; rewrite leq_eqVlt; apply/orP; left; rewrite eq_sym; apply/eqP.
case: k hk => [|k] hk; first by rewrite (init_size _ _ uniform_size normal_size).
pose pmf y (xs : seq R) := [seq wp_pmf exp log y x (positive_params exp log q.2) | x <- xs].
have [_ h _] := @bootstrap_steps R log R nat K 0%N k0 split1 split_keys split_size
  (wp_pf_proposal normal (wp_pf_euler (positive_params exp log q.1)) n) pmf (continuous_resample ss_right 0 uniform n)
  (wp_init_sampler ss_left split1 uniform normal) ys key n.
rewrite /wp_pf_proposal in h; rewrite (h _ (ltnW hk)).
by rewrite size_conti.
Qed.

(* ... and so it is with any transition moments that are continuous (the branch of tme.mean_and_cov), and with the
   interpolation guard eps, where all normalised weights exceed eps. *)
Theorem pf_objective_continuous_tme (eps : R) (mc : R -> R -> R -> R * R) (n : nat) (q : R * R) (ys : seq nat) (key : K) :
  ss_right_spec ss_right -> 0 <= eps -> (0 < n)%N ->
  (forall p x, tends (p, x) (near2 (p, x)) (fun r : R * R => (mc r.1 r.2 (ss_dt R)).1)) ->
  (forall p x, tends (p, x) (near2 (p, x)) (fun r : R * R => Num.sqrt (mc r.1 r.2 (ss_dt R)).2)) ->
  let obj := wp_pf_objective exp log ss_left ss_right eps split1 split_keys uniform normal mc true n in
  let p1 := positive_params exp log q.1 in let p2 := positive_params exp log q.2 in
  let init := wp_init_sampler ss_left split1 uniform normal in
  let prop := wp_pf_proposal normal (mc p1) n in
  let sol := (bootstrap_filter log split1 split_keys prop (fun y s => [seq wp_pmf exp log y x p2 | x <- s])
    (continuous_resample ss_right eps uniform n) ys init key n).1 in
  let prev k := if k is k'.+1 then nth [::] sol k' else init key n in
  let lik k := [seq wp_pmf exp log (nth 0%N ys k) x p2 | x <- prop (prev k) (nth k0 (split_keys key (size ys)) k)] in
  (forall k i, (k < size ys)%N -> (i < n)%N -> eps * jsum (lik k) < (lik k)`_i) ->
  forall e, 0 < e -> exists2 d, 0 < d & forall q', `|q'.1 - q.1| < d -> `|q'.2 - q.2| < d ->
    `|obj q' ys key - obj q ys key| < e.
Proof.
move=> ssP e0 n0 m1 m2 obj p1 p2 init prop sol prev lik hw.
exact: (objective_tends expP logP ssP e0 split_size uniform_size normal_size n0 m1 m2 hw).
Qed.
End Objective.
Print Assumptions pf_objective_formula.
Print Assumptions pf_objective_continuous.
Print Assumptions pf_objective_continuous_tme.

(* ---- C102: continuity without these conditions.  False: with stratified resampling there are draws for which the
   objective jumps at the given parameters (whatever these are), and continuous resampling itself jumps where two
   particles of different weights meet. ---- *)
Theorem pf_objective_stratified_refuted (R : rcfType) (exp log : R -> R) (ss_left ss_right : seq R -> R -> nat) (eps : R)
    (q : R * R) : exp_spec exp -> log_spec exp log -> ss_left_spec ss_left ->
  exists (split1 : nat -> nat) (split_keys : nat -> nat -> seq nat) (uniform normal : nat -> nat -> seq R) (ys : seq nat),
    [/\ forall k m, size (split_keys k m) = m, forall k m, size (uniform k m) = m,
        forall k m, all (fun u => 0 < u < 1) (uniform k m), forall k m, size (normal k m) = m &
    let obj := wp_pf_objective exp log ss_left ss_right eps split1 split_keys uniform normal (@wp_pf_euler R) false 2 in
    exists2 e, 0 < e & forall d, 0 < d -> exists q',
      [/\ `|q'.1 - q.1| < d, `|q'.2 - q.2| < d & e <= `|obj q' ys 0%N - obj q ys 0%N|]].
Proof.
move=> eP lP sP; exists jsplit1, jsplit, (juniform exp log q), (jnormal exp log q), [:: 0; 0]%N.
split=> [k m|k m|k m|k m|]; rewrite ?size_iota ?size_map ?size_iota //; first exact: juniform_in.
exact: jump.
Qed.
Print Assumptions pf_objective_stratified_refuted.

Theorem continuous_resampling_ties_refuted (R : rcfType) (ss : seq R -> R -> nat) (eps : R) :
  ss_right_spec ss -> 0 <= eps -> eps < 1 / 4%:R ->
  let f t := (continuous_resampling ss eps [:: t; 0; 1] [:: 1 / 2%:R; 1 / 4%:R; 1 / 4%:R] 1 [:: 3%:R / 4%:R])`_0 in
  exists2 e, 0 < e & forall d, 0 < d -> exists2 t, `|t| < d & e <= `|f t - f 0|.
Proof.
move=> h1 h2 h3 f; exists (1 / 6%:R); first by rewrite divr_gt0 ?ltr01 ?ltr0n.
exact: tie_jump.
Qed.
Print Assumptions continuous_resampling_ties_refuted.

(* ---- C103: the samplers of the Gaussian sums ---- *)
(* Component j is drawn exactly when the uniform variable lies in an interval of length w_j. *)
Theorem choice_interval (R : rcfType) (K : Type) (ss : seq R -> R -> nat) (uniform : K -> nat -> seq R)
    (p : seq R) (k : K) (n i : nat) :
  ss_left_spec ss -> (forall k m, size (uniform k m) = m) -> (forall k m, all (fun u => 0 <= u < 1) (uniform k m)) ->
  weight_vector p -> (i < n)%N ->
  let u := (uniform k n)`_i in
  let c := nth 0%N (jax_choice ss uniform k n p) i in
  [/\ size (jax_choice ss uniform k n p) = n, (c < size p)%N & forall j, (j < size p)%N ->
     (c == j) = (1 - \sum_(x <- take j.+1 p) x <= u < 1 - \sum_(x <- take j p) x)].
Proof.
move=> sP us ui hp hi u c; have [h1 h2 h3] := choice_inverse sP us ui hp k hi.
split=> //; first by rewrite size_choice.
have inv j : (1 - cdf p j.+1 <= u < 1 - cdf p j) = (cdf p j < 1 - u <= cdf p j.+1).
  by rewrite andbC ler_subl_addl -ler_subl_addr ltr_subr_addl -ltr_subr_addr.
move=> j hj; rewrite -!/(cdf _ _) inv; apply/eqP/idP => [<-|/andP [h4 h5]]; first by rewrite h2 h3.
by apply: (inverse_cdf_unique (proj1 hp) (v := 1 - u)); split.
Qed.
Print Assumptions choice_interval.

(* GaussianSum1D.sampler draws from the law whose moments GaussianSum1D.new computes. *)
Theorem gaussian_sum_sampler_moments (R : rcfType) (K : Type) (ss : seq R -> R -> nat) (split1 : K -> K)
    (uniform normal : K -> nat -> seq R) (means variances weights : seq R) (E : (K -> R) -> R) (n i N p : nat) :
  ss_left_spec ss -> (forall k m, size (uniform k m) = m) -> (forall k m, all (fun u => 0 <= u < 1) (uniform k m)) ->
  (forall k m, size (normal k m) = m) -> size means = size weights -> size variances = size weights ->
  weight_vector weights -> expectation E -> (i < n)%N -> (p < 2 * N)%N ->
  (* the component drawn and the normal variable are independent *)
  (forall j l, (j < size weights)%N -> (l <= p)%N ->
    E (fun k => (nth 0%N (jax_choice ss uniform k n weights) i == j)%:R * (normal (split1 k) n)`_i ^+ l)
      = weights`_j * gauss_moment 0 1 l) ->
  E (fun k => (gs_sampler ss split1 uniform normal means variances weights k n)`_i ^+ p)
    = (gs_rms (gaussian_sum1d_new means variances weights N))`_p.
Proof. by move=> *; apply: gs_sampler_moment. Qed.
Print Assumptions gaussian_sum_sampler_moments.

(* GaussianSumND.sampler: the mean and the covariance of GaussianSumND.new. *)
Theorem gaussian_sum_nd_sampler (R : rcfType) (K : Type) (d : nat) (ss : seq R -> R -> nat) (split1 : K -> K)
    (uniform : K -> nat -> seq R) (normal : K -> nat -> seq 'cV[R]_d) (chol : forall n, 'M[R]_n -> 'M[R]_n)
    (means : seq 'cV[R]_d) (covs : seq 'M[R]_d) (weights : seq R) (multi_indices : seq (seq nat))
    (E : (K -> R) -> R) (n i : nat) :
  ss_left_spec ss -> chol_spec chol -> (forall k m, size (uniform k m) = m) ->
  (forall k m, all (fun u => 0 <= u < 1) (uniform k m)) -> (forall k m, size (normal k m) = m) ->
  size means = size weights -> size covs = size weights -> weight_vector weights ->
  (forall j, (j < size weights)%N -> posdef covs`_j) -> expectation E -> (i < n)%N ->
  let c k := nth 0%N (jax_choice ss uniform k n weights) i in
  let z k : 'cV[R]_d := (normal (split1 k) n)`_i in
  (forall j, (j < size weights)%N -> E (fun k => (c k == j)%:R) = weights`_j) ->
  (forall j a, (j < size weights)%N -> E (fun k => (c k == j)%:R * z k a 0) = 0) ->
  (forall j a b, (j < size weights)%N -> E (fun k => (c k == j)%:R * (z k a 0 * z k b 0)) = weights`_j * (a == b)%:R) ->
  let gs := gaussian_sum_nd_new means covs weights multi_indices in
  let x k : 'cV[R]_d := (gs_nd_sampler ss split1 uniform chol normal means covs weights k n)`_i in
  (forall a, E (fun k => x k a 0) = gsn_mean gs a 0) /\
  (forall a b, E (fun k => (x k a 0 - gsn_mean gs a 0) * (x k b 0 - gsn_mean gs b 0)) = gsn_cov gs a b).
Proof. by move=> sP cP us ui ns hm hv hw hc eP hi c z z0 z1 z2 gs x; apply: gs_nd_sampler_law. Qed.
Print Assumptions gaussian_sum_nd_sampler.

(* ---- C104: the proposals of the particle-filter scripts ---- *)
Theorem wp_proposal_moments (R : rcfType) (K : Type) (normal : K -> nat -> seq R) (E : (K -> R) -> R)
    (mc : R -> R -> R * R) (n : nat) (xs : seq R) (i : nat) :
  expectation E -> (forall k m, size (normal k m) = m) -> size xs = n -> (i < n)%N ->
  0 <= (mc xs`_i (1 / 100%:R)).2 ->
  E (fun k => (normal k n)`_i) = 0 -> E (fun k => (normal k n)`_i ^+ 2) = 1 ->
  let x k := (wp_pf_proposal normal mc n xs k)`_i in
  [/\ forall k, size (wp_pf_proposal normal mc n xs k) = n, E x = (mc xs`_i (1 / 100%:R)).1
    & E (fun k => (x k - (mc xs`_i (1 / 100%:R)).1) ^+ 2) = (mc xs`_i (1 / 100%:R)).2].
Proof.
move=> eP ns hs hi v0 z1 z2 x; set m := mc _ _ in v0 *.
have ex k : x k = m.1 + Num.sqrt m.2 * (normal k n)`_i.
  rewrite /x (nth_map ((0, 0), 0)) ?size_zip ?size_map ?hs ?ns ?minnn //.
  by rewrite nth_zip ?size_map ?hs ?ns //= (nth_map 0) ?hs.
have [h1 h2] := affine_draw eP m.1 (Num.sqrt m.2) z1 z2.
split=> [k||]; first by rewrite size_map size_zip size_map hs ns minnn.
  by rewrite (Eext eP ex).
by rewrite (Eext eP (g := fun k => (m.1 + Num.sqrt m.2 * (normal k n)`_i - m.1) ^+ 2)) ?h2 ?sqr_sqrtr // => k; rewrite ex.
Qed.
Print Assumptions wp_proposal_moments.

(* prey_predator/pf.py with --trans euler: the proposed particle has the mean and the covariance of the Euler step,
   4 x (1 - y) and -4 y (1 - x) for the drift, 1/10 x and 1/10 y for the dispersion, steps of 1/1000 *)
Theorem pp_proposal_moments (R : rcfType) (K : Type) (normal : K -> nat -> seq 'cV[R]_2) (E : (K -> R) -> R)
    (chol : forall n, 'M[R]_n -> 'M[R]_n) (n : nat) (xs : seq 'cV[R]_2) (i : nat) :
  chol_spec chol -> expectation E -> (forall k m, size (normal k m) = m) -> size xs = n -> (i < n)%N ->
  let a : R := xs`_i 0 0 in let b : R := xs`_i 1 0 in a != 0 -> b != 0 ->
  (forall j, E (fun k => (normal k n)`_i j 0) = 0) ->
  (forall j l, E (fun k => (normal k n)`_i j 0 * (normal k n)`_i l 0) = (j == l)%:R) ->
  let x k : 'cV[R]_2 := (pp_pf_proposal normal chol (@pp_euler R) n xs k)`_i in
  let m0 := a + 4%:R * a * (1 - b) / 1000%:R in
  let m1 := b - 4%:R * b * (1 - a) / 1000%:R in
  [/\ forall k, size (pp_pf_proposal normal chol (@pp_euler R) n xs k) = n,
      E (fun k => x k 0 0) = m0 /\ E (fun k => x k 1 0) = m1,
      E (fun k => (x k 0 0 - m0) ^+ 2) = (a / 10%:R) ^+ 2 / 1000%:R,
      E (fun k => (x k 1 0 - m1) ^+ 2) = (b / 10%:R) ^+ 2 / 1000%:R
    & E (fun k => (x k 0 0 - m0) * (x k 1 0 - m1)) = 0].
Proof.
move=> cP eP ns hs hi a b a0 b0 z1 z2 x m0 m1.
set mc := pp_euler xs`_i (pp_dt R).
have ex k : x k = mc.1 + chol 2%N mc.2 *m (normal k n)`_i.
  rewrite /x (nth_map ((0, 0), 0)) ?size_zip ?size_map ?hs ?ns ?minnn //.
  by rewrite nth_zip ?size_map ?hs ?ns //= (nth_map 0) ?hs.
have dE : mc.2 = diag_mx (\row_j (pp_dt R * (pp_sigma R * xs`_i j 0) ^+ 2)).
  rewrite /mc /= /pp_dispersion /pp_dispersion_of tr_diag_mx mulmx_diag.
  by apply/matrixP => j l; rewrite !mxE mulrnAr expr2.
have x0 j : xs`_i j 0 != 0.
  by case: j => [[|[|j]]] hj //; rewrite -?[Ordinal _]/(0 : 'I_2) -?[Ordinal _]/(1 : 'I_2);
   [apply: contra_neq a0|apply: contra_neq b0] => e; rewrite -[RHS]e; congr (xs`_i _ _); apply: val_inj.
have pd : posdef mc.2.
  rewrite dE; apply: diag_posdef => j; rewrite mxE mulr_gt0 ?divr_gt0 ?ltr01 ?ltr0n //.
  by rewrite lt_def sqr_ge0 sqrf_eq0 mulf_neq0 // mulf_neq0 ?oner_eq0 ?invr_eq0 ?pnatr_eq0.
have [_ _ hL] := cP _ _ pd.
have [h1 h2] := affine_draw_nd eP z1 z2 mc.1 hL.
have e0 : mc.1 0 0 = m0.
  rewrite /mc /m0 /a /b !mxE /= /pp_dt (_ : rev_ord 0 = 1 :> 'I_2); last by apply: val_inj.
  move: (xs`_i 0 0) (xs`_i 1 0) => u v; field.
  by [].
have e1 : mc.1 1 0 = m1.
  rewrite /mc /m1 /a /b !mxE /= /pp_dt (_ : rev_ord 1 = 0 :> 'I_2); last by apply: val_inj.
  move: (xs`_i 0 0) (xs`_i 1 0) => u v; field.
  by [].
have v (j l : 'I_2) : E (fun k => (x k j 0 - mc.1 j 0) * (x k l 0 - mc.1 l 0)) = mc.2 j l.
  by rewrite -h2; apply: (Eext eP) => k; rewrite ex.
have hE j : E (fun k => x k j 0) = mc.1 j 0 by rewrite -h1; apply: (Eext eP) => k; rewrite ex.
split=> [k||||].
- by rewrite size_map size_zip size_map hs ns minnn.
- by rewrite -e0 -e1; split; exact: hE.
- rewrite -e0 (Eext eP (g := fun k => (x k 0 0 - mc.1 0 0) * (x k 0 0 - mc.1 0 0))) => [|k]; last by rewrite expr2.
  rewrite v dE !mxE eqxx mulr1n /pp_dt /pp_sigma -/a; field.
  by [].
- rewrite -e1 (Eext eP (g := fun k => (x k 1 0 - mc.1 1 0) * (x k 1 0 - mc.1 1 0))) => [|k]; last by rewrite expr2.
  rewrite v dE !mxE eqxx mulr1n /pp_dt /pp_sigma -/b; field.
  by [].
by rewrite -e0 -e1 v dE !mxE.
Qed.
Print Assumptions pp_proposal_moments.

(* benes_bernoulli/pf.py: with 0/1 measurements every step draws, for each stratum, the proposed particle given by the
   inverse distribution function of the normalised Bernoulli likelihoods. *)
Theorem benes_bernoulli_pf (R : rcfType) (exp log : R -> R) (K : Type) (k0 : K) (ss : seq R -> R -> nat)
    (split1 : K -> K) (split_keys : K -> nat -> seq K) (uniform normal : K -> nat -> seq R)
    (mc : R -> R * R) (n : nat) (ys : seq int) (key : K) :
  exp_spec exp -> ss_left_spec ss -> (forall k m, size (split_keys k m) = m) -> (forall k m, size (uniform k m) = m) ->
  (forall k m, all (fun u => 0 < u < 1) (uniform k m)) -> (forall k m, size (normal k m) = m) -> (0 < n)%N ->
  all (fun y => (y == 0) || (y == 1)) ys ->
  let sol := bb_pf exp log ss split1 split_keys uniform normal mc n ys key in
  let keys := split_keys key (size ys) in
  let prev t := if t is t'.+1 then nth [::] sol t'
    else [seq (if (t.1 == 0)%N then - (1 / 2%:R) else 1 / 2%:R) + Num.sqrt (1 / 20%:R) * t.2
         | t <- zip (jax_choice ss uniform key n [:: 1 / 2%:R; 1 / 2%:R]) (normal (split1 key) n)] in
  let prop t := [seq (mc p.1).1 + Num.sqrt (mc p.1).2 * p.2 | p <- zip (prev t) (normal (nth k0 keys t) n)] in
  let lik t x := let p := 1 / (1 + exp (- x ^+ 3 / 5%:R)) in if ys`_t == 1 then p else 1 - p in
  let w t := [seq lik t x / \sum_(v <- prop t) lik t v | x <- prop t] in
  size sol = size ys /\ forall t, (t < size ys)%N -> [/\ size (prop t) = n, weight_vector (w t), size (nth [::] sol t) = n
        & forall i, (i < n)%N -> exists j,
          inverse_cdf (w t) ((i%:R + (uniform (split1 (nth k0 keys t)) n)`_i) / n%:R) j
          /\ (nth [::] sol t)`_i = (prop t)`_j].
Proof.
move=> eP sP h1 h2 h3 h4 n0 hy sol keys prev prop lik w.
have iz t k : size (wp_init_sampler ss split1 uniform normal t k) = k by apply: init_size.
have bs (s : seq R) k : size s = n -> size (bb_proposal normal mc s k) = n.
  by move=> hs; rewrite size_map size_zip h4 hs minnn.
have [e1 _ _ _] := benes_bernoulli_logistic eP.
have pE t x : (t < size ys)%N -> bb_pmf exp ys`_t x = lik t x.
  move=> ht; rewrite /bb_pmf /bernoulli_pmf /lik; have := all_nthP 0 hy t ht.
  by case/orP => /eqP ->.
have pos t x : (t < size ys)%N -> 0 < bb_pmf exp ys`_t x.
  move=> ht; rewrite pE // /lik; have /andP [a b] := e1 x; case: ifP => _ //.
  by rewrite subr_gt0.
have := @stratified_run R log R int K 0 0 k0 split1 split_keys uniform (bb_proposal normal mc) (bb_pmf exp) ss
  (wp_init_sampler ss split1 uniform normal) ys key n h1 h2 h3 sP iz n0 bs pos.
rewrite -/(bb_pf exp log ss split1 split_keys uniform normal mc n ys key) -/sol -/keys => -[r1 r2 _].
have iE : wp_init_sampler ss split1 uniform normal key n = prev 0%N.
  rewrite /wp_init_sampler /gs_sampler /prev; apply: eq_map => -[j z] /=.
  by rewrite /jget /=; case: j => [|[|j]].
have prE t : (match t with 0%N => wp_init_sampler ss split1 uniform normal key n | t'.+1 => nth [::] sol t' end) = prev t.
  by case: t.
have sz t : (t <= size ys)%N -> size (prev t) = n.
  case: t => [|t] ht; first by rewrite -iE iz.
  by have [] := r2 t ht.
split=> // t ht; have := r2 t ht; rewrite prE /bb_proposal sz; last exact: ltnW.
rewrite -/(prop t).
have -> : \sum_(v <- prop t) bb_pmf exp ys`_t v = \sum_(v <- prop t) lik t v by apply: eq_bigr => v _; rewrite pE.
suff -> : [seq bb_pmf exp ys`_t x / \sum_(v <- prop t) lik t v | x <- prop t] = w t by [].
by apply: eq_map => x; rewrite pE.
Qed.
Print Assumptions benes_bernoulli_pf.

(* prey_predator/pf.py: the same in two dimensions; the initial particles have mean (1, 1) and the covariance
   I / 1000 or 2 I / 1000, and the emission depends on the first component. *)
Theorem prey_predator_pf (R : rcfType) (exp log : R -> R) (K : Type) (k0 : K) (ss : seq R -> R -> nat)
    (split1 : K -> K) (split_keys : K -> nat -> seq K) (uniform : K -> nat -> seq R) (normal : K -> nat -> seq 'cV[R]_2)
    (chol : forall n, 'M[R]_n -> 'M[R]_n) (mc : 'cV[R]_2 -> R -> 'cV[R]_2 * 'M[R]_2) (n : nat) (ys : seq int) (key : K) :
  exp_spec exp -> ss_left_spec ss -> (forall k m, size (split_keys k m) = m) -> (forall k m, size (uniform k m) = m) ->
  (forall k m, all (fun u => 0 < u < 1) (uniform k m)) -> (forall k m, size (normal k m) = m) -> (0 < n)%N ->
  all (fun y => (y == 0) || (y == 1)) ys ->
  let sol := pp_pf exp log ss split1 split_keys uniform normal chol mc n ys key in
  let keys := split_keys key (size ys) in
  let prev t := if t is t'.+1 then nth [::] sol t'
    else [seq const_mx 1 + chol 2%N (if (t.1 == 0)%N then (1 / 1000%:R)%:M else (2%:R / 1000%:R)%:M) *m t.2
         | t <- zip (jax_choice ss uniform key n [:: 1 / 2%:R; 1 / 2%:R]) (normal (split1 key) n)] in
  let prop t := [seq (mc p.1 (1 / 1000%:R)).1 + chol 2%N (mc p.1 (1 / 1000%:R)).2 *m p.2
                | p <- zip (prev t) (normal (nth k0 keys t) n)] in
  let lik t (x : 'cV[R]_2) := let p := 1 / (1 + exp (- (x 0 0) ^+ 3 + 1)) in if ys`_t == 1 then p else 1 - p in
  let w t := [seq lik t x / \sum_(v <- prop t) lik t v | x <- prop t] in
  size sol = size ys /\ forall t, (t < size ys)%N -> [/\ size (prop t) = n, weight_vector (w t), size (nth [::] sol t) = n
        & forall i, (i < n)%N -> exists j,
          inverse_cdf (w t) ((i%:R + (uniform (split1 (nth k0 keys t)) n)`_i) / n%:R) j
          /\ (nth [::] sol t)`_i = (prop t)`_j].
Proof.
move=> eP sP h1 h2 h3 h4 n0 hy sol keys prev prop lik w.
set init := gs_nd_sampler ss split1 uniform chol normal [:: const_mx 1; const_mx 1]
           [:: (1 / 1000%:R)%:M; (2%:R / 1000%:R)%:M] [:: 1 / 2%:R; 1 / 2%:R].
have iz t k : size (init t k) = k by rewrite size_map size_zip size_map h2 h4 minnn.
have bs (s : seq 'cV[R]_2) k : size s = n -> size (pp_pf_proposal normal chol mc n s k) = n.
  by move=> hs; rewrite size_map size_zip size_map h4 hs minnn.
have [e1 _ _ _] := prey_predator_observation eP.
have pE t x : (t < size ys)%N -> pp_pmf exp ys`_t x = lik t x.
  move=> ht; rewrite /pp_pmf /bernoulli_pmf /lik; have := all_nthP 0 hy t ht.
  by case/orP => /eqP ->.
have pos t x : (t < size ys)%N -> 0 < pp_pmf exp ys`_t x.
  move=> ht; rewrite pE // /lik; have /andP [a b] := e1 (x 0 0); case: ifP => _ //.
  by rewrite subr_gt0.
have := @stratified_run R log _ int K 0 0 k0 split1 split_keys uniform (pp_pf_proposal normal chol mc n) (pp_pmf exp) ss
  init ys key n h1 h2 h3 sP iz n0 bs pos.
rewrite -/(pp_pf exp log ss split1 split_keys uniform normal chol mc n ys key) -/sol -/keys => -[r1 r2 _].
have iE : init key n = prev 0%N.
  rewrite /init /gs_nd_sampler /prev; apply: eq_map => -[j z] /=.
  by rewrite /jget /=; case: j => [|[|j]].
have prE t : (match t with 0%N => init key n | t'.+1 => nth [::] sol t' end) = prev t.
  by case: t.
have ppE t : pp_pf_proposal normal chol mc n (prev t) (nth k0 keys t) = prop t.
  rewrite /pp_pf_proposal /prop; elim: (prev t) (normal _ n) => [|x s IH] [|z zs] //=.
  by congr (_ :: _); exact: IH.
split=> // t ht; have := r2 t ht; rewrite prE ppE.
have -> : \sum_(v <- prop t) pp_pmf exp ys`_t v = \sum_(v <- prop t) lik t v by apply: eq_bigr => v _; rewrite pE.
suff -> : [seq pp_pmf exp ys`_t x / \sum_(v <- prop t) lik t v | x <- prop t] = w t by [].
by apply: eq_map => x; rewrite pE.
Qed.
Print Assumptions prey_predator_pf.

(* line 78: the errors are the distances to the means of the particles *)
Theorem prey_predator_pf_errors (R : rcfType) (xs : seq 'cV[R]_2) (samples : seq (seq 'cV[R]_2)) (t : nat) (i : 'I_2) :
  size xs = size samples -> (t < size xs)%N ->
  let s := nth [::] samples t in
  let e := (pp_pf_errs xs samples)`_t i 0 in
  [/\ size (pp_pf_errs xs samples) = size xs, 0 <= e &
     e = `|xs`_t i 0 - (\sum_(0 <= j < size s) s`_j i 0) / (size s)%:R|].
Proof.
move=> hs ht s e.
have E : e = `|xs`_t i 0 - (\sum_(0 <= j < size s) s`_j i 0) / (size s)%:R|.
  rewrite /e (nth_map (0, [::])) ?size_zip -?hs ?minnn // mxE nth_zip //= -/s.
  by rewrite (big_nth 0).
by split=> //; [rewrite size_map size_zip -hs minnn|rewrite E].
Qed.
Print Assumptions prey_predator_pf_errors.

(* ---- Examples ---- *)
(* the hypotheses of the filter theorems are met *)
Example pf_draws_ex (R : rcfType) :
  let split_keys (k : nat) m := iota 0 m in let uniform (k : nat) m := nseq m (1 / 2%:R : R) in
  [/\ exp_spec (@exp_ref R) /\ log_spec (@exp_ref R) (@log_ref R), ss_left_spec (@ss_left_ref R) /\ ss_right_spec (@ss_right_ref R),
      forall k m, size (split_keys k m) = m, forall k m, size (uniform k m) = m
    & forall k m, all (fun u => 0 < u < 1) (uniform k m)].
Proof.
move=> split_keys uniform; split=> [|//|k m|k m|k m].
- exact: exp_log_spec_ex.
- by split=> *; [apply: ss_left_refP|apply: ss_right_refP].
- by rewrite size_iota.
- by rewrite size_nseq.
by rewrite all_nseq half_in orbT.
Qed.

(* an expectation over four equally likely keys, with a fair component and a sign: the hypotheses of the
   sampler theorem hold for the moments up to order three *)
Example sampler_ex (R : rcfType) :
  let K := (bool * bool)%type in
  let E (f : K -> R) := (f (true, true) + f (true, false) + f (false, true) + f (false, false)) / 4%:R in
  let uniform (k : K) m := nseq m (if k.1 then 1 / 4%:R else 3%:R / 4%:R : R) in
  let normal (k : K) m := nseq m (if k.2 then 1 else -1 : R) in
  let w : seq R := [:: 1 / 2%:R; 1 / 2%:R] in
  [/\ expectation E, weight_vector w & forall j l, (j < 2)%N -> (l <= 3)%N ->
    E (fun k => (nth 0%N (jax_choice (@ss_left_ref R) uniform k 1 w) 0 == j)%:R * (normal k 1%N)`_0 ^+ l)
      = w`_j * gauss_moment 0 1 l].
Proof.
move=> K E uniform normal w.
have hw : weight_vector w.
  split; first by rewrite /= !divr_ge0 ?ler01 ?ler0n.
  by rewrite /w !big_cons big_nil; field.
split=> //.
  split=> [f g|c f||f g h]; rewrite /E; try (by field); by rewrite !h.
have c k : nth 0%N (jax_choice (@ss_left_ref R) uniform k 1 w) 0 = (k.1 : nat).
  have us k' m : size (uniform k' m) = m by rewrite size_nseq.
  have ui k' m : all (fun u => 0 <= u < 1) (uniform k' m).
    rewrite all_nseq; apply/orP; right; case: (k'.1).
      by rewrite divr_ge0 ?ler0n ?ler01 //= ltr_pdivr_mulr ?ltr0n // mul1r ltr1n.
    by rewrite divr_ge0 ?ler0n //= ltr_pdivr_mulr ?ltr0n // mul1r ltr_nat.
  have [] := choice_interval k (@ss_left_refP R) us ui hw (ltnSn 0).
  move=> _ _ h; apply/eqP; rewrite h; last by case: (k.1).
  rewrite /uniform /=; case: (k.1) => /=; rewrite !big_cons !big_nil ?take0 ?big_nil.
    rewrite (_ : 1 - _ = 0); last by field.
    rewrite (_ : 1 - (1 / 2%:R + 0) = 2%:R / 4%:R); last by field.
    by rewrite divr_ge0 ?ler01 ?ler0n //= ltr_pmul2r ?invr_gt0 ?ltr0n // ltr1n.
  rewrite (_ : 1 - (1 / 2%:R + 0) = 2%:R / 4%:R); last by field.
  rewrite subr0 ler_pmul2r ?invr_gt0 ?ltr0n // ler_nat /=.
  by rewrite ltr_pdivr_mulr ?ltr0n // mul1r ltr_nat.
move=> [|[|j]] // [|[|[|[|l]]]] // _ _; rewrite /E !c /= /gauss_moment /= ?eqxx /=.
all: by field.
Qed.
