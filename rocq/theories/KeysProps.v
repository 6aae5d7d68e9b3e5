(* Properties C128, C129, C130: the use of random keys. *)
From mathcomp Require Import all_ssreflect all_algebra.
From Verif Require Import Prelude RealField RealWitness ResampleModel DardelModel SdeModel PfModel ConvModel.
From Verif Require Import KeysModel KeysSpec KeysProofs KeysLink.
Set Implicit Arguments.
Unset Strict Implicit.
Unset Printing Implicit Defensive.
Import GRing.Theory.

(* C128. Full statement: all random numbers used in a run of a particle filter, and in different
   runs, are drawn from different keys. *)

(* The filters read random numbers at the keys of the trace only. *)
Theorem filters_read_their_keys (R : rcfType) (exp log : R -> R) (ss_left ss_right : seq R -> R -> nat)
    (uniform uniform' normal normal' : key -> nat -> seq R) (nd nd' : key -> nat -> seq 'cV[R]_2)
    (chol : forall n, 'M[R]_n -> 'M[R]_n) eps T n k :
  (forall k' m, k' \in draws (bootstrap_trace normal_trace resample_trace gs_trace T k) ->
     [/\ uniform k' m = uniform' k' m, normal k' m = normal' k' m & nd k' m = nd' k' m]) ->
  [/\ forall tmc ys, size ys = T ->
        bb_pf exp log ss_left split1 split_keys uniform normal tmc n ys k =
        bb_pf exp log ss_left split1 split_keys uniform' normal' tmc n ys k,
      forall mc cr params ys, size ys = T ->
        wp_pf_objective exp log ss_left ss_right eps split1 split_keys uniform normal mc cr n params ys k =
        wp_pf_objective exp log ss_left ss_right eps split1 split_keys uniform' normal' mc cr n params ys k
    & forall mc ys, size ys = T ->
        pp_pf exp log ss_left split1 split_keys uniform nd chol mc n ys k =
        pp_pf exp log ss_left split1 split_keys uniform' nd' chol mc n ys k].
Proof.
move=> h; split=> [tmc ys hT|mc cr params ys hT|mc ys hT].
- by apply: bb_pf_link => k' m; rewrite hT => /(h k' m) [].
- by apply: wp_pf_link => k' m; rewrite hT => /(h k' m) [].
- by apply: pp_pf_link => k' m; rewrite hT => /(h k' m) [].
Qed.
Print Assumptions filters_read_their_keys.

Theorem samplers_read_their_keys (R : rcfType) (ss_left : seq R -> R -> nat)
    (uniform uniform' normal normal' : key -> nat -> seq R) means variances weights k n :
  (forall k' m, k' \in draws (gs_trace k) -> uniform k' m = uniform' k' m /\ normal k' m = normal' k' m) ->
  gs_sampler ss_left split1 uniform normal means variances weights k n =
  gs_sampler ss_left split1 uniform' normal' means variances weights k n.
Proof. exact: gs_link. Qed.
Print Assumptions samplers_read_their_keys.

Theorem simulator_reads_its_key (R : rcfType) (chol : forall n, 'M[R]_n -> 'M[R]_n)
    (nd nd' : key -> nat -> nat -> forall d, seq (seq 'cV[R]_d)) d mc (x0 : 'cV[R]_d) dt T k diag steps :
  (forall k' a b, k' \in draws (sde_trace k) -> nd k' a b d = nd' k' a b d) ->
  simulate_sde chol (fun k => (split1 k, child k 2 1)) nd mc x0 dt T k diag steps =
  simulate_sde chol (fun k => (split1 k, child k 2 1)) nd' mc x0 dt T k diag steps.
Proof. exact: sde_link. Qed.
Print Assumptions simulator_reads_its_key.

Theorem conv_filter_reads_its_keys (R : rcfType) (exp log : R -> R) pi dt ell sigma nv (ss_left : seq R -> R -> nat)
    (uniform uniform' normal normal' : key -> nat -> seq R) ys k n :
  (forall k' m, k' \in draws (particle_trace normal_trace resample_trace normal_trace (size ys) k) ->
     uniform k' m = uniform' k' m /\ normal k' m = normal' k' m) ->
  conv_pf exp log pi dt ell sigma nv split1 split_keys normal
    (fun w k => stratified ss_left w (uniform k (size w))) ys k n =
  conv_pf exp log pi dt ell sigma nv split1 split_keys normal'
    (fun w k => stratified ss_left w (uniform' k (size w))) ys k n.
Proof. exact: conv_pf_link. Qed.
Print Assumptions conv_filter_reads_its_keys.

(* What holds: with an initial sampler that draws once the keys are different for every number
   of steps; with the samplers of Gaussian mixtures, as in the scripts, for every number of
   steps but two. The scripts have T = 100, 1000 and 2000. *)
Theorem filter_draws_distinct (T : nat) (k : key) :
  independent_draws (bootstrap_trace normal_trace resample_trace normal_trace T k) /\
  independent_draws (particle_trace normal_trace resample_trace normal_trace T k).
Proof. by rewrite /independent_draws boot1_draws ?pf_draws map_inj_uniq ?uniq_pf //; exact: ext_inj. Qed.
Print Assumptions filter_draws_distinct.

Theorem script_draws_distinct_partial (T n : nat) (k : key) : T != 2 ->
  [/\ independent_draws (bb_pf_trace T k), independent_draws (wp_pf_trace T k),
      independent_draws (conv_pf_trace T k) & independent_draws (pp_pf_trace T n k)].
Proof.
move=> hT; rewrite /independent_draws bb_pf_draws wp_pf_draws conv_pf_draws pp_pf_draws.
by split; rewrite map_inj_uniq ?uniq_bb ?uniq_conv ?uniq_pp //; exact: ext_inj.
Qed.
Print Assumptions script_draws_distinct_partial.

(* Different rows of rng_keys.npy: no key is shared, whatever the scripts, the numbers of steps
   and the numbers of rejected data sets. *)
Theorem runs_share_no_key (T T' n n' i j : nat) (f g : key -> seq event) : i != j ->
  List.In f [:: bb_pf_trace T; wp_pf_trace T; conv_pf_trace T; pp_pf_trace T n] ->
  List.In g [:: bb_pf_trace T'; wp_pf_trace T'; conv_pf_trace T'; pp_pf_trace T' n'] ->
  forall k, k \in draws (f (rng_key i)) -> k \notin draws (g (rng_key j)).
Proof.
move=> hij hf hg k.
have [L ->] : exists L, draws (f (rng_key i)) = [seq ext (rng_key i) s | s <- L].
  by case: hf => [<-|[<-|[<-|[<-|[]]]]]; rewrite ?(bb_pf_draws, wp_pf_draws, conv_pf_draws, pp_pf_draws); eexists.
have [L' ->] : exists L, draws (g (rng_key j)) = [seq ext (rng_key j) s | s <- L].
  by case: hg => [<-|[<-|[<-|[<-|[]]]]]; rewrite ?(bb_pf_draws, wp_pf_draws, conv_pf_draws, pp_pf_draws); eexists.
move=> hk; apply/negP => hk'.
by have /hasP [] := runs_disjoint L L' hij; exists k.
Qed.
Print Assumptions runs_share_no_key.

(* What fails: with two measurements the first key of the steps is the second key of the initial
   sampler. *)
Theorem script_draws_distinct_refuted : exists T, forall n k,
  [/\ ~ independent_draws (bb_pf_trace T k), ~ independent_draws (wp_pf_trace T k)
    & ~ independent_draws (pp_pf_trace T n k)].
Proof.
exists 2 => n k; rewrite /independent_draws bb_pf_draws wp_pf_draws pp_pf_draws.
rewrite !(map_inj_uniq (@ext_inj k)) uniq_bb uniq_pp eqxx.
by [].
Qed.
Print Assumptions script_draws_distinct_refuted.

(* In values: when the first of T keys is the first of two keys, the first particles of the
   Benes-Bernoulli filter are made from the initial component c and one normal number, which
   serves as initial noise and as process noise. In the model this is the case T = 2; with
   jax_threefry_partitionable, where the i-th key does not depend on how many are asked for,
   it is the case of every T. *)
Theorem first_particles_share_noise (R : rcfType) (exp log : R -> R) (K : Type) (ss_left : seq R -> R -> nat)
    (split1 : K -> K) (split_keys : K -> nat -> seq K) (uniform normal : K -> nat -> seq R) (tmc : R -> R * R) :
  (forall k m, size (uniform k m) = m) -> (forall k m, size (normal k m) = m) ->
  forall n y ys k ks, split_keys k (size ys).+1 = split1 k :: ks ->
  let cs := jax_choice ss_left uniform k n [:: 1 / 2%:R; 1 / 2%:R]%R in
  exists idx, nth [::] (bb_pf exp log ss_left split1 split_keys uniform normal tmc n (y :: ys) k) 0 =
    [seq jget 0 [seq (let x := jget 0 [:: - (1 / 2%:R); 1 / 2%:R] t.1 +
                              Num.sqrt (jget 0 [:: 1 / 20%:R; 1 / 20%:R] t.1) * t.2 in
                      (tmc x).1 + Num.sqrt (tmc x).2 * t.2)
                | t <- zip cs (normal (split1 k) n)] i | i <- idx]%R.
Proof. by move=> hu hn n y ys k ks; exact: bb_pf_reuse. Qed.
Print Assumptions first_particles_share_noise.

Example keys_ex : forall k, [/\ split_keys k 2 = split1 k :: [:: child k 2 1],
  independent_draws (bb_pf_trace 3 k), draws (gs_trace k) = [:: k; split1 k] & 100 != 2].
Proof.
move=> k; split=> //.
by rewrite /independent_draws bb_pf_draws map_inj_uniq ?uniq_bb //; exact: ext_inj.
Qed.

(* C129. Full statement: every key of a run is consumed once, by one draw or one split. *)
Theorem single_use_partial (k : key) :
  [/\ single_use (sde_trace k), single_use (resample_trace k) & single_use (conv_mf_trace k)].
Proof.
by rewrite /single_use /= /sde_trace /conv_mf_trace /= !inE /split1 !child_ext !ext_eqk (inj_eq (@ext_inj k)).
Qed.
Print Assumptions single_use_partial.

Lemma not_single_cat es fs : ~ single_use es -> ~ single_use (es ++ fs).
Proof. by move=> h; rewrite /single_use uses_cat cat_uniq => /andP []. Qed.
Lemma not_single_catr es fs : ~ single_use fs -> ~ single_use (es ++ fs).
Proof. by move=> h; rewrite /single_use uses_cat cat_uniq => /and3P []. Qed.
Lemma not_single_cons e es : ~ single_use es -> ~ single_use (e :: es).
Proof. by rewrite -cat1s; exact: not_single_catr. Qed.

Theorem single_use_refuted : forall k T n,
  [/\ ~ single_use (gs_trace k), ~ single_use (bootstrap_trace normal_trace resample_trace gs_trace T k),
      ~ single_use (particle_trace normal_trace resample_trace normal_trace T k), ~ single_use (pp_mf_trace n k) &
      [/\ ~ single_use (bb_mf_trace k), ~ single_use (bb_pf_trace T k), ~ single_use (wp_pf_trace T k),
          ~ single_use (conv_pf_trace T k) & ~ single_use (pp_pf_trace T n k)]].
Proof.
have hg k : ~ single_use (gs_trace k) by rewrite /single_use /= inE eqxx.
have hb T k : ~ single_use (bootstrap_trace normal_trace resample_trace gs_trace T k).
  by rewrite /bootstrap_trace; exact: not_single_cat.
have hp T k : ~ single_use (particle_trace normal_trace resample_trace normal_trace T k).
  by rewrite /single_use /particle_trace uses_cat /= mem_head.
have hs k : ~ single_use (pp_simulate_trace k).
  by rewrite /pp_simulate_trace; do 2 apply: not_single_cons; exact: not_single_cat.
have hm n k : ~ single_use (pp_mf_trace n k).
  by case: n => [|n]; rewrite ?pp_mf0 // pp_mfS; exact: not_single_cat.
move=> k T n; split=> //; split.
- by rewrite /bb_mf_trace; apply: not_single_cons; exact: not_single_cat.
- by rewrite /bb_pf_trace; apply: not_single_cons; exact: not_single_cat.
- by rewrite /wp_pf_trace; do 2 apply: not_single_cons; exact: not_single_cat.
- by rewrite /conv_pf_trace; exact: not_single_catr.
- by rewrite /pp_pf_trace; exact: not_single_cat.
Qed.
Print Assumptions single_use_refuted.

Example single_use_ex : uses (gs_trace (prng_key 0)) = [:: prng_key 0; prng_key 0; child (prng_key 0) 2 0].
Proof. by []. Qed.

(* C130 *)
(* The data of a run are made by the same draws, from the same keys, in all the scripts of one
   experiment: the particle filters draw further numbers afterwards. *)
Theorem scripts_share_data (T : nat) (k : key) :
  [/\ bb_ghf_trace k = bb_mf_trace k /\ bb_bf_trace k = bb_mf_trace k, wp_ghf_trace k = wp_mf_trace k &
   [/\ exists t, draws (bb_pf_trace T k) = draws (bb_mf_trace k) ++ t,
       exists t, draws (wp_pf_trace T k) = draws (wp_mf_trace k) ++ t,
       exists t, draws (conv_pf_trace T k) = draws (conv_mf_trace k) ++ t &
       forall n, exists t, pp_pf_trace T n k = pp_mf_trace n k ++ t]].
Proof.
split=> //; split; try by eexists.
Qed.
Print Assumptions scripts_share_data.

(* The data do not depend on the filter: no draw of a particle filter is a draw of the data. *)
Theorem data_not_seen_by_filter (T n : nat) (k : key) :
  [/\ forall k', k' \in draws (bb_mf_trace k) ->
        k' \notin draws (bootstrap_trace normal_trace resample_trace gs_trace T (split1 (child k 3 2))),
      forall k', k' \in draws (conv_mf_trace k) ->
        k' \notin draws (particle_trace normal_trace resample_trace normal_trace T (split1 (child k 2 1)))
    & forall k', k' \in draws (pp_mf_trace n k) ->
        k' \notin draws (bootstrap_trace normal_trace resample_trace gs_trace T (split1 (iter n split1 k)))].
Proof. exact: data_not_seen. Qed.
Print Assumptions data_not_seen_by_filter.

Example data_ex : forall k, draws (bb_mf_trace k) =
  [:: child k 3 0; child (child k 3 0) 2 0; child (child k 3 1) 2 0; child k 3 2].
Proof. by []. Qed.
