(* The samplers and filters of the model read random numbers only at the keys of their traces. *)
From mathcomp Require Import all_ssreflect all_algebra.
From Verif Require Import Prelude ResampleModel DardelModel SdeModel PfModel ConvModel KeysModel KeysSpec KeysProofs.
Set Implicit Arguments.
Unset Strict Implicit.
Unset Printing Implicit Defensive.
Import GRing.Theory.
Local Open Scope ring_scope.

Lemma scan_keys (S Y O : Type) (K : eqType) (b b' : S -> Y * K -> S * O) (ks : seq K) ys s :
  (forall s y k, k \in ks -> b s (y, k) = b' s (y, k)) ->
  scan b s (zip ys ks) = scan b' s (zip ys ks).
Proof.
elim: ks ys s => [|k ks IH] [|y ys] s //= h.
rewrite h ?mem_head //; case: (b' _ _) => s1 o; rewrite IH // => s' y' k' hk.
by apply: h; rewrite inE hk orbT.
Qed.

Lemma in_steps T k k' : k' \in split_keys k T ->
  k' \in draws (flatten [seq normal_trace k' ++ Split k' 2 :: resample_trace (split1 k') | k' <- split_keys k T]) /\
  split1 k' \in draws (flatten [seq normal_trace k' ++ Split k' 2 :: resample_trace (split1 k') | k' <- split_keys k T]).
Proof.
rewrite draws_flatten => h; split; apply/flatten_mapP; exists k' => //=; by rewrite !inE eqxx ?orbT.
Qed.

Section Link.
Variable R : rcfType.

(* trace of the filter started at k, with the initial sampler init *)
Let tr init T k := draws (bootstrap_trace normal_trace resample_trace init T k).

Lemma boot_mem init T k k' : k' \in split_keys k T -> k' \in tr init T k /\ split1 k' \in tr init T k.
Proof.
move=> h; rewrite /tr /bootstrap_trace draws_cat draws_split.
by have [h1 h2] := in_steps h; split; rewrite mem_cat ?h1 ?h2 orbT.
Qed.

Lemma boot_mem_init init T k k' : k' \in draws (init k) -> k' \in tr init T k.
Proof. by move=> h; rewrite /tr /bootstrap_trace draws_cat mem_cat h. Qed.

Lemma part_trE T k : draws (particle_trace normal_trace resample_trace normal_trace T k) = tr normal_trace T k.
Proof. by []. Qed.

Section Boot.
Variables (log : R -> R) (X Y : Type) (trans trans' : seq X -> key -> seq X).
Variables (pdf : Y -> seq X -> seq R) (res res' : seq X -> seq R -> key -> seq X).
Variables (init init' : key -> nat -> seq X).

Lemma bootstrap_ext ys k n :
  (forall k' xs, k' \in split_keys k (size ys) -> trans xs k' = trans' xs k') ->
  (forall k' xs ws, k' \in split_keys k (size ys) -> res xs ws (split1 k') = res' xs ws (split1 k')) ->
  init k n = init' k n ->
  bootstrap_filter log split1 split_keys trans pdf res ys init k n =
  bootstrap_filter log split1 split_keys trans' pdf res' ys init' k n.
Proof.
move=> ht hr hi; rewrite /bootstrap_filter hi.
rewrite (@scan_keys _ _ _ _ _ (bootstrap_body log split1 trans' pdf res')) //.
by move=> [xs nell] y k' hk'; rewrite /bootstrap_body ht // hr.
Qed.
End Boot.

Variables (uniform uniform' normal normal' : key -> nat -> seq R).

Section Gs.
Variables (ss_left : seq R -> R -> nat) (means variances weights : seq R).
Lemma gs_link k n :
  (forall k' m, k' \in draws (gs_trace k) -> uniform k' m = uniform' k' m /\ normal k' m = normal' k' m) ->
  gs_sampler ss_left split1 uniform normal means variances weights k n =
  gs_sampler ss_left split1 uniform' normal' means variances weights k n.
Proof.
move=> h; rewrite /gs_sampler /jax_choice.
by rewrite (h k n _).1 ?mem_head // (h (split1 k) n _).2 // !inE eqxx orbT.
Qed.
End Gs.

Lemma gs_nd_link (ss_left : seq R -> R -> nat) d (chol : forall n, 'M[R]_n -> 'M[R]_n)
    (nd nd' : key -> nat -> seq 'cV[R]_d) means covs weights k n :
  (forall k' m, k' \in draws (gs_trace k) -> uniform k' m = uniform' k' m /\ nd k' m = nd' k' m) ->
  gs_nd_sampler ss_left split1 uniform chol nd means covs weights k n =
  gs_nd_sampler ss_left split1 uniform' chol nd' means covs weights k n.
Proof.
move=> h; rewrite /gs_nd_sampler /jax_choice.
by rewrite (h k n _).1 ?mem_head // (h (split1 k) n _).2 // !inE eqxx orbT.
Qed.

Lemma sde_link (chol : forall n, 'M[R]_n -> 'M[R]_n)
    (nd nd' : key -> nat -> nat -> forall d, seq (seq 'cV[R]_d)) d mc (x0 : 'cV[R]_d) dt T k diag steps :
  (forall k' a b, k' \in draws (sde_trace k) -> nd k' a b d = nd' k' a b d) ->
  simulate_sde chol (fun k => (split1 k, child k 2 1)) nd mc x0 dt T k diag steps =
  simulate_sde chol (fun k => (split1 k, child k 2 1)) nd' mc x0 dt T k diag steps.
Proof. by move=> h; rewrite /simulate_sde h // mem_head. Qed.

Lemma bb_pf_link (exp log : R -> R) (ss_left : seq R -> R -> nat) tmc n ys k :
  (forall k' m, k' \in tr gs_trace (size ys) k -> uniform k' m = uniform' k' m /\ normal k' m = normal' k' m) ->
  bb_pf exp log ss_left split1 split_keys uniform normal tmc n ys k =
  bb_pf exp log ss_left split1 split_keys uniform' normal' tmc n ys k.
Proof.
move=> h; rewrite /bb_pf; congr (_ .1); apply: bootstrap_ext.
- by move=> k' xs /(boot_mem gs_trace) [hk' _]; rewrite /bb_proposal (h _ _ hk').2.
- by move=> k' xs ws /(boot_mem gs_trace) [_ hk']; rewrite /discrete_resample (h _ _ hk').1.
- by apply: gs_link => k' m hk'; apply: h; exact: boot_mem_init.
Qed.

Lemma wp_pf_link (exp log : R -> R) (ss_left ss_right : seq R -> R -> nat) eps mc cr n params ys k :
  (forall k' m, k' \in tr gs_trace (size ys) k -> uniform k' m = uniform' k' m /\ normal k' m = normal' k' m) ->
  wp_pf_objective exp log ss_left ss_right eps split1 split_keys uniform normal mc cr n params ys k =
  wp_pf_objective exp log ss_left ss_right eps split1 split_keys uniform' normal' mc cr n params ys k.
Proof.
move=> h; rewrite /wp_pf_objective; congr (_ .2); apply: bootstrap_ext.
- by move=> k' xs /(boot_mem gs_trace) [hk' _]; rewrite /wp_pf_proposal (h _ _ hk').2.
- move=> k' xs ws /(boot_mem gs_trace) [_ hk']; case: cr; last by rewrite /discrete_resample (h _ _ hk').1.
  by rewrite /continuous_resample (h _ _ hk').1.
- by apply: gs_link => k' m hk'; apply: h; exact: boot_mem_init.
Qed.

Lemma pp_pf_link (exp log : R -> R) (ss_left : seq R -> R -> nat) (nd nd' : key -> nat -> seq 'cV[R]_2)
    (chol : forall n, 'M[R]_n -> 'M[R]_n) mc n ys k :
  (forall k' m, k' \in tr gs_trace (size ys) k -> uniform k' m = uniform' k' m /\ nd k' m = nd' k' m) ->
  pp_pf exp log ss_left split1 split_keys uniform nd chol mc n ys k =
  pp_pf exp log ss_left split1 split_keys uniform' nd' chol mc n ys k.
Proof.
move=> h; rewrite /pp_pf; congr (_ .1); apply: bootstrap_ext.
- by move=> k' xs /(boot_mem gs_trace) [hk' _]; rewrite /pp_pf_proposal (h _ _ hk').2.
- by move=> k' xs ws /(boot_mem gs_trace) [_ hk']; rewrite /discrete_resample (h _ _ hk').1.
- by apply: gs_nd_link => k' m hk'; apply: h; exact: boot_mem_init.
Qed.

Lemma conv_pf_link (exp log : R -> R) pi dt ell sigma nv (ss_left : seq R -> R -> nat) ys k n :
  (forall k' m, k' \in draws (particle_trace normal_trace resample_trace normal_trace (size ys) k) ->
     uniform k' m = uniform' k' m /\ normal k' m = normal' k' m) ->
  conv_pf exp log pi dt ell sigma nv split1 split_keys normal
    (fun w k => stratified ss_left w (uniform k (size w))) ys k n =
  conv_pf exp log pi dt ell sigma nv split1 split_keys normal'
    (fun w k => stratified ss_left w (uniform' k (size w))) ys k n.
Proof.
rewrite part_trE => h; rewrite /conv_pf /particle_filter /conv_init_sampler.
rewrite (h k n _).2; last by apply: boot_mem_init; rewrite mem_head.
set b := particle_body _ _ _ _ _ _ _; set b' := particle_body _ _ _ _ _ _ _.
rewrite (@scan_keys _ _ _ _ b b') // => s y k' /(boot_mem normal_trace) [h1 h2].
by rewrite /b /b' /particle_body /proposal_sampler (h _ _ h1).2 /gather (h _ _ h2).1.
Qed.
End Link.

(* The noise of the initial particles drives the first transition as well, when the first key of
   split(key, T) is the first key of split(key). *)
Section Reuse.
Variables (R : rcfType) (exp log : R -> R) (K : Type) (ss_left : seq R -> R -> nat).
Variables (split1 : K -> K) (split_keys : K -> nat -> seq K) (uniform normal : K -> nat -> seq R).
Hypothesis uniform_size : forall k m, size (uniform k m) = m.
Hypothesis normal_size : forall k m, size (normal k m) = m.
Variable tmc : R -> R * R.

Lemma bb_pf_reuse n y ys k ks : split_keys k (size ys).+1 = split1 k :: ks ->
  let cs := jax_choice ss_left uniform k n [:: 1 / 2%:R; 1 / 2%:R] in
  exists idx, nth [::] (bb_pf exp log ss_left split1 split_keys uniform normal tmc n (y :: ys) k) 0 =
    [seq jget 0 [seq (let x := jget 0 [:: - (1 / 2%:R); 1 / 2%:R] t.1 +
                              Num.sqrt (jget 0 [:: 1 / 20%:R; 1 / 20%:R] t.1) * t.2 in
                      (tmc x).1 + Num.sqrt (tmc x).2 * t.2)
                | t <- zip cs (normal (split1 k) n)] i | i <- idx].
Proof.
move=> hk cs; rewrite /bb_pf /bootstrap_filter [size _]/= hk [zip _ _]/=.
set B := bootstrap_body _ _ _ _ _; set X0 := wp_init_sampler _ _ _ _ _ _.
rewrite [scan _ _ _]/=; case: (scan B _ _) => s2 os; rewrite [nth _ _ _]/= {s2 os B}.
rewrite /discrete_resample /gather.
eexists; congr (map (jget 0 _) _).
have sX : size X0 = n.
  by rewrite /X0 /wp_init_sampler /gs_sampler size_map size_zip size_map uniform_size normal_size minnn.
rewrite /bb_proposal sX /X0 /wp_init_sampler /gs_sampler -/cs.
elim: cs (normal (split1 k) n) => [|c cs IH] [|z zs] //=.
by rewrite IH.
Qed.
End Reuse.
