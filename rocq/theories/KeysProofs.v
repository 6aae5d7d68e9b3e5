(* Proofs about the use of random keys. *)
From mathcomp Require Import all_ssreflect.
From Verif Require Import KeysModel KeysSpec.
Set Implicit Arguments.
Unset Strict Implicit.
Unset Printing Implicit Defensive.

(* the key reached from k by a path of splits *)
Definition ext (k : key) (s : seq (nat * nat)) : key := (k.1, k.2 ++ s).

Lemma ext_nil k : ext k [::] = k.
Proof. by case: k => a p; rewrite /ext cats0. Qed.

Lemma ext_cat k s t : ext (ext k s) t = ext k (s ++ t).
Proof. by rewrite /ext /= catA. Qed.

Lemma child_ext k n i : child k n i = ext k [:: (n, i)].
Proof. by rewrite /child /ext cats1. Qed.

Lemma child_extE k s n i : child (ext k s) n i = ext k (rcons s (n, i)).
Proof. by rewrite child_ext ext_cat cats1. Qed.

Lemma ext_inj k : injective (ext k).
Proof. by move=> s t [] /eqP; rewrite eqseq_cat // eqxx => /eqP. Qed.

Lemma draws_cat es fs : draws (es ++ fs) = draws es ++ draws fs.
Proof. by rewrite /draws map_cat flatten_cat. Qed.

Lemma uses_cat es fs : uses (es ++ fs) = uses es ++ uses fs.
Proof. exact: map_cat. Qed.

Lemma draws_flatten T (F : T -> seq event) l :
  draws (flatten [seq F x | x <- l]) = flatten [seq draws (F x) | x <- l].
Proof. by elim: l => //= x l IH; rewrite draws_cat IH. Qed.

(* pairs of lists *)
Lemma perm_pairs (T : eqType) (I : Type) (f g : I -> T) l :
  perm_eq (flatten [seq [:: f i; g i] | i <- l]) ([seq f i | i <- l] ++ [seq g i | i <- l]).
Proof.
elim: l => //= i l IH; rewrite perm_cons.
rewrite -[g i :: [seq g j | j <- l]]cat1s.
rewrite perm_sym perm_catCA perm_sym /= perm_cons.
exact: IH.
Qed.

(* ---- the filters ---- *)

Definition step_sufs (T : nat) : seq (seq (nat * nat)) :=
  flatten [seq [:: [:: (T, i)]; [:: (T, i); (2, 0)]] | i <- iota 0 T].
(* the draws of a filter, by their paths from the key of the filter *)
Definition pf_sufs (T : nat) := [::] :: step_sufs T.
Definition boot_sufs (T : nat) := [::] :: [:: (2, 0)] :: step_sufs T.

Lemma steps_draws T k :
  draws (flatten [seq normal_trace k' ++ Split k' 2 :: resample_trace (split1 k') | k' <- split_keys k T]) =
  [seq ext k s | s <- step_sufs T].
Proof.
rewrite draws_flatten /split_keys -map_comp /step_sufs map_flatten -map_comp.
congr flatten; apply: eq_map => i /=.
by rewrite /split1 child_ext child_extE /=.
Qed.

Lemma boot_draws T k :
  draws (bootstrap_trace normal_trace resample_trace gs_trace T k) = [seq ext k s | s <- boot_sufs T].
Proof.
rewrite /bootstrap_trace draws_cat -cat1s draws_cat steps_draws /=.
by rewrite ext_nil /split1 child_ext.
Qed.

Lemma boot1_draws T k :
  draws (bootstrap_trace normal_trace resample_trace normal_trace T k) = [seq ext k s | s <- pf_sufs T].
Proof. by rewrite /bootstrap_trace draws_cat -cat1s draws_cat steps_draws /= ext_nil. Qed.

Lemma pf_draws T k :
  draws (particle_trace normal_trace resample_trace normal_trace T k) = [seq ext k s | s <- pf_sufs T].
Proof. by rewrite /particle_trace draws_cat -cat1s draws_cat steps_draws /= ext_nil. Qed.

Lemma mem_step T s : s \in step_sufs T ->
  exists2 i, i < T & s = [:: (T, i)] \/ s = [:: (T, i); (2, 0)].
Proof.
rewrite /step_sufs (perm_mem (perm_pairs _ _ _)) mem_cat => /orP [] /mapP [i];
  rewrite mem_iota add0n => /= hi ->; exists i => //; by [left | right].
Qed.

Lemma uniq_step T : uniq (step_sufs T).
Proof.
rewrite (perm_uniq (perm_pairs _ _ _)) cat_uniq !map_inj_uniq ?iota_uniq ?andbT /=.
- by apply/hasPn => s /mapP [i _ ->]; apply/mapP => -[].
- by move=> i j [].
- by move=> i j [].
Qed.

Lemma uniq_pf T : uniq (pf_sufs T).
Proof. by rewrite /pf_sufs cons_uniq uniq_step andbT; apply/negP => /mem_step [i _ []]. Qed.

Lemma boot_in T : ([:: (2, 0)] \in step_sufs T) = (T == 2).
Proof.
apply/idP/eqP => [/mem_step [i _ [[->]|]] // | ->].
by rewrite /step_sufs /= !inE eqxx.
Qed.

Lemma uniq_boot T : uniq (boot_sufs T) = (T != 2).
Proof.
rewrite /boot_sufs !cons_uniq uniq_step andbT boot_in.
have -> : ([::] \notin [:: (2, 0)] :: step_sufs T).
  by rewrite inE negb_or /=; apply/negP => /mem_step [i _ []].
by [].
Qed.

(* ---- the scripts ---- *)
Definition bb_sufs T := [:: [:: (3, 0)]; [:: (3, 0); (2, 0)]; [:: (3, 1); (2, 0)]; [:: (3, 2)]]
  ++ [seq [:: (3, 2); (2, 0)] ++ s | s <- boot_sufs T].

Lemma draws_draw d k es : draws (Draw d k :: es) = k :: draws es.
Proof. by []. Qed.
Lemma draws_split k n es : draws (Split k n :: es) = draws es.
Proof. by []. Qed.
Definition drawsE := (draws_cat, draws_draw, draws_split).

Lemma ext_map k p L : [seq ext (ext k p) s | s <- L] = [seq ext k s | s <- [seq p ++ s | s <- L]].
Proof. by rewrite -map_comp; apply: eq_map => s /=; rewrite ext_cat. Qed.

Lemma bb_pf_draws T k : draws (bb_pf_trace T k) = [seq ext k s | s <- bb_sufs T].
Proof.
rewrite /bb_pf_trace; move: (boot_draws T (split1 (child k 3 2))).
move: (bootstrap_trace _ _ _ _ _) => b hb; rewrite !drawsE hb /bb_sufs map_cat.
by rewrite -ext_map /split1 !child_ext !ext_cat.
Qed.

Lemma wp_pf_draws T k : draws (wp_pf_trace T k) = [seq ext k s | s <- bb_sufs T].
Proof.
rewrite /wp_pf_trace; move: (boot_draws T (split1 (child k 3 2))).
move: (bootstrap_trace _ _ _ _ _) => b hb; rewrite !drawsE hb /bb_sufs map_cat.
by rewrite -ext_map /split1 !child_ext !ext_cat.
Qed.

Lemma uniq_bb T : uniq (bb_sufs T) = (T != 2).
Proof.
rewrite /bb_sufs cat_uniq map_inj_uniq ?uniq_boot; last by move=> s t [].
rewrite (_ : has _ _ = false) //; apply/hasPn => s /mapP [t _ ->].
by [].
Qed.

Definition conv_sufs T := [:: [:: (2, 0)]; [:: (2, 1)]] ++ [seq [:: (2, 1); (2, 0)] ++ s | s <- pf_sufs T].

Lemma conv_pf_draws T k : draws (conv_pf_trace T k) = [seq ext k s | s <- conv_sufs T].
Proof.
rewrite /conv_pf_trace; move: (pf_draws T (split1 (child k 2 1))).
move: (particle_trace _ _ _ _ _) => b hb; rewrite !drawsE hb /conv_sufs map_cat.
by rewrite -ext_map /split1 !child_ext !ext_cat.
Qed.

Lemma uniq_conv T : uniq (conv_sufs T).
Proof.
rewrite /conv_sufs cat_uniq map_inj_uniq ?uniq_pf; last by move=> s t [].
rewrite (_ : has _ _ = false) //; apply/hasPn => s /mapP [t _ ->].
by [].
Qed.

Definition sim_sufs : seq (seq (nat * nat)) := [:: [:: (3, 1)]; [:: (3, 0)]; [:: (3, 0); (2, 0)]; [:: (3, 2)]].
Fixpoint pp_sufs T n := sim_sufs ++ [seq (2, 0) :: s | s <- if n is n'.+1 then pp_sufs T n' else boot_sufs T].

Lemma iter_split1 n k : iter n split1 (split1 k) = iter n.+1 split1 k.
Proof. by rewrite -iterSr. Qed.

Lemma sim_draws k : draws (pp_simulate_trace k) = [seq ext k s | s <- sim_sufs].
Proof. by rewrite /pp_simulate_trace !drawsE /= /split1 !child_ext !ext_cat. Qed.

Lemma pp_mf0 k : pp_mf_trace 0 k = pp_simulate_trace k.
Proof. by []. Qed.
Lemma pp_mfS n k : pp_mf_trace n.+1 k = pp_simulate_trace k ++ Split k 2 :: pp_mf_trace n (split1 k).
Proof. by []. Qed.
Lemma pp_sufs0 T : pp_sufs T 0 = sim_sufs ++ [seq [:: (2, 0)] ++ s | s <- boot_sufs T].
Proof. by []. Qed.
Lemma pp_sufsS T n : pp_sufs T n.+1 = sim_sufs ++ [seq [:: (2, 0)] ++ s | s <- pp_sufs T n].
Proof. by []. Qed.

Lemma pp_pf_draws T n k : draws (pp_pf_trace T n k) = [seq ext k s | s <- pp_sufs T n].
Proof.
rewrite /pp_pf_trace; elim: n k => [|n IH] k.
  move: (boot_draws T (split1 (iter 0 split1 k))); move: (bootstrap_trace _ _ _ _ _) => b hb.
  rewrite pp_mf0 draws_cat draws_split sim_draws hb pp_sufs0 map_cat -ext_map.
  by rewrite /iter /split1 child_ext.
rewrite -iter_split1; move: (IH (split1 k)); move: (bootstrap_trace _ _ _ _ _) => b hb.
rewrite pp_mfS -catA cat_cons draws_cat draws_split sim_draws hb pp_sufsS map_cat -ext_map.
by rewrite /split1 child_ext.
Qed.

Lemma pp_mf_prefix T n k : exists t, pp_pf_trace T n k = pp_mf_trace n k ++ t.
Proof. by eexists. Qed.

Lemma uniq_pp T n : uniq (pp_sufs T n) = (T != 2).
Proof.
elim: n => [|n IH]; rewrite ?pp_sufs0 ?pp_sufsS cat_uniq map_inj_uniq ?uniq_boot ?IH //;
  try (by move=> s t []); rewrite (_ : has _ _ = false) //; apply/hasPn => s /mapP [t _ ->];
  by [].
Qed.

(* ---- different runs ---- *)
Lemma rng_keyE k : rng_key k = ext (prng_key 999) [:: (max_mcs, k)].
Proof. by rewrite /rng_key; move: max_mcs (prng_key 999) => m a; rewrite child_ext. Qed.

Lemma runs_disjoint k k' L L' : k != k' ->
  ~~ has (mem [seq ext (rng_key k) s | s <- L]) [seq ext (rng_key k') s | s <- L'].
Proof.
move=> hk; apply/hasPn => x /mapP [s _ ->]; apply/negP => /mapP [t _].
rewrite !rng_keyE !ext_cat; move: max_mcs (prng_key 999) => m a /ext_inj [e _].
by rewrite e eqxx in hk.
Qed.

(* ---- data and filter ---- *)
Lemma disjoint_pre k L p M : (forall s, p ++ s \notin L) ->
  forall k', k' \in [seq ext k s | s <- L] -> k' \notin [seq ext (ext k p) s | s <- M].
Proof.
move=> h k' /mapP [s hs ->]; apply/negP => /mapP [t _]; rewrite ext_cat => /ext_inj e.
by move: (h t); rewrite -e hs.
Qed.

Lemma iter_ext n k : iter n.+1 split1 k = ext k ((2, 0) :: nseq n (2, 0)).
Proof.
elim: n k => [|n IH] k; first by rewrite /iter /split1 child_ext.
by rewrite -iter_split1 IH {1}/split1 child_ext ext_cat.
Qed.

Lemma pp_not_seen T n k k' : k' \in draws (pp_mf_trace n k) ->
  k' \notin draws (bootstrap_trace normal_trace resample_trace gs_trace T (split1 (iter n split1 k))).
Proof.
rewrite boot_draws -iterS; elim: n k => [|n IH] k.
  by rewrite pp_mf0 sim_draws iter_ext; apply: disjoint_pre => s; rewrite !inE.
rewrite pp_mfS draws_cat draws_split mem_cat => /orP [|/IH]; last by rewrite iter_split1.
by rewrite sim_draws iter_ext; apply: disjoint_pre => s; rewrite !inE.
Qed.

Lemma data_not_seen (T n : nat) (k : key) :
  [/\ forall k', k' \in draws (bb_mf_trace k) ->
        k' \notin draws (bootstrap_trace normal_trace resample_trace gs_trace T (split1 (child k 3 2))),
      forall k', k' \in draws (conv_mf_trace k) ->
        k' \notin draws (particle_trace normal_trace resample_trace normal_trace T (split1 (child k 2 1)))
    & forall k', k' \in draws (pp_mf_trace n k) ->
        k' \notin draws (bootstrap_trace normal_trace resample_trace gs_trace T (split1 (iter n split1 k)))].
Proof.
split; last by move=> k'; exact: pp_not_seen.
- have -> : draws (bb_mf_trace k) = [seq ext k s | s <- [:: [:: (3, 0)]; [:: (3, 0); (2, 0)]; [:: (3, 1); (2, 0)]; [:: (3, 2)]]].
    by rewrite /bb_mf_trace !drawsE /= /split1 !child_ext !ext_cat.
  rewrite boot_draws /split1 !child_ext !ext_cat; apply: disjoint_pre => s; by rewrite !inE.
- have -> : draws (conv_mf_trace k) = [seq ext k s | s <- [:: [:: (2, 0)]; [:: (2, 1)]]].
    by rewrite /conv_mf_trace !drawsE /= !child_ext.
  rewrite pf_draws /split1 !child_ext !ext_cat; apply: disjoint_pre => s; by rewrite !inE.
Qed.

Lemma ext_eqk k p s : (k == ext k (p :: s)) = false.
Proof. by rewrite -{1}[k]ext_nil (inj_eq (@ext_inj k)). Qed.
