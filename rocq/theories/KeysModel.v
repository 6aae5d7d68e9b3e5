(* Model of the use of jax's random keys in mfs/utils.py, mfs/classical_filters_smoothers/ and
   the scripts of dardel/.

   A key is symbolic: a seed and the path of splits that leads to it, one pair (number of
   children asked for, position) per split. Two keys are equal when they are made in the same
   way; that different ways give different bits is a matter of the hash behind jax.random
   and is not modelled. A trace lists, in program order, the draws and the splits. *)
From mathcomp Require Import all_ssreflect.
Set Implicit Arguments.
Unset Strict Implicit.
Unset Printing Implicit Defensive.

Definition key : eqType := [eqType of nat * seq (nat * nat)].

(* jax.random.PRNGKey(seed) *)
Definition prng_key (seed : nat) : key := (seed, [::]).
(* jax.random.split(k, num)[i] *)
Definition child (k : key) (num i : nat) : key := (k.1, rcons k.2 (num, i)).
(* jax.random.split(k, num) *)
Definition split_keys (k : key) (num : nat) : seq key := [seq child k num i | i <- iota 0 num].
(* key, _ = jax.random.split(key) *)
Definition split1 (k : key) : key := child k 2 0.

Inductive dist := Uniform | Normal | Choice | Bernoulli | Poisson.
Inductive event := Draw of dist & key | Split of key & nat.

(* utils.py 55-58 and 101-105: the samplers of GaussianSum1D and GaussianSumND *)
Definition gs_trace (k : key) : seq event :=
  [:: Draw Choice k; Split k 2; Draw Normal (split1 k)].
(* utils.py 226-227: simulate_sde *)
Definition sde_trace (k : key) : seq event := [:: Split k 2; Draw Normal (split1 k)].
(* resampling.py 36-66 and 109: each of the resampling functions makes one draw *)
Definition resample_trace (k : key) : seq event := [:: Draw Uniform k].
(* the proposals and transitions of the scripts: benes_bernoulli/pf.py 37-39,
   parameter_estimation/pf.py 56-58, prey_predator/pf.py 45-47, convergence_pf.py 81-86; the
   initial sampler of convergence_pf.py 99-100 *)
Definition normal_trace (k : key) : seq event := [:: Draw Normal k].

(* smc.py 62-84, bootstrap_filter; T is the number of measurements *)
Definition bootstrap_trace (transition resample init : key -> seq event) (T : nat) (k : key) : seq event :=
  init k ++ Split k T ::
  flatten [seq transition k' ++ Split k' 2 :: resample (split1 k') | k' <- split_keys k T].
(* smc.py 126-141, particle_filter *)
Definition particle_trace (proposal resample init : key -> seq event) (T : nat) (k : key) : seq event :=
  init k ++ Split k T ::
  flatten [seq proposal k' ++ Split k' 2 :: resample (split1 k') | k' <- split_keys k T].

(* generate_rng_key.py 7-12: the rows of rng_keys.npy *)
Definition max_mcs : nat := 1000000.
Definition rng_key (k : nat) : key := child (prng_key 999) max_mcs k.

(* ---- benes_bernoulli ---- *)
(* mf.py 74-80 *)
Definition bb_mf_trace (k : key) : seq event :=
  Split k 3 :: gs_trace (child k 3 0) ++ sde_trace (child k 3 1) ++ [:: Draw Bernoulli (child k 3 2)].
(* ghf.py 60-66 *)
Definition bb_ghf_trace (k : key) : seq event :=
  Split k 3 :: gs_trace (child k 3 0) ++ sde_trace (child k 3 1) ++ [:: Draw Bernoulli (child k 3 2)].
(* brute_force.py 58-64 *)
Definition bb_bf_trace (k : key) : seq event :=
  Split k 3 :: gs_trace (child k 3 0) ++ sde_trace (child k 3 1) ++ [:: Draw Bernoulli (child k 3 2)].
(* pf.py 52-62; T = 100 (one_dim/ss_models.py 29) *)
Definition bb_pf_trace (T : nat) (k : key) : seq event :=
  Split k 3 :: gs_trace (child k 3 0) ++ sde_trace (child k 3 1) ++ Draw Bernoulli (child k 3 2)
  :: Split (child k 3 2) 2
  :: bootstrap_trace normal_trace resample_trace gs_trace T (split1 (child k 3 2)).

(* ---- parameter_estimation ---- *)
(* mf.py 61-67 *)
Definition wp_mf_trace (k : key) : seq event :=
  Split k 3 :: gs_trace (child k 3 0) ++ sde_trace (child k 3 1) ++ [:: Draw Poisson (child k 3 2)].
(* ghf_ekf.py 82-88 *)
Definition wp_ghf_trace (k : key) : seq event :=
  Split k 3 :: gs_trace (child k 3 0) ++ sde_trace (child k 3 1) ++ [:: Draw Poisson (child k 3 2)].
(* pf.py 73-85, one evaluation of the objective; T = 1000 (one_dim/ss_models.py 63) *)
Definition wp_pf_trace (T : nat) (k : key) : seq event :=
  Split k 3 :: Split (child k 3 2) 2
  :: gs_trace (child k 3 0) ++ sde_trace (child k 3 1) ++ Draw Poisson (child k 3 2)
  :: bootstrap_trace normal_trace resample_trace gs_trace T (split1 (child k 3 2)).

(* ---- convergence ---- *)
(* convergence_mf.py 143-148 *)
Definition conv_mf_trace (k : key) : seq event :=
  [:: Split k 2; Draw Normal (child k 2 0); Draw Normal (child k 2 1)].
(* convergence_pf.py 115-129 *)
Definition conv_pf_trace (T : nat) (k : key) : seq event :=
  [:: Split k 2; Draw Normal (child k 2 0); Draw Normal (child k 2 1); Split (child k 2 1) 2]
  ++ particle_trace normal_trace resample_trace normal_trace T (split1 (child k 2 1)).

(* ---- prey_predator ---- *)
(* multi_dims/ss_models.py 71-93: simulate *)
Definition pp_simulate_trace (k : key) : seq event :=
  Split k 3 :: Draw Normal (child k 3 1) :: gs_trace (child k 3 0) ++ [:: Draw Bernoulli (child k 3 2)].
(* mf.py 75-79, ghf_ekf.py 71-75, pf.py 64-68: the retry loop, n data sets with NaN *)
Fixpoint pp_mf_trace (n : nat) (k : key) : seq event :=
  pp_simulate_trace k ++ if n is n'.+1 then Split k 2 :: pp_mf_trace n' (split1 k) else [::].
(* pf.py 64-74; T = 2000 (multi_dims/ss_models.py 42) *)
Definition pp_pf_trace (T n : nat) (k : key) : seq event :=
  pp_mf_trace n k ++ Split (iter n split1 k) 2
  :: bootstrap_trace normal_trace resample_trace gs_trace T (split1 (iter n split1 k)).
