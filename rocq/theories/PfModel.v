(* Model of the samplers of mfs/utils.py and of the particle-filter scripts of dardel/
   (parameter_estimation/pf.py, benes_bernoulli/pf.py, prey_predator/pf.py).

   Keys are an arbitrary type; uniform, normal and normal_nd stand for jax.random.uniform and
   jax.random.normal, split1 for jax.random.split(key)[0]. *)
From mathcomp Require Import all_ssreflect all_algebra.
From Verif Require Import Prelude Moments1DModel MomentsNdModel SsModel ResampleModel SigmaModel DardelModel.
Set Implicit Arguments.
Unset Strict Implicit.
Unset Printing Implicit Defensive.
Import Order.TTheory GRing.Theory Num.Theory.
Local Open Scope ring_scope.

Section Samplers.
Variables (R : rcfType) (K : Type).
Variable ss_left : seq R -> R -> nat.
Variables (split1 : K -> K) (uniform normal : K -> nat -> seq R).

(* jax.random.choice(key, len(p), (n,), p=p), as in jax: p_cuml = cumsum(p),
   r = p_cuml[-1] * (1 - uniform(key, (n,))), searchsorted(p_cuml, r) *)
Definition jax_choice (key : K) (n : nat) (p : seq R) : seq nat :=
  let p_cuml := cumsum p in
  [seq ss_left p_cuml (last 0 p_cuml * (1 - u)) | u <- uniform key n].

(* mfs/utils.py, lines 55-58: GaussianSum1D.sampler *)
Definition gs_sampler (means variances weights : seq R) (key : K) (n : nat) : seq R :=
  let cs := jax_choice key n weights in
  let key := split1 key in
  [seq jget 0 means t.1 + Num.sqrt (jget 0 variances t.1) * t.2 | t <- zip cs (normal key n)].

(* mfs/utils.py, lines 101-105: GaussianSumND.sampler *)
Section Nd.
Variable d : nat.
Variable chol : forall n, 'M[R]_n -> 'M[R]_n.
Variable normal_nd : K -> nat -> seq 'cV[R]_d.
Definition gs_nd_sampler (means : seq 'cV[R]_d) (covs : seq 'M[R]_d) (weights : seq R) (key : K) (n : nat)
  : seq 'cV[R]_d :=
  let cs := jax_choice key n weights in
  let key := split1 key in
  [seq jget 0 means t.1 + chol (jget 0 covs t.1) *m t.2 | t <- zip cs (normal_nd key n)].
End Nd.
End Samplers.

(* ---- dardel/parameter_estimation/pf.py ---- *)
Section WpPf.
Variables (R : rcfType) (exp log : R -> R) (K : Type).
Variables (ss_left ss_right : seq R -> R -> nat) (eps : R).
Variables (split1 : K -> K) (split_keys : K -> nat -> seq K) (uniform normal : K -> nat -> seq R).

(* lines 49-51 (args.euler) *)
Definition wp_pf_euler (p1 : R) (x dt : R) : R * R :=
  (x + wp_drift x p1 * dt, ss_dispersion x ^+ 2 * dt).

(* lines 56-58; the draws have shape (nparticles,) *)
Definition wp_pf_proposal (state_cond_m_cov : R -> R -> R * R) (nparticles : nat) (xs : seq R) (key : K) : seq R :=
  [seq t.1.1 + Num.sqrt t.1.2 * t.2
  | t <- zip [seq state_cond_m_cov x (ss_dt R) | x <- xs] (normal key nparticles)].

(* init_cond.sampler of well_poisson, one_dim/ss_models.py lines 66-69 *)
Definition wp_init_sampler : K -> nat -> seq R :=
  gs_sampler ss_left split1 uniform normal [:: - (1 / 2%:R); 1 / 2%:R] [:: 1 / 20%:R; 1 / 20%:R]
    [:: 1 / 2%:R; 1 / 2%:R].

(* lines 39-67: the objective; state_cond_m_cov is wp_pf_euler (args.euler) or tme.mean_and_cov of order 2
   (lines 53-54), both depending on the first parameter; cr is args.cr *)
Definition wp_pf_objective (state_cond_m_cov : R -> R -> R -> R * R) (cr : bool) (nparticles : nat)
    (params : R * R) (ys : seq nat) (key : K) : R :=
  let p1 := positive_params exp log params.1 in
  let p2 := positive_params exp log params.2 in
  let pmf y (xs : seq R) := [seq wp_pmf exp log y x p2 | x <- xs] in
  let resample := if cr then continuous_resample ss_right eps uniform nparticles
    else discrete_resample 0 (fun w k => stratified ss_left w (uniform k (size w))) in
  (bootstrap_filter log split1 split_keys (wp_pf_proposal (state_cond_m_cov p1) nparticles) pmf resample
     ys wp_init_sampler key nparticles).2.
End WpPf.

(* ---- dardel/benes_bernoulli/pf.py, lines 33-47; the outputs of the filter are the particles ---- *)
Section BbPf.
Variables (R : rcfType) (exp log : R -> R) (K : Type) (ss_left : seq R -> R -> nat).
Variables (split1 : K -> K) (split_keys : K -> nat -> seq K) (uniform normal : K -> nat -> seq R).
Definition bb_pf (tme_mean_and_cov : R -> R * R) (nparticles : nat) (ys : seq int) (key : K) : seq (seq R) :=
  (bootstrap_filter log split1 split_keys (bb_proposal normal tme_mean_and_cov)
     (fun y xs => [seq bb_pmf exp y x | x <- xs])
     (discrete_resample 0 (fun w k => stratified ss_left w (uniform k (size w))))
     ys (wp_init_sampler ss_left split1 uniform normal) key nparticles).1.
End BbPf.

(* ---- dardel/prey_predator/pf.py ---- *)
Section PpPf.
Variables (R : rcfType) (exp log : R -> R) (K : Type) (ss_left : seq R -> R -> nat).
Variables (split1 : K -> K) (split_keys : K -> nat -> seq K) (uniform : K -> nat -> seq R).
Variable normal_nd : K -> nat -> seq 'cV[R]_2.
Variable chol : forall n, 'M[R]_n -> 'M[R]_n.
(* lines 46-48 *)
Definition pp_pf_proposal (state_cond_m_cov : 'cV[R]_2 -> R -> 'cV[R]_2 * 'M[R]_2) (nparticles : nat)
    (xs : seq 'cV[R]_2) (key : K) : seq 'cV[R]_2 :=
  [seq t.1.1 + chol t.1.2 *m t.2
  | t <- zip [seq state_cond_m_cov x (pp_dt R) | x <- xs] (normal_nd key nparticles)].
(* lines 51-54 *)
Definition pp_pf (state_cond_m_cov : 'cV[R]_2 -> R -> 'cV[R]_2 * 'M[R]_2) (nparticles : nat)
    (ys : seq int) (key : K) : seq (seq 'cV[R]_2) :=
  (bootstrap_filter log split1 split_keys (pp_pf_proposal state_cond_m_cov nparticles)
     (fun y xs => [seq pp_pmf exp y x | x <- xs])
     (discrete_resample 0 (fun w k => stratified ss_left w (uniform k (size w))))
     ys (gs_nd_sampler ss_left split1 uniform chol normal_nd [:: const_mx 1; const_mx 1]
           [:: (1 / 1000%:R)%:M; (2%:R / 1000%:R)%:M] [:: 1 / 2%:R; 1 / 2%:R]) key nparticles).1.
(* line 78: one entry of the errors, np.abs(xs - np.mean(samples, axis=1)) *)
Definition pp_pf_errs (xs : seq 'cV[R]_2) (samples : seq (seq 'cV[R]_2)) : seq 'cV[R]_2 :=
  [seq (\col_i `|t.1 i 0 - (\sum_(s <- t.2) (s : 'cV[R]_2) i 0) / (size t.2)%:R|)
  | t : 'cV[R]_2 * seq 'cV[R]_2 <- zip xs samples].
End PpPf.
