(* Model of mfs/classical_filters_smoothers/resampling.py and smc.py.

   Random numbers are arguments: u and us are the values of jax.random.uniform, which lie
   in [0, 1).  searchsorted is an argument specified on sorted arrays (ResampleSpec). *)
From mathcomp Require Import all_ssreflect all_algebra.
From Verif Require Import Prelude.
Set Implicit Arguments.
Unset Strict Implicit.
Unset Printing Implicit Defensive.
Import Order.TTheory GRing.Theory Num.Theory.
Local Open Scope ring_scope.

Section Resampling.
Variable R : rcfType.
Variable log : R -> R.
(* jnp.searchsorted with side='left' and side='right' *)
Variables (ss_left ss_right : seq R -> R -> nat).

(* lines 36-40, us of length n + 1 *)
Definition sorted_uniforms (us : seq R) : seq R :=
  let z := cumsum [seq - log u | u <- us] in
  [seq x / last 0 z | x <- take (size z).-1 z].

(* jnp.clip(idx, 0, n - 1) *)
Definition clip_index (n i : nat) : nat := minn i n.-1.

(* jnp.clip(jnp.searchsorted(jnp.cumsum(weights), vs), 0, n - 1), lines 49-51 and 64-66 *)
Definition search_indices (weights vs : seq R) : seq nat :=
  [seq clip_index (size weights) (ss_left (cumsum weights) v) | v <- vs].

(* lines 43-55 *)
Definition systematic (weights : seq R) (u : R) : seq nat :=
  let n := size weights in
  search_indices weights [seq (i%:R + u) / n%:R | i <- iota 0 n].

(* lines 43-51, 58-59; us of length n *)
Definition stratified (weights us : seq R) : seq nat :=
  let n := size weights in
  search_indices weights [seq (i%:R + nth 0 us i) / n%:R | i <- iota 0 n].

(* lines 62-66; us of length n + 1 *)
Definition multinomial (weights us : seq R) : seq nat :=
  search_indices weights (sorted_uniforms us).

(* lines 69-73: the array of the halves, padded by one zero, plus the array of the halves
   shifted by one *)
Definition avg_n_nplusone (x : seq R) : seq R :=
  let hx := [seq a / 2%:R | a <- x] in
  [seq p.1 + p.2 | p <- zip (rcons hx 0) (0 :: hx)].

(* jnp.argsort (stable) *)
Definition argsort (s : seq R) : seq nat :=
  sort (fun i j => nth 0 s i <= nth 0 s j) (iota 0 (size s)).

(* jnp.interp(x, xp, fp) as in jax.numpy: the interval is found by bisection and clipped, an
   interval of width at most eps gives its left value, and outside [xp[0], xp[-1]] the end
   values are returned.  An index -1 is the last one. *)
Variable eps : R.
Definition interp (xp fp : seq R) (x : R) : R :=
  let n := size xp in
  let i := minn (maxn (ss_right xp x) 1) n.-1 in
  let i1 := if i is j.+1 then j else n.-1 in
  let df := nth 0 fp i - nth 0 fp i1 in
  let dx := nth 0 xp i - nth 0 xp i1 in
  let delta := x - nth 0 xp i1 in
  let f := if `|dx| <= eps then nth 0 fp i1 else nth 0 fp i1 + delta / dx * df in
  let f := if x < nth 0 xp 0 then nth 0 fp 0 else f in
  if nth 0 xp n.-1 < x then nth 0 fp n.-1 else f.

(* lines 76-110; us of length nsamples *)
Definition continuous_resampling (samples weights : seq R) (nsamples : nat) (us : seq R) : seq R :=
  let idx := argsort samples in
  let xs := [seq nth 0 samples i | i <- idx] in
  let ws := [seq nth 0 weights i | i <- idx] in
  let cs := cumsum (avg_n_nplusone ws) in
  let cs := take (size cs).-1 cs in
  [seq interp cs xs z | z <- [seq (nth 0 us i + i%:R) / nsamples%:R | i <- iota 0 nsamples]].
End Resampling.

(* ---- smc.py ---- *)
Section Smc.
Variables (R : rcfType) (log : R -> R).
Variables (X Y K : Type) (x0 : X).
Variable split1 : K -> K.                 (* jax.random.split(key)[0] *)
Variable split_keys : K -> nat -> seq K.  (* jax.random.split(key, num) *)

(* samples[idx, ...] *)
Definition gather (samples : seq X) (idx : seq nat) : seq X := [seq jget x0 samples i | i <- idx].

(* jnp.mean *)
Definition jmean (w : seq R) : R := jsum w / (size w)%:R.

(* ---- bootstrap_filter, lines 26-84; resample samples weights key stands for both
   branches of lines 73-76, see discrete_resample and continuous_resample. ---- *)
Section Bootstrap.
Variables (transition_sampler : seq X -> K -> seq X) (measurement_cond_pdf : Y -> seq X -> seq R).
Variable resample : seq X -> seq R -> K -> seq X.

(* lines 62-78 *)
Definition bootstrap_body (carry : seq X * R) (elem : Y * K) : (seq X * R) * seq X :=
  let (samples, nell) := carry in
  let (y, key) := elem in
  let samples := transition_sampler samples key in
  let weights := measurement_cond_pdf y samples in
  let nell := nell - log (jmean weights) in
  let weights := [seq w / jsum weights | w <- weights] in
  let key := split1 key in
  let samples := resample samples weights key in
  ((samples, nell), samples).

(* lines 80-84 *)
Definition bootstrap_filter (ys : seq Y) (init_sampler : K -> nat -> seq X) (key : K) (nsamples : nat)
  : seq (seq X) * R :=
  let init_samples := init_sampler key nsamples in
  let keys := split_keys key (size ys) in
  let (carry, solution) := scan bootstrap_body (init_samples, 0) (zip ys keys) in
  (solution, carry.2).
End Bootstrap.

(* line 76 *)
Definition discrete_resample (resampling : seq R -> K -> seq nat) samples weights key : seq X :=
  gather samples (resampling weights key).

(* ---- particle_filter, lines 87-141 ---- *)
Section Particle.
Variables (proposal_sampler : seq X -> Y -> K -> seq X).
Variables (proposal_density : seq X -> seq X -> Y -> seq R) (transition_density : seq X -> seq X -> seq R).
Variables (measurement_cond_pdf : Y -> seq X -> seq R) (resampling : seq R -> K -> seq nat).

(* lines 126-137 *)
Definition particle_body (ancestors : seq X) (elem : Y * K) : seq X * seq X :=
  let (y, key) := elem in
  let samples := proposal_sampler ancestors y key in
  let weights := [seq t.1.1 * t.1.2 / t.2 | t <- zip (zip (measurement_cond_pdf y samples)
                   (transition_density samples ancestors)) (proposal_density samples ancestors y)] in
  let weights := [seq w / jsum weights | w <- weights] in
  let key := split1 key in
  let samples := gather samples (resampling weights key) in
  (samples, samples).

(* lines 139-141 *)
Definition particle_filter (ys : seq Y) (init_sampler : K -> nat -> seq X) (key : K) (nsamples : nat)
  : seq (seq X) :=
  let init_samples := init_sampler key nsamples in
  let keys := split_keys key (size ys) in
  (scan particle_body init_samples (zip ys keys)).2.
End Particle.
End Smc.

(* lines 73-74: the branch conti_resampling=True of bootstrap_filter, for states on the line *)
Definition continuous_resample (R : rcfType) (ss_right : seq R -> R -> nat) (eps : R) (K : Type)
    (uniform : K -> nat -> seq R) (nsamples : nat) (samples weights : seq R) (key : K) : seq R :=
  continuous_resampling ss_right eps samples weights nsamples (uniform key nsamples).
