(* Properties of the resampling schemes and particle filters. *)
From mathcomp Require Import all_ssreflect all_algebra.
From mathcomp Require Import zify ring.
From Verif Require Import Prelude ResampleModel ResampleSpec ResampleProofs ResampleConti SmcProofs ResampleRefs.
Set Implicit Arguments.
Unset Strict Implicit.
Unset Printing Implicit Defensive.
Import Order.TTheory GRing.Theory Num.Theory.
Local Open Scope ring_scope.

(* C48: systematic resampling. *)
Theorem systematic_resampling (R : rcfType) (ss : seq R -> R -> nat) (w : seq R) (u : R) :
  ss_left_spec ss -> weight_vector w -> 0 < u < 1 ->
  [/\ size (systematic ss w u) = size w, sorted leq (systematic ss w u),
      forall i, (i < size w)%N -> inverse_cdf w ((i%:R + u) / (size w)%:R) (nth 0%N (systematic ss w u) i),
      forall j, j \in systematic ss w u -> (j < size w)%N /\ 0 < nth 0 w j
    & forall j, (j < size w)%N -> `|(count_mem j (systematic ss w u))%:R - (size w)%:R * nth 0 w j| < 1].
Proof. by move=> h1 h2 h3; apply: systematic_valid. Qed.
Print Assumptions systematic_resampling.

(* C48, C49: whatever the weights, the draws, the logarithm and the search return, every index is in
   range, and a search that ends past the last particle selects the last one. *)
Theorem resampling_in_range (R : rcfType) (log : R -> R) (ss : seq R -> R -> nat) (w us : seq R) (u : R) :
  (0 < size w)%N ->
  [/\ all (fun j => (j < size w)%N) (systematic ss w u),
      all (fun j => (j < size w)%N) (stratified ss w us),
      all (fun j => (j < size w)%N) (multinomial log ss w us)
    & (forall v, (size w <= ss (cumsum w) v)%N) ->
      all (fun j => j == (size w).-1) (systematic ss w u)].
Proof.
move=> hw; have h vs : all (fun j => (j < size w)%N) (search_indices ss w vs).
  by apply/allP => j /mapP [v _ ->]; rewrite /clip_index; lia.
split; try exact: h.
by move=> hs; apply/allP => j /mapP [v _ ->]; have := hs v; rewrite /clip_index => hv; apply/eqP; lia.
Qed.
Print Assumptions resampling_in_range.

(* With equal weights systematic and stratified resampling keep every particle. *)
Theorem equal_weights_identity (R : rcfType) (ss : seq R -> R -> nat) (n : nat) :
  ss_left_spec ss -> (0 < n)%N ->
  (forall u, 0 < u < 1 -> systematic ss (nseq n (n%:R^-1)) u = iota 0 n) /\
  (forall us, size us = n -> all (fun u => 0 < u < 1) us ->
     stratified ss (nseq n (n%:R^-1)) us = iota 0 n).
Proof. by move=> h hn; split=> u; [apply: systematic_equal|apply: stratified_equal]. Qed.
Print Assumptions equal_weights_identity.

(* C69: with a draw of exactly zero, which jax.random.uniform may return, a particle of zero
   weight is selected. *)
Theorem systematic_zero_weight_refuted (R : rcfType) (ss : seq R -> R -> nat) : ss_left_spec ss ->
  exists w u, [/\ weight_vector w, 0 <= u < 1 & exists2 j, j \in systematic ss w u & nth 0 w j = 0].
Proof. exact: zero_draw. Qed.
Print Assumptions systematic_zero_weight_refuted.

(* C49: stratified resampling. *)
Theorem stratified_resampling (R : rcfType) (ss : seq R -> R -> nat) (w us : seq R) :
  ss_left_spec ss -> weight_vector w -> size us = size w -> all (fun u => 0 < u < 1) us ->
  [/\ size (stratified ss w us) = size w, sorted leq (stratified ss w us),
      forall i, (i < size w)%N ->
        inverse_cdf w ((i%:R + nth 0 us i) / (size w)%:R) (nth 0%N (stratified ss w us) i),
      forall j, j \in stratified ss w us -> (j < size w)%N /\ 0 < nth 0 w j
    & forall j, (j < size w)%N -> `|(count_mem j (stratified ss w us))%:R - (size w)%:R * nth 0 w j| < 2%:R].
Proof. by move=> h1 h2 h3 h4; apply: stratified_valid. Qed.
Print Assumptions stratified_resampling.

(* C49: multinomial resampling and the sorted uniforms. *)
Theorem multinomial_resampling (R : rcfType) (log : R -> R) (ss : seq R -> R -> nat) (w us : seq R) :
  (forall u, 0 < u < 1 -> log u < 0) ->
  ss_left_spec ss -> weight_vector w -> size us = (size w).+1 -> all (fun u => 0 < u < 1) us ->
  [/\ size (multinomial log ss w us) = size w, sorted leq (multinomial log ss w us),
      forall i, (i < size w)%N ->
        inverse_cdf w (nth 0 (sorted_uniforms log us) i) (nth 0%N (multinomial log ss w us) i)
    & forall j, j \in multinomial log ss w us -> (j < size w)%N /\ 0 < nth 0 w j].
Proof. by move=> hl hs hw; apply: multinomial_valid. Qed.
Print Assumptions multinomial_resampling.

Theorem sorted_uniforms_increasing (R : rcfType) (log : R -> R) (us : seq R) :
  (forall u, 0 < u < 1 -> log u < 0) -> (1 < size us)%N -> all (fun u => 0 < u < 1) us ->
  [/\ size (sorted_uniforms log us) = (size us).-1, sorted <%R (sorted_uniforms log us)
    & all (fun v => 0 < v < 1) (sorted_uniforms log us)].
Proof. by move=> hl; apply: sorted_uniforms_valid. Qed.
Print Assumptions sorted_uniforms_increasing.

(* Every scheme is valid in the sense used by the particle filters. *)
Theorem schemes_valid (R : rcfType) (log : R -> R) (ss : seq R -> R -> nat) (K : Type)
    (unif1 : K -> R) (unif : K -> nat -> seq R) :
  ss_left_spec ss -> (forall u, 0 < u < 1 -> log u < 0) ->
  (forall k, 0 < unif1 k < 1) -> (forall k n, size (unif k n) = n) ->
  (forall k n, all (fun u => 0 < u < 1) (unif k n)) ->
  [/\ valid_resampling (fun w k => systematic ss w (unif1 k)),
      valid_resampling (fun w k => stratified ss w (unif k (size w)))
    & valid_resampling (fun w k => multinomial log ss w (unif k (size w).+1))].
Proof. exact: all_valid. Qed.
Print Assumptions schemes_valid.

(* C50: continuous resampling. *)
Theorem continuous_resampling_monotone (R : rcfType) (ss : seq R -> R -> nat) (eps : R)
    (samples weights : seq R) (m : nat) (us : seq R) :
  ss_right_spec ss -> 0 <= eps ->
  (0 < size samples)%N -> size weights = size samples -> all (fun x => 0 <= x) weights ->
  size us = m -> all (fun u => 0 <= u < 1) us ->
  let out := continuous_resampling ss eps samples weights m us in
  [/\ size out = m, sorted <=%R out
    & forall y, y \in out -> exists a b, [/\ a \in samples, b \in samples & a <= y <= b]].
Proof. exact: conti_all. Qed.
Print Assumptions continuous_resampling_monotone.

(* The values are those of the piecewise linear quantile function of the weighted sample. *)
Theorem continuous_resampling_quantile (R : rcfType) (ss : seq R -> R -> nat) (eps : R)
    (samples weights : seq R) (m : nat) (us : seq R) (i : nat) :
  ss_right_spec ss -> 0 <= eps ->
  (0 < size samples)%N -> size weights = size samples -> all (fun x => 0 <= x) weights ->
  uniq samples -> (i < m)%N ->
  quantile eps samples weights ((nth 0 us i + i%:R) / m%:R)
    (nth 0 (continuous_resampling ss eps samples weights m us) i).
Proof. exact: conti_quantile_all. Qed.
Print Assumptions continuous_resampling_quantile.

(* The order in which the particles are stored does not matter. *)
Theorem continuous_resampling_exchangeable (R : rcfType) (ss : seq R -> R -> nat) (eps : R)
    (samples weights samples' weights' : seq R) (m : nat) (us : seq R) :
  size weights = size samples -> size weights' = size samples' -> uniq samples ->
  perm_eq (zip samples weights) (zip samples' weights') ->
  continuous_resampling ss eps samples weights m us = continuous_resampling ss eps samples' weights' m us.
Proof. exact: conti_perm. Qed.
Print Assumptions continuous_resampling_exchangeable.

(* C51: the bootstrap filter. *)
Theorem bootstrap_filter_sound (R : rcfType) (log : R -> R) (X Y K : Type) (x0 : X) (y0 : Y) (k0 : K)
    (split1 : K -> K) (split_keys : K -> nat -> seq K)
    (transition_sampler : seq X -> K -> seq X) (pdf : Y -> seq X -> seq R)
    (resampling : seq R -> K -> seq nat) (init_sampler : K -> nat -> seq X)
    (ys : seq Y) (key : K) (n : nat) :
  (forall k m, size (split_keys k m) = m) -> (forall k m, size (init_sampler k m) = m) ->
  (forall s k, size (transition_sampler s k) = size s) -> (forall y s, size (pdf y s) = size s) ->
  (forall y s, all (fun x => 0 <= x) (pdf y s)) -> valid_resampling resampling ->
  let T := size ys in
  let keys := split_keys key T in
  let r := bootstrap_filter log split1 split_keys transition_sampler pdf
             (discrete_resample x0 resampling) ys init_sampler key n in
  let sol := r.1 in
  let prev t := if t is t'.+1 then nth [::] sol t' else init_sampler key n in
  let prop t := transition_sampler (prev t) (nth k0 keys t) in
  let lik t := pdf (nth y0 ys t) (prop t) in
  (forall t, (t < T)%N -> 0 < \sum_(x <- lik t) x) ->
  [/\ size sol = T,
      forall t, (t < T)%N -> exists idx,
        [/\ idx = resampling [seq x / \sum_(v <- lik t) v | x <- lik t] (split1 (nth k0 keys t)),
            nth [::] sol t = [seq nth x0 (prop t) j | j <- idx], size idx = n,
            forall j, j \in idx -> (j < n)%N & forall j, j \in idx -> 0 < nth 0 (lik t) j]
    & r.2 = - \sum_(0 <= t < T) log ((\sum_(x <- lik t) x) / n%:R)].
Proof. by move=> h1 h2 h3 h4 h5 hv T keys r sol prev prop lik; apply: bootstrap_valid. Qed.
Print Assumptions bootstrap_filter_sound.

(* ... with continuous resampling *)
Theorem bootstrap_filter_continuous (R : rcfType) (log : R -> R) (Y K : Type) (y0 : Y) (k0 : K)
    (split1 : K -> K) (split_keys : K -> nat -> seq K)
    (transition_sampler : seq R -> K -> seq R) (pdf : Y -> seq R -> seq R)
    (ss : seq R -> R -> nat) (eps : R) (uniform : K -> nat -> seq R) (init_sampler : K -> nat -> seq R)
    (ys : seq Y) (key : K) (n : nat) :
  (forall k m, size (split_keys k m) = m) -> ss_right_spec ss -> 0 <= eps ->
  (forall k m, size (uniform k m) = m) -> (forall k m, all (fun u => 0 <= u < 1) (uniform k m)) ->
  (forall k m, size (init_sampler k m) = m) ->
  (forall s k, size (transition_sampler s k) = size s) -> (forall y s, size (pdf y s) = size s) ->
  (forall y s, all (fun x => 0 <= x) (pdf y s)) -> (0 < n)%N ->
  let T := size ys in
  let keys := split_keys key T in
  let r := bootstrap_filter log split1 split_keys transition_sampler pdf
     (continuous_resample ss eps uniform n) ys init_sampler key n in
  let sol := r.1 in
  let prev t := if t is t'.+1 then nth [::] sol t' else init_sampler key n in
  let prop t := transition_sampler (prev t) (nth k0 keys t) in
  let lik t := pdf (nth y0 ys t) (prop t) in
  (forall t, (t < T)%N -> 0 < \sum_(x <- lik t) x) ->
  [/\ size sol = T,
      forall t, (t < T)%N -> size (nth [::] sol t) = n /\ sorted <=%R (nth [::] sol t),
      forall t y, (t < T)%N -> y \in nth [::] sol t ->
        exists a b, [/\ a \in prop t, b \in prop t & a <= y <= b]
    & r.2 = - \sum_(0 <= t < T) log ((\sum_(x <- lik t) x) / n%:R)].
Proof. by move=> h1 h2 h3 h4 h5 h6 h7 h8 h9 hn T keys r sol prev prop lik; apply: bootstrap_conti. Qed.
Print Assumptions bootstrap_filter_continuous.

(* With systematic resampling the offspring of particle j number n lik_j / sum lik up to one. *)
Theorem bootstrap_offspring (R : rcfType) (ss : seq R -> R -> nat) (lik : seq R) (u : R) (j : nat) :
  ss_left_spec ss -> all (fun x => 0 <= x) lik -> 0 < \sum_(x <- lik) x -> 0 < u < 1 -> (j < size lik)%N ->
  `|(count_mem j (systematic ss [seq x / \sum_(v <- lik) v | x <- lik] u))%:R - (size lik)%:R * nth 0 lik j / \sum_(v <- lik) v| < 1.
Proof. exact: offspring. Qed.
Print Assumptions bootstrap_offspring.

(* Multiplying the likelihood by positive constants changes no particle and shifts the negative
   log-likelihood. *)
Theorem bootstrap_likelihood_scale (R : rcfType) (log : R -> R) (X Y K : Type) (y0 : Y) (k0 : K)
    (split1 : K -> K) (split_keys : K -> nat -> seq K)
    (transition_sampler : seq X -> K -> seq X) (pdf : Y -> seq X -> seq R)
    (resample : seq X -> seq R -> K -> seq X) (init_sampler : K -> nat -> seq X) (c : Y -> R)
    (ys : seq Y) (key : K) (n : nat) :
  (forall k m, size (split_keys k m) = m) -> (forall y, 0 < c y) ->
  (forall a b, 0 < a -> 0 < b -> log (a * b) = log a + log b) ->
  let T := size ys in
  let keys := split_keys key T in
  let run f := bootstrap_filter log split1 split_keys transition_sampler f resample ys init_sampler key n in
  let r := run pdf in
  let prev t := if t is t'.+1 then nth [::] r.1 t' else init_sampler key n in
  let lik t := pdf (nth y0 ys t) (transition_sampler (prev t) (nth k0 keys t)) in
  (forall t, (t < T)%N -> 0 < jmean (lik t)) ->
  (run (fun y s => [seq c y * x | x <- pdf y s])).1 = r.1 /\
  (run (fun y s => [seq c y * x | x <- pdf y s])).2 = r.2 - \sum_(y <- ys) log (c y).
Proof. by move=> h1 h2 h3 T keys run r prev lik; apply: bootstrap_scale. Qed.
Print Assumptions bootstrap_likelihood_scale.

(* C51: the particle filter with a general proposal. *)
Theorem particle_filter_sound (R : rcfType) (X Y K : Type) (x0 : X) (y0 : Y) (k0 : K)
    (split1 : K -> K) (split_keys : K -> nat -> seq K)
    (proposal_sampler : seq X -> Y -> K -> seq X)
    (qdens : seq X -> seq X -> Y -> seq R) (tdens : seq X -> seq X -> seq R)
    (pdf : Y -> seq X -> seq R) (resampling : seq R -> K -> seq nat) (init_sampler : K -> nat -> seq X)
    (ys : seq Y) (key : K) (n : nat) :
  (forall k m, size (split_keys k m) = m) ->
  (forall y s, size (pdf y s) = size s) -> (forall s s', size (tdens s s') = size s) ->
  (forall s s' y, size (qdens s s' y) = size s) ->
  (forall k m, size (init_sampler k m) = m) -> (forall s y k, size (proposal_sampler s y k) = size s) ->
  (forall y s, all (fun x => 0 <= x) (pdf y s)) -> (forall s s', all (fun x => 0 <= x) (tdens s s')) ->
  (forall s s' y, all (fun x => 0 < x) (qdens s s' y)) -> valid_resampling resampling ->
  let T := size ys in
  let keys := split_keys key T in
  let sol := particle_filter x0 split1 split_keys proposal_sampler qdens tdens pdf resampling
               ys init_sampler key n in
  let prev t := if t is t'.+1 then nth [::] sol t' else init_sampler key n in
  let prop t := proposal_sampler (prev t) (nth y0 ys t) (nth k0 keys t) in
  let wgt t := [seq nth 0 (pdf (nth y0 ys t) (prop t)) i * nth 0 (tdens (prop t) (prev t)) i
                    / nth 0 (qdens (prop t) (prev t) (nth y0 ys t)) i | i <- iota 0 (size (prop t))] in
  (forall t, (t < T)%N -> 0 < \sum_(x <- wgt t) x) ->
  size sol = T /\
  forall t, (t < T)%N -> exists idx,
    [/\ idx = resampling [seq x / \sum_(v <- wgt t) v | x <- wgt t] (split1 (nth k0 keys t)),
        nth [::] sol t = [seq nth x0 (prop t) j | j <- idx], size idx = n,
        forall j, j \in idx -> (j < n)%N & forall j, j \in idx -> 0 < nth 0 (wgt t) j].
Proof. by move=> h1 h2 h3 h4 h5 h6 h7 h8 h9 hv T keys sol prev prop wgt; apply: particle_valid. Qed.
Print Assumptions particle_filter_sound.

(* C51: with the transition as proposal the particle filter is the bootstrap filter. *)
Theorem particle_filter_bootstrap (R : rcfType) (log : R -> R) (X Y K : Type) (x0 : X)
    (split1 : K -> K) (split_keys : K -> nat -> seq K)
    (transition_sampler : seq X -> K -> seq X) (tdens : seq X -> seq X -> seq R)
    (pdf : Y -> seq X -> seq R) (resampling : seq R -> K -> seq nat) (init_sampler : K -> nat -> seq X)
    (ys : seq Y) (key : K) (n : nat) :
  (forall y s, size (pdf y s) = size s) -> (forall s s', size (tdens s s') = size s) ->
  (forall s s', all (fun x => x != 0) (tdens s s')) ->
  particle_filter x0 split1 split_keys (fun s _ k => transition_sampler s k)
    (fun s s' _ => tdens s s') tdens pdf resampling ys init_sampler key n =
  (bootstrap_filter log split1 split_keys transition_sampler pdf (discrete_resample x0 resampling)
     ys init_sampler key n).1.
Proof. by move=> h1 h2 h3; apply: particle_bootstrap. Qed.
Print Assumptions particle_filter_bootstrap.

(* ---- examples ---- *)
Section Examples.
Variable R : rcfType.
Let half : R := 1 / 2%:R.
Let half01 : 0 < half < 1. Proof. exact: half_in. Qed.

(* insertion points exist *)
Example searchsorted_ex : ss_left_spec (@ss_left_ref R) /\ ss_right_spec (@ss_right_ref R).
Proof. by split; [exact: ss_left_refP|exact: ss_right_refP]. Qed.

(* three particles, one of them dead *)
Example systematic_ex : weight_vector [:: half; 0; half] /\
  systematic (@ss_left_ref R) [:: half; 0; half] half = [:: 0; 0; 2]%N.
Proof. by split; [exact: ex_weights|exact: ex_systematic]. Qed.

Example multinomial_ex : (forall u : R, 0 < u < 1 -> u - 1 < 0) /\
  sorted_uniforms (fun u => u - 1) [:: half; half] = [:: half].
Proof. exact: ex_sorted_uniforms. Qed.

Example continuous_ex : continuous_resampling (@ss_right_ref R) 0 [:: 1; 0] [:: half; half] 1 [:: half] = [:: half].
Proof. exact: ex_conti. Qed.

(* a run of two steps, two particles, keys in unit *)
Example bootstrap_ex :
  let pdf (y : R) (s : seq R) := [seq (1 : R) | _ <- s] in
  bootstrap_filter (fun _ => 0) (fun k : unit => k) (fun k m => nseq m k) (fun s _ => [seq x + 1 | x <- s]) pdf
    (discrete_resample (0 : R) (fun w _ => systematic (@ss_left_ref R) w half)) [:: 0; 0]
    (fun _ m => nseq m 0) tt 2 = ([:: [:: 1; 1]; [:: 2%:R; 2%:R]], 0).
Proof. exact: ex_bootstrap. Qed.
End Examples.

(* weights that do not reach the draw: the last of two particles is selected throughout *)
Example resampling_in_range_ex (R : rcfType) :
  systematic (fun _ _ => 2%N) [:: 4%:R^-1; 4%:R^-1 : R] 2%:R^-1 = [:: 1%N; 1%N].
Proof. by []. Qed.
