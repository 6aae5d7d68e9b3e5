(* Runs of the bootstrap filter with stratified resampling, where the transition draws a fixed number of particles. *)
From mathcomp Require Import all_ssreflect all_algebra.
From mathcomp Require Import zify ring.
From Verif Require Import Prelude ResampleModel ResampleSpec ResampleProofs ResampleRefs SmcProofs.
Set Implicit Arguments.
Unset Strict Implicit.
Unset Printing Implicit Defensive.
Import Order.TTheory GRing.Theory Num.Theory.
Local Open Scope ring_scope.

Section Run.
Variables (R : rcfType) (log : R -> R) (X Y K : Type) (x0 : X) (y0 : Y) (k0 : K).
Variables (split1 : K -> K) (split_keys : K -> nat -> seq K) (uniform : K -> nat -> seq R).
Variables (trans : seq X -> K -> seq X) (pdf : Y -> X -> R) (ss : seq R -> R -> nat) (init : K -> nat -> seq X).
Variables (ys : seq Y) (key : K) (n : nat).
Hypothesis split_size : forall k m, size (split_keys k m) = m.
Hypothesis uniform_size : forall k m, size (uniform k m) = m.
Hypothesis uniform_in : forall k m, all (fun u => 0 < u < 1) (uniform k m).
Hypothesis ssP : ss_left_spec ss.
Hypothesis init_size : forall k m, size (init k m) = m.
Hypothesis n0 : (0 < n)%N.
Hypothesis trans_size : forall s k, size s = n -> size (trans s k) = n.
Hypothesis pdf_gt0 : forall t x, (t < size ys)%N -> 0 < pdf (nth y0 ys t) x.

Let r := bootstrap_filter log split1 split_keys trans (fun y s => [seq pdf y x | x <- s])
  (discrete_resample x0 (fun w k => stratified ss w (uniform k (size w)))) ys init key n.
Let keys := split_keys key (size ys).
Let prev t := if t is t'.+1 then nth [::] r.1 t' else init key n.
Let prop t := trans (prev t) (nth k0 keys t).
Let lik t x := pdf (nth y0 ys t) x.
Let w t := [seq lik t x / \sum_(v <- prop t) lik t v | x <- prop t].

Lemma stratified_run :
  [/\ size r.1 = size ys,
      forall t, (t < size ys)%N -> [/\ size (prop t) = n, weight_vector (w t), size (nth [::] r.1 t) = n
        & forall i, (i < n)%N -> exists j,
          inverse_cdf (w t) ((i%:R + (uniform (split1 (nth k0 keys t)) n)`_i) / n%:R) j
          /\ nth x0 (nth [::] r.1 t) i = nth x0 (prop t) j]
    & r.2 = - \sum_(0 <= t < size ys) log ((\sum_(x <- prop t) lik t x) / n%:R)].
Proof.
have [h1 h2 h3] := bootstrap_steps log y0 k0 split1 split_size trans (fun y s => [seq pdf y x | x <- s])
  (discrete_resample x0 (fun w k => stratified ss w (uniform k (size w)))) init ys key n.
rewrite -/r -/keys in h1 h2 h3.
have wE t : [seq x / jsum [seq pdf (nth y0 ys t) x | x <- prop t] | x <- [seq pdf (nth y0 ys t) x | x <- prop t]] = w t.
  by rewrite /w jsumE big_map -map_comp.
have lpos t : (t < size ys)%N -> size (prop t) = n -> 0 < \sum_(v <- prop t) lik t v.
  move=> ht; case: (prop t) => [|a s] /= e; first by move: n0; rewrite -e.
  rewrite big_cons ltr_paddr ?pdf_gt0 //; apply: sumr_ge0 => x _; exact: ltW (pdf_gt0 _ ht).
have st t : (t < size ys)%N -> size (prop t) = n -> [/\ weight_vector (w t), size (nth [::] r.1 t) = n
        & forall i, (i < n)%N -> exists j,
          inverse_cdf (w t) ((i%:R + (uniform (split1 (nth k0 keys t)) n)`_i) / n%:R) j
          /\ nth x0 (nth [::] r.1 t) i = nth x0 (prop t) j].
  move=> ht hs.
  have hw : weight_vector (w t).
    rewrite -wE; apply: normalise_weight.
      by elim: (prop t) => //= a s ->; rewrite ltW ?pdf_gt0.
    by rewrite jsumE big_map; exact: lpos.
  have ws : size (w t) = n by rewrite size_map.
  have [e1 e2 e3 e4 e5] := stratified_valid ssP hw (uniform_size (split1 (nth k0 keys t)) (size (w t)))
     (uniform_in (split1 (nth k0 keys t)) (size (w t))).
  have := h2 t ht; rewrite -/(prev t) -/(prop t) wE /discrete_resample /gather => ->.
  split=> //; first by rewrite size_map e1.
  move=> i hi; exists (nth 0%N (stratified ss (w t) (uniform (split1 (nth k0 keys t)) (size (w t)))) i).
  rewrite ws in e1 e3 *; split; first exact: e3.
  rewrite (nth_map 0%N) ?e1 // jget_nth // hs -ws.
  by have [] := e3 _ hi; rewrite -ws.
have sz t : (t <= size ys)%N -> size (prev t) = n.
  elim: t => [|t IH] ht /=; first exact: init_size.
  by have [] := st t ht (trans_size _ (IH (ltnW ht))).
split=> //.
  by move=> t ht; have hs := trans_size (nth k0 keys t) (sz t (ltnW ht)); have [] := st t ht hs.
rewrite h3; congr (- _); apply: eq_big_nat => t /andP [_ ht].
by rewrite -/(prev t) -/(prop t) /jmean jsumE big_map size_map trans_size // sz // ltnW.
Qed.
End Run.
