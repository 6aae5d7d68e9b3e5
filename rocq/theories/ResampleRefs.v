(* Reference insertion points, and corollaries and concrete runs for ResampleProps. *)
From mathcomp Require Import all_ssreflect all_algebra.
From mathcomp Require Import zify ring.
From Verif Require Import Prelude ResampleModel ResampleSpec ResampleProofs ResampleConti SmcProofs.
Set Implicit Arguments.
Unset Strict Implicit.
Unset Printing Implicit Defensive.
Import Order.TTheory GRing.Theory Num.Theory.
Local Open Scope ring_scope.

Section Refs.
Variable R : rcfType.

Definition ss_left_ref (a : seq R) (v : R) : nat := find (fun x => v <= x) a.
Definition ss_right_ref (a : seq R) (v : R) : nat := find (fun x => v < x) a.

Lemma ss_left_refP : ss_left_spec ss_left_ref.
Proof.
move=> a v ha; rewrite /ss_left_ref; split; first exact: find_size.
  by move=> i /(before_find 0) /negbT; rewrite -ltNge.
move=> i /andP [h1 h2]; apply: le_trans (sorted_le_nth ha h1 h2).
by apply: (nth_find 0 (a := fun x => v <= x)); rewrite has_find (leq_ltn_trans h1 h2).
Qed.

Lemma ss_right_refP : ss_right_spec ss_right_ref.
Proof.
move=> a v ha; rewrite /ss_right_ref; split; first exact: find_size.
  by move=> i /(before_find 0) /negbT; rewrite -leNgt.
move=> i /andP [h1 h2]; apply: lt_le_trans (sorted_le_nth ha h1 h2).
by apply: (nth_find 0 (a := fun x => v < x)); rewrite has_find (leq_ltn_trans h1 h2).
Qed.

Lemma zero_draw (ss : seq R -> R -> nat) : ss_left_spec ss ->
  exists w u, [/\ weight_vector w, 0 <= u < 1 & exists2 j, j \in systematic ss w u & nth 0 w j = 0].
Proof.
move=> hs; exists [:: 0; 1], 0; have hw : weight_vector ([:: 0; 1] : seq R).
  by split; [rewrite /= lexx ler01|rewrite !big_cons big_nil add0r addr0].
split; [by []|by rewrite lexx ltr01|exists 0%N => //].
have [h1 h2 h3] := hs _ 0 (cumsum_sorted (proj1 hw)).
have e : ss (cumsum ([:: 0; 1] : seq R)) 0 = 0%N.
  case e : (ss _ _) => [//|k]; have := h2 0%N; rewrite e /= => /(_ isT).
  by rewrite add0r ltxx.
by rewrite /systematic /search_indices /= !add0r mul0r inE e eqxx.
Qed.

Lemma all_valid (log : R -> R) (ss : seq R -> R -> nat) (K : Type)
    (unif1 : K -> R) (unif : K -> nat -> seq R) :
  ss_left_spec ss -> (forall u, 0 < u < 1 -> log u < 0) ->
  (forall k, 0 < unif1 k < 1) -> (forall k n, size (unif k n) = n) ->
  (forall k n, all (fun u => 0 < u < 1) (unif k n)) ->
  [/\ valid_resampling (fun w k => systematic ss w (unif1 k)),
      valid_resampling (fun w k => stratified ss w (unif k (size w)))
    & valid_resampling (fun w k => multinomial log ss w (unif k (size w).+1))].
Proof.
move=> hs hl h1 h2 h3; split=> w k hw.
- by have [] := systematic_valid hs hw (h1 k).
- by have [] := stratified_valid hs hw (h2 k _) (h3 k _).
by have [] := multinomial_valid hs hw hl (h2 k _) (h3 k _).
Qed.

Lemma conti_all (ss : seq R -> R -> nat) (eps : R)
    (samples weights : seq R) (m : nat) (us : seq R) :
  ss_right_spec ss -> 0 <= eps ->
  (0 < size samples)%N -> size weights = size samples -> all (fun x => 0 <= x) weights ->
  size us = m -> all (fun u => 0 <= u < 1) us ->
  let out := continuous_resampling ss eps samples weights m us in
  [/\ size out = m, sorted <=%R out
    & forall y, y \in out -> exists a b, [/\ a \in samples, b \in samples & a <= y <= b]].
Proof.
move=> h1 h2 h3 h4 h5 h6 h7 out; split; first exact: size_conti.
  exact: conti_sorted.
by move=> y hy; apply: (conti_range h1 h2 h3 _ hy).
Qed.

Lemma conti_quantile_all (ss : seq R -> R -> nat) (eps : R)
    (samples weights : seq R) (m : nat) (us : seq R) (i : nat) :
  ss_right_spec ss -> 0 <= eps ->
  (0 < size samples)%N -> size weights = size samples -> all (fun x => 0 <= x) weights ->
  uniq samples -> (i < m)%N ->
  quantile eps samples weights ((nth 0 us i + i%:R) / m%:R)
    (nth 0 (continuous_resampling ss eps samples weights m us) i).
Proof. by move=> h1 h2 h3 h4 h5 h6 h7; apply: conti_quantile. Qed.

Lemma offspring (ss : seq R -> R -> nat) (lik : seq R) (u : R) (j : nat) :
  ss_left_spec ss -> all (fun x => 0 <= x) lik -> 0 < \sum_(x <- lik) x -> 0 < u < 1 -> (j < size lik)%N ->
  `|(count_mem j (systematic ss [seq x / \sum_(v <- lik) v | x <- lik] u))%:R - (size lik)%:R * nth 0 lik j / \sum_(v <- lik) v| < 1.
Proof.
move=> hs h0 hp hu hj; rewrite -jsumE.
have hw : weight_vector [seq x / jsum lik | x <- lik] by apply: normalise_weight; rewrite ?jsumE.
have [_ _ _ _ h] := systematic_valid hs hw hu.
by have := h j; rewrite size_map (nth_map 0) // mulrA; apply.
Qed.

(* ---- concrete runs ---- *)
Lemma le_frac (a b c d : nat) : (0 < b)%N -> (0 < d)%N ->
  (a%:R / b%:R <= c%:R / d%:R :> R) = (a * d <= c * b)%N.
Proof.
move=> hb hd; rewrite ler_pdivr_mulr ?ltr0n // mulrAC ler_pdivl_mulr ?ltr0n //.
by rewrite -!natrM ler_nat.
Qed.
Lemma lt_frac (a b c d : nat) : (0 < b)%N -> (0 < d)%N ->
  (a%:R / b%:R < c%:R / d%:R :> R) = (a * d < c * b)%N.
Proof. by move=> hb hd; rewrite ltNge le_frac // -ltnNge. Qed.

Local Notation half := (1 / 2%:R : R).

Lemma half_in : 0 < half < 1.
Proof. by rewrite divr_gt0 ?ltr01 ?ltr0n //= ltr_pdivr_mulr ?ltr0n // mul1r ltr1n. Qed.

Lemma ex_weights : weight_vector [:: half; 0; half].
Proof.
have /andP [h _] := half_in.
split; first by rewrite /= lexx (ltW h).
by rewrite !big_cons big_nil; field.
Qed.

Lemma ex_systematic : systematic ss_left_ref [:: half; 0; half] half = [:: 0; 0; 2]%N.
Proof.
rewrite /systematic /search_indices /ss_left_ref /=.
have -> : (0 + half) / 3%:R = 1%:R / 6%:R :> R by field.
have -> : (1 + half) / 3%:R = 1%:R / 2%:R :> R by field.
have -> : (2%:R + half) / 3%:R = 5%:R / 6%:R :> R by field.
have -> : 0 + half = 1%:R / 2%:R :> R by field.
have -> : 1%:R / 2%:R + 0 = 1%:R / 2%:R :> R by field.
have -> : 1%:R / 2%:R + half = 1%:R / 1%:R :> R by field.
by rewrite !le_frac.
Qed.

Lemma ex_sorted_uniforms : (forall u : R, 0 < u < 1 -> u - 1 < 0) /\
  sorted_uniforms (fun u => u - 1) [:: half; half] = [:: half].
Proof.
split; first by move=> u /andP [_ h]; rewrite subr_lt0.
by rewrite /sorted_uniforms /=; congr (_ :: _); field.
Qed.

Lemma ex_conti : continuous_resampling ss_right_ref 0 [:: 1; 0] [:: half; half] 1 [:: half] = [:: half].
Proof.
rewrite /continuous_resampling /argsort /=.
have e1 : (1 <= 0 :> R) = false by apply/negbTE; rewrite -ltNge ltr01.
rewrite /sort /= e1 /= /interp /ss_right_ref /=.
have -> : 0 + (half / 2%:R + 0) = 1%:R / 4%:R :> R by field.
have -> : 1%:R / 4%:R + (half / 2%:R + half / 2%:R) = 3%:R / 4%:R :> R by field.
have -> : (half + 0) / 1 = 1%:R / 2%:R :> R by field.
rewrite !lt_frac //= /minn /maxn /=.
have h : 0 < (3%:R / 4%:R - 1%:R / 4%:R : R) by rewrite subr_gt0 lt_frac.
rewrite normr_le0 gt_eqF //; congr (_ :: _); field.
by [].
Qed.

Lemma ex_bootstrap :
  let pdf (y : R) (s : seq R) := [seq (1 : R) | _ <- s] in
  bootstrap_filter (fun _ => 0) (fun k : unit => k) (fun k m => nseq m k) (fun s _ => [seq x + 1 | x <- s]) pdf
    (discrete_resample (0 : R) (fun w _ => systematic ss_left_ref w half)) [:: 0; 0]
    (fun _ m => nseq m 0) tt 2 = ([:: [:: 1; 1]; [:: 2%:R; 2%:R]], 0).
Proof.
move=> pdf; rewrite /bootstrap_filter /= /discrete_resample /=.
have -> : (0 + half) / 2%:R = 1%:R / 4%:R :> R by field.
have -> : (1 + half) / 2%:R = 3%:R / 4%:R :> R by field.
have -> : 0 + 1 / (1 + (1 + 0)) = 1%:R / 2%:R :> R by field.
have -> : 1%:R / 2%:R + 1 / (1 + (1 + 0)) = 1%:R / 1%:R :> R by field.
rewrite !le_frac //= /jget /= !add0r !subr0 oppr0.
by [].
Qed.
End Refs.
