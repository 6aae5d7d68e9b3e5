(* The resampling schemes of the model as draws of ResampleLaw, and the bias of continuous resampling. *)
From mathcomp Require Import all_ssreflect all_algebra.
From mathcomp Require Import zify ring.
From Verif Require Import Prelude ResampleModel ResampleSpec ResampleProofs ResampleLaw.
Set Implicit Arguments.
Unset Strict Implicit.
Unset Printing Implicit Defensive.
Import Order.TTheory GRing.Theory Num.Theory.
Local Open Scope ring_scope.

Section Schemes.
Variables (R : rcfType) (ss : seq R -> R -> nat) (w : seq R) (K : Type).
Variables (D : (K -> R) -> Prop) (E : (K -> R) -> R).

Lemma stratified_unbiased_l (us : K -> seq R) (phi : nat -> R) :
  ss_left_spec ss -> weight_vector w -> is_expectation D E ->
  (forall i, (i < size w)%N -> uniform_draw D E (fun k => nth 0 (us k) i)) ->
  let S := fun k => sum_at phi (stratified ss w (us k)) in
  D S /\ E S = (size w)%:R * wmean w phi.
Proof.
move=> ssP hw EP uP S; have [d e] := @sum_law R ss ssP w hw K D E EP (fun i k => nth 0 (us k) i) uP phi.
have h k : sum_at phi [seq clip_index (size w) (ss (cumsum w) ((i%:R + nth 0 (us k) i) / (size w)%:R)) | i <- iota 0 (size w)] = S k.
  by rewrite /S /stratified /search_indices -map_comp.
by have [d' e'] := ex_ext EP d h; split=> //; rewrite -e'.
Qed.
Lemma systematic_unbiased_l (u : K -> R) (phi : nat -> R) :
  ss_left_spec ss -> weight_vector w -> is_expectation D E -> uniform_draw D E u ->
  let S := fun k => sum_at phi (systematic ss w (u k)) in
  D S /\ E S = (size w)%:R * wmean w phi.
Proof.
move=> ssP hw EP uP S; have [d e] := @sum_law R ss ssP w hw K D E EP (fun i k => u k) (fun _ _ => uP) phi.
have h k : sum_at phi [seq clip_index (size w) (ss (cumsum w) ((i%:R + u k) / (size w)%:R)) | i <- iota 0 (size w)] = S k.
  by rewrite /S /systematic /search_indices -map_comp.
by have [d' e'] := ex_ext EP d h; split=> //; rewrite -e'.
Qed.
Lemma sum_at_count j idx : sum_at (fun i => (i == j)%:R : R) idx = (count_mem j idx)%:R.
Proof. by rewrite /sum_at; elim: idx => [|i r IH]; rewrite ?big_nil // big_cons IH /= natrD. Qed.
Lemma wmean_ind j : (j < size w)%N -> wmean w (fun i => (i == j)%:R) = nth 0 w j.
Proof.
move=> hj; rewrite /wmean (bigD1 (Ordinal hj)) //= eqxx mulr1 big1 ?addr0 // => i ne.
by rewrite -[(i : nat) == j]/(i == Ordinal hj) (negPf ne) mulr0.
Qed.
Lemma systematic_copies_l (u : K -> R) (j : nat) :
  ss_left_spec ss -> weight_vector w -> is_expectation D E -> uniform_draw D E u -> (j < size w)%N ->
  E (fun k => (count_mem j (systematic ss w (u k)))%:R) = (size w)%:R * nth 0 w j.
Proof.
move=> ssP hw EP uP hj; have [d e] := systematic_unbiased_l (fun i => (i == j)%:R) ssP hw EP uP.
have [_ <-] := ex_ext EP d (fun k => sum_at_count j _); by rewrite e wmean_ind.
Qed.
Lemma stratified_copies_l (us : K -> seq R) (j : nat) :
  ss_left_spec ss -> weight_vector w -> is_expectation D E ->
  (forall i, (i < size w)%N -> uniform_draw D E (fun k => nth 0 (us k) i)) -> (j < size w)%N ->
  E (fun k => (count_mem j (stratified ss w (us k)))%:R) = (size w)%:R * nth 0 w j.
Proof.
move=> ssP hw EP uP hj; have [d e] := stratified_unbiased_l (fun i => (i == j)%:R) ssP hw EP uP.
have [_ <-] := ex_ext EP d (fun k => sum_at_count j _); by rewrite e wmean_ind.
Qed.
Lemma stratified_variance_l (us : K -> seq R) (phi : nat -> R) :
  ss_left_spec ss -> weight_vector w -> is_expectation D E ->
  (forall i, (i < size w)%N -> uniform_draw D E (fun k => nth 0 (us k) i)) ->
  (forall i j, (i < size w)%N -> (j < size w)%N -> i != j ->
     independent_draws D E (fun k => nth 0 (us k) i) (fun k => nth 0 (us k) j)) ->
  let S := fun k => sum_at phi (stratified ss w (us k)) in
  let n := (size w)%:R in
  D (fun k => (S k - n * wmean w phi) ^+ 2) /\ E (fun k => (S k - n * wmean w phi) ^+ 2) <= n * wvar w phi.
Proof.
move=> ssP hw EP uP uI S n.
have [d _] := @square_dev R ss ssP w hw K D E EP (fun i k => nth 0 (us k) i) uP uI phi.
have le := @square_dev_le R ss ssP w hw K D E EP (fun i k => nth 0 (us k) i) uP uI phi.
have h k : (sum_at phi [seq clip_index (size w) (ss (cumsum w) ((i%:R + nth 0 (us k) i) / (size w)%:R)) | i <- iota 0 (size w)] - n * wmean w phi) ^+ 2
  = (S k - n * wmean w phi) ^+ 2.
  by rewrite /S /stratified /search_indices -map_comp.
by have [d' e'] := ex_ext EP d h; split=> //; rewrite -e'.
Qed.
End Schemes.

Section Continuous.
Variables (R : rcfType) (ss : seq R -> R -> nat) (eps : R).
Hypothesis epsP : 0 <= eps < 2%:R^-1.

Lemma continuous_two (u0 u1 : R) us : 0 <= u0 < 1 -> 0 <= u1 < 1 -> nth 0 us 0 = u0 -> nth 0 us 1 = u1 ->
  continuous_resampling ss eps [:: 0; 1] [:: 1; 0] 2 us = [:: 0; u1].
Proof.
move=> h0 h1 e0 e1.
have h2 : (0 : R) < 2%:R by rewrite ltr0n.
have hs : argsort ([:: 0; 1] : seq R) = [:: 0; 1]%N.
  by rewrite /argsort /sort /= ?ler01.
have half : (2%:R^-1 : R) + 2%:R^-1 = 1 by field.
rewrite /continuous_resampling hs /= e0 e1.
rewrite !(mul1r, mul0r, addr0, add0r) half.
move: epsP => /andP [ep0 ep1]; move: h0 h1 => /andP [a0 b0] /andP [a1 b1].
have hm : minn (maxn (ss [:: 2%:R^-1; 1] ((u1 + 1) / 2%:R)) 1) 1 = 1%N by lia.
have h12 : (1 : R) - 2%:R^-1 = 2%:R^-1 by rewrite -[X in X - _]half addrK.
have h21 : (2%:R^-1 : R) < 1 by rewrite invf_lt1 // ltr1n.
have hu0 : u0 / 2%:R < 2%:R^-1 by rewrite -[X in _ < X]mul1r ltr_pmul2r ?invr_gt0.
have hu1 : 2%:R^-1 <= (u1 + 1) / 2%:R by rewrite -[X in X <= _]mul1r ler_pmul2r ?invr_gt0 // ler_addr.
have hu2 : (u1 + 1) / 2%:R <= 1 by rewrite ler_pdivr_mulr // mul1r -[2%:R]/(1 + 1) ler_add2r ltW.
rewrite /interp /= hm /= hu0 h12 ltNge (ltW (lt_trans hu0 h21)) /= ltNge hu2 /= ltNge hu1 /=.
rewrite ger0_norm ?invr_ge0 ?ler0n // leNgt ep1 /= add0r subr0 mulr1 (mulrDl u1 1 2%:R^-1) (mul1r 2%:R^-1) addrK invrK.
by rewrite divfK // gt_eqF.
Qed.

Lemma continuous_unbiased_l :
  exists (samples w : seq R) (phi : R -> R), [/\ size samples = size w, weight_vector w &
    forall (K : Type) (D : (K -> R) -> Prop) (E : (K -> R) -> R) (us : K -> seq R),
    is_expectation D E ->
    (forall i, (i < size w)%N -> uniform_draw D E (fun k => nth 0 (us k) i)) ->
    let S := fun k => \sum_(x <- continuous_resampling ss eps samples w (size w) (us k)) phi x in
    D S /\ E S <> (size w)%:R * wmean w (fun j => phi (nth 0 samples j))].
Proof.
exists [:: 0; 1], [:: 1; 0], (fun x => (x <= 2%:R^-1)%R%:R); split=> //.
  by split; rewrite ?big_cons ?big_nil /= ?addr0 ?ler01 ?lexx.
move=> K D E us EP uP S; have [p0 _] := uP 0%N isT; have [p1 l1] := uP 1%N isT.
have h2 : (0 : R) < 2%:R by rewrite ltr0n.
have hh : 0 <= (2%:R^-1 : R) <= 1 by rewrite invr_ge0 ltW //= invf_le1 // ler1n.
have [d e] := l1 _ hh; have [dc ec] := ex_const EP 1; have [ds es] := ex_add EP dc d.
have h k : 1 + (nth 0 (us k) 1 <= 2%:R^-1)%R%:R = S k.
  by rewrite /S (continuous_two (p0 k) (p1 k)) // !big_cons big_nil addr0 invr_ge0 ler0n.
have [d' e'] := ex_ext EP ds h; split=> //; rewrite -e' es ec e /wmean !big_ord_recl big_ord0 /= !mul0r !addr0 mul1r.
rewrite invr_ge0 ler0n mulr1 => /eqP; rewrite -[X in _ == X]/(1 + 1) (inj_eq (addrI _)) => /eqP h1.
have h3 : (2%:R^-1 : R) < 1 by rewrite invf_lt1 // ltr1n.
by rewrite h1 ltxx in h3.
Qed.
End Continuous.
