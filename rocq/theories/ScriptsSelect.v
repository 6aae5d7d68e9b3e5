(* Proofs about the selection of results in the plots. *)
From mathcomp Require Import all_ssreflect all_algebra.
From Verif Require Import ScriptsModel ScriptsRuns.
Set Implicit Arguments.
Unset Strict Implicit.
Unset Printing Implicit Defensive.
Import Order.TTheory GRing.Theory Num.Theory.
Local Open Scope ring_scope.

Section Select.
Variable R : rcfType.
Local Notation row := (seq (option R)).

Lemma mask_negb (T : Type) (p : pred T) (s : seq T) : mask [seq ~~ m | m <- [seq p x | x <- s]] s = [seq x <- s | ~~ p x].
Proof. by rewrite -map_comp filter_mask. Qed.

Lemma mask_zip (T : Type) (b : seq bool) (s : seq T) : size b = size s ->
  mask b s = [seq t.2 | t <- zip b s & t.1].
Proof. by elim: b s => [|[] b IH] [|x s] //= [/IH ->]. Qed.

(* a run is valid when the optimiser converged and no estimate is at or above the bound *)
Definition valid_run (t : bool * row) : bool := t.1 && ~~ has (fun x => nan_ge x 10%:R) t.2.

Lemma find_validP (stats : seq bool) (vals : seq row) : size stats = size vals ->
  find_valid stats vals =
  (count (predC valid_run) (zip stats vals), [seq t.2 | t <- zip stats vals & valid_run t]).
Proof.
move=> sz; rewrite /find_valid /= mask_negb mask_zip // filter_map; congr (_, _).
- rewrite count_map count_map count_filter.
  elim: stats vals sz => [|[] st IH] [|v vs] //= [sz]; move: (IH _ sz); rewrite /valid_run /=.
  + by rewrite addnCA => ->; case: has.
  + by rewrite andbF add0n -addnA => ->.
- rewrite -filter_predI; congr map; apply: eq_filter => t.
  by rewrite /= andbC.
Qed.

Lemma find_valid_count (stats : seq bool) (vals : seq row) : size stats = size vals ->
  ((find_valid stats vals).1 + size (find_valid stats vals).2 = size vals)%N.
Proof.
move=> sz; rewrite find_validP //= size_map size_filter addnC count_predC.
by rewrite size_zip sz minnn.
Qed.

Lemma find_valid_below (stats : seq bool) (vals : seq row) r v : size stats = size vals ->
  r \in (find_valid stats vals).2 -> Some v \in r -> v < 10%:R.
Proof.
move=> sz; rewrite find_validP //= => /mapP[t].
rewrite mem_filter => /andP[/andP[_ /hasPn h] _] -> /h /=.
by rewrite -ltNge.
Qed.

(* ---- rm_divergent ---- *)
Lemma rm_divergentP (arr : seq row) : rm_divergent arr = ([seq r <- arr | ~~ any_nan r], count (@any_nan R) arr).
Proof. by rewrite /rm_divergent mask_negb count_map. Qed.

Lemma size_nan_errs (a b : seq row) : size a = size b -> size (nan_errs a b) = size a.
Proof. by move=> h; rewrite size_map size_zip h minnn. Qed.

Lemma count_errs (a b : seq row) : same_shape a b ->
  count (@any_nan R) (nan_errs a b) = count (fun t => any_nan t.1 || any_nan t.2) (zip a b).
Proof.
elim: a b => [|r a IH] [|s b] //= [h hs]; rewrite (IH _ hs); congr (nat_of_bool _ + _)%N.
exact: any_nan_zip.
Qed.

(* the runs in which trajectory and reference have no NaN but the filter has *)
Definition filter_diverged (t : row * (row * row)) : bool :=
  [&& ~~ any_nan t.1, ~~ any_nan t.2.1 & any_nan t.2.2].
(* the runs with a NaN in the trajectory only *)
Definition only_trajectory (t : row * (row * row)) : bool :=
  [&& any_nan t.1, ~~ any_nan t.2.1 & ~~ any_nan t.2.2].

Lemma printed_divergencesE (trajs true_means means : seq row) :
  same_shape trajs true_means -> same_shape true_means means ->
  printed_divergences trajs true_means means =
  Posz (count filter_diverged (zip trajs (zip true_means means)))
  - Posz (count only_trajectory (zip trajs (zip true_means means))).
Proof.
move=> h1 h2; rewrite /printed_divergences !rm_divergentP /= !count_errs //.
apply/eqP; rewrite subr_eq -addrA [- _ + _]addrC addrA eq_sym subr_eq eq_sym -!PoszD; apply/eqP; congr Posz.
elim: trajs true_means means h1 h2 => [|r a IH] [|s b] [|t c] //= [e1 h1] [e2 h2].
have := IH _ _ h1 h2; rewrite /filter_diverged /only_trajectory /=.
set A := count _ _; set B := count _ _; set C := count _ _; set D := count _ _ => E.
case: (any_nan r); case: (any_nan s); case: (any_nan t); rewrite /= ?add0n ?add1n ?addSn ?addnS ?E //.
Qed.

Lemma printed_divergences_clean (trajs true_means means : seq row) :
  same_shape trajs true_means -> same_shape true_means means -> ~~ any_nan2 trajs ->
  printed_divergences trajs true_means means =
  Posz (count (fun t => ~~ any_nan t.1 && any_nan t.2) (zip true_means means)).
Proof.
move=> h1 h2 nn; rewrite printed_divergencesE //.
elim: trajs true_means means h1 h2 nn => [|r a IH] [|s b] [|t c] //= [e1 h1] [e2 h2].
rewrite negb_or => /andP[nr na]; have := IH _ _ h1 h2 na.
rewrite /filter_diverged /only_trajectory /= nr (negbTE nr) /= add0n.
by rewrite !PoszD -addrA => ->.
Qed.

(* ---- plot_prey_predator_errs.py ---- *)
Lemma pp_keptP (errs : seq (seq row)) : pp_kept errs = ([seq e <- errs | ~~ any_nan2 e], count (@any_nan2 R) errs).
Proof. by rewrite /pp_kept mask_negb count_map. Qed.
End Select.
