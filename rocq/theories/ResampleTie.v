(* Continuous resampling jumps where particles of different weights meet. *)
From mathcomp Require Import all_ssreflect all_algebra.
From mathcomp Require Import zify ring.
From Verif Require Import Prelude ResampleModel ResampleSpec ResampleProofs ResampleConti ResampleRefs NearSpec ResampleCont.
Set Implicit Arguments.
Unset Strict Implicit.
Unset Printing Implicit Defensive.
Import Order.TTheory GRing.Theory Num.Theory.
Local Open Scope ring_scope.

Section Tie.
Variable R : rcfType.
Variables (ss : seq R -> R -> nat) (eps : R).
Hypotheses (ssP : ss_right_spec ss) (eps0 : 0 <= eps) (eps1 : eps < 1 / 4%:R).
Local Notation ws := [:: 1 / 2%:R; 1 / 4%:R; 1 / 4%:R : R].
Lemma argsort_tie : argsort [:: 0; 0; 1 : R] = [:: 0; 1; 2]%N.
Proof. by rewrite /argsort /sort /= !lexx ?ler01 /= ?lexx ?ler01 ?lexx. Qed.
Lemma argsort_apart (t : R) : 0 < t -> t < 1 -> argsort [:: t; 0; 1 : R] = [:: 1; 0; 2]%N.
Proof.
by move=> h0 h1; rewrite /argsort /sort /= ?lexx ?ler01 /= [t <= 0]leNgt h0 /= ?ler01 ?(ltW h1).
Qed.
Lemma all_ws : all (fun w => eps < w) ws.
Proof.
rewrite /= eps1 !andbT; apply: (lt_trans eps1).
by rewrite -[1 / 4%:R]/(1%:R / 4%:R) -[1 / 2%:R]/(1%:R / 2%:R) lt_frac.
Qed.
Let gaps_of (u : seq R) : size u = 3%N -> (forall i, (i < 3)%N -> eps < u`_i) ->
  forall i, (i.+1 < size (mids u))%N -> eps < (mids u)`_i.+1 - (mids u)`_i.
Proof.
move=> h3 h i; rewrite size_mids => hi; rewrite mids_gap // ltr_pdivl_mulr ?ltr0n // mulr_natr mulr2n.
by apply: ltr_add; apply: h; rewrite -h3 // ltnW.
Qed.
Let ws_gt i : (i < 3)%N -> eps < ws`_i.
Proof. by move=> hi; apply: (all_nthP 0 all_ws). Qed.

Lemma tie_value : (continuous_resampling ss eps [:: 0; 0; 1] ws 1 [:: 3%:R / 4%:R])`_0 = 1 / 2%:R.
Proof.
rewrite conti_resampled // ?all_ws // argsort_tie /resampled /sortpairs /unzip1 /unzip2 -!map_comp.
set u := map _ _; have hu : u = ws by [].
set x := map _ _; have xs : sorted <=%R x by rewrite /x /= !lexx ?ler01.
rewrite hu (@lin_piece _ eps eps0 (mids ws) x erefl xs (@gaps_of ws erefl ws_gt) 1%N) ?size_mids //.
  rewrite !nth_mids // /cdf /= !big_cons !big_nil; field.
  by [].
rewrite !nth_mids // /cdf /= !big_cons !big_nil; apply/andP; split; rewrite -subr_ge0.
  by rewrite (_ : _ - _ = 1 / 8%:R) ?divr_ge0 ?ler01 ?ler0n //; field.
by rewrite (_ : _ - _ = 1 / 8%:R) ?divr_ge0 ?ler01 ?ler0n //; field.
Qed.
Lemma apart_value t : 0 < t -> t < 1 ->
  (continuous_resampling ss eps [:: t; 0; 1] ws 1 [:: 3%:R / 4%:R])`_0 = 2%:R / 3%:R + t / 3%:R.
Proof.
move=> t0 t1.
rewrite conti_resampled // ?all_ws // argsort_apart // /resampled /sortpairs /unzip1 /unzip2 -!map_comp.
set u := map _ _; set x := map _ _.
have hu : u = [:: 1 / 4%:R; 1 / 2%:R; 1 / 4%:R] by [].
have ugt i : (i < 3)%N -> eps < u`_i.
  by case: i => [|[|[|i]]] hi; [exact: (@ws_gt 1%N)|exact: (@ws_gt 0%N)|exact: (@ws_gt 2%N)|].
have xs : sorted <=%R x by rewrite /x /= !ltW.
rewrite (@lin_piece _ eps eps0 (mids u) x erefl xs (@gaps_of u erefl ugt) 1%N) ?size_mids //.
  rewrite !nth_mids // hu /cdf /= !big_cons !big_nil; field.
  by [].
rewrite !nth_mids // hu /cdf /= !big_cons !big_nil; apply/andP; split; rewrite -subr_ge0.
  by rewrite (_ : _ - _ = 1 / 4%:R) ?divr_ge0 ?ler01 ?ler0n //; field.
by rewrite (_ : _ - _ = 1 / 8%:R) ?divr_ge0 ?ler01 ?ler0n //; field.
Qed.

Lemma tie_jump : forall d, 0 < d -> exists2 t, `|t| < d &
  1 / 6%:R <= `|(continuous_resampling ss eps [:: t; 0; 1] ws 1 [:: 3%:R / 4%:R])`_0
             - (continuous_resampling ss eps [:: 0; 0; 1] ws 1 [:: 3%:R / 4%:R])`_0|.
Proof.
move=> d d0; set t := Num.min (d / 2%:R) (1 / 2%:R).
have t0 : 0 < t by rewrite lt_minr !divr_gt0 ?ltr01 ?ltr0n.
have t1 : t < 1.
  apply: (@le_lt_trans _ _ (1 / 2%:R)); first by rewrite le_minl lexx orbT.
  by case/andP: (half_in R).
have td : t < d.
  apply: (@le_lt_trans _ _ (d / 2%:R)); first by rewrite le_minl lexx.
  by rewrite ltr_pdivr_mulr ?ltr0n // ltr_pmulr // (_ : 1 = 1%:R) // ltr_nat.
exists t; first by rewrite gtr0_norm.
rewrite tie_value apart_value //.
have -> : 2%:R / 3%:R + t / 3%:R - 1 / 2%:R = 1 / 6%:R + t / 3%:R :> R by field.
have h : 0 <= t / 3%:R by rewrite divr_ge0 ?ltW ?ltr0n.
by rewrite ger0_norm ?ler_addl // addr_ge0 // divr_ge0 ?ler01 ?ler0n.
Qed.
End Tie.
