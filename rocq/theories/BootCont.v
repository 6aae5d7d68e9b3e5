(* With continuous resampling the particles and the likelihood of the bootstrap filter depend
   continuously on the parameters of the model. *)
From mathcomp Require Import all_ssreflect all_algebra.
From mathcomp Require Import zify ring.
From Verif Require Import Prelude ResampleModel ResampleSpec ResampleProofs ResampleConti SmcProofs NearSpec ResampleCont.
Set Implicit Arguments.
Unset Strict Implicit.
Unset Printing Implicit Defensive.
Import Order.TTheory GRing.Theory Num.Theory.
Local Open Scope ring_scope.

Section Boot.
Variables (R : rcfType) (T : Type) (t0 : T) (near : (T -> Prop) -> Prop).
Hypothesis nP : nearness t0 near.
Local Notation tends := (@tends R T t0 near).
Variables (log : R -> R).
Hypothesis logc : forall a, 0 < a -> cont_at log a.
Variables (ss : seq R -> R -> nat) (eps : R).
Hypotheses (ssP : ss_right_spec ss) (eps0 : 0 <= eps).
Variables (Y K : Type) (y0 : Y) (k0 : K).
Variables (split1 : K -> K) (split_keys : K -> nat -> seq K).
Variable n : nat.
Hypothesis n0 : (0 < n)%N.
Variable uniform : K -> nat -> seq R.
Variable init_sampler : K -> nat -> seq R.
Variables (trans : T -> seq R -> K -> seq R) (g : T -> Y -> R -> R).
Hypothesis trans_size : forall t s k, size s = n -> size (trans t s k) = n.
Hypothesis trans_tends : forall (s : T -> seq R) k, (forall t, size (s t) = n) ->
  (forall i, (i < n)%N -> tends (fun t => (s t)`_i)) ->
  forall i, (i < n)%N -> tends (fun t => (trans t (s t) k)`_i).
Hypothesis g_tends : forall y (x : T -> R), tends x -> tends (fun t => g t y (x t)).
Hypothesis g_pos : forall y x, 0 < g t0 y x.

Local Notation pdf t := (fun y s => [seq g t y x | x <- s]).
Local Notation body t := (bootstrap_body log split1 (trans t) (pdf t) (continuous_resample ss eps uniform n)).

Lemma size_conti s w k : size (continuous_resample ss eps uniform n s w k) = n.
Proof. by rewrite /continuous_resample /continuous_resampling !size_map size_iota. Qed.

Lemma boot_scan_tends (s : T -> seq R) (a : T -> R) es :
  (forall t, size (s t) = n) -> (forall i, (i < n)%N -> tends (fun t => (s t)`_i)) -> tends a ->
  let sol := (scan (body t0) (s t0, a t0) es).2 in
  let prev k := if k is k'.+1 then nth [::] sol k' else s t0 in
  let prop k := trans t0 (prev k) (nth (y0, k0) es k).2 in
  let lik k := pdf t0 (nth (y0, k0) es k).1 (prop k) in
  (forall k i, (k < size es)%N -> (i < n)%N -> eps * jsum (lik k) < (lik k)`_i) ->
  tends (fun t => (scan (body t) (s t, a t) es).1.2) /\
  (forall k i, (k < size es)%N -> (i < n)%N -> tends (fun t => (nth [::] (scan (body t) (s t, a t) es).2 k)`_i)).
Proof.
elim: es s a => [|[y k] es IH] s a hn hs ha; first by split.
rewrite scan_cons' /= => hw.
set p := fun t => trans t (s t) k.
have pn t : size (p t) = n by exact: trans_size.
have pt i : (i < n)%N -> tends (fun t => (p t)`_i) by exact: trans_tends.
set w := fun t => pdf t y (p t).
have wn t : size (w t) = n by rewrite size_map.
have wE t i : (i < n)%N -> (w t)`_i = g t y (p t)`_i by move=> hi; rewrite (nth_map 0) ?pn.
have wt i : (i < n)%N -> tends (fun t => (w t)`_i).
  move=> hi; apply: (tends_ext nP (f := fun t => g t y (p t)`_i)); first by apply: (near_all nP) => t; rewrite wE.
  by apply: g_tends; exact: pt.
have jw t : jsum (w t) = \sum_(i <- index_iota 0 n) (w t)`_i by rewrite jsumE (big_nth 0) wn.
have jt : tends (fun t => jsum (w t)).
  apply: (tends_ext nP (f := fun t => \sum_(i <- index_iota 0 n) (if (i < n)%N then (w t)`_i else 0))).
    by apply: (near_all nP) => t; rewrite jw; apply: eq_big_nat => i /andP [_ ->].
  apply: (tends_sum nP) => i; case hi: (i < n)%N; last exact: (tends_const nP).
  exact: wt.
have jp : 0 < jsum (w t0).
  rewrite jsumE; have : all (fun x => 0 < x) (w t0) by apply/allP => x /mapP [z _ ->].
  have : (0 < size (w t0))%N by rewrite wn.
  case: (w t0) => // x u _ /= /andP [hx hu]; rewrite big_cons ltr_spaddl //.
  by rewrite big_seq; apply: sumr_ge0 => z hz; apply: ltW; exact: (allP hu).
have nw : n%:R != 0 :> R by rewrite pnatr_eq0 -lt0n.
set v := fun t => [seq x / jsum (w t) | x <- w t].
have vn t : size (v t) = n by rewrite size_map.
have vE t i : (i < n)%N -> (v t)`_i = (w t)`_i / jsum (w t) by move=> hi; rewrite (nth_map 0) ?wn.
have vt i : (i < n)%N -> tends (fun t => (v t)`_i).
  move=> hi; apply: (tends_ext nP (f := fun t => (w t)`_i / jsum (w t))); first by apply: (near_all nP) => t; rewrite vE.
  by apply: (tends_div nP) => //; [exact: wt|rewrite gt_eqF].
have vp i : (i < n)%N -> eps < (v t0)`_i.
  by move=> hi; rewrite vE // ltr_pdivl_mulr //; exact: (hw 0%N i).
have ties i j : (i < n)%N -> (j < n)%N -> (p t0)`_i = (p t0)`_j -> (v t0)`_i = (v t0)`_j.
  by move=> hi hj e; rewrite !vE // !wE // e.
have rt i : (i < n)%N -> tends (fun t => (continuous_resample ss eps uniform n (p t) (v t) (split1 k))`_i).
  by move=> hi; apply: conti_tends ties n0 _ _ _ hi.
have [||||h1 h2] := IH (fun t => continuous_resample ss eps uniform n (p t) (v t) (split1 k))
  (fun t => a t - log (jmean (w t))).
- by move=> t; rewrite size_conti.
- exact: rt.
- apply: (tends_sub nP) => //; apply: (tends_comp nP (g := log)).
    by apply: logc; rewrite divr_gt0 // wn ltr0n.
  apply: (tends_div nP) => //; last by rewrite wn.
  by apply: (tends_ext nP (f := fun=> n%:R)); [apply: (near_all nP) => t; rewrite wn|exact: (tends_const nP)].
- move=> l i hl hi; have := hw l.+1 i hl hi; rewrite /=.
  by case: l hl.
split.
  by apply: (tends_ext nP) h1; apply: (near_all nP) => t; rewrite -[RHS]/((scan (body t) (s t, a t) ((y, k) :: es)).1.2) scan_cons'.
case=> [|l] i hl hi.
  by apply: (tends_ext nP) (rt i hi); apply: (near_all nP) => t /=; case: (scan _ _ _).
by apply: (tends_ext nP) (h2 l i hl hi); apply: (near_all nP) => t /=; case: (scan _ _ _).
Qed.

Hypothesis split_size : forall k m, size (split_keys k m) = m.
Hypothesis init_size : forall k m, size (init_sampler k m) = m.

Lemma boot_tends ys key :
  let run t := bootstrap_filter log split1 split_keys (trans t) (pdf t)
    (continuous_resample ss eps uniform n) ys init_sampler key n in
  let prev k := if k is k'.+1 then nth [::] (run t0).1 k' else init_sampler key n in
  let lik k := pdf t0 (nth y0 ys k) (trans t0 (prev k) (nth k0 (split_keys key (size ys)) k)) in
  (forall k i, (k < size ys)%N -> (i < n)%N -> eps * jsum (lik k) < (lik k)`_i) ->
  tends (fun t => (run t).2) /\
  (forall k i, (k < size ys)%N -> (i < n)%N -> tends (fun t => (nth [::] (run t).1 k)`_i)).
Proof.
move=> run prev lik hw.
have hz : size (zip ys (split_keys key (size ys))) = size ys by rewrite size_zip split_size minnn.
have [||||h1 h2] := @boot_scan_tends (fun=> init_sampler key n) (fun=> 0) (zip ys (split_keys key (size ys))).
- by move=> t; rewrite init_size.
- by move=> i hi; exact: (tends_const nP).
- exact: (tends_const nP).
- move=> k i; rewrite hz => hk hi; have := hw k i hk hi; rewrite /lik /prev /run /bootstrap_filter nth_zip ?split_size //=.
  by case: (scan _ _ _) => [[s' a'] sol].
split.
  apply: (tends_ext nP) h1; apply: (near_all nP) => t; rewrite /run /bootstrap_filter.
  by case: (scan _ _ _).
move=> k i hk hi; have := h2 k i; rewrite hz => /(_ hk hi) h.
apply: (tends_ext nP) h; apply: (near_all nP) => t; rewrite /run /bootstrap_filter.
by case: (scan _ _ _).
Qed.
End Boot.
