(* Proofs about the particle filters. *)
From mathcomp Require Import all_ssreflect all_algebra.
From mathcomp Require Import zify ring.
From Verif Require Import Prelude ResampleModel ResampleSpec ResampleProofs ResampleConti.
Set Implicit Arguments.
Unset Strict Implicit.
Unset Printing Implicit Defensive.
Import Order.TTheory GRing.Theory Num.Theory.
Local Open Scope ring_scope.

Section Scan.
Variables (S E O : Type) (body : S -> E -> S * O) (e0 : E) (o0 : O).

Lemma scan_cons' s x xs : scan body s (x :: xs) =
  ((scan body (body s x).1 xs).1, (body s x).2 :: (scan body (body s x).1 xs).2).
Proof. by rewrite /=; case: (body s x) => s1 o /=; case: (scan body s1 xs). Qed.

Lemma size_scan' s xs : size (scan body s xs).2 = size xs.
Proof. by elim: xs s => // x xs IH s; rewrite scan_cons' /= IH. Qed.
End Scan.

(* normalised weights *)
Section Weights.
Variable R : rcfType.
Implicit Types w : seq R.
Local Notation normalise w := [seq x / jsum w | x <- w].

Lemma normalise_weight w : all (fun x => 0 <= x) w -> 0 < jsum w -> weight_vector (normalise w).
Proof.
move=> h h0; split; first by apply/allP => x /mapP [y hy ->]; rewrite divr_ge0 ?(ltW h0) ?(allP h).
by rewrite big_map -mulr_suml -jsumE divff // gt_eqF.
Qed.

Lemma normalise_scale (c : R) w : c != 0 -> normalise [seq c * x | x <- w] = normalise w.
Proof.
move=> hc; rewrite -map_comp; apply: eq_map => x /=.
by rewrite !jsumE big_map -mulr_sumr -mulf_div divff // mul1r.
Qed.
End Weights.

Section Bootstrap.
Variables (R : rcfType) (log : R -> R).
Variables (X Y K : Type) (x0 : X) (y0 : Y) (k0 : K).
Variables (split1 : K -> K) (split_keys : K -> nat -> seq K).
Hypothesis split_size : forall k m, size (split_keys k m) = m.
Variables (transition_sampler : seq X -> K -> seq X) (pdf : Y -> seq X -> seq R).
Variables (resample : seq X -> seq R -> K -> seq X).
Variables (init_sampler : K -> nat -> seq X).

Local Notation body := (bootstrap_body log split1 transition_sampler pdf resample).
Local Notation run ys key n :=
  (bootstrap_filter log split1 split_keys transition_sampler pdf resample ys init_sampler key n).

Lemma bootstrap_scan s a es (T := size es) :
  let r := scan body (s, a) es in
  let sol := r.2 in
  let prev t := if t is t'.+1 then nth [::] sol t' else s in
  let prop t := transition_sampler (prev t) (nth (y0, k0) es t).2 in
  let lik t := pdf (nth (y0, k0) es t).1 (prop t) in
  (forall t, (t < T)%N -> nth [::] sol t =
     resample (prop t) [seq x / jsum (lik t) | x <- lik t] (split1 (nth (y0, k0) es t).2)) /\
  r.1.2 = a - \sum_(0 <= t < T) log (jmean (lik t)).
Proof.
rewrite {}/T; elim: es s a => [|[y k] es IH] s a.
  by split=> //; rewrite /= big_geq // subr0.
rewrite scan_cons' /=; set s1 := resample _ _ _; set a1 := a - _.
have [h1 h2] := IH s1 a1; split.
  case=> [_|t]; first by [].
  rewrite ltnS => ht; have := h1 t ht; rewrite /=.
  by case: t ht => [|t] ht.
rewrite h2 /a1 -addrA -opprD; congr (_ - _); rewrite big_nat_recl //=; congr (_ + _).
by apply: eq_big_nat => t _; case: t.
Qed.

Lemma bootstrap_steps ys key n (T := size ys) (keys := split_keys key T) :
  let r := run ys key n in
  let sol := r.1 in
  let prev t := if t is t'.+1 then nth [::] sol t' else init_sampler key n in
  let prop t := transition_sampler (prev t) (nth k0 keys t) in
  let lik t := pdf (nth y0 ys t) (prop t) in
  [/\ size sol = T,
      forall t, (t < T)%N -> nth [::] sol t =
        resample (prop t) [seq x / jsum (lik t) | x <- lik t] (split1 (nth k0 keys t))
    & r.2 = - \sum_(0 <= t < T) log (jmean (lik t))].
Proof.
rewrite /bootstrap_filter -/T -/keys.
have hs : size keys = size ys by rewrite split_size.
have hz : size (zip ys keys) = T by rewrite size_zip hs minnn.
have := bootstrap_scan (init_sampler key n) 0 (zip ys keys).
have := size_scan' body (init_sampler key n, 0) (zip ys keys).
case: (scan _ _ _) => [[s nell] sol] /= e0; rewrite hz in e0 *.
have en t : nth (y0, k0) (zip ys keys) t = (nth y0 ys t, nth k0 keys t) by rewrite nth_zip.
move=> [h1 h2]; split=> //.
  by move=> t ht; have := h1 t ht; rewrite en.
rewrite h2 sub0r; congr (- _); apply: eq_bigr => t _; by rewrite en.
Qed.
End Bootstrap.

(* One resampling step of valid schemes. *)
Section Step.
Variables (R : rcfType) (X K : Type) (x0 : X).

Lemma gather_step (resampling : seq R -> K -> seq nat) (prop : seq X) (lik : seq R) (k : K) :
  valid_resampling resampling -> size lik = size prop ->
  all (fun x => 0 <= x) lik -> 0 < \sum_(x <- lik) x ->
  let idx := resampling [seq x / jsum lik | x <- lik] k in
  gather x0 prop idx = [seq nth x0 prop j | j <- idx] /\
  [/\ size idx = size prop, forall j, j \in idx -> (j < size prop)%N
    & forall j, j \in idx -> 0 < nth 0 lik j].
Proof.
move=> hv hs hp h0 idx; have hj : jsum lik = \sum_(x <- lik) x by rewrite jsumE.
have hw : weight_vector [seq x / jsum lik | x <- lik] by apply: normalise_weight; rewrite ?hj.
have [h1 h2] := hv _ k hw; rewrite -/idx size_map hs in h1 h2.
have hl j : j \in idx -> (j < size prop)%N by move=> /h2 [].
split; first by apply/eq_in_map => j /hl hj'; rewrite jget_nth.
split=> // j hi; have [h3] := h2 j hi; rewrite (nth_map 0) ?hs // hj pmulr_lgt0 // invr_gt0 //.
Qed.
End Step.

Section BootstrapRun.
Variables (R : rcfType) (log : R -> R).
Variables (X Y K : Type) (x0 : X) (y0 : Y) (k0 : K).
Variables (split1 : K -> K) (split_keys : K -> nat -> seq K).
Hypothesis split_size : forall k m, size (split_keys k m) = m.
Variables (transition_sampler : seq X -> K -> seq X) (pdf : Y -> seq X -> seq R).
Variables (resampling : seq R -> K -> seq nat).
Variables (init_sampler : K -> nat -> seq X).

(* the inputs are proper *)
Hypothesis init_size : forall k m, size (init_sampler k m) = m.
Hypothesis trans_size : forall s k, size (transition_sampler s k) = size s.
Hypothesis pdf_size : forall y s, size (pdf y s) = size s.
Hypothesis pdf_ge0 : forall y s, all (fun x => 0 <= x) (pdf y s).

Local Notation run ys key n :=
  (bootstrap_filter log split1 split_keys transition_sampler pdf (discrete_resample x0 resampling)
     ys init_sampler key n).

Lemma bootstrap_valid ys key n (T := size ys) (keys := split_keys key T) :
  valid_resampling resampling ->
  let r := run ys key n in
  let sol := r.1 in
  let prev t := if t is t'.+1 then nth [::] sol t' else init_sampler key n in
  let prop t := transition_sampler (prev t) (nth k0 keys t) in
  let lik t := pdf (nth y0 ys t) (prop t) in
  (forall t, (t < T)%N -> 0 < \sum_(x <- lik t) x) ->
  [/\ size sol = T,
      forall t, (t < T)%N -> exists idx,
        [/\ idx = resampling [seq x / \sum_(v <- lik t) v | x <- lik t] (split1 (nth k0 keys t)),
            nth [::] sol t = [seq nth x0 (prop t) j | j <- idx], size idx = n,
            forall j, j \in idx -> (j < n)%N & forall j, j \in idx -> 0 < nth 0 (lik t) j]
    & r.2 = - \sum_(0 <= t < T) log ((\sum_(x <- lik t) x) / n%:R)].
Proof.
move=> hv r sol prev prop lik hpos.
have [h1 h2 h3] := bootstrap_steps log y0 k0 split1 split_size transition_sampler pdf
  (discrete_resample x0 resampling) init_sampler ys key n.
have st t : (t < T)%N -> size (prop t) = size (prev t) ->
  exists idx,
        [/\ idx = resampling [seq x / \sum_(v <- lik t) v | x <- lik t] (split1 (nth k0 keys t)),
            nth [::] sol t = [seq nth x0 (prop t) j | j <- idx], size idx = size (prev t),
            forall j, j \in idx -> (j < size (prev t))%N & forall j, j \in idx -> 0 < nth 0 (lik t) j].
  move=> ht <-; have := h2 t ht; rewrite -/T -/keys -/r -/sol -/(prev t) -/(prop t) -/(lik t) => ->.
  have hs : size (lik t) = size (prop t) by rewrite pdf_size.
  have [e1 [e2 e3 e4]] := gather_step x0 (split1 (nth k0 keys t)) hv hs (pdf_ge0 _ _) (hpos t ht).
  rewrite -jsumE; by eexists; split; [reflexivity|exact: e1| | |].
have sz t : (t <= T)%N -> size (prev t) = n.
  elim: t => [|t IH] ht /=; first exact: init_size.
  have [idx [_ -> e _ _]] := st t ht (trans_size _ _).
  by rewrite size_map e IH // ltnW.
split=> //.
  move=> t ht; have := st t ht (trans_size _ _); by rewrite sz // ltnW.
rewrite h3; congr (- _); apply: eq_big_nat => t /andP [_ ht].
rewrite -/T -/keys -/r -/sol -/(prev t) -/(prop t) -/(lik t) /jmean jsumE.
by rewrite pdf_size trans_size sz // ltnW.
Qed.
End BootstrapRun.

(* The continuous resampling branch: particles on the line stay within the range of the
   propagated ones, in increasing order. *)
Section BootstrapConti.
Variables (R : rcfType) (log : R -> R).
Variables (Y K : Type) (y0 : Y) (k0 : K).
Variables (split1 : K -> K) (split_keys : K -> nat -> seq K).
Hypothesis split_size : forall k m, size (split_keys k m) = m.
Variables (transition_sampler : seq R -> K -> seq R) (pdf : Y -> seq R -> seq R).
Variables (ss : seq R -> R -> nat) (eps : R) (uniform : K -> nat -> seq R).
Hypothesis ssP : ss_right_spec ss.
Hypothesis eps0 : 0 <= eps.
Hypothesis uni_size : forall k m, size (uniform k m) = m.
Hypothesis uni_in : forall k m, all (fun u => 0 <= u < 1) (uniform k m).
Variables (init_sampler : K -> nat -> seq R).
Hypothesis init_size : forall k m, size (init_sampler k m) = m.
Hypothesis trans_size : forall s k, size (transition_sampler s k) = size s.
Hypothesis pdf_size : forall y s, size (pdf y s) = size s.
Hypothesis pdf_ge0 : forall y s, all (fun x => 0 <= x) (pdf y s).

Lemma bootstrap_conti ys key n (T := size ys) (keys := split_keys key T) : (0 < n)%N ->
  let r := bootstrap_filter log split1 split_keys transition_sampler pdf
     (continuous_resample ss eps uniform n) ys init_sampler key n in
  let sol := r.1 in
  let prev t := if t is t'.+1 then nth [::] sol t' else init_sampler key n in
  let prop t := transition_sampler (prev t) (nth k0 keys t) in
  let lik t := pdf (nth y0 ys t) (prop t) in
  (forall t, (t < T)%N -> 0 < \sum_(x <- lik t) x) ->
  [/\ size sol = T,
      forall t, (t < T)%N -> size (nth [::] sol t) = n /\ sorted <=%R (nth [::] sol t),
      forall t y, (t < T)%N -> y \in nth [::] sol t ->
        exists a b, [/\ a \in prop t, b \in prop t & a <= y <= b]
    & r.2 = - \sum_(0 <= t < T) log ((\sum_(x <- lik t) x) / n%:R)].
Proof.
move=> n0 r sol prev prop lik hpos.
have [h1 h2 h3] := bootstrap_steps log y0 k0 split1 split_size transition_sampler pdf
  (continuous_resample ss eps uniform n) init_sampler ys key n.
have hsol t : (t < T)%N -> size (nth [::] sol t) = n.
  by move=> ht; rewrite /sol /r h2 // size_conti.
have sz t : (t <= T)%N -> size (prev t) = n.
  by case: t => [|t] ht /=; [exact: init_size|exact: hsol].
have hw t : (t < T)%N -> all (fun x => 0 <= x) [seq x / jsum (lik t) | x <- lik t].
  move=> ht; apply/allP => x /mapP [z hz ->]; rewrite divr_ge0 ?(allP (pdf_ge0 _ _) _ hz) //.
  by rewrite jsumE ltW // hpos.
have hp t : (t < T)%N -> size (prop t) = n by move=> ht; rewrite trans_size sz // ltnW.
split=> //.
- move=> t ht; split; first exact: hsol.
  rewrite /sol /r h2 //; apply: (conti_sorted ssP eps0); rewrite ?hp ?uni_size ?uni_in //.
  exact: hw.
- move=> t y ht; rewrite {1}/sol /r h2 // => hy.
  apply: (conti_range ssP eps0 (weights := [seq x / jsum (lik t) | x <- lik t]) (m := n) (us := uniform (split1 (nth k0 keys t)) n)) => //.
  + by rewrite hp.
  + exact: hw.
rewrite h3; congr (- _); apply: eq_big_nat => t /andP [_ ht].
by rewrite -/T -/keys -/r -/sol -/(prev t) -/(prop t) -/(lik t) /jmean jsumE pdf_size hp.
Qed.
End BootstrapConti.

(* Multiplying the likelihood by positive constants. *)
Section Scaling.
Variables (R : rcfType) (log : R -> R).
Variables (X Y K : Type) (y0 : Y) (k0 : K).
Variables (split1 : K -> K) (split_keys : K -> nat -> seq K).
Hypothesis split_size : forall k m, size (split_keys k m) = m.
Variables (transition_sampler : seq X -> K -> seq X) (pdf : Y -> seq X -> seq R).
Variables (resample : seq X -> seq R -> K -> seq X).
Variables (init_sampler : K -> nat -> seq X).
Variable c : Y -> R.
Hypothesis c0 : forall y, 0 < c y.
Hypothesis logM : forall a b, 0 < a -> 0 < b -> log (a * b) = log a + log b.
Local Notation pdf' := (fun y s => [seq c y * x | x <- pdf y s]).
Local Notation run f ys key n :=
  (bootstrap_filter log split1 split_keys transition_sampler f resample ys init_sampler key n).

Lemma scaled_scan s a a' es :
  (scan (bootstrap_body log split1 transition_sampler pdf' resample) (s, a') es).2 =
  (scan (bootstrap_body log split1 transition_sampler pdf resample) (s, a) es).2.
Proof.
elim: es s a a' => [//|[y k] es IH] s a a'; rewrite !scan_cons' /= normalise_scale ?gt_eqF //.
by congr (_ :: _); exact: IH.
Qed.

Lemma jmean_scale (d : R) w : jmean [seq d * x | x <- w] = d * jmean w.
Proof. by rewrite /jmean !jsumE big_map -mulr_sumr size_map mulrA. Qed.

Lemma bootstrap_scale ys key n (T := size ys) (keys := split_keys key T) :
  let r := run pdf ys key n in
  let prev t := if t is t'.+1 then nth [::] r.1 t' else init_sampler key n in
  let lik t := pdf (nth y0 ys t) (transition_sampler (prev t) (nth k0 keys t)) in
  (forall t, (t < T)%N -> 0 < jmean (lik t)) ->
  (run pdf' ys key n).1 = r.1 /\
  (run pdf' ys key n).2 = r.2 - \sum_(y <- ys) log (c y).
Proof.
move=> r prev lik hpos.
have e1 : (run pdf' ys key n).1 = r.1.
  rewrite /r /bootstrap_filter; have := scaled_scan (init_sampler key n) 0 0 (zip ys (split_keys key (size ys))).
  by case: (scan _ _ _) => a b; case: (scan _ _ _) => a' b'.
split=> //.
have [_ _ h] := bootstrap_steps log y0 k0 split1 split_size transition_sampler pdf resample init_sampler ys key n.
have [_ _ h'] := bootstrap_steps log y0 k0 split1 split_size transition_sampler pdf' resample init_sampler ys key n.
rewrite h' e1 h -opprD; congr (- _).
rewrite (big_nth y0) -big_split /=; apply: eq_big_nat => t /andP [_ ht].
rewrite -/T -/keys -/r -/(prev t) -/(lik t) jmean_scale logM ?hpos //; first exact: addrC.
Qed.
End Scaling.

Section Particle.
Variables (R : rcfType).
Variables (X Y K : Type) (x0 : X) (y0 : Y) (k0 : K).
Variables (split1 : K -> K) (split_keys : K -> nat -> seq K).
Hypothesis split_size : forall k m, size (split_keys k m) = m.
Variables (proposal_sampler : seq X -> Y -> K -> seq X).
Variables (qdens : seq X -> seq X -> Y -> seq R) (tdens : seq X -> seq X -> seq R).
Variables (pdf : Y -> seq X -> seq R) (resampling : seq R -> K -> seq nat).
Variables (init_sampler : K -> nat -> seq X).

Local Notation body := (particle_body x0 split1 proposal_sampler qdens tdens pdf resampling).
Local Notation run ys key n :=
  (particle_filter x0 split1 split_keys proposal_sampler qdens tdens pdf resampling ys init_sampler key n).
Definition importance (y : Y) (prop anc : seq X) : seq R :=
  [seq nth 0 (pdf y prop) i * nth 0 (tdens prop anc) i / nth 0 (qdens prop anc y) i | i <- iota 0 (size prop)].

Hypothesis pdf_size : forall y s, size (pdf y s) = size s.
Hypothesis tdens_size : forall s s', size (tdens s s') = size s.
Hypothesis qdens_size : forall s s' y, size (qdens s s' y) = size s.

Lemma importanceE y prop anc :
  [seq t.1.1 * t.1.2 / t.2 | t <- zip (zip (pdf y prop) (tdens prop anc)) (qdens prop anc y)]
  = importance y prop anc.
Proof.
apply: (@eq_from_nth _ 0); rewrite /importance !size_map !size_zip pdf_size tdens_size qdens_size !minnn ?size_iota //.
move=> i hi; rewrite (nth_map (0, 0, 0)) ?size_zip ?pdf_size ?tdens_size ?qdens_size ?minnn //.
rewrite nth_zip ?size_zip ?pdf_size ?tdens_size ?qdens_size ?minnn //.
rewrite nth_zip ?pdf_size ?tdens_size //.
by rewrite (nth_map 0%N) ?size_iota // nth_iota.
Qed.

Lemma particle_scan s es (T := size es) :
  let sol := (scan body s es).2 in
  let prev t := if t is t'.+1 then nth [::] sol t' else s in
  let prop t := proposal_sampler (prev t) (nth (y0, k0) es t).1 (nth (y0, k0) es t).2 in
  let wgt t := importance (nth (y0, k0) es t).1 (prop t) (prev t) in
  forall t, (t < T)%N -> nth [::] sol t =
    gather x0 (prop t) (resampling [seq x / jsum (wgt t) | x <- wgt t] (split1 (nth (y0, k0) es t).2)).
Proof.
rewrite {}/T; elim: es s => [|[y k] es IH] s; first by [].
rewrite scan_cons' /= importanceE; set s1 := gather _ _ _.
case=> [_|t]; first by [].
by rewrite ltnS => ht; have := IH s1 t ht; rewrite /=; case: t ht => [|t] ht.
Qed.

(* the inputs are proper *)
Hypothesis init_size : forall k m, size (init_sampler k m) = m.
Hypothesis prop_size : forall s y k, size (proposal_sampler s y k) = size s.
Hypothesis pdf_ge0 : forall y s, all (fun x => 0 <= x) (pdf y s).
Hypothesis tdens_ge0 : forall s s', all (fun x => 0 <= x) (tdens s s').
Hypothesis qdens_gt0 : forall s s' y, all (fun x => 0 < x) (qdens s s' y).

Lemma importance_ge0 y prop anc : all (fun x => 0 <= x) (importance y prop anc).
Proof.
apply/allP => x /mapP [i]; rewrite mem_iota add0n => /andP [_ hi] ->.
rewrite divr_ge0 ?mulr_ge0 //; first by apply: (all_nthP 0 (pdf_ge0 _ _)); rewrite pdf_size.
  by apply: (all_nthP 0 (tdens_ge0 _ _)); rewrite tdens_size.
by apply/ltW/(all_nthP 0 (qdens_gt0 _ _ _)); rewrite qdens_size.
Qed.

Lemma particle_valid ys key n (T := size ys) (keys := split_keys key T) :
  valid_resampling resampling ->
  let sol := run ys key n in
  let prev t := if t is t'.+1 then nth [::] sol t' else init_sampler key n in
  let prop t := proposal_sampler (prev t) (nth y0 ys t) (nth k0 keys t) in
  let wgt t := importance (nth y0 ys t) (prop t) (prev t) in
  (forall t, (t < T)%N -> 0 < \sum_(x <- wgt t) x) ->
  size sol = T /\
  forall t, (t < T)%N -> exists idx,
    [/\ idx = resampling [seq x / \sum_(v <- wgt t) v | x <- wgt t] (split1 (nth k0 keys t)),
        nth [::] sol t = [seq nth x0 (prop t) j | j <- idx], size idx = n,
        forall j, j \in idx -> (j < n)%N & forall j, j \in idx -> 0 < nth 0 (wgt t) j].
Proof.
move=> hv sol prev prop wgt hpos.
have hs : size keys = size ys by rewrite split_size.
have hz : size (zip ys keys) = T by rewrite size_zip hs minnn.
have h1 : size sol = T by rewrite /sol /particle_filter size_scan'.
have h2 t : (t < T)%N -> nth [::] sol t =
    gather x0 (prop t) (resampling [seq x / jsum (wgt t) | x <- wgt t] (split1 (nth k0 keys t))).
  move=> ht; have := particle_scan (init_sampler key n) (es := zip ys keys) (t := t).
  by rewrite hz nth_zip // => /(_ ht).
have st t : (t < T)%N -> 
  exists idx,
        [/\ idx = resampling [seq x / \sum_(v <- wgt t) v | x <- wgt t] (split1 (nth k0 keys t)),
            nth [::] sol t = [seq nth x0 (prop t) j | j <- idx], size idx = size (prev t),
            forall j, j \in idx -> (j < size (prev t))%N & forall j, j \in idx -> 0 < nth 0 (wgt t) j].
  move=> ht; have hps : size (prop t) = size (prev t) by rewrite prop_size.
  have hws : size (wgt t) = size (prop t) by rewrite size_map size_iota.
  have [e1 [e2 e3 e4]] := gather_step x0 (split1 (nth k0 keys t)) hv hws (importance_ge0 _ _ _) (hpos t ht).
  rewrite h2 // -hps -jsumE; by eexists; split; [reflexivity|exact: e1| | |].
have sz t : (t <= T)%N -> size (prev t) = n.
  elim: t => [|t IH] ht /=; first exact: init_size.
  have [idx [_ -> e _ _]] := st t ht.
  by rewrite size_map e IH // ltnW.
split=> // t ht; have := st t ht; by rewrite sz // ltnW.
Qed.
End Particle.

(* The bootstrap proposal. *)
Section Refine.
Variables (R : rcfType) (log : R -> R).
Variables (X Y K : Type) (x0 : X).
Variables (split1 : K -> K) (split_keys : K -> nat -> seq K).
Variables (transition_sampler : seq X -> K -> seq X) (tdens : seq X -> seq X -> seq R).
Variables (pdf : Y -> seq X -> seq R) (resampling : seq R -> K -> seq nat).
Variables (init_sampler : K -> nat -> seq X).
Hypothesis pdf_size : forall y s, size (pdf y s) = size s.
Hypothesis tdens_size : forall s s', size (tdens s s') = size s.
Hypothesis tdens_neq0 : forall s s', all (fun x => x != 0) (tdens s s').

Lemma particle_bootstrap ys key n :
  particle_filter x0 split1 split_keys (fun s _ k => transition_sampler s k)
    (fun s s' _ => tdens s s') tdens pdf resampling ys init_sampler key n =
  (bootstrap_filter log split1 split_keys transition_sampler pdf (discrete_resample x0 resampling)
     ys init_sampler key n).1.
Proof.
rewrite /particle_filter /bootstrap_filter.
set es := zip _ _; set s := init_sampler _ _; set a := 0.
suff h : (scan (particle_body x0 split1 (fun s _ k => transition_sampler s k)
    (fun s s' _ => tdens s s') tdens pdf resampling) s es).2 =
  (scan (bootstrap_body log split1 transition_sampler pdf (discrete_resample x0 resampling)) (s, a) es).2.
  by rewrite h; case: (scan _ _ _).
elim: es s a => [//|[y k] es IH] s a; rewrite !scan_cons' /=.
have -> : forall prop, [seq t.1.1 * t.1.2 / t.2 | t <- zip (zip (pdf y prop) (tdens prop s)) (tdens prop s)] = pdf y prop.
  move=> prop; apply: (@eq_from_nth _ 0); rewrite !size_map !size_zip pdf_size tdens_size !minnn //.
  move=> i hi; rewrite (nth_map (0, 0, 0)) ?size_zip ?pdf_size ?tdens_size ?minnn //.
  rewrite nth_zip ?size_zip ?pdf_size ?tdens_size ?minnn //.
  rewrite nth_zip ?pdf_size ?tdens_size //= mulfK //.
  by apply: (all_nthP 0 (tdens_neq0 _ _)); rewrite tdens_size.
by congr (_ :: _); exact: IH.
Qed.
End Refine.
