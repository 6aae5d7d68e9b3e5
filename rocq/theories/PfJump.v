(* With stratified resampling the particle-filter objective of dardel/parameter_estimation/pf.py jumps. *)
From mathcomp Require Import all_ssreflect all_algebra.
From mathcomp Require Import zify ring.
From Verif Require Import Prelude LinAlgSpec Moments1DModel SsModel SsProofs ResampleModel ResampleSpec ResampleProofs
  ResampleConti ResampleRefs SmcProofs NearSpec ResampleCont BootCont PfModel PfCont.
Set Implicit Arguments.
Unset Strict Implicit.
Unset Printing Implicit Defensive.
Import Order.TTheory GRing.Theory Num.Theory.
Local Open Scope ring_scope.

Section Jump.
Variables (R : rcfType) (exp log : R -> R).
Hypotheses (expP : exp_spec exp) (logP : log_spec exp log).
Variables (ss_left ss_right : seq R -> R -> nat) (eps : R).
Hypothesis ssP : ss_left_spec ss_left.
Variable q : R * R.

Let exp0 x : 0 < exp x. Proof. by case: expP. Qed.
Let expm x y : x < y -> exp x < exp y. Proof. by case: expP => _ _; exact. Qed.
Local Notation pos := (positive_params exp log).
Local Notation half := (1 / 2%:R : R).

(* the likelihood of a zero count *)
Local Notation g p x := (wp_pmf exp log 0 x p).
Lemma g0 p x : g p x = (1 + exp (p * x))^-1.
Proof.
rewrite /wp_pmf /poisson_pmf /wp_emission expr0 mul1r divr1 expN //.
by case: logP => _ ->; rewrite ?addr_gt0 ?ltr01.
Qed.
Lemma g_sum p x : g p x + g p (- x) = 1.
Proof.
rewrite !g0 mulrN (expN expP).
have h := exp0 (p * x); move: (exp _) h => e he.
have h1 : e != 0 by rewrite gt_eqF.
have h2 : 1 + e != 0 by rewrite gt_eqF ?addr_gt0 ?ltr01.
by field; rewrite h1 addrC h2.
Qed.
Lemma pos_lt a b : a < b -> pos a < pos b.
Proof. by move=> h; apply: (log_mono expP logP); rewrite ?addr_gt0 ?ltr01 // ltr_add2r expm. Qed.
Lemma pos_gt0 a : 0 < pos a.
Proof. by rewrite /positive_params addrC; exact: (softplus_gt0 expP logP). Qed.
Lemma g_lt p p' x : 0 < x -> p < p' -> g p' x < g p x.
Proof.
move=> hx h; rewrite !g0 ltf_pinv ?posrE ?addr_gt0 ?ltr01 //.
by rewrite ltr_add2l expm // ltr_pmul2r.
Qed.
Lemma g_half p x : 0 < x -> 0 < p -> g p x < half.
Proof.
move=> hx hp; rewrite g0 div1r ltf_pinv ?posrE ?addr_gt0 ?ltr01 ?ltr0n //.
by rewrite -[2%:R]/(1 + 1) ltr_add2l -(expz expP) expm // mulr_gt0.
Qed.
Lemma g_gt0 p x : 0 < g p x. Proof. exact: (wp_pmf_gt0 expP logP). Qed.

(* two particles at c and -c, one step of the Euler map *)
Let p1 := pos q.1.
Let p2 := pos q.2.
Definition jc : R := (1 + p1)^-1.
Definition jf (x : R) : R := x + wp_drift x p1 * ss_dt R.
Lemma jc_gt0 : 0 < jc. Proof. by rewrite invr_gt0 addr_gt0 ?ltr01 // pos_gt0. Qed.
Lemma jf_odd x : jf (- x) = - jf x. Proof. by rewrite /jf /wp_drift sqrrN; ring. Qed.
Lemma jf_gt0 : 0 < jf jc.
Proof.
have hp := pos_gt0 q.1; have hc := jc_gt0.
rewrite /jf addr_gt0 // mulr_gt0 ?mulr_gt0 // ?divr_gt0 ?invr_gt0 ?ltr01 ?ltr0n //.
rewrite subr_gt0 -/p1 /jc exprVn ltr_pdivr_mulr ?exprn_gt0 ?addr_gt0 ?ltr01 // mul1r.
by rewrite -subr_gt0 (_ : _ - _ = 1 + p1 + p1 ^+ 2) ?addr_gt0 ?ltr01 ?exprn_gt0 //; ring.
Qed.

(* keys are numbers *)
Definition jsplit1 (k : nat) : nat := (k + 10)%N.
Definition jsplit (k m : nat) : seq nat := iota k.+1 m.
Definition juniform (k m : nat) : seq R :=
  [seq (if (k == 11)%N && (i == 0)%N then 2%:R * g p2 jc else half) | i <- iota 0 m].
Definition jnormal (k m : nat) : seq R :=
  [seq (if (k == 1)%N then ((if (i == 0)%N then jc else - jc) - jf (- half)) / Num.sqrt (ss_dt R) else 0) | i <- iota 0 m].

Lemma juniform_in k m : all (fun u => 0 < u < 1) (juniform k m).
Proof.
apply/allP => x /mapP [i _ ->]; case: ifP => _; last exact: half_in.
rewrite mulr_gt0 ?ltr0n ?g_gt0 //= -ltr_pdivl_mull ?ltr0n // mulrC.
by apply: g_half; [exact: jc_gt0|exact: pos_gt0].
Qed.

Local Notation obj := (wp_pf_objective exp log ss_left ss_right eps jsplit1 jsplit juniform jnormal (@wp_pf_euler R) false 2).

Lemma jinit : wp_init_sampler ss_left jsplit1 juniform jnormal 0%N 2 = [:: - half; - half].
Proof.
rewrite /wp_init_sampler /gs_sampler /jax_choice /juniform /jnormal /= !mulr0 !addr0.
have w : weight_vector [:: half; half].
  split; first by rewrite /= !divr_ge0 ?ler01 ?ler0n.
  by rewrite !big_cons big_nil addr0; field.
have e : ss_left (cumsum [:: half; half]) ((0 + half + half) * (1 - half)) = 0%N.
  have hs : sorted <=%R (cumsum [:: half; half]) by apply: cumsum_sorted; case: w.
  have [_ h _] := ssP ((0 + half + half) * (1 - half)) hs.
  case: (ss_left _ _) h => // m /(_ 0%N isT); rewrite /= add0r => h; exfalso; move: h.
  by rewrite (_ : _ * _ = half) ?ltxx //; field.
by move: e; rewrite /cumsum /= => ->; rewrite /jget.
Qed.

Lemma dt_gt0 : 0 < ss_dt R. Proof. by rewrite divr_gt0 ?ltr01 ?ltr0n. Qed.
Lemma jprop1 : wp_pf_proposal jnormal (wp_pf_euler p1) 2 [:: - half; - half] 1%N = [:: jc; - jc].
Proof.
rewrite /wp_pf_proposal /jnormal /= /ss_dispersion expr1n !mul1r -!/(jf _).
have h : Num.sqrt (ss_dt R) != 0 by rewrite gt_eqF // sqrtr_gt0 dt_gt0.
have e a b : a + Num.sqrt (ss_dt R) * ((b - a) / Num.sqrt (ss_dt R)) = b.
  by rewrite mulrCA divff // mulr1 addrC subrK.
by rewrite !e.
Qed.
Lemma jprop2 a b : wp_pf_proposal jnormal (wp_pf_euler p1) 2 [:: a; b] 2%N = [:: jf a; jf b].
Proof. by rewrite /wp_pf_proposal /jnormal /= !mulr0 !addr0. Qed.

Lemma jidx (a : R) : 0 < a -> a < half ->
  stratified ss_left [:: a; 1 - a] (juniform 11 2) = [:: if g p2 jc <= a then 0%N else 1%N; 1%N].
Proof.
move=> a0 a1; have w : weight_vector [:: a; 1 - a].
  split; last by rewrite !big_cons big_nil addr0; ring.
  rewrite /= andbT (ltW a0) subr_ge0; apply: ltW; apply: lt_trans a1 _.
  by case/andP: (half_in R).
have c1 : cdf [:: a; 1 - a] 1 = a by rewrite /cdf /= big_cons big_nil addr0.
have c2 : cdf [:: a; 1 - a] 2 = 1 by rewrite /cdf /= !big_cons big_nil addr0; ring.
have gj : g p2 jc < half by apply: g_half; [exact: jc_gt0|exact: pos_gt0].
have -> : stratified ss_left [:: a; 1 - a] (juniform 11 2) =
  [:: clip_index 2 (ss_left (cumsum [:: a; 1 - a]) ((0 + 2%:R * g p2 jc) / 2%:R));
      clip_index 2 (ss_left (cumsum [:: a; 1 - a]) ((1 + half) / 2%:R))] by [].
rewrite add0r; congr [:: _; _].
  have e : 2%:R * g p2 jc / 2%:R = g p2 jc by rewrite mulrC mulKf // pnatr_eq0.
  rewrite e; have h0 := g_gt0 p2 jc.
  have hle : g p2 jc <= 1 by apply: ltW; apply: lt_trans gj _; case/andP: (half_in R).
  have hi := search_inverse ssP w h0 hle.
  apply: (inverse_cdf_unique (proj1 w) hi); case: ifP => h.
    by split; rewrite ?cdf0 ?c1.
  by split; rewrite ?c1 ?c2 // ltNge h.
have v0 : 0 < (1 + half) / 2%:R.
  by rewrite divr_gt0 ?addr_gt0 ?ltr01 ?ltr0n //; case/andP: (half_in R).
have v1 : half < (1 + half) / 2%:R.
  by rewrite -subr_gt0 (_ : _ - _ = 1 / 4%:R) ?divr_gt0 ?ltr01 ?ltr0n //; field.
have v2 : (1 + half) / 2%:R <= 1.
  by rewrite -subr_ge0 (_ : _ - _ = 1 / 4%:R) ?divr_ge0 ?ler01 ?ler0n //; field.
have hi := search_inverse ssP w v0 v2.
by apply: (inverse_cdf_unique (proj1 w) hi); split; rewrite ?c1 ?c2 //; apply: lt_trans v1.
Qed.

Lemma objE b : obj (q.1, b) [:: 0; 0]%N 0%N =
  - log half - log (if g p2 jc <= g (pos b) jc then half else g (pos b) (- jf jc)).
Proof.
rewrite /wp_pf_objective /bootstrap_filter -/p1 jinit.
set body := bootstrap_body _ _ _ _ _; set p := pos b in body *.
have ga x : 1 - g p x = g p (- x) by rewrite -(g_sum p x) addrC addKr.
have hm (x y : R) : x + y = 1 -> jmean [:: x; y] = half.
  by move=> h; rewrite /jmean jsumE !big_cons big_nil addr0 h.
have js : jsum [:: g p jc; g p (- jc)] = 1 by rewrite jsumE !big_cons big_nil addr0 g_sum.
have [s1 hs1 b1] : exists2 s1, s1 = [:: if g p2 jc <= g p jc then jc else - jc; - jc] &
    body ([:: - half; - half], 0) (0%N, 1%N) = ((s1, - log half), s1).
  eexists; first reflexivity.
  rewrite /body /bootstrap_body jprop1.
  rewrite (_ : [seq g p x | x <- [:: jc; - jc]] = [:: g p jc; g p (- jc)]) // js (hm _ _ (g_sum p jc)) sub0r.
  rewrite (_ : [seq w / 1 | w <- [:: g p jc; g p (- jc)]] = [:: g p jc; g p (- jc)]); last by rewrite /= !divr1.
  rewrite /discrete_resample -[size _]/2%N -[jsplit1 _]/11%N -ga jidx ?g_gt0 //; last first.
    by apply: g_half; [exact: jc_gt0|exact: pos_gt0].
  by rewrite /gather /= /jget /=; case: ifP.
have [a2 b2] : exists s2, body (s1, - log half) (0%N, 2%N) =
    ((s2, - log half - log (if g p2 jc <= g p jc then half else g p (- jf jc))), s2).
  eexists; rewrite /body /bootstrap_body hs1 jprop2; congr (_, _, _); congr (_ - log _).
  rewrite (_ : [seq g p x | x <- [:: _; _]] = [:: g p (jf (if g p2 jc <= g p jc then jc else - jc)); g p (jf (- jc))]) //.
  case: ifP => _; rewrite jf_odd; first by rewrite hm // g_sum.
  rewrite /jmean jsumE !big_cons big_nil addr0 -mulr2n -mulr_natr mulfK //.
  by rewrite pnatr_eq0.
have -> : zip [:: 0; 0]%N (jsplit 0 (size [:: 0; 0]%N)) = [:: (0, 1); (0, 2)]%N by [].
rewrite scan_cons' b1 -[((s1, _), s1).1]/(s1, - log half) scan_cons' b2; exact: erefl.
Qed.

Lemma jump : exists2 e, 0 < e & forall d, 0 < d ->
  exists q', [/\ `|q'.1 - q.1| < d, `|q'.2 - q.2| < d & e <= `|obj q' [:: 0; 0]%N 0%N - obj q [:: 0; 0]%N 0%N|].
Proof.
have h1 : half < g p2 (- jf jc).
  have := g_half jf_gt0 (pos_gt0 q.2); rewrite -/p2 => h.
  have e := g_sum p2 (jf jc); rewrite -subr_gt0.
  have -> : g p2 (- jf jc) - half = half - g p2 (jf jc).
    by rewrite -(addKr (g p2 (jf jc)) (g p2 (- jf jc))) e; field.
  by rewrite subr_gt0.
have h0 : 0 < half by case/andP: (half_in R).
exists (log (g p2 (- jf jc)) - log half).
  by rewrite subr_gt0; apply: (log_mono expP logP) => //; exact: g_gt0.
move=> d d0; exists (q.1, q.2 + d / 2%:R).
have dd : 0 < d / 2%:R by rewrite divr_gt0 ?ltr0n.
split=> /=; first by rewrite subrr normr0.
  rewrite addrAC subrr add0r gtr0_norm // ltr_pdivr_mulr ?ltr0n // ltr_pmulr //.
  by rewrite (_ : 1 = 1%:R) // ltr_nat.
have hp : p2 < pos (q.2 + d / 2%:R) by apply: pos_lt; rewrite ltr_addl.
have hg := g_lt jc_gt0 hp.
have eq : q = (q.1, q.2) by case: (q).
have -> : obj q [:: 0; 0]%N 0%N = obj (q.1, q.2) [:: 0; 0]%N 0%N by rewrite -eq.
rewrite !objE -/p2 lexx [g p2 jc <= _]leNgt hg /=.
set p := pos (_ + _) in hp hg *.
have hl : log (g p2 (- jf jc)) < log (g p (- jf jc)).
  apply: (log_mono expP logP); rewrite ?g_gt0 //.
  have h := g_lt jf_gt0 hp; have e1 := g_sum p2 (jf jc); have e2 := g_sum p (jf jc).
  have -> : g p2 (- jf jc) = 1 - g p2 (jf jc) by rewrite -e1 addrC addKr.
  have -> : g p (- jf jc) = 1 - g p (jf jc) by rewrite -e2 addrC addKr.
  by rewrite ltr_add2l ltr_opp2.
have hh : log half < log (g p2 (- jf jc)) by apply: (log_mono expP logP) => //; exact: g_gt0.
rewrite distrC ger0_norm; last by rewrite opprD addrACA subrr add0r opprK addrC subr_ge0 ltW // (lt_trans hh).
move: hl hh; move: (log (g p _)) (log (g p2 _)) (log half) => x y z hl _.
by rewrite (_ : - z - z - (- z - x) = x - z) ?ler_add2r ?ltW //; ring.
Qed.
End Jump.
