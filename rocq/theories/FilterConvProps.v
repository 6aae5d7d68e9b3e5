(* Property C109: the moment filters converge to the exact Bayesian filter.
   A model over the real numbers that meets the hypotheses is Example jump_filters_converge in RealFilterConv. *)
From mathcomp Require Import all_ssreflect all_algebra.
From mathcomp Require Import ring zify.
From Verif Require Import Prelude Egf LinAlgSpec QuadModel QuadSpec QuadProofs QuadMain QuadStrict
  Moments1DModel Moments1DSpec Moments1DProofs Moments1DConv Filter1DModel Filter1DProofs Filter1DSpec Filter1DSim Filter1DRun Filter1DProps
  SsModel SsProofs LawSpec LawProofs FilterConv.
Set Implicit Arguments.
Unset Strict Implicit.
Unset Printing Implicit Defensive.
Import Order.TTheory GRing.Theory Num.Theory.
Local Open Scope ring_scope.

(* a logarithm inverse to an increasing exponential is continuous *)
Lemma log_continuous (R : rcfType) (exp log : R -> R) : exp_spec exp -> SsProofs.log_spec exp log ->
  forall x e, 0 < x -> 0 < e -> exists2 d, 0 < d & forall z, 0 < z -> `|z - x| <= d -> `|log z - log x| <= e.
Proof.
move=> [e1 e2 e3] [l1 l2] x e x0 e0.
have lo : exp (log x - e) < x by rewrite -[X in _ < X]l2 // e3 // ltr_subl_addr ltr_addl.
have hi : x < exp (log x + e) by rewrite -[X in X < _]l2 // e3 // ltr_addl.
have lmono u v : 0 < u -> 0 < v -> u <= v -> log u <= log v.
  move=> u0 v0 uv; rewrite leNgt; apply/negP => /e3; rewrite !l2 //.
  by rewrite ltNge uv.
exists (Num.min (x - exp (log x - e)) (exp (log x + e) - x)).
  by rewrite lt_minr !subr_gt0 lo hi.
move=> z z0; rewrite le_minr => /andP []; rewrite !ler_distl => /andP [h1 _] /andP [_ h2].
apply/andP; split.
  by rewrite -[X in X <= _]l1; apply: lmono => //; rewrite (le_trans _ h1) // opprB addrCA subrr addr0.
by rewrite -[X in _ <= X]l1; apply: lmono => //; rewrite (le_trans h2) // addrCA subrr addr0.
Qed.

Section Props.
Variable R : rcfType.
Variable chol : forall n, 'M[R]_n -> 'M[R]_n.
Variable eigh : forall n, 'M[R]_n -> 'M[R]_n * 'rV[R]_n.
Variables (exp log : R -> R) (Y : Type) (a b : R).
Variables (K : R -> (R -> R) -> R) (g : Y -> R -> R).
Local Notation law := (is_law (itv a b) (approx a b)).

(* A hidden Markov model on [a, b]: K x is the law of the next state given x, it depends continuously
   on x and is not carried by finitely many points; the likelihoods are continuous and positive. *)
Definition compact_model (L0 : (R -> R) -> R) : Prop :=
  [/\ law L0 /\ nondegenerate L0,
      forall x, itv a b x -> law (K x) /\ nondegenerate (K x),
      forall f, approx a b f -> approx a b (fun x => K x f)
    & forall y, approx a b (g y) /\ exists2 d, 0 < d & forall x, itv a b x -> d <= g y x].

Lemma init_inv L0 n : law L0 -> nondegenerate L0 -> inv a b n (law_moments L0 n.*2) L0.
Proof.
move=> h0 hn; have sz : size (law_moments L0 n.*2) = n.*2 by rewrite size_map size_iota.
have hm : has_moments L0 0 1 (law_moments L0 n.*2) n.*2.
  by move=> k hk; rewrite nth_iota_map // (@mom_raw R a b L0 k h0).
by split=> //; exact: (nondeg_admissible sz h0 hm hn).
Qed.

(* C109, raw moments. *)
Theorem raw_filter_converges (cond : R -> nat -> R) st (L0 : (R -> R) -> R) ys :
  chol_spec chol -> eigh_spec eigh -> exp_spec exp -> SsProofs.log_spec exp log -> compact_model L0 ->
  (forall x k, itv a b x -> cond x k = K x (fun z => z ^+ k)) ->
  exists rmss nell,
    [/\ forall n, (0 < n)%N -> moment_filter_rms chol eigh log cond g st (law_moments L0 n.*2) ys = Some (rmss n, nell n),
        forall t k, (t < size ys)%N ->
          converges (fun n => (nth [::] (rmss n) t)`_k)
            (nth (fun=> 0) (bayes_posteriors K g L0 ys) t (fun x => x ^+ k))
      & converges nell (- \sum_(x <- bayes_likelihoods K g L0 ys) log x)].
Proof.
move=> hc he hex hlog [[h0 hn] hK hf hg] hcond.
pose body := rms_body chol eigh log cond g st.
pose r n := scan body (law_moments L0 n.*2, 0) ys.
exists (fun n => (r n).2), (fun n => (r n).1.2).
have [h1 h2] := @run_conv R chol eigh hc he log Y a b K g cond st (fun x hx => (hK x hx).1) (fun x hx => (hK x hx).2)
  hf hcond (fun y => (hg y).1) (fun y => (hg y).2) (log_continuous hex hlog) ys
  (fun n => law_moments L0 n.*2) (fun=> L0) L0 (fun=> 0) 0 (fun n _ => init_inv n h0 hn) h0
  (fun f _ => conv_const (L0 f)) (conv_const 0).
split=> [n n0|t k ht|].
- rewrite /moment_filter_rms size_map size_iota.
  have -> : (n.*2 < 2)%N = false by case: n n0.
  by rewrite -/body /r; case: (scan _ _ _).
- exact: h1.
- by rewrite -[X in converges _ X]sub0r.
Qed.

(* central moments of a law with raw moments m *)
Lemma central_law P n k c (m : seq R) : law P -> has_moments P 0 1 m n -> (k < n)%N ->
  central_moment (nth 0 m) c k = P (fun x => (x - c) ^+ k).
Proof.
move=> hP hm hk.
have sp : (size (('X - c%:P) ^+ k) <= n)%N by rewrite size_exp_XsubC.
have [d e] := law_horner hP (oner_neq0 _) hm sp; rewrite /central_moment -e.
by apply: (law_eq hP d) => x _; rewrite subr0 divr1 horner_exp hornerXsubC.
Qed.
Lemma law_moments_has P n : law P -> has_moments P 0 1 (law_moments P n) n.
Proof. by move=> h k hk; rewrite nth_iota_map // (@mom_raw R a b P k h). Qed.

Lemma central_conv P (r : nat -> seq R) k :
  law P -> (forall j, converges (fun n => (r n)`_j) (P (fun x => x ^+ j))) ->
  (exists n0, forall n, (n0 <= n)%N -> (k < size (r n))%N) ->
  converges (fun n => (raw_to_central (r n))`_k) (P (fun x => (x - P (fun z => z)) ^+ k)).
Proof.
move=> hP h [n0 hs].
have e1 : P (fun z => z ^+ 1) = P (fun z => z).
  by apply: (law_eq hP (approx_pow a b 1)) => x _; rewrite expr1.
have sum m c : central_moment m c k = \sum_(j < k.+1) 'C(k, j)%:R * m j * (- c) ^+ (k - j).
  rewrite central_aff /aff convC /conv; apply: eq_bigr => j _.
  by rewrite expr1n mul1r.
apply: (conv_ext (u := fun n => \sum_(j < k.+1) 'C(k, j)%:R * (r n)`_j * (- (r n)`_1) ^+ (k - j))).
  by exists n0 => n hn; rewrite raw_to_centralE ?hs // sum.
rewrite -(@central_law P k.+1 k _ _ hP (@law_moments_has P k.+1 hP)) // sum.
apply: conv_sum => j; apply: conv_mul; last by apply: conv_exp; apply: conv_opp; rewrite -e1.
apply: conv_mul; first exact: conv_const.
by rewrite nth_iota_map.
Qed.

(* every posterior is a law *)
Lemma posteriors_law L0 ys t : compact_model L0 -> (t < size ys)%N ->
  law (nth (fun=> 0) (bayes_posteriors K g L0 ys) t).
Proof.
move=> [[h0 hn] hK hf hg]; elim: ys t L0 h0 {hn} => [|y ys IH] [|t] L0 h0 //= ht; last first.
  by apply: IH => //; apply: exact_update; [move=> z; exact: (hg z).1|move=> z; exact: (hg z).2|];
     apply: exact_law => // x hx; exact: (hK x hx).1.
by apply: exact_update; [move=> z; exact: (hg z).1|move=> z; exact: (hg z).2|];
   apply: exact_law => // x hx; exact: (hK x hx).1.
Qed.

(* C109, central moments: here the transition laws and likelihoods are given on the whole line. *)
Theorem central_filter_converges (condc : R -> nat -> R -> R) (condm : R -> R) st (L0 : (R -> R) -> R) ys :
  chol_spec chol -> eigh_spec eigh -> exp_spec exp -> SsProofs.log_spec exp log -> compact_model L0 ->
  (forall x, law (K x) /\ nondegenerate (K x)) -> (forall y x, 0 < g y x) ->
  (forall x k c, condc x k c = K x (fun z => (z - c) ^+ k)) -> (forall x, condm x = K x (fun z => z)) ->
  exists out nell,
    [/\ forall n, (0 < n)%N ->
          moment_filter_cms chol eigh log condc condm g st
            [seq L0 (fun x => (x - L0 (fun z => z)) ^+ k) | k <- iota 0 n.*2] (L0 (fun z => z)) ys
          = Some (out n, nell n),
        forall t, (t < size ys)%N ->
          let pi := nth (fun=> 0) (bayes_posteriors K g L0 ys) t in
          converges (fun n => (nth ([::], 0) (out n) t).2) (pi (fun z => z)) /\
          forall k, converges (fun n => (nth ([::], 0) (out n) t).1`_k) (pi (fun x => (x - pi (fun z => z)) ^+ k))
      & converges nell (- \sum_(x <- bayes_likelihoods K g L0 ys) log x)].
Proof.
move=> hc he hex hlog hmod hK g0 hcc hcm.
have [rmss [nell [h1 h2 h3]]] := @raw_filter_converges (fun x k => K x (fun z => z ^+ k)) false L0 ys
  hc he hex hlog hmod (fun _ _ _ => erefl).
have [[hL0 hnd] _ _ _] := hmod.
have id1 P : law P -> P (fun z => z ^+ 1) = P (fun z => z).
  by move=> hP; apply: (law_eq hP (approx_pow a b 1)) => x _; rewrite expr1.
pose out n := [seq (raw_to_central r, r`_1) | r <- rmss n].
have adm n : admissible (nth 0 (law_moments L0 n.*2)) n.
  by case: (init_inv n hL0 hnd).
have hsz n : (0 < n)%N -> size (rmss n) = size ys /\ forall r, r \in rmss n -> size r = n.*2.
  move=> n0; have := h1 n n0; rewrite rms_run; case: ifP => // _ [<- _]; split; first exact: size_states.
  have hs0 : size (law_moments L0 n.*2) = n.*2 by rewrite size_map size_iota.
  move=> r /(nthP (law_moments L0 n.*2)) [i hi <-]; rewrite size_states in hi.
  apply: (proj1 (states_post (P := fun s => size s = n.*2) (Q := fun=> True) hs0 _ hi)) => s y h; split=> //.
  by rewrite size_rms_update size_rms_predict.
exists out, nell; split=> // [n n0|t ht].
- have hs0 : size (law_moments L0 n.*2) = n.*2 by rewrite size_map size_iota.
  have e1 : (law_moments L0 n.*2)`_1 = L0 (fun z => z).
    by rewrite nth_iota_map ?id1 //; case: (n) n0.
  have ec : [seq L0 (fun x => (x - L0 (fun z => z)) ^+ k) | k <- iota 0 n.*2] = raw_to_central (law_moments L0 n.*2).
    apply: (@eq_from_nth _ 0); first by rewrite size_raw_to_central !size_map !size_iota.
    move=> k; rewrite size_map size_iota => hk; rewrite nth_iota_map // raw_to_centralE ?hs0 // e1.
    by rewrite (@central_law L0 n.*2 k _ _ hL0 (@law_moments_has L0 n.*2 hL0)).
  rewrite ec -e1 (@raw_central_filters_agree R chol eigh log Y (fun x k => K x (fun z => z ^+ k)) condc condm g false) //.
  + by rewrite h1.
  + by rewrite hs0 doubleK.
  + move=> x; rewrite hs0 doubleK; have [hKx hKn] := hK x.
    apply: (@adm_ext R (nth 0 (law_moments (K x) n.*2))) => [k hk|]; first by rewrite nth_iota_map.
    by case: (init_inv n hKx hKn).
  + move=> x k c; rewrite hs0 => hk; rewrite hcc -(@central_law (K x) n.*2 k c _ (hK x).1 (@law_moments_has (K x) n.*2 (hK x).1)) //.
    apply: central_ext => j hj; by rewrite nth_iota_map // (leq_ltn_trans hj).
have hpi := posteriors_law hmod ht.
have nthE n : (0 < n)%N -> nth ([::], 0) (out n) t = (raw_to_central (nth [::] (rmss n) t), (nth [::] (rmss n) t)`_1).
  by move=> n0; rewrite (nth_map [::]) // (hsz n n0).1.
split=> [|k].
  rewrite -(id1 _ hpi); apply: conv_ext (h2 t 1%N ht); by exists 1%N => n n0; rewrite nthE.
apply: (conv_ext (u := fun n => (raw_to_central (nth [::] (rmss n) t))`_k)).
  by exists 1%N => n n0; rewrite nthE.
apply: central_conv => // [j|]; first exact: h2.
exists k.+1 => n hk; have n0 : (0 < n)%N by apply: leq_trans hk.
rewrite (hsz n n0).2; first by apply: (leq_trans hk); rewrite -addnn leq_addr.
by rewrite mem_nth // (hsz n n0).1.
Qed.

Lemma conv_sqrt (u : nat -> R) l : 0 < l -> converges u l -> converges (fun n => Num.sqrt (u n)) (Num.sqrt l).
Proof.
move=> l0 hu e e0; have s0 : 0 < Num.sqrt l by rewrite sqrtr_gt0.
have [n0 h] := hu (e * Num.sqrt l) (mulr_gt0 e0 s0).
have [n1 h1] := hu l l0.
exists (maxn n0 n1) => n; rewrite geq_max => /andP [/h hn /h1 hn1].
have u0 : 0 <= u n by move: hn1; rewrite ler_distl subrr => /andP [].
have p0 : 0 < Num.sqrt (u n) + Num.sqrt l by rewrite ltr_paddl // sqrtr_ge0.
rewrite -(ler_pmul2r p0) -[X in _ * X <= _](gtr0_norm p0) -normrM -subr_sqr !sqr_sqrtr ?(ltW l0) //.
apply: (le_trans hn); rewrite ler_pmul2l // ler_addr; exact: sqrtr_ge0.
Qed.

(* the posterior variances are positive if the transition variances are bounded below *)
Lemma posterior_variance L0 ys v : compact_model L0 -> 0 < v ->
  (forall x c, itv a b x -> v <= K x (fun z => (z - c) ^+ 2)) ->
  forall t c, (t < size ys)%N -> 0 < nth (fun=> 0) (bayes_posteriors K g L0 ys) t (fun x => (x - c) ^+ 2).
Proof.
move=> [[h0 _] hK hf hg] v0 hv t c; elim: ys t L0 h0 => [|y ys IH] t L0 h0 //.
have hp : law (bayes_predict K L0) by apply: exact_law => // x hx; exact: (hK x hx).1.
have [ga [d d0 hd]] := hg y.
have gp : 0 < bayes_predict K L0 (g y).
  by apply: (exact_pos (a := a) (b := b)) => // z; [exact: (hg z).1|exact: (hg z).2].
case: t => [_|t ht]; last first.
  by apply: IH => //=; apply: exact_update => // z; [exact: (hg z).1|exact: (hg z).2].
have aq : approx a b (fun x => (x - c) ^+ 2).
  by apply: (approx_mod (approx_poly a b (('X - c%:P) ^+ 2))) => x _; rewrite horner_exp hornerXsubC.
rewrite /= /bayes_update divr_gt0 //.
have [D1 e1] := law_scale hp d aq.
have [D2 e2] := law_scale h0 v (law_const h0 1).
apply: (@lt_le_trans _ _ (bayes_predict K L0 (fun x => d * (x - c) ^+ 2))).
  rewrite e1 mulr_gt0 // (lt_le_trans v0) // -[X in X <= _](law_constE h0 v) /bayes_predict.
  apply: (law_mono h0 (law_const h0 v)) => [|x hx]; [exact: hf|exact: hv].
apply: (law_mono hp D1) => [|x hx]; first exact: approx_mul.
by rewrite mulrC ler_wpmul2l ?sqr_ge0 // hd.
Qed.

(* C109, scaled central moments. *)
Theorem scaled_filter_converges (conds : R -> nat -> R -> R -> R) (condmv : R -> R * R) st (L0 : (R -> R) -> R) scale0 v ys :
  chol_spec chol -> eigh_spec eigh -> exp_spec exp -> SsProofs.log_spec exp log -> compact_model L0 ->
  (forall x, law (K x) /\ nondegenerate (K x)) -> (forall y x, 0 < g y x) ->
  0 < v -> (forall x c, itv a b x -> v <= K x (fun z => (z - c) ^+ 2)) ->
  (forall x k c r, 0 < r -> conds x k c r = K x (fun z => ((z - c) / r) ^+ k)) ->
  (forall x, (condmv x).1 = K x (fun z => z) /\ 0 < (condmv x).2) -> 0 < scale0 ->
  exists out nell,
    [/\ forall n, (1 < n)%N ->
          moment_filter_scms chol eigh log conds condmv g st
            [seq L0 (fun x => ((x - L0 (fun z => z)) / scale0) ^+ k) | k <- iota 0 n.*2] (L0 (fun z => z)) scale0 ys
          = Some (out n, nell n),
        forall t, (t < size ys)%N ->
          let pi := nth (fun=> 0) (bayes_posteriors K g L0 ys) t in
          let sd := Num.sqrt (pi (fun x => (x - pi (fun z => z)) ^+ 2)) in
          [/\ converges (fun n => (nth ([::], 0, 0) (out n) t).1.2) (pi (fun z => z)),
              converges (fun n => (nth ([::], 0, 0) (out n) t).2) sd
            & forall k, converges (fun n => (nth ([::], 0, 0) (out n) t).1.1`_k)
                (pi (fun x => ((x - pi (fun z => z)) / sd) ^+ k))]
      & converges nell (- \sum_(x <- bayes_likelihoods K g L0 ys) log x)].
Proof.
move=> hc he hex hlog hmod hK g0 v0 hv hcs hmv r0.
have divpow P c r k : law P -> P (fun z => ((z - c) / r) ^+ k) = P (fun z => (z - c) ^+ k) / r ^+ k.
  move=> hP; have D1 : approx a b (fun z => (z - c) ^+ k).
    by apply: (approx_mod (approx_poly a b (('X - c%:P) ^+ k))) => x _; rewrite horner_exp hornerXsubC.
  rewrite mulrC -(law_scale hP (r ^+ k)^-1 D1).2; apply: (law_eq hP) => [|x _].
    apply: (approx_mod (approx_poly a b (((r ^-1)%:P * ('X - c%:P)) ^+ k))) => x _.
    by rewrite horner_exp hornerM hornerC hornerXsubC mulrC.
  by rewrite exprMn exprVn mulrC.
pose condc x k c := K x (fun z => (z - c) ^+ k).
have [out [nell [h1 h2 h3]]] := @central_filter_converges condc (fun x => K x (fun z => z)) st L0 ys
  hc he hex hlog hmod hK g0 (fun _ _ _ => erefl) (fun _ => erefl).
have [[hL0 hnd] _ _ _] := hmod.
exists (fun n => [seq standardise s | s <- out n]), nell; split=> // [n n1|t ht].
- have n0 : (0 < n)%N by apply: leq_trans n1.
  set cms0 := [seq L0 (fun x => (x - L0 (fun z => z)) ^+ k) | k <- iota 0 n.*2].
  have sz : size cms0 = n.*2 by rewrite size_map size_iota.
  have -> : [seq L0 (fun x => ((x - L0 (fun z => z)) / scale0) ^+ k) | k <- iota 0 n.*2] =
      [seq cms0`_k / scale0 ^+ k | k <- iota 0 (size cms0)].
    rewrite sz; apply/eq_in_map => k; rewrite mem_iota add0n => /andP [_ hk].
    by rewrite nth_iota_map // divpow.
  have admP P c : law P -> nondegenerate P -> admissible (fun k => P (fun x => (x - c) ^+ k)) n.
    move=> hP hPn; have ha : admissible (nth 0 (law_moments P n.*2)) n by case: (init_inv n hP hPn).
    apply: adm_ext (adm_aff (- c) (oner_neq0 R) ha) => k hk.
    by rewrite -central_aff (@central_law P n.*2 k c _ hP (@law_moments_has P n.*2 hP)).
  rewrite (@central_scaled_filters_agree R chol eigh log Y condc (fun x => K x (fun z => z)) conds condmv g st) //.
  + by rewrite h1.
  + by rewrite sz; case: (n) n1 => [|[|m]].
  + rewrite sz doubleK; apply: adm_ext (admP L0 (L0 (fun z => z)) hL0 hnd) => k hk.
    by rewrite nth_iota_map.
  + by move=> x c; rewrite sz doubleK; apply: admP; [exact: (hK x).1|exact: (hK x).2].
  + by move=> x k c r _ hr; rewrite hcs // divpow //; exact: (hK x).1.
  + by move=> x; exact: (hmv x).1.
  + by move=> x; exact: (hmv x).2.
have hpi := posteriors_law hmod ht; have hvar := posterior_variance hmod v0 hv _ ht.
have [hm hk] := h2 t ht; cbv zeta; set pi := nth _ _ t in hm hk hpi hvar *.
have hout n : (0 < n)%N -> (t < size (out n))%N.
  move=> n0; have := h1 n n0; rewrite cms_run; case: ifP => // _ [<- _]; by rewrite size_states.
have osz n : (0 < n)%N -> size (nth ([::], 0) (out n) t).1 = n.*2.
  move=> n0; have := h1 n n0; rewrite cms_run; case: ifP => // _ [<- _].
  set s0 := ([seq _ | _ <- _], _); have hs0 : size s0.1 = n.*2 by rewrite /= size_map size_iota.
  rewrite (set_nth_default s0) ?size_states //.
  apply: (proj1 (states_post (P := fun s => size s.1 = n.*2) (Q := fun=> True) hs0 _ ht)) => s y h; split=> //.
  by rewrite /cms_step size_cms_update size_cms_predict.
have hsd := conv_sqrt (hvar _) (hk 2%N).
split.
- by apply: conv_ext hm; exists 1%N => n n0; rewrite (nth_map ([::], 0)) ?hout.
- by apply: conv_ext hsd; exists 1%N => n n0; rewrite (nth_map ([::], 0)) ?hout.
move=> k; rewrite divpow //.
apply: (conv_ext (u := fun n => (nth ([::], 0) (out n) t).1`_k / Num.sqrt ((nth ([::], 0) (out n) t).1`_2) ^+ k)); last first.
  by apply: conv_div (hk k) (conv_exp k hsd); rewrite exprn_gt0 // sqrtr_gt0.
exists k.+1 => n hn; have n0 : (0 < n)%N by apply: leq_trans hn.
rewrite (nth_map ([::], 0)) ?hout // /standardise /= nth_iota_map // osz //.
by apply: (leq_trans hn); rewrite -addnn leq_addr.
Qed.
End Props.

Print Assumptions raw_filter_converges.
Print Assumptions central_filter_converges.
Print Assumptions scaled_filter_converges.
