(* Properties C107 and C108: what the moment quadrature says about every law with the given moments. *)
From mathcomp Require Import all_ssreflect all_algebra.
From mathcomp Require Import ring zify.
From Verif Require Import Prelude LinAlgSpec LdlProofs SpectralProofs QuadModel QuadSpec QuadProofs QuadMain QuadStrict QuadStieltjes
  LawSpec LawProofs.
Set Implicit Arguments.
Unset Strict Implicit.
Unset Printing Implicit Defensive.
Import Order.TTheory GRing.Theory Num.Theory.
Local Open Scope ring_scope.

Section Props.
Variable R : rcfType.
Variable chol : forall n, 'M[R]_n -> 'M[R]_n.
Variable eigh : forall n, 'M[R]_n -> 'M[R]_n * 'rV[R]_n.
Variables (S : R -> bool) (D : (R -> R) -> Prop) (L : (R -> R) -> R).
Variables (ms : seq R) (mean scale : R) (ldl : bool) (ws xs : seq R).

(* C107: the Chebyshev-Markov-Stieltjes inequalities.  The distribution function of every law with
   the moments ms lies, at each node, between the sums of the weights before and up to the node ... *)
Theorem quadrature_separation c :
  chol_spec chol -> eigh_spec eigh -> is_law S D L -> scale != 0 ->
  admissible (nth 0 ms) (size ms)./2 -> has_moments L mean scale ms (size ms)./2.*2 ->
  moment_quadrature chol eigh ms mean scale ldl = Some (ws, xs) -> c \in xs ->
  D (fun x => ((x <= c)%R)%:R) -> D (fun x => ((x < c)%R)%:R) ->
  expect ws xs (fun x => ((x < c)%R)%:R) <= L (fun x => ((x < c)%R)%:R) /\
  L (fun x => ((x <= c)%R)%:R) <= expect ws xs (fun x => ((x <= c)%R)%:R).
Proof.
move=> hc he hL s0 ha hm hq hx d1 d2; split.
  exact: (cdf_lower hc he hL s0 ha hm hq hx d2).
exact: (cdf_upper hc he hL s0 ha hm hq hx d1).
Qed.

(* ... so that it differs from that of the rule by at most the largest weight, everywhere. *)
Theorem quadrature_distribution t e :
  chol_spec chol -> eigh_spec eigh -> is_law S D L -> scale != 0 ->
  admissible (nth 0 ms) (size ms)./2 -> has_moments L mean scale ms (size ms)./2.*2 ->
  moment_quadrature chol eigh ms mean scale ldl = Some (ws, xs) ->
  (forall c, D (fun x => ((x <= c)%R)%:R) /\ D (fun x => ((x < c)%R)%:R)) ->
  all (fun w => w <= e) ws ->
  `|L (fun x => ((x <= t)%R)%:R) - expect ws xs (fun x => ((x <= t)%R)%:R)| <= e.
Proof. by move=> hc he hL s0 ha hm hq hd hw; exact: (cdf_close hc he hL s0 ha hm hq t hw hd). Qed.

(* C108: the nodes lie in the convex hull of the support ... *)
Theorem quadrature_nodes_in_hull a b :
  chol_spec chol -> eigh_spec eigh -> is_law S D L -> scale != 0 ->
  admissible (nth 0 ms) (size ms)./2 -> has_moments L mean scale ms (size ms)./2.*2 ->
  moment_quadrature chol eigh ms mean scale ldl = Some (ws, xs) ->
  (forall x, S x -> a <= x <= b) -> forall c, c \in xs -> a <= c <= b.
Proof.
move=> hc he hL s0 ha hm hq hab c hx; apply/andP; split.
  by apply: (nodes_lower hc he hL s0 ha hm hq) hx => x /hab /andP [].
by apply: (nodes_upper hc he hL s0 ha hm hq) hx => x /hab /andP [].
Qed.

(* ... the error of the rule on any integrand is at most twice its distance to the polynomials of
   degree less than 2n on that hull ... *)
Theorem quadrature_error_bound a b f (p : {poly R}) e :
  chol_spec chol -> eigh_spec eigh -> is_law S D L -> scale != 0 ->
  admissible (nth 0 ms) (size ms)./2 -> has_moments L mean scale ms (size ms)./2.*2 ->
  moment_quadrature chol eigh ms mean scale ldl = Some (ws, xs) ->
  (forall x, S x -> a <= x <= b) -> D f -> (size p <= (size ms)./2.*2)%N ->
  (forall x, a <= x <= b -> `|f x - p.[x]| <= e) -> `|expect ws xs f - L f| <= e *+ 2.
Proof.
move=> hc he hL s0 ha hm hq hab df sp h; apply: (quad_error hc he hL s0 ha hm hq df sp) => x /orP [/hab|hx].
  exact: h.
exact/h/(quadrature_nodes_in_hull hc he hL s0 ha hm hq hab).
Qed.

(* ... and no law with these moments has a smaller moment of order 2n than the rule. *)
Theorem quadrature_even_moment (p : {poly R}) :
  chol_spec chol -> eigh_spec eigh -> is_law S D L -> scale != 0 ->
  admissible (nth 0 ms) (size ms)./2 -> has_moments L mean scale ms (size ms)./2.*2 ->
  moment_quadrature chol eigh ms mean scale ldl = Some (ws, xs) ->
  (size p <= (size ms)./2.*2.+1)%N -> 0 <= p`_((size ms)./2.*2) ->
  expect ws xs (fun x => p.[x]) <= L (fun x => p.[x]).
Proof. by move=> hc he hL s0 ha hm hq; exact: (quad_even hc he hL s0 ha hm hq). Qed.
End Props.

Print Assumptions quadrature_separation.
Print Assumptions quadrature_distribution.
Print Assumptions quadrature_nodes_in_hull.
Print Assumptions quadrature_error_bound.
Print Assumptions quadrature_even_moment.

(* Every discrete law, with any number of atoms, is a law in this sense ... *)
Lemma discrete_is_law (R : rcfType) (S : R -> bool) (as_ zs : seq R) :
  size as_ = size zs -> all (fun w => 0 <= w) as_ -> jsum as_ = 1 -> all S zs ->
  is_law S (fun=> True) (expect as_ zs).
Proof.
move=> hs wp w1 hx; split=> //.
- move=> c f g _ _; rewrite -expect_mul !expect_sumE -big_split /=.
  by apply: eq_bigr => q _; rewrite mulrDr.
- move=> f g _ _ h; rewrite !expect_sumE big_seq [X in _ <= X]big_seq; apply: ler_sum => q /zip_mem [q1 q2].
  by rewrite ler_wpmul2l ?(allP wp) // h // (allP hx).
rewrite expect_sumE -[RHS]w1 jsumE -[in RHS](unzip1_zip (eq_leq hs)) big_map.
by apply: eq_bigr => q _; rewrite mulr1.
Qed.

(* ... and one with three atoms meets the hypotheses for the two-node rule of its first four moments. *)
Example quadrature_law_ex (R : rcfType) :
  exists chol : forall n, 'M[R]_n -> 'M[R]_n,
  exists eigh : forall n, 'M[R]_n -> 'M[R]_n * 'rV[R]_n,
  let ms := [:: 1; 0; 2%:R^-1; 0] : seq R in
  let L := expect [:: 4%:R^-1; 2%:R^-1; 4%:R^-1] [:: -1; 0; 1] in
  [/\ chol_spec chol, eigh_spec eigh, is_law (fun x : R => -1 <= x <= 1) (fun=> True) L,
      admissible (nth 0 ms) 2 & has_moments L 0 1 ms 4].
Proof.
exists (@chol_ref R), (@eigh_ref R) => ms L.
have h2 : 0 < 2%:R^-1 :> R by rewrite invr_gt0 ltr0n.
have h4 : 0 < 4%:R^-1 :> R by rewrite invr_gt0 ltr0n.
have hm k : (k < 4)%N -> discrete_moment [:: 4%:R^-1; 2%:R^-1; 4%:R^-1] [:: -1; 0; 1] k = ms`_k.
  by rewrite /discrete_moment /= !big_cons big_nil; case: k => [|[|[|[|k]]]] //= _;
    rewrite ?expr0 ?expr1 ?expr2 ?exprS ?expr0; field.
split.
- exact: chol_ref_spec.
- exact: eigh_ref_spec.
- apply: discrete_is_law => //=.
  + by rewrite !ltW.
  + by rewrite /jsum /=; field.
  + have h11 : -1 <= 1 :> R := le_trans (lerN10 _) ler01.
    by rewrite !lexx h11 lerN10 ler01.
- move=> p p0 sp; have := @discrete_admissible R [:: 4%:R^-1; 2%:R^-1; 4%:R^-1] [:: -1; 0; 1] erefl _ _ p p0.
  rewrite (mom_eq (m' := nth 0 ms)) => [|k hk]; last first.
    apply: hm; apply: (leq_trans hk); rewrite (leq_trans (size_mul_leq _ _)) //.
    by move: sp; move: (size p) => u; lia.
  apply; rewrite ?(leq_trans sp) //=; last by rewrite h2 h4.
  by rewrite !inE negb_or oppr_eq0 oner_eq0 /= andbT [0 == 1]eq_sym oner_eq0 andbT lt_eqF // (lt_trans (ltrN10 _) ltr01).
- move=> k hk; rewrite -hm // /discrete_moment /L expect_sumE; apply: eq_bigr => q _.
  by rewrite subr0 divr1.
Qed.
