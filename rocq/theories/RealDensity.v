(* Laws given by a density on the line, over the reals of the standard library, and the quadrature rule of their
   moments: proofs. *)
From Coq Require Import Reals.
From mathcomp Require Import all_ssreflect all_algebra ring zify.
From Verif Require Import Prelude LinAlgSpec QuadModel QuadSpec QuadProofs QuadMain QuadStrict QuadStieltjes Moments1DModel Moments1DSpec
  Moments1DConv Moments1DProofs LawSpec LawProofs RealField RealWitness RealGauss RealGamma RealNormal RealInvFourier PlotQuadModel
  RealDensitySpec.
Set Implicit Arguments.
Unset Strict Implicit.
Unset Printing Implicit Defensive.
Import Order.TTheory GRing.Theory Num.Theory.
Local Open Scope ring_scope.
Arguments line_integral _ _ : clear scopes.
Arguments cont_at _ _ : clear scopes.
Arguments line_pos _ _ _ : clear scopes.
Local Notation K := R_rcfType.

Section Density.
Variables (w : K -> K).
Hypothesis hw : is_density w.
Let Dw (f : K -> K) : Prop := exists l, line_integral (fun x => f x * w x) l.
Let Lw (f : K -> K) : K := Epsilon.epsilon (inhabits (0 : K)) (line_integral (fun x => f x * w x)).

Lemma dens_lawP f : Dw f -> line_integral (fun x => f x * w x) (Lw f).
Proof. move=> h; exact: (Epsilon.epsilon_spec (inhabits (0 : K)) _ h). Qed.

Lemma dens_lawE f l : line_integral (fun x => f x * w x) l -> Lw f = l.
Proof.
move=> h; have h' : Dw f by exists l.
exact: line_unique (dens_lawP h') h.
Qed.

Lemma dens_is_law : is_law (fun x => w x != 0) Dw Lw.
Proof.
case: hw => w0 wp w1 _; split.
- exact: wp.
- move=> f g [l h] e; exists l; apply: line_ext h => x.
  by have [->|/e ->] := eqVneq (w x) 0; rewrite ?mulr0.
- move=> c f g [l h] [k h']; exists (c * l + k).
  by apply: line_ext (line_plus _ _ _ _ (line_scal c _ _ h) h') => x; rewrite RplusE !RmultE mulrDl mulrA.
- move=> c f g /dens_lawP h /dens_lawP h'; apply: dens_lawE.
  by apply: line_ext (line_plus _ _ _ _ (line_scal c _ _ h) h') => x; rewrite RplusE !RmultE mulrDl mulrA.
- move=> f g /dens_lawP h /dens_lawP h' hfg; apply/RleE; apply: (line_le _ _ _ _ _ h h') => x; apply/RleE.
  by have [->|/hfg hx] := eqVneq (w x) 0; rewrite ?mulr0 // ler_wpmul2r.
by apply: dens_lawE; apply: line_ext w1 => x; rewrite mul1r.
Qed.

(* a non-zero polynomial is non-zero somewhere in every interval *)
Lemma non_root (p : {poly K}) (a b : K) : p != 0 -> a < b -> exists2 x, a < x < b & p.[x] != 0.
Proof.
move=> p0 ab; pose n := size p.
pose pt (i : nat) : K := a + (b - a) * (i.+1%:R / n.+2%:R).
have n0 : (0 : K) < n.+2%:R by rewrite ltr0n.
have d0 : 0 < b - a by rewrite subr_gt0.
have h1 i : (i < n)%N -> a < pt i < b.
  move=> hi; rewrite /pt ltr_addl mulr_gt0 ?divr_gt0 ?ltr0n //=.
  rewrite -ltr_subr_addl gtr_pmulr // ltr_pdivr_mulr // mul1r ltr_nat; lia.
case: (boolP (has (fun i => p.[pt i] != 0) (iota 0 n))) => [/hasP [i]|/hasPn h].
  by rewrite mem_iota add0n => /andP [_ hi] hp; exists (pt i); rewrite ?h1.
have hu : uniq [seq pt i | i <- iota 0 n].
  rewrite map_inj_uniq ?iota_uniq // => i j /addrI /mulfI; rewrite gt_eqF // => /(_ isT) /divIf.
  by rewrite gt_eqF // => /(_ isT) /eqP; rewrite eqr_nat eqSS => /eqP.
have hr : all (root p) [seq pt i | i <- iota 0 n].
  by rewrite all_map; apply/allP => i /h /=; rewrite negbK.
by have := max_poly_roots p0 hr hu; rewrite size_map size_iota ltnn.
Qed.

Lemma dens_nondegenerate : nondegenerate Lw.
Proof.
case: hw => w0 wp w1 [a [b [ab hc]]] p p0.
have [x hx px] := non_root p0 ab; have [wx cx] := hc _ hx.
have hl : line_integral (fun z => p.[z] ^+ 2 * w z) (Lw (fun z => p.[z] ^+ 2)).
  apply: (@dens_lawP (fun z => p.[z] ^+ 2)); have [l h] := wp (p ^+ 2); exists l.
  by apply: line_ext h => z; rewrite horner_exp.
apply/RltE; apply: (line_pos _ _ x hl).
- by move=> z; apply/RleE; rewrite mulr_ge0 // sqr_ge0.
- by apply/RltE; rewrite mulr_gt0 // lt_neqAle sqr_ge0 eq_sym expf_neq0.
apply/cont_at_pt; apply: (continuity_pt_mult (fun z => p.[z] ^+ 2) w); last exact/cont_at_pt.
apply/cont_at_pt; apply: (cont_at_ext (fun z => (p ^+ 2).[z])) => [z|]; first by rewrite horner_exp.
by apply/cont_at_pt; exact: R_poly_continuous.
Qed.

Lemma dens_indicator c : Dw (fun x => ((x <= c)%R)%:R) /\ Dw (fun x => ((x < c)%R)%:R).
Proof.
case: hw => w0 wp w1 _; have [hi _] := w1.
have bnd (f : K -> K) : (forall x, `|f x| <= 1) -> locally_integrable (fun x => f x * w x) -> Dw f.
  move=> hf hl; apply: (line_dominated _ _ _ w1 hl) => x; apply/RleE; rewrite RabsE normrM.
  by rewrite (ger0_norm (w0 x)) ler_pimull.
split; apply: bnd => [x|]; rewrite ?ger0_norm ?ler0n ?lern1 ?leq_b1 //.
- apply: (cut_integrable w _ c hi) => x /RltE hx; last by rewrite leNgt hx mul0r.
  by rewrite ltW // mul1r.
- apply: (cut_integrable w _ c hi) => x /RltE hx; last by rewrite ltNge ltW // mul0r.
  by rewrite hx mul1r.
Qed.

Variable chol : forall n, 'M[K]_n -> 'M[K]_n.
Variable eigh : forall n, 'M[K]_n -> 'M[K]_n * 'rV[K]_n.
Hypothesis cholP : chol_spec chol.
Hypothesis eighP : eigh_spec eigh.

Lemma dens_rule (ms : seq K) (m : K) (N : nat) ldl : (0 < N)%N -> size ms = N.*2 ->
  (forall k, (k < N.*2)%N -> line_integral (fun x => (x - m) ^+ k * w x) ms`_k) ->
  exists ws, exists2 xs, moment_quadrature chol eigh ms m 1 ldl = Some (ws, xs) & gauss_rule w N ws xs.
Proof.
move=> N0 sz hm; have hL := dens_is_law.
have sz2 : (size ms)./2 = N by rewrite sz doubleK.
have hmom : has_moments Lw m 1 ms N.*2.
  move=> k /hm h; apply: dens_lawE; apply: line_ext h => x; by rewrite divr1.
have n1 : (1 : K) != 0 := oner_neq0 _.
have ha : admissible (nth 0 ms) N.
  move=> p p0 sp.
  have s2 : (size (p * p)%R <= N.*2)%N.
    by rewrite (leq_trans (size_mul_leq _ _)) //; move: sp; move: (size p) => u; lia.
  have [d <-] := law_horner hL n1 hmom s2.
  have e x : w x != 0 -> (p * p).[(x - m) / 1] = (p \Po ('X - m%:P)).[x] ^+ 2.
    by move=> _; rewrite divr1 hornerM horner_comp hornerXsubC expr2.
  rewrite (law_eq hL d e); apply: dens_nondegenerate.
  by rewrite comp_poly2_eq0 ?size_XsubC.
have sz1 : (1 < size ms)%N by rewrite sz; lia.
rewrite -sz2 in ha hmom.
have [ws [xs hq [s1 s2 _]]] := quadrature_moments_main cholP eighP m ldl sz1 n1 ha.
exists ws, xs => //; have [_ wp ux] := quad_strict cholP eighP n1 ha hq.
have ex (p : {poly K}) : (size p <= N.*2)%N -> expect ws xs (fun x => p.[x]) = Lw (fun x => p.[x]).
  by move=> sp; apply: (law_exact cholP eighP hL n1 ha hmom hq); rewrite sz2.
split.
- by rewrite s1 s2 sz2.
- exact: ux.
- by split=> //; have [] := quadrature_weights cholP eighP ha hq.
- move=> p sp; rewrite ex //; apply: (@dens_lawP (fun x => p.[x])).
  by case: hw => _ wpol _ _; exact: wpol.
- by move=> a h; apply/allP; exact: (nodes_lower cholP eighP hL n1 ha hmom hq h).
- by move=> b h; apply/allP; exact: (nodes_upper cholP eighP hL n1 ha hmom hq h).
move=> t e he; exists (Lw (fun x => ((x <= t)%R)%:R)).
  by apply: (@dens_lawP (fun x => ((x <= t)%R)%:R)); have [] := dens_indicator t.
by apply: (cdf_close cholP eighP hL n1 ha hmom hq t he) => c; exact: dens_indicator.
Qed.
End Density.
