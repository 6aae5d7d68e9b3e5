(* Properties C45, C46: sigma-point rules. *)
From mathcomp Require Import all_ssreflect all_algebra.
From mathcomp Require Import ring zify.
From mathcomp Require Import polyrcf.
From Verif Require Import Prelude QuadSpec Moments1DModel Moments1DSpec GfsModel GfsSpec GfsSgp.
From Verif Require Import SigmaModel SigmaSpec SigmaCub SigmaGh SigmaGhNd SigmaGhRule.
Set Implicit Arguments.
Unset Strict Implicit.
Unset Printing Implicit Defensive.
Import Order.TTheory GRing.Theory Num.Theory.
Local Open Scope ring_scope.

(* C45: the cubature rule has equal weights summing to one, mean zero, identity covariance
   and zero third moments. *)
Theorem cubature_moments (R : rcfType) d : (0 < d)%N ->
  let sg := cubature R d in
  [/\ size (sg_xi sg) = (2 * d)%N, sg_w sg = nseq (2 * d) ((2 * d)%:R^-1),
      sg_rule (sg_w sg) (sg_xi sg)
    & forall i j k, \sum_(p <- zip (sg_w sg) (sg_xi sg)) p.1 * (p.2 i 0 * p.2 j 0 * p.2 k 0) = 0].
Proof.
move=> hd sg; split; [| |exact: cubature_rule|exact: cubature_third].
  by rewrite /sg /= size_map size_cat !size_map -enumT size_enum_ord mul2n addnn.
rewrite /sg /= div1r; move: (_^-1) => c.
have h n a : [seq c | _ <- iota a n] = nseq n c by elim: n a => [|n IH] a //=; rewrite IH.
exact: h.
Qed.

(* C45: hence every polynomial of degree at most three is integrated exactly under
   N(m, L L^T). *)
Theorem cubature_cubic_exact (R : rcfType) d (m : 'cV[R]_d) (L : 'M[R]_d) c0 c1 c2 c3 : (0 < d)%N ->
  let sg := cubature R d in
  sg_expectation sg [seq (cubic c0 c1 c2 c3 x)%:M : 'M[R]_1 | x <- gen_sigma_points sg m L]
  = (gauss_cubic c0 c1 c2 c3 m (L *m L^T))%:M.
Proof.
move=> hd sg; rewrite [LHS]mx11_scalar; congr (_%:M).
by apply: cubic_exact; [exact: cubature_rule|exact: cubature_third].
Qed.

Section GaussHermite.
Variable R : rcfType.
Variable roots : seq R -> seq R.
Variable pi : R.
Hypothesis hroots : roots_spec roots.
Hypothesis pi0 : 0 < pi.

(* C46: the rule of order n+1 is the full tensor grid: there are n+1 distinct nodes, the
   zeros of the Hermite polynomial, with weights that integrate polynomials of degree at
   most 2n+1 under N(0, 1), and every tuple of nodes occurs exactly once with the product
   of the weights. *)
Theorem gauss_hermite_grid d n : let sg := gauss_hermite roots pi d n.+1 in
  exists (xs : 'I_n.+1 -> R) (lam : 'I_n.+1 -> R),
  [/\ injective xs, forall x, (exists i, x = xs i) <-> hermite_probabilist n.+1 x = 0,
      forall p : {poly R}, (size p <= n.+1.*2)%N ->
        \sum_i lam i * p.[xs i] = mom_functional (gauss_moment 0 1) p,
      size (sg_w sg) = (n.+1 ^ d)%N /\ size (sg_xi sg) = (n.+1 ^ d)%N
    & perm_eq (zip (sg_w sg) (sg_xi sg))
        [seq (\prod_r lam (f r), \col_r xs (f r)) | f : {ffun 'I_d -> 'I_n.+1} <- enum {ffun 'I_d -> 'I_n.+1}]].
Proof.
move=> sg; have [sx ux mx rx] := gh_nodes_rule hroots (ltn0Sn n).
set X := gh_nodes roots n.+1 in sx ux mx rx.
exists (fun i => X`_i), (fun i => gh_lambda n.+1 X`_i); split.
- by move=> i j /eqP; rewrite nth_uniq ?sx // => /eqP /val_inj.
- move=> x; split=> [[i ->]|/eqP]; first by apply/eqP; rewrite -mx mem_nth ?sx.
  by rewrite -mx => /(nthP 0) [i hi <-]; rewrite sx in hi; exists (Ordinal hi).
- by move=> p hp; rewrite -(rx p hp) [RHS](big_nth 0) sx big_mkord.
- by rewrite /sg /= !size_map size_iota.
exact: (gh_grid hroots pi0 d (ltn0Sn n)).
Qed.

(* C46: polynomials of degree at most 2 order - 1 in each variable are integrated exactly
   under N(0, I). *)
Theorem gauss_hermite_exact d order (ts : seq (R * ('I_d -> nat))) : (0 < order)%N ->
  all (fun t => [forall i, (t.2 i <= 2 * order - 1)%N]) ts ->
  let sg := gauss_hermite roots pi d order in
  sg_expectation sg [seq (mpoly_eval ts x)%:M : 'M[R]_1 | x <- gen_sigma_points sg 0 1%:M]
  = (mpoly_gauss ts)%:M.
Proof.
move=> n0 ht sg; rewrite [LHS]mx11_scalar; congr (_%:M); rewrite sg_scalarE /EE.
rewrite -(gh_mpoly hroots pi0 n0 (ts := ts)); last first.
  apply: sub_all ht => t /forallP h; apply/forallP=> i; have := h i; lia.
by apply: eq_bigr => p _; rewrite add0r mul1mx.
Qed.

(* C46: from order two on the rule has unit mass, mean zero, identity covariance and zero
   third moments, so it can replace the cubature rule in C44 and integrates cubics exactly
   under N(m, L L^T). *)
Theorem gauss_hermite_moments d order : (1 < order)%N ->
  let sg := gauss_hermite roots pi d order in
  sg_rule (sg_w sg) (sg_xi sg) /\
  forall (m : 'cV[R]_d) (L : 'M[R]_d) c0 c1 c2 c3,
    sg_expectation sg [seq (cubic c0 c1 c2 c3 x)%:M : 'M[R]_1 | x <- gen_sigma_points sg m L]
    = (gauss_cubic c0 c1 c2 c3 m (L *m L^T))%:M.
Proof.
move=> n2 sg; have hr := gh_sg_rule hroots pi0 d n2; split=> // m L c0 c1 c2 c3.
rewrite [LHS]mx11_scalar; congr (_%:M).
by apply: cubic_exact => //; exact: (gh_third hroots pi0 n2).
Qed.
End GaussHermite.

Print Assumptions cubature_moments.
Print Assumptions cubature_cubic_exact.
Print Assumptions gauss_hermite_grid.
Print Assumptions gauss_hermite_exact.
Print Assumptions gauss_hermite_moments.

(* A root finder meeting the specification. *)
Example roots_ref_spec (R : rcfType) : roots_spec (fun c : seq R => rootsR (Poly (rev c))).
Proof.
move=> c xs hc ux sx ax; case: c hc sx ax => [|a c] //=; first by rewrite eqxx.
set p := Poly _ => ha sx ax.
have sp : size p = (size xs).+1.
  by rewrite /p rev_cons (@PolyK _ 0) ?size_rcons ?size_rev ?sx // last_rcons.
have p0 : p != 0 by rewrite -size_poly_eq0 sp.
have ep := @all_roots_prod_XsubC _ p xs sp.
have rp : all (root p) xs by apply/allP => x /(allP ax).
have {ep} ep := ep rp; rewrite uniq_rootsE in ep; have {ep} ep := ep ux.
have hr := roots_on_rootsR p0.
apply: uniq_perm => //; first exact: uniq_roots.
move=> x; have := hr x; rewrite !inE /= => <-.
by rewrite ep rootZ ?lead_coef_eq0 // root_prod_XsubC.
Qed.
