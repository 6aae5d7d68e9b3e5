(* The Gauss-Hermite rule has unit mass, mean zero, identity covariance and zero third
   moments from order two on. *)
From mathcomp Require Import all_ssreflect all_algebra.
From mathcomp Require Import ring zify.
From Verif Require Import Prelude Moments1DSpec GfsModel GfsSpec.
From Verif Require Import SigmaModel SigmaSpec SigmaCub SigmaGh SigmaGhNd.
Set Implicit Arguments.
Unset Strict Implicit.
Unset Printing Implicit Defensive.
Import Order.TTheory GRing.Theory Num.Theory.
Local Open Scope ring_scope.

Section Rule.
Variable R : rcfType.
Variable roots : seq R -> seq R.
Variable pi : R.
Hypothesis hroots : roots_spec roots.
Hypothesis pi0 : 0 < pi.
Variables (d n : nat).
Hypothesis n2 : (1 < n)%N.
Local Notation sg := (gauss_hermite roots pi d n).
Local Notation g k := (gauss_moment (0 : R) 1 k).

Lemma gh_mono (e : 'I_d -> nat) : (forall i, (e i < 4)%N) ->
  \sum_(p <- zip (sg_w sg) (sg_xi sg)) p.1 * (\prod_i p.2 i 0 ^+ e i) = \prod_i g (e i).
Proof.
move=> he; have := gh_mpoly hroots pi0 (ltnW n2) (d := d) (ts := [:: (1, e)]).
have hh : all (fun t : R * ('I_d -> nat) => [forall i, (t.2 i < n.*2)%N]) [:: (1, e)].
  by rewrite /= andbT; apply/forallP=> i; have := he i; lia.
move=> /(_ hh); rewrite /mpoly_gauss big_seq1 mul1r => <-.
by apply: eq_bigr => p _; rewrite /mpoly_eval big_seq1 /term_eval /= mul1r.
Qed.

Lemma prod_delta (x : 'I_d -> R) (i : 'I_d) : \prod_k x k ^+ (k == i) = x i.
Proof.
rewrite (bigD1 i) //= eqxx expr1 big1 ?mulr1 // => k /negbTE ->.
by rewrite expr0.
Qed.

Lemma g1 : g 1 = 0. Proof. by rewrite /gauss_moment /=; ring. Qed.
Lemma g2 : g 2 = 1. Proof. by rewrite /gauss_moment /=; ring. Qed.
Lemma g3 : g 3 = 0. Proof. by rewrite /gauss_moment /=; ring. Qed.

Lemma prod0 (e : 'I_d -> nat) i : g (e i) = 0 -> \prod_k g (e k) = 0.
Proof. by move=> h; rewrite (bigD1 i) //= h mul0r. Qed.

Lemma gh_sg_rule : sg_rule (sg_w sg) (sg_xi sg).
Proof.
split.
- by rewrite !size_map.
- have := gh_mono (e := fun=> 0%N) (fun=> isT).
  rewrite [RHS]big1 // => <-; apply: eq_bigr => p _.
  by rewrite big1 ?mulr1.
- apply/matrixP=> i j; rewrite (ord1 j) summxE mxE.
  have := gh_mono (e := fun k => (k == i : nat)).
  rewrite (prod0 (i := i)) ?eqxx ?g1 // => h; rewrite -[RHS]h.
    by apply: eq_bigr => p _; rewrite mxE prod_delta.
  by move=> k; case: eqP.
apply/matrixP=> i j; rewrite summxE mxE.
have := gh_mono (e := fun k => ((k == i) + (k == j))%N) => h.
transitivity (\prod_k g ((k == i) + (k == j))).
  rewrite -h; last by move=> k; do 2 case: eqP.
  apply: eq_bigr => p _; rewrite mxE mxE big_ord1 mxE; congr (_ * _).
  by rewrite -(prod_delta (fun k => p.2 k 0) i) -(prod_delta (fun k => p.2 k 0) j) -big_split
    /=; apply: eq_bigr => k _; rewrite exprD.
case: (eqVneq i j) => [<-|ij]; last first.
  by rewrite (prod0 (i := i)) // eqxx (negbTE ij) g1.
rewrite (bigD1 i) //= eqxx g2 mul1r big1 // => k /negbTE -> //.
Qed.

Lemma gh_third : third_zero sg.
Proof.
move=> i j k.
have := gh_mono (e := fun l => ((l == i) + (l == j) + (l == k))%N) => h.
transitivity (\prod_l g ((l == i) + (l == j) + (l == k))).
  rewrite -h; last by move=> l; do 3 case: eqP.
  apply: eq_bigr => p _; congr (_ * _).
  rewrite -[p.2 i 0](prod_delta (fun k => p.2 k 0) i) -[p.2 j 0](prod_delta (fun k => p.2 k 0) j).
  rewrite -[p.2 k 0](prod_delta (fun k => p.2 k 0) k) -!big_split /=.
  by apply: eq_bigr => l _; rewrite !exprD.
case: (eqVneq i j) => [<-|ij].
  case: (eqVneq k i) => [->|ik]; first by rewrite (prod0 (i := i)) // eqxx g3.
  by rewrite (prod0 (i := k)) // eqxx (negbTE ik) g1.
case: (eqVneq k i) => [->|ik].
  by rewrite (prod0 (i := j)) // eqxx eq_sym (negbTE ij) g1.
by rewrite (prod0 (i := i)) // eqxx (negbTE ij) eq_sym (negbTE ik) g1.
Qed.
End Rule.
