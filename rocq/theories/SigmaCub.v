(* The cubature rule: low moments and exactness on cubic polynomials. *)
From mathcomp Require Import all_ssreflect all_algebra.
From mathcomp Require Import ring.
From Verif Require Import Prelude LinAlgSpec GfsModel GfsSpec GfsSgp SigmaModel SigmaSpec.
Set Implicit Arguments.
Unset Strict Implicit.
Unset Printing Implicit Defensive.
Import Order.TTheory GRing.Theory Num.Theory.
Local Open Scope ring_scope.

Section Affine.
Variable R : rcfType.
Variables (d : nat) (sg : sigma_points R d).
Local Notation w := (sg_w sg).
Local Notation xi := (sg_xi sg).
Hypothesis hsg : sg_rule w xi.
Definition third_zero := forall i j k : 'I_d,
  \sum_(p <- zip w xi) p.1 * (p.2 i 0 * p.2 j 0 * p.2 k 0) = 0.
Hypothesis h3 : third_zero.
Variables (m : 'cV[R]_d) (L : 'M[R]_d).

Definition EE (f : 'cV[R]_d -> R) : R := \sum_(p <- zip w xi) p.1 * f p.2.
Lemma EE_ext f g : f =1 g -> EE f = EE g.
Proof. by move=> h; rewrite /EE; apply: eq_bigr => p _; rewrite h. Qed.
Lemma EE_add f g : EE (fun x => f x + g x) = EE f + EE g.
Proof. by rewrite /EE -big_split; apply: eq_bigr => p _; rewrite mulrDr. Qed.
Lemma EE_scale a f : EE (fun x => a * f x) = a * EE f.
Proof. by rewrite /EE mulr_sumr; apply: eq_bigr => p _; rewrite mulrCA. Qed.
Lemma EE_sum (I : finType) (f : I -> 'cV[R]_d -> R) : EE (fun x => \sum_i f i x) = \sum_i EE (f i).
Proof.
by rewrite /EE exchange_big; apply: eq_bigr => p _; rewrite mulr_sumr.
Qed.
Lemma EE1 : EE (fun=> 1) = 1.
Proof. by have [_ h _ _] := hsg; rewrite -[RHS]h; apply: eq_bigr => p _; rewrite mulr1. Qed.
Lemma EEc a : EE (fun=> a) = a.
Proof. by rewrite (EE_ext (g := fun=> a * 1)) ?EE_scale ?EE1 ?mulr1 // => x; rewrite mulr1. Qed.
Lemma EEx i : EE (fun x => x i 0) = 0.
Proof.
have [_ _ h _] := hsg; move/matrixP/(_ i 0): h; rewrite summxE mxE => <-.
by apply: eq_bigr => p _; rewrite mxE.
Qed.
Lemma EExx i j : EE (fun x => x i 0 * x j 0) = (i == j)%:R.
Proof.
have [_ _ _ h] := hsg; move/matrixP/(_ i j): h; rewrite summxE mxE => <-.
by apply: eq_bigr => p _; rewrite !mxE big_ord1 !mxE.
Qed.

Local Notation z x i := ((L *m x) i 0).
Local Notation P := (L *m L^T).
Lemma EEz i : EE (fun x => z x i) = 0.
Proof.
rewrite (EE_ext (g := fun x => \sum_a L i a * x a 0)); last by move=> x; rewrite mxE.
by rewrite EE_sum big1 // => a _; rewrite EE_scale EEx mulr0.
Qed.
Lemma EEzz i j : EE (fun x => z x i * z x j) = P i j.
Proof.
rewrite (EE_ext (g := fun x => \sum_a \sum_b L i a * L j b * (x a 0 * x b 0))); last first.
  move=> x; rewrite !mxE big_distrlr; apply: eq_bigr => a _; apply: eq_bigr => b _.
  by rewrite mulrACA.
rewrite EE_sum mxE; apply: eq_bigr => a _; rewrite EE_sum (bigD1 a) //= big1 ?addr0.
  by rewrite EE_scale EExx eqxx mulr1 mxE.
by move=> b hb; rewrite EE_scale EExx eq_sym (negbTE hb) mulr0.
Qed.
Lemma EEzzz i j k : EE (fun x => z x i * z x j * z x k) = 0.
Proof.
rewrite (EE_ext (g := fun x => \sum_a \sum_b \sum_c L i a * L j b * L k c * (x a 0 * x b 0 * x c 0))).
  rewrite EE_sum big1 // => a _; rewrite EE_sum big1 // => b _; rewrite EE_sum big1 // => c _.
  by rewrite EE_scale /EE h3 mulr0.
move=> x; rewrite !mxE big_distrlr /= mulr_suml; apply: eq_bigr => a _.
rewrite mulr_suml; apply: eq_bigr => b _; rewrite mulr_sumr; apply: eq_bigr => c _.
by move: (L i a) (x a 0) (L j b) (x b 0) (L k c) (x c 0) => *; ring.
Qed.

Lemma sg_scalarE (f : 'cV[R]_d -> R) :
  sg_expectation sg [seq (f x)%:M : 'M[R]_1 | x <- gen_sigma_points sg m L] 0 0
  = EE (fun x => f (m + L *m x)) :> R.
Proof.
rewrite /gen_sigma_points -map_comp sg_expectationE // summxE; apply: eq_bigr => p _.
by rewrite !mxE mulr1n.
Qed.

Lemma cubic_exact c0 c1 c2 c3 :
  sg_expectation sg [seq (cubic c0 c1 c2 c3 x)%:M : 'M[R]_1 | x <- gen_sigma_points sg m L] 0 0
  = gauss_cubic c0 c1 c2 c3 m P :> R.
Proof.
rewrite sg_scalarE /cubic /gauss_cubic.
have ex (x : 'cV[R]_d) i : (m + L *m x) i 0 = m i 0 + z x i by rewrite mxE.
rewrite !EE_add EEc !EE_sum; congr (_ + _ + _ + _).
- apply: eq_bigr => i _; rewrite EE_scale; congr (_ * _).
  by rewrite (EE_ext (fun x => ex x i)) EE_add EEc EEz addr0.
- apply: eq_bigr => i _; rewrite EE_sum; apply: eq_bigr => j _; rewrite EE_scale; congr (_ * _).
  rewrite (EE_ext (g := fun x => m i 0 * m j 0 + m j 0 * z x i + m i 0 * z x j + z x i * z x j)).
    by rewrite !EE_add EEc !EE_scale !EEz EEzz !mulr0 !addr0.
  by move=> x; rewrite !ex; move: (z x i) (z x j) (m i 0) (m j 0) => *; ring.
apply: eq_bigr => i _; rewrite EE_sum; apply: eq_bigr => j _; rewrite EE_sum; apply: eq_bigr => k _.
rewrite EE_scale; congr (_ * _).
rewrite (EE_ext (g := fun x => m i 0 * m j 0 * m k 0 + m i 0 * m j 0 * z x k
   + m i 0 * m k 0 * z x j + m j 0 * m k 0 * z x i
   + m i 0 * (z x j * z x k) + m j 0 * (z x i * z x k) + m k 0 * (z x i * z x j)
   + z x i * z x j * z x k)).
  rewrite !EE_add EEc !EE_scale !EEz !EEzz EEzzz.
  by move: (P j k) (P i k) (P i j) (m i 0) (m j 0) (m k 0) => *; ring.
by move=> x; rewrite !ex; move: (z x i) (z x j) (z x k) (m i 0) (m j 0) (m k 0) => *; ring.
Qed.
End Affine.

Section Cubature.
Variable R : rcfType.
Variable d : nat.
Hypothesis d0 : (0 < d)%N.
Local Notation c := (1 / (2 * d)%:R : R).
Local Notation s := (Num.sqrt d%:R : R).
Local Notation e i := (delta_mx i 0 : 'cV[R]_d).

Lemma zip_const_sum (V : lmodType R) (f : 'cV[R]_d -> V) n (xs : seq 'cV[R]_d) a : size xs = n ->
  \sum_(p <- zip [seq a | _ <- iota 0 n] xs) p.1 *: f p.2 = a *: (\sum_(x <- xs) f x) :> V.
Proof.
move=> <-; have: forall k, \sum_(p <- zip [seq a | _ <- iota k (size xs)] xs) p.1 *: f p.2
    = a *: (\sum_(x <- xs) f x); last by apply.
elim: xs => [|x xs IH] k /=; first by rewrite !big_nil scaler0.
by rewrite !big_cons IH /= scalerDr.
Qed.

Lemma cub_sum (V : lmodType R) (f : 'cV[R]_d -> V) :
  \sum_(p <- zip (sg_w (cubature R d)) (sg_xi (cubature R d))) p.1 *: f p.2
  = c *: (\sum_(i < d) (f (s *: e i) + f (- (s *: e i)))).
Proof.
rewrite /cubature /= zip_const_sum.
  rewrite map_cat big_cat -!map_comp !big_map big_split /=. rewrite -enumT !big_enum /=; congr (_ *: (_ + _)).
    apply: eq_bigr => i _; congr (f (_ *: _)).
    by apply/matrixP => j k; rewrite !mxE ord1 eqxx andbT eq_sym.
  apply: eq_bigr => i _; congr (f _).
  by apply/matrixP => j k; rewrite !mxE ord1 eqxx andbT eq_sym mulrN.
by rewrite size_map size_cat !size_map -enumT size_enum_ord mul2n addnn.
Qed.

Lemma s_sqr : s ^+ 2 = d%:R. Proof. by rewrite sqr_sqrtr // ler0n. Qed.
Lemma c2d : c * (2%:R * d%:R) = 1.
Proof. by rewrite -natrM mul1r mulVf // pnatr_eq0 -lt0n muln_gt0. Qed.

Lemma cubature_rule : sg_rule (sg_w (cubature R d)) (sg_xi (cubature R d)).
Proof.
split.
- rewrite /cubature /= !size_map size_cat !size_map size_iota -!enumT size_enum_ord.
  by rewrite mul2n addnn.
- have := cub_sum (V := [lmodType R of R^o]) (fun=> 1).
  rewrite sumr_const card_ord -[X in _ -> _ = X]c2d => h.
  transitivity (c *: (((1 + 1) *+ d) : R^o)); last by congr (_ * _); rewrite -mulr_natr.
  by rewrite -h; apply: eq_bigr => p _; rewrite -[_ *: _]/(_ * _) mulr1.
- by rewrite (cub_sum id) big1 ?scaler0 // => i _; rewrite subrr.
rewrite (cub_sum (fun x => x *m x^T)).
apply/matrixP => i j; rewrite mxE summxE.
rewrite (eq_bigr (fun k : 'I_d => 2%:R * d%:R * ((i == k)%:R * (j == k)%:R))); last first.
  move=> k _; rewrite linearN /= mulmxN mulNmx opprK mxE linearZ /= -scalemxAl -scalemxAr scalerA.
  rewrite -expr2 s_sqr trmx_delta mul_delta_mx !mxE mulrDl mul1r.
  by rewrite -natrM mulnb mulrDl.
rewrite -mulr_sumr (bigD1 i) //= big1 ?addr0; last by move=> k hk; rewrite eq_sym (negbTE hk) mul0r.
by rewrite mxE mulrA c2d mul1r eqxx mul1r eq_sym.
Qed.

Lemma cubature_third : third_zero (cubature R d).
Proof.
move=> i j k; have := cub_sum (V := [lmodType R of R^o]) (fun x : 'cV[R]_d => x i 0 * x j 0 * x k 0).
rewrite [X in _ = _ *: X]big1 => [|a _]; first by rewrite scaler0 => h; rewrite -[RHS]h.
by rewrite !mxE; move: (s * (_ && _)%:R) (s * _) (s * _) => u v t; ring.
Qed.
End Cubature.
