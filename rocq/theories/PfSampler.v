(* The samplers of mfs/utils.py and of the particle-filter scripts: the index drawn, and the moments of
   the draws under an expectation over the keys. *)
From mathcomp Require Import all_ssreflect all_algebra.
From mathcomp Require Import zify ring.
From Verif Require Import Prelude LinAlgSpec Egf Moments1DModel Moments1DSpec Moments1DProofs MomentsNdModel SsModel
  ResampleModel ResampleSpec ResampleProofs SigmaModel DardelModel PfModel.
Set Implicit Arguments.
Unset Strict Implicit.
Unset Printing Implicit Defensive.
Import Order.TTheory GRing.Theory Num.Theory.
Local Open Scope ring_scope.

(* An expectation over keys: linear and of total mass one. *)
Definition expectation (R : rcfType) (K : Type) (E : (K -> R) -> R) : Prop :=
  [/\ forall f g, E (fun k => f k + g k) = E f + E g, forall c f, E (fun k => c * f k) = c * E f,
      E (fun=> 1) = 1 & forall f g, (forall k, f k = g k) -> E f = E g].

Section Choice.
Variables (R : rcfType) (K : Type) (ss : seq R -> R -> nat).
Hypothesis ssP : ss_left_spec ss.
Variable uniform : K -> nat -> seq R.
Hypothesis uniform_size : forall k m, size (uniform k m) = m.
Hypothesis uniform_in : forall k m, all (fun u => 0 <= u < 1) (uniform k m).
Variable p : seq R.
Hypothesis hp : weight_vector p.

Lemma size_choice k n : size (jax_choice ss uniform k n p) = n.
Proof. by rewrite size_map uniform_size. Qed.
Lemma choice_inverse k n i : (i < n)%N -> inverse_cdf p (1 - (uniform k n)`_i) (nth 0%N (jax_choice ss uniform k n p) i).
Proof.
move=> hi; rewrite (nth_map 0) ?uniform_size //; set u := _`_i.
have /andP [u0 u1] : 0 <= u < 1 by apply: (all_nthP 0 (uniform_in k n)); rewrite uniform_size.
have hs := w_size hp; have [wp ws] := hp.
have -> : last 0 (cumsum p) = 1.
  by rewrite -nth_last size_cumsum nth_cumsum ?prednK ?cdf_size // prednK.
rewrite mul1r; have v0 : 0 < 1 - u by rewrite subr_gt0.
have v1 : 1 - u <= 1 by rewrite ger_addl oppr_le0.
have := search_inverse ssP hp v0 v1; rewrite /clip_index.
have [h1 h2 _] := ssP (1 - u) (cumsum_sorted wp).
set j := ss _ _ in h1 h2 *; rewrite size_cumsum in h1.
suff hj : (j < size p)%N by have -> : minn j (size p).-1 = j by lia.
rewrite ltn_neqAle h1 andbT; apply/eqP => e.
have := h2 (size p).-1; rewrite e prednK // leqnn => /(_ isT).
by rewrite nth_cumsum ?prednK // cdf_size // ws ltNge v1.
Qed.
End Choice.

Section Expect.
Variables (R : rcfType) (K : Type) (E : (K -> R) -> R).
Hypothesis EP : expectation E.
Lemma ED f g : E (fun k => f k + g k) = E f + E g. Proof. by case: EP. Qed.
Lemma EZ c f : E (fun k => c * f k) = c * E f. Proof. by case: EP. Qed.
Lemma E1 : E (fun=> 1) = 1. Proof. by case: EP. Qed.
Lemma Eext f g : (forall k, f k = g k) -> E f = E g. Proof. by case: EP => _ _ _; exact. Qed.
Lemma Ec c : E (fun=> c) = c. Proof. by rewrite (Eext (g := fun=> c * 1)) => [|k]; rewrite ?EZ ?E1 mulr1. Qed.
Lemma EZr c f : E (fun k => f k * c) = E f * c.
Proof. by rewrite mulrC -EZ; apply: Eext => k; rewrite mulrC. Qed.
Lemma Esum (I : Type) (s : seq I) (f : I -> K -> R) : E (fun k => \sum_(i <- s) f i k) = \sum_(i <- s) E (f i).
Proof.
elim: s => [|i s IH]; first by rewrite big_nil (Eext (g := fun=> 0)) ?Ec // => k; rewrite big_nil.
by rewrite big_cons -IH -ED; apply: Eext => k; rewrite big_cons.
Qed.
(* the mean and the covariance of an affine image of standardised draws *)
Lemma affine_draw (m s : R) (z : K -> R) : E z = 0 -> E (fun k => z k ^+ 2) = 1 ->
  E (fun k => m + s * z k) = m /\ E (fun k => (m + s * z k - m) ^+ 2) = s ^+ 2.
Proof.
move=> h0 h2; split; first by rewrite ED Ec EZ h0 mulr0 addr0.
rewrite (Eext (g := fun k => s ^+ 2 * z k ^+ 2)); first by rewrite EZ h2 mulr1.
by move=> k; rewrite addrAC subrr add0r exprMn.
Qed.
Section Nd.
Variables (d : nat) (z : K -> 'cV[R]_d).
Hypothesis z1 : forall a, E (fun k => z k a 0) = 0.
Hypothesis z2 : forall a b, E (fun k => z k a 0 * z k b 0) = (a == b)%:R.
Lemma affine_draw_nd m (m0 : 'cV[R]_m) (L : 'M[R]_(m, d)) (C : 'M[R]_m) : L *m L^T = C ->
  (forall a, E (fun k => (m0 + L *m z k) a 0) = m0 a 0) /\
  (forall a b, E (fun k => ((m0 + L *m z k) a 0 - m0 a 0) * ((m0 + L *m z k) b 0 - m0 b 0)) = C a b).
Proof.
have e a k : (m0 + L *m z k) a 0 = m0 a 0 + \sum_(i <- enum 'I_d) L a i * z k i 0.
  by rewrite mxE [(L *m _) _ _]mxE -big_enum.
move=> hL; split=> a.
  rewrite (Eext (e a)) ED Ec Esum big1 ?addr0 // => i _.
  by rewrite EZ z1 mulr0.
move=> b; rewrite (Eext (g := fun k => \sum_(i <- enum 'I_d) \sum_(j <- enum 'I_d) L a i * L b j * (z k i 0 * z k j 0))).
  rewrite Esum -hL mxE -big_enum; apply: eq_bigr => i _; rewrite Esum (bigD1_seq i) ?mem_enum ?enum_uniq //=.
  rewrite big1 ?addr0 => [|j hj]; first by rewrite EZ z2 eqxx mulr1 [_^T _ _]mxE.
  by rewrite EZ z2 eq_sym (negbTE hj) mulr0.
move=> k; rewrite !e ![m0 _ _ + _]addrC !addrK mulr_suml; apply: eq_bigr => i _.
by rewrite mulr_sumr; apply: eq_bigr => j _; rewrite mulrACA.
Qed.
End Nd.
End Expect.

Section GsSampler.
Variables (R : rcfType) (K : Type) (ss : seq R -> R -> nat).
Hypothesis ssP : ss_left_spec ss.
Variables (split1 : K -> K) (uniform normal : K -> nat -> seq R).
Hypothesis uniform_size : forall k m, size (uniform k m) = m.
Hypothesis uniform_in : forall k m, all (fun u => 0 <= u < 1) (uniform k m).
Hypothesis normal_size : forall k m, size (normal k m) = m.
Variables (means variances weights : seq R).
Hypotheses (hm : size means = size weights) (hv : size variances = size weights).
Hypothesis hw : weight_vector weights.
Local Notation choice k n := (jax_choice ss uniform k n weights).
Local Notation smp k n := (gs_sampler ss split1 uniform normal means variances weights k n).
Variables (n i : nat).
Hypothesis hi : (i < n)%N.
Local Notation c k := (nth 0%N (choice k n) i).
Local Notation z k := ((normal (split1 k) n)`_i).

Lemma gs_samplerE k : (smp k n)`_i = means`_(c k) + Num.sqrt variances`_(c k) * z k.
Proof.
have hc : (c k < size weights)%N by have [] := choice_inverse ssP uniform_size uniform_in hw k hi.
have hs : size (choice k n) = n by rewrite size_choice.
rewrite (nth_map (0%N, 0)) ?size_zip ?hs ?normal_size ?minnn // nth_zip ?hs ?normal_size //=.
by rewrite !jget_nth ?hm ?hv.
Qed.

Variable E : (K -> R) -> R.
Hypothesis EP : expectation E.
Lemma gs_sampler_sum (f : R -> R) :
  E (fun k => f (smp k n)`_i) =
  \sum_(0 <= j < size weights) E (fun k => (c k == j)%:R * f (means`_j + Num.sqrt variances`_j * z k)).
Proof.
rewrite -(Esum EP); apply: (Eext EP) => k; rewrite gs_samplerE.
have hc : (c k < size weights)%N by have [] := choice_inverse ssP uniform_size uniform_in hw k hi.
rewrite (bigD1_seq (c k)) ?mem_index_iota ?iota_uniq //= eqxx mul1r big1 ?addr0 // => j hj.
by rewrite eq_sym (negbTE hj) mul0r.
Qed.

Lemma gs_sampler_moment (N p : nat) : (p < 2 * N)%N ->
  (forall j l, (j < size weights)%N -> (l <= p)%N ->
     E (fun k => (c k == j)%:R * z k ^+ l) = weights`_j * gauss_moment 0 1 l) ->
  E (fun k => (smp k n)`_i ^+ p) = (gs_rms (gaussian_sum1d_new means variances weights N))`_p.
Proof.
move=> hp h; rewrite (gs_sampler_sum (fun x => x ^+ p)) /= (nth_map 0%N) ?size_iota // nth_iota // add0n.
rewrite jsumE big_map (big_nth ((0, 0), 0)) !size_zip hm hv !minnn; apply: eq_big_nat => j /andP [_ hj].
rewrite nth_zip ?size_zip ?hm ?hv ?minnn // nth_zip ?hm ?hv //=.
rewrite /raw_moment_of_normal jsumE big_map mulr_suml.
rewrite (Eext EP (g := fun k => \sum_(l <- iota 0 p.+1) 'C(p, l)%:R * means`_j ^+ l * Num.sqrt variances`_j ^+ (p - l) * ((c k == j)%:R * z k ^+ (p - l)))).
  rewrite (Esum EP) big_seq [RHS]big_seq; apply: eq_bigr => l; rewrite mem_iota add0n ltnS => /andP [_ hl].
  rewrite (EZ EP) h ?leq_subr // -!mulrA; do 3 congr (_ * _); rewrite mulrC; congr (_ * _).
  by rewrite -(gaussian_unique (std_gauss R)).
move=> k; rewrite addrC exprDn mulr_sumr -[iota 0 p.+1]/(index_iota 0 p.+1) big_mkord.
apply: eq_bigr => l _; rewrite exprMn -[_ *+ 'C(p, l)]mulr_natr.
move: ((c k == j)%:R) ('C(p, l)%:R) (means`_j ^+ l) (Num.sqrt variances`_j ^+ (p - l)) (z k ^+ (p - l)) => *.
by ring.
Qed.
End GsSampler.

Section GsNdSampler.
Variables (R : rcfType) (K : Type) (ss : seq R -> R -> nat) (d : nat).
Hypothesis ssP : ss_left_spec ss.
Variables (split1 : K -> K) (uniform : K -> nat -> seq R) (normal_nd : K -> nat -> seq 'cV[R]_d).
Variable chol : forall n, 'M[R]_n -> 'M[R]_n.
Hypothesis cholP : chol_spec chol.
Hypothesis uniform_size : forall k m, size (uniform k m) = m.
Hypothesis uniform_in : forall k m, all (fun u => 0 <= u < 1) (uniform k m).
Hypothesis normal_size : forall k m, size (normal_nd k m) = m.
Variables (means : seq 'cV[R]_d) (covs : seq 'M[R]_d) (weights : seq R).
Hypotheses (hm : size means = size weights) (hv : size covs = size weights).
Hypothesis hw : weight_vector weights.
Hypothesis hcov : forall j, (j < size weights)%N -> posdef (covs`_j).
Local Notation choice k n := (jax_choice ss uniform k n weights).
Local Notation smp k n := (gs_nd_sampler ss split1 uniform chol normal_nd means covs weights k n).
Variables (n i : nat).
Hypothesis hi : (i < n)%N.
Local Notation c k := (nth 0%N (choice k n) i).
Local Notation z k := ((normal_nd (split1 k) n)`_i).

Lemma gs_nd_samplerE k : (smp k n)`_i = means`_(c k) + chol covs`_(c k) *m z k.
Proof.
have hc : (c k < size weights)%N by have [] := choice_inverse ssP uniform_size uniform_in hw k hi.
have hs : size (choice k n) = n by rewrite size_choice.
rewrite (nth_map (0%N, 0)) ?size_zip ?hs ?normal_size ?minnn // nth_zip ?hs ?normal_size //=.
by rewrite !jget_nth ?hm ?hv.
Qed.

Variable E : (K -> R) -> R.
Hypothesis EP : expectation E.
Hypothesis z0 : forall j, (j < size weights)%N -> E (fun k => (c k == j)%:R) = weights`_j.
Hypothesis z1 : forall j a, (j < size weights)%N -> E (fun k => (c k == j)%:R * z k a 0) = 0.
Hypothesis z2 : forall j a b, (j < size weights)%N ->
  E (fun k => (c k == j)%:R * (z k a 0 * z k b 0)) = weights`_j * (a == b)%:R.

Lemma gs_nd_sum (f : 'cV[R]_d -> R) :
  E (fun k => f (smp k n)`_i) =
  \sum_(0 <= j < size weights) E (fun k => (c k == j)%:R * f (means`_j + chol covs`_j *m z k)).
Proof.
rewrite -(Esum EP); apply: (Eext EP) => k; rewrite gs_nd_samplerE.
have hc : (c k < size weights)%N by have [] := choice_inverse ssP uniform_size uniform_in hw k hi.
rewrite (bigD1_seq (c k)) ?mem_index_iota ?iota_uniq //= eqxx mul1r big1 ?addr0 // => j hj.
by rewrite eq_sym (negbTE hj) mul0r.
Qed.

Let e (m0 : 'cV[R]_d) (L : 'M[R]_d) a (v : 'cV[R]_d) : (m0 + L *m v) a 0 = m0 a 0 + \sum_(l <- enum 'I_d) L a l * v l 0.
Proof. by rewrite mxE [(L *m _) _ _]mxE -big_enum. Qed.

Lemma gs_nd_first a : E (fun k => (smp k n)`_i a 0) = \sum_(0 <= j < size weights) weights`_j * means`_j a 0.
Proof.
rewrite (gs_nd_sum (fun x => x a 0)); apply: eq_big_nat => j /andP [_ hj].
rewrite (Eext EP (g := fun k => (c k == j)%:R * means`_j a 0 +
  \sum_(l <- enum 'I_d) chol covs`_j a l * ((c k == j)%:R * z k l 0))); last first.
  by move=> k; rewrite e mulrDr mulr_sumr; congr (_ + _); apply: eq_bigr => l _; rewrite mulrCA.
rewrite (ED EP) (EZr EP) z0 // (Esum EP) big1 ?addr0 // => l _.
by rewrite (EZ EP) z1 // mulr0.
Qed.

Lemma gs_nd_second a b : E (fun k => (smp k n)`_i a 0 * (smp k n)`_i b 0) =
  \sum_(0 <= j < size weights) weights`_j * (covs`_j a b + means`_j a 0 * means`_j b 0).
Proof.
rewrite (gs_nd_sum (fun x => x a 0 * x b 0)); apply: eq_big_nat => j /andP [_ hj].
set L := chol covs`_j; set m := means`_j.
have [_ _ hL] : is_chol L covs`_j by exact: cholP (hcov hj).
rewrite (Eext EP (g := fun k => ((c k == j)%:R * (m a 0 * m b 0) +
  \sum_(l <- enum 'I_d) (m a 0 * L b l + m b 0 * L a l) * ((c k == j)%:R * z k l 0)) +
  \sum_(l <- enum 'I_d) \sum_(l' <- enum 'I_d) (L a l * L b l') * ((c k == j)%:R * (z k l 0 * z k l' 0)))); last first.
  move=> k; rewrite !e -/m -/L; set w := (_ == _)%:R.
  have -> : \sum_(l <- enum 'I_d) (m a 0 * L b l + m b 0 * L a l) * (w * z k l 0) =
    w * (m a 0 * (\sum_(l <- enum 'I_d) L b l * z k l 0) + m b 0 * (\sum_(l <- enum 'I_d) L a l * z k l 0)).
    rewrite !mulr_sumr -big_split mulr_sumr; apply: eq_bigr => l _ /=.
    by move: (L b l) (L a l) (z k l 0) (m a 0) (m b 0) => *; ring.
  have -> : \sum_(l <- enum 'I_d) \sum_(l' <- enum 'I_d) (L a l * L b l') * (w * (z k l 0 * z k l' 0)) =
    w * ((\sum_(l <- enum 'I_d) L a l * z k l 0) * (\sum_(l <- enum 'I_d) L b l * z k l 0)).
    rewrite mulr_suml mulr_sumr; apply: eq_bigr => l _; rewrite !mulr_sumr; apply: eq_bigr => l' _.
    by move: (L b l') (L a l) (z k l 0) (z k l' 0) => *; ring.
  by move: (\sum_(l <- _) _) (\sum_(l <- _) _) (m a 0) (m b 0) => *; ring.
rewrite !(ED EP) (EZr EP) z0 // (Esum EP) big1 ?addr0; last by move=> l _; rewrite (EZ EP) z1 // mulr0.
rewrite mulrDr addrC; congr (_ + _).
rewrite (Esum EP) -hL mxE -big_enum mulr_sumr; apply: eq_bigr => l _.
rewrite (Esum EP) (bigD1_seq l) ?mem_enum ?enum_uniq //= big1 ?addr0 => [|l' hl].
  by rewrite (EZ EP) z2 // eqxx mulr1 [_^T _ _]mxE mulrC.
by rewrite (EZ EP) z2 // eq_sym (negbTE hl) !mulr0.
Qed.

Lemma gs_nd_sampler_law (multi_indices : seq (seq nat)) :
  let gs := gaussian_sum_nd_new means covs weights multi_indices in
  (forall a, E (fun k => (smp k n)`_i a 0) = gsn_mean gs a 0) /\
  (forall a b, E (fun k => ((smp k n)`_i a 0 - gsn_mean gs a 0) * ((smp k n)`_i b 0 - gsn_mean gs b 0)) = gsn_cov gs a b).
Proof.
move=> gs; have hz : size (zip (zip means covs) weights) = size weights by rewrite !size_zip hm hv !minnn.
have hmean a : gsn_mean gs a 0 = \sum_(0 <= j < size weights) weights`_j * means`_j a 0.
  rewrite /gs /= summxE (big_nth ((0, 0), 0)) hz; apply: eq_big_nat => j /andP [_ hj].
  by rewrite nth_zip ?size_zip ?hm ?hv ?minnn // nth_zip ?hm ?hv //= mxE.
have h1 a : E (fun k => (smp k n)`_i a 0) = gsn_mean gs a 0 by rewrite gs_nd_first hmean.
split=> // a b.
rewrite (Eext EP (g := fun k => (smp k n)`_i a 0 * (smp k n)`_i b 0 + ((- gsn_mean gs b 0) * (smp k n)`_i a 0 +
   ((- gsn_mean gs a 0) * (smp k n)`_i b 0 + gsn_mean gs a 0 * gsn_mean gs b 0)))); last first.
  by move=> k; move: (_ a 0) (_ b 0) (gsn_mean gs a 0) (gsn_mean gs b 0) => *; ring.
rewrite !(ED EP) !(EZ EP) (Ec EP) !h1 gs_nd_second.
have -> : gsn_cov gs a b = \sum_(0 <= j < size weights) weights`_j * (covs`_j a b + means`_j a 0 * means`_j b 0)
    - gsn_mean gs a 0 * gsn_mean gs b 0.
  rewrite /gs /= !mxE big_ord1 [_^T _ _]mxE summxE (big_nth ((0, 0), 0)) hz; congr (_ - _).
  apply: eq_big_nat => j /andP [_ hj].
  rewrite nth_zip ?size_zip ?hm ?hv ?minnn // nth_zip ?hm ?hv //= !mxE big_ord1.
  by rewrite [_^T _ _]mxE.
by move: (\sum_(_ <= _ < _) _) (gsn_mean gs a 0) (gsn_mean gs b 0) => *; ring.
Qed.
End GsNdSampler.
