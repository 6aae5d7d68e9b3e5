(* Proofs about the one-dimensional moment functions. *)
From mathcomp Require Import all_ssreflect all_algebra.
From mathcomp Require Import ring zify.
From Verif Require Import Prelude Egf QuadSpec QuadProofs QuadMain Moments1DModel Moments1DSpec.
Set Implicit Arguments.
Unset Strict Implicit.
Unset Printing Implicit Defensive.
Import Order.TTheory GRing.Theory Num.Theory.
Local Open Scope ring_scope.

Section Functional.
Variable R : rcfType.
Implicit Types (m : nat -> R) (c s : R).

(* moments of c + s X *)
Definition aff m c s : nat -> R := conv (cexp c) (fun k => s ^+ k * m k).

Lemma mom_aff m c s n : mom_functional m ((c%:P + s *: 'X) ^+ n) = aff m c s n.
Proof.
rewrite exprDn mom_sum /aff convC /conv; apply: eq_bigr => k _.
rewrite -scaler_nat momZ exprZn -rmorphX /= mul_polyC scalerA momZ momXn /cexp.
by rewrite -[RHS]mulrA; congr (_ * _); rewrite -mulrA mulrC.
Qed.

Lemma mom_comp m c s p :
  mom_functional (aff m c s) p = mom_functional m (p \Po (c%:P + s *: 'X)).
Proof.
rewrite comp_polyE mom_sum; apply: eq_bigr => k _.
by rewrite momZ mom_aff.
Qed.

Lemma central_aff m c n : central_moment m c n = aff m (- c) 1 n.
Proof. by rewrite /central_moment -mom_aff scale1r polyCN addrC. Qed.

Lemma scaled_aff m c s n : scaled_moment m c s n = aff m (- c / s) s^-1 n.
Proof.
rewrite /scaled_moment -mom_aff scalerBr addrC; congr (mom_functional _ ((_ + _) ^+ _)).
by rewrite -mul_polyC -polyCM -polyCN mulNr mulrC.
Qed.

Lemma scaled_central m c s n : scaled_moment m c s n = central_moment m c n / s ^+ n.
Proof. by rewrite /scaled_moment exprZn momZ exprVn mulrC. Qed.

Lemma aff_aff m c s c' s' n : aff (aff m c s) c' s' n = aff m (c' + s' * c) (s' * s) n.
Proof.
rewrite -!mom_aff mom_comp; congr mom_functional.
rewrite rmorphX /=; congr (_ ^+ _).
rewrite linearD linearZ /= comp_polyC comp_polyX scalerDr scalerA addrA.
by rewrite polyCD polyCM mul_polyC.
Qed.

Lemma aff_ext m m' c s n : (forall k, (k <= n)%N -> m k = m' k) -> aff m c s n = aff m' c s n.
Proof. by move=> h; apply: eq_conv => // k hk; rewrite h. Qed.

Lemma aff_id m n : aff m 0 1 n = m n.
Proof.
rewrite /aff (eq_conv (a' := @del R) (b' := m)) ?conv1l // => k _; first exact: cexp0.
by rewrite expr1n mul1r.
Qed.

(* multiplication by t of the generating function *)
Definition tee (n : nat) : R := (n == 1%N)%:R.
Lemma conv_tee (a : nat -> R) n : conv tee a n = n%:R * a n.-1.
Proof.
case: n => [|n]; first by rewrite /conv big_ord1 /tee mulr0 !mul0r.
rewrite /conv big_ord_recl big_ord_recl /tee /= mulr0 mul0r add0r bin1 mulr1 subn1 big1 ?addr0 //.
by move=> i _; rewrite mulr0 mul0r.
Qed.

End Functional.

Section Gauss.
Variable R : rcfType.
Implicit Types (M : nat -> R) (m v c s : R).

Lemma gauss_momentP m v : gaussian_recursion (gauss_moment m v) m v.
Proof.
by split=> // p; rewrite /gauss_moment /=; case: (gauss_pair m v p).
Qed.

Lemma gaussian_unique M m v : gaussian_recursion M m v -> forall p, M p = gauss_moment m v p.
Proof.
case=> h0 h1 h2; have [g0 g1 g2] := gauss_momentP m v.
suff: forall p, M p = gauss_moment m v p /\ M p.+1 = gauss_moment m v p.+1 by move=> h p; case: (h p).
by elim=> [|p [IH1 IH2]]; rewrite ?h0 ?h1 // h2 g2 IH1 IH2.
Qed.

Lemma gaussian_shift M m v : M 0%N = 1 ->
  (forall n, shift M n = m * M n + v * conv (tee R) M n) -> gaussian_recursion M m v.
Proof.
move=> h0 h; have h1 p : M p.+1 = m * M p + v * (p%:R * M p.-1) by rewrite -conv_tee -h.
split=> //; first by rewrite h1 h0 mulr1 mul0r mulr0 addr0.
by move=> p; rewrite h1 /= mulrA [v * _]mulrC.
Qed.

Lemma gaussian_of_rec M m v : gaussian_recursion M m v -> forall n, shift M n = m * M n + v * conv (tee R) M n.
Proof.
case=> h0 h1 h2 [|n]; rewrite conv_tee /shift.
  by rewrite h1 h0 mul0r mulr0 addr0 mulr1.
by rewrite h2 /= mulrA [v * _]mulrC.
Qed.

(* affine image of a Gaussian *)
Lemma gaussian_aff M m v c s : gaussian_recursion M m v ->
  gaussian_recursion (aff M c s) (c + s * m) (s ^+ 2 * v).
Proof.
move=> h; have hs := gaussian_of_rec h; case: h => h0 _ _.
apply: gaussian_shift.
  by rewrite /aff /conv big_ord1 /cexp h0 !expr0 !mulr1.
move=> n; rewrite /aff shift_conv.
rewrite (eq_conv (a' := fun k => c * cexp c k) (b' := fun k => s ^+ k * M k)) //; last first.
  by move=> k _; rewrite shift_cexp.
rewrite convZl mulrDl -!addrA; congr (_ + _).
rewrite (eq_conv (a' := cexp c) (b' := fun k => s * m * (s ^+ k * M k) + s ^+ 2 * v * conv (tee R) (fun k => s ^+ k * M k) k)) //.
  by rewrite convDr !convZr; congr (_ + _ * _); rewrite convA [RHS]convA; apply: eq_conv => // k _; rewrite convC.
move=> k _; rewrite {1}/shift -/(shift M k) hs !conv_tee exprS.
by case: k => [|k] /=; rewrite ?mul0r ?mulr0 ?addr0 ?expr0 ?exprS; ring.
Qed.
End Gauss.

(* ---------- C17 ---------- *)
Section Normal.
Variable R : rcfType.
Implicit Types (m v : R).
Notation mu := (@raw_moment_of_standard_normal R).

Lemma std_rec p : mu p.+2 = p.+1%:R * mu p.
Proof.
rewrite /raw_moment_of_standard_normal /= negbK; case: ifP => hp; last by rewrite mulr0.
have := @fact_neq0 R p./2 => h.
have h2 : (2%:R : R) != 0 by rewrite pnatr_eq0.
have h3 : (p./2.+1%:R : R) != 0 by rewrite pnatr_eq0.
have h4 : (p.+2%:R : R) = 2%:R * p./2.+1%:R.
  by rewrite -natrM; congr (_%:R); have := odd_double_half p; rewrite (negbTE hp); lia.
rewrite !factS !natrM h4 exprS; have h5 : (2%:R : R) ^+ p./2 != 0 by rewrite expf_neq0.
move: h h3 h5; move: (p./2`!%:R : R) (p./2.+1%:R : R) (2%:R ^+ p./2 : R) => a b c ha hb hc.
by field; rewrite ha hb hc.
Qed.

Lemma std_gauss : gaussian_recursion mu 0 1.
Proof.
split; rewrite /raw_moment_of_standard_normal //= ?expr0 ?fact0 ?mulr1 ?divr1 // => p.
by rewrite -!/(mu _) std_rec mul0r add0r mulr1.
Qed.

Lemma raw_normal_aff m v p : raw_moment_of_normal m v p = aff mu m (Num.sqrt v) p.
Proof.
rewrite /raw_moment_of_normal jsum_iota /aff /conv; apply: eq_bigr => k _.
by rewrite !mulrA.
Qed.

Lemma raw_normal_gauss m v : 0 <= v -> gaussian_recursion (raw_moment_of_normal m v) m v.
Proof.
move=> v0; have [h0 h1 h2] := gaussian_aff m (Num.sqrt v) std_gauss.
rewrite mulr0 addr0 mulr1 sqr_sqrtr // in h1 h2.
by split=> [||p]; rewrite !raw_normal_aff.
Qed.

Lemma std_double_fact k : mu k.*2 = \prod_(i < k) (i.*2.+1)%:R.
Proof.
elim: k => [|k IH]; first by rewrite big_ord0; case: std_gauss.
by rewrite doubleS std_rec IH big_ord_recr /= mulrC.
Qed.

Lemma std_odd k : mu k.*2.+1 = 0.
Proof. by rewrite /raw_moment_of_standard_normal /= odd_double. Qed.

Lemma factorial2_std p : ~~ odd p -> (factorial2_pred p)%:R = mu p.
Proof.
suff h : forall k, (factorial2_pred k.*2)%:R = mu k.*2.
  by move=> hp; rewrite -[p]odd_double_half (negbTE hp) h.
elim=> [|k IH]; first by case: std_gauss => ->.
by rewrite doubleS std_rec -IH -natrM.
Qed.

Lemma central_normalE v p : central_moment_of_normal v p = raw_moment_of_normal 0 v p.
Proof.
rewrite raw_normal_aff /aff (eq_conv (a' := @del R) (b' := fun k => Num.sqrt v ^+ k * mu k)) //; last first.
  by move=> k _; rewrite cexp0.
rewrite conv1l /central_moment_of_normal; case: ifP => hp; first by rewrite factorial2_std.
by rewrite /raw_moment_of_standard_normal hp mulr0.
Qed.

(* central moments of a normal are those of the centred one *)
Lemma normal_central m v c n : 0 <= v ->
  raw_moment_of_normal (m - c) v n = central_moment (gauss_moment m v) c n.
Proof.
move=> v0; rewrite central_aff.
have h := gaussian_aff (- c) 1 (gauss_momentP m v).
rewrite mul1r expr1n mul1r addrC in h.
by rewrite (gaussian_unique h) -(gaussian_unique (raw_normal_gauss _ v0)).
Qed.
End Normal.
