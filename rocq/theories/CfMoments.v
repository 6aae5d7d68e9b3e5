(* Characteristic functions and moments: differentiating n times at zero gives i^n times the n-th
   moment.  The lemmas are over any real closed field with functions that differentiate like the
   exponential. *)
From mathcomp Require Import all_ssreflect all_algebra.
From mathcomp Require Import ring zify complex.
From Verif Require Import Prelude LinAlgSpec QuadModel QuadSpec Moments1DModel Moments1DSpec SdeSpec SdeDeriv FourierModel FourierProofs DardelModel.
Set Implicit Arguments.
Unset Strict Implicit.
Unset Printing Implicit Defensive.
Import Order.TTheory GRing.Theory Num.Theory.
Local Open Scope ring_scope.

Section CDer.
Variable F : rcfType.
Local Notation C := F[i].
Local Notation cx x := (real_complex F x).
Local Notation ii := ('i%C : C).

(* f' is the derivative of the complex function f of a real variable *)
Definition cderiv (f f' : F -> C) : Prop :=
  derivative (fun t => complex.Re (f t)) (fun t => complex.Re (f' t)) /\
  derivative (fun t => complex.Im (f t)) (fun t => complex.Im (f' t)).

(* the derivatives of phi at zero of the orders below n are those of a characteristic function with
   the moments mom *)
Definition cf_moments (n : nat) (phi : F -> C) (mom : nat -> F) : Prop :=
  exists g : nat -> F -> C, [/\ g 0%N =1 phi, forall k, cderiv (g k) (g k.+1)
    & forall k, (k < n)%N -> g k 0 = ii ^+ k * cx (mom k)].

Lemma cder_ext f g f' g' : f =1 g -> f' =1 g' -> cderiv f f' -> cderiv g g'.
Proof. by move=> h h' [h1 h2]; split; [apply: der_ext h1|apply: der_ext h2] => t /=; rewrite ?h ?h'. Qed.

Lemma ReM (a b : C) : complex.Re (a * b) = complex.Re a * complex.Re b - complex.Im a * complex.Im b.
Proof. by case: a b => [? ?] [? ?]. Qed.
Lemma ImM (a b : C) : complex.Im (a * b) = complex.Re a * complex.Im b + complex.Im a * complex.Re b.
Proof. by case: a b => [? ?] [? ?]. Qed.
Lemma ReD (a b : C) : complex.Re (a + b) = complex.Re a + complex.Re b.
Proof. by case: a b => [? ?] [? ?]. Qed.
Lemma ImD (a b : C) : complex.Im (a + b) = complex.Im a + complex.Im b.
Proof. by case: a b => [? ?] [? ?]. Qed.

Lemma cder_mul f g f' g' : cderiv f f' -> cderiv g g' ->
  cderiv (fun t => f t * g t) (fun t => f' t * g t + f t * g' t).
Proof.
move=> [r1 i1] [r2 i2]; split.
  apply: (der_ext _ _ (der_add (der_mul r1 r2) (der_scale (-1) (der_mul i1 i2)))) => t.
    by rewrite ReM mulN1r.
  by rewrite ReD !ReM; move: (complex.Re _) (complex.Im _) => *; ring.
apply: (der_ext _ _ (der_add (der_mul r1 i2) (der_mul i1 r2))) => t.
  by rewrite ImM.
by rewrite ImD !ImM; move: (complex.Re _) (complex.Im _) => *; ring.
Qed.
Lemma cder_add f g f' g' : cderiv f f' -> cderiv g g' -> cderiv (fun t => f t + g t) (fun t => f' t + g' t).
Proof.
move=> [r1 i1] [r2 i2]; split.
  by apply: (der_ext _ _ (der_add r1 r2)) => t; rewrite ReD.
by apply: (der_ext _ _ (der_add i1 i2)) => t; rewrite ImD.
Qed.
Lemma cder_const (c : C) : cderiv (fun=> c) (fun=> 0).
Proof. by split; exact: der_const. Qed.
Lemma cder_cx f f' : derivative f f' -> cderiv (fun t => cx (f t)) (fun t => cx (f' t)).
Proof. by move=> h; split=> //; exact: der_const. Qed.
Lemma cder_scale c f f' : cderiv f f' -> cderiv (fun t => c * f t) (fun t => c * f' t).
Proof. by move=> h; apply: (cder_ext _ _ (cder_mul (cder_const c) h)) => t //; rewrite mul0r add0r. Qed.
Lemma cder_sum (I : Type) (r : seq I) (f f' : I -> F -> C) : (forall i, cderiv (f i) (f' i)) ->
  cderiv (fun t => \sum_(i <- r) f i t) (fun t => \sum_(i <- r) f' i t).
Proof.
move=> h; elim: r => [|i r IH].
  by apply: (cder_ext _ _ (cder_const 0)) => t; rewrite big_nil.
by apply: (cder_ext _ _ (cder_add (h i) IH)) => t; rewrite big_cons.
Qed.

Lemma der_dilate (a : F) f f' : derivative f f' -> derivative (fun t => f (a * t)) (fun t => a * f' (a * t)).
Proof.
move=> h t e e0; have d0 : 0 < `|a| + 1 by apply: ltr_paddl; rewrite ?normr_ge0 ?ltr01.
have [dl dl0 hd] := h (a * t) (e / (`|a| + 1)) (divr_gt0 e0 d0).
exists (dl / (`|a| + 1)) => [|u hu]; first exact: divr_gt0.
have hau : `|a * u| <= (`|a| + 1) * `|u|.
  by rewrite normrM ler_wpmul2r ?normr_ge0 // ler_addl ler01.
have := hd (a * u); rewrite mulrDr [u * _]mulrA [u * a]mulrC; move=> /(_ _) h1.
apply: (le_trans (h1 _)).
  by apply: (le_lt_trans hau); move: hu; rewrite ltr_pdivl_mulr // mulrC.
apply: (le_trans (ler_wpmul2l _ hau)); first by rewrite divr_ge0 // ltW.
by rewrite mulrA divfK // gt_eqF.
Qed.
Lemma cder_dilate (a : F) f f' : cderiv f f' -> cderiv (fun t => f (a * t)) (fun t => cx a * f' (a * t)).
Proof.
move=> [h1 h2]; split.
  by apply: (der_ext _ _ (der_dilate a h1)) => t //=; rewrite ReM /= mul0r subr0.
by apply: (der_ext _ _ (der_dilate a h2)) => t //=; rewrite ImM /= mul0r addr0.
Qed.

(* ---- the unit circle ---- *)
Variable cis : F -> C.
Hypothesis cis0 : cis 0 = 1.
Hypothesis cisD : cderiv cis (fun t => ii * cis t).

Lemma cis_dilate (x : F) : cderiv (fun z => cis (x * z)) (fun z => ii * cx x * cis (x * z)).
Proof. by apply: (cder_ext _ _ (cder_dilate x cisD)) => t //; rewrite mulrCA mulrA. Qed.

(* a discrete law *)
Lemma discrete_cf (ws xs : seq F) n : cf_moments n (fun z => \sum_(p <- zip ws xs) cx p.1 * cis (p.2 * z))
  (discrete_moment ws xs).
Proof.
exists (fun k z => \sum_(p <- zip ws xs) cx p.1 * ((ii * cx p.2) ^+ k * cis (p.2 * z))); split.
- by move=> z; apply: eq_bigr => p _; rewrite expr0 mul1r.
- move=> k; apply: cder_sum => p; apply: cder_scale.
  apply: (cder_ext _ _ (cder_scale ((ii * cx p.2) ^+ k) (cis_dilate p.2))) => z //.
  by rewrite exprSr -!mulrA.
move=> k _; rewrite /discrete_moment rmorph_sum mulr_sumr; apply: eq_bigr => p _.
by rewrite mulr0 cis0 mulr1 exprMn /= rmorphM rmorphX /= mulrCA.
Qed.

(* a Gaussian *)
Section Gauss.
Variables (m v : F) (E : F -> F).
Hypothesis E0 : E 0 = 1.
Hypothesis ED : derivative E (fun z => - (v * z) * E z).
Let L (z : F) : C := ii * cx m - cx (v * z).
Let G (z : F) : C := cx (E z) * cis (m * z).

Let LD : cderiv L (fun=> - cx v).
Proof.
apply: (cder_ext _ _ (cder_add (cder_const (ii * cx m)) (cder_cx (der_scale (- v) (@der_id F))))) => t.
  by rewrite /L mulNr rmorphN.
by rewrite add0r mulr1 rmorphN.
Qed.
Let GD : cderiv G (fun z => L z * G z).
Proof.
apply: (cder_ext _ _ (cder_mul (cder_cx ED) (cis_dilate m))) => t //.
by rewrite /L /G mulNr rmorphN rmorphM /=; move: (cx (E t)) (cis _) (cx m) (cx (v * t)) => *; ring.
Qed.

Fixpoint gder (n : nat) : (F -> C) * (F -> C) :=
  if n is n'.+1 then let p := gder n' in (p.2, fun z => L z * p.2 z - (n'.+1%:R * cx v) * p.1 z)
  else (G, fun z => L z * G z).

Lemma gderS n z : (gder n).2 z = (gder n.+1).1 z. Proof. by []. Qed.
Lemma gderSS n z : (gder n.+1).2 z = L z * (gder n).2 z - (n.+1%:R * cx v) * (gder n).1 z. Proof. by []. Qed.

Lemma gder_deriv n : cderiv (gder n).1 (gder n).2 /\ cderiv (gder n).2 (gder n.+1).2.
Proof.
elim: n => [|n [h1 h2]].
  split; first exact: GD.
  apply: (cder_ext _ _ (cder_mul LD GD)) => z //; rewrite gderSS /= mul1r.
  by move: (L z) (G z) (cx v) => a b c; ring.
split=> //; apply: (cder_ext _ _ (cder_add (cder_mul LD h2) (cder_scale (- (n.+1%:R * cx v)) h1))) => z.
  by rewrite gderSS mulNr.
rewrite [RHS]gderSS -gderS [X in _ - X * _ * _](_ : _ = n.+1%:R + 1); last by rewrite -[n.+2]addn1 natrD.
by move: (L z) ((gder n).2 z) ((gder n.+1).2 z) (cx v) (n.+1%:R) => *; ring.
Qed.

Lemma gauss_rec k : gauss_moment m v k.+2 = m * gauss_moment m v k.+1 + k.+1%:R * v * gauss_moment m v k.
Proof. by rewrite /gauss_moment /=; case: (gauss_pair m v k). Qed.

Lemma gder0 n : (gder n).1 0 = ii ^+ n * cx (gauss_moment m v n) /\
  (gder n).2 0 = ii ^+ n.+1 * cx (gauss_moment m v n.+1).
Proof.
elim: n => [|n [h1 h2]].
  have g0 : G 0 = 1 by rewrite /G mulr0 E0 cis0 mulr1.
  have l0 : L 0 = ii * cx m by rewrite /L mulr0 rmorph0 subr0.
  rewrite expr0 expr1 mul1r; split; first exact: g0.
  by rewrite -[LHS]/(L 0 * G 0) g0 l0 mulr1.
split=> //; rewrite gderSS h1 h2 gauss_rec !exprS rmorphD !rmorphM /= rmorph_nat /L mulr0 subr0.
have i2 : ii * ii = -1 by rewrite -expr2 sqr_i.
have -> : ii * (ii * (ii ^+ n)) = - ii ^+ n by rewrite mulrA i2 mulN1r.
move: (cx m) (cx v) (cx (gauss_moment m v n.+1)) (cx (gauss_moment m v n)) (n.+1%:R) => a b c d e.
have -> : ii * a * (ii * ii ^+ n * c) = (ii * ii) * (a * c) * ii ^+ n by move: (ii ^+ n) (ii) => *; ring.
by rewrite i2; move: (ii ^+ n) => *; ring.
Qed.

Lemma gauss_cf n : cf_moments n G (gauss_moment m v).
Proof.
exists (fun k => (gder k).1); split=> //.
  by move=> k; have [] := gder_deriv k.
by move=> k _; have [] := gder0 k.
Qed.
End Gauss.
End CDer.

Section Misc.
Variable F : rcfType.
Local Notation cx x := (real_complex F x).

Lemma sum_zip_nseqr (w : F) (s : seq F) (f : F -> F) :
  \sum_(p <- zip (nseq (size s) w) s) p.1 * f p.2 = w * (\sum_(x <- s) f x).
Proof. by elim: s => [|x s IH]; rewrite ?big_nil ?mulr0 //= !big_cons IH mulrDr. Qed.

Lemma size_affine_exp (a b : F) k : (size ((a%:P + b *: 'X) ^+ k) <= k.+1)%N.
Proof.
apply: (leq_trans (size_exp_leq _ _)); rewrite ltnS.
have h : (size (a%:P + b *: 'X : {poly F})%R <= 2)%N.
  apply: (leq_trans (size_add _ _)); rewrite geq_max (leq_trans (size_polyC_leq1 _)) //=.
  by apply: (leq_trans (size_scale_leq _ _)); rewrite size_polyX.
by case: (size _) h => [|[|[|n]]] //= _; rewrite ?mul0n ?mul1n.
Qed.

Lemma expect_affine (ws xs : seq F) (mean scale : F) k : scale != 0 ->
  expect ws xs (fun x => ((mean%:P + scale *: 'X) ^+ k).[(x - mean) / scale]) = discrete_moment ws xs k.
Proof.
move=> s0; rewrite /expect /discrete_moment jsumE big_map; apply: eq_bigr => p _.
rewrite horner_exp hornerD hornerZ hornerX hornerC [scale * _]mulrC divfK //.
by rewrite [mean + _]addrC subrK.
Qed.

Lemma ghf_arg (z m v : F) : 'i%C * cx z * cx m - cx (1 / 2%:R) * cx z ^+ 2 * cx v
  = Complex (- (v / 2%:R) * z ^+ 2) (m * z).
Proof.
apply/eqP; rewrite eq_complex /= !expr2 /=.
by apply/andP; split; apply/eqP; field.
Qed.

Lemma polar (r c s : F) : Complex (r * c) (r * s) = cx r * Complex c s.
Proof. by apply/eqP; rewrite eq_complex /= !mul0r subr0 addr0 !eqxx. Qed.
End Misc.
