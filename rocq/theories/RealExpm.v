(* The matrix exponential over the real numbers, as a series; it meets the specification that the
   theorems on discretise_lti_sde ask of jax.scipy.linalg.expm, for every matrix. *)
From Coq Require Import Reals.
From mathcomp Require Import all_ssreflect all_algebra.
From Verif Require Import RealField RealSeries SpectralProofs SdeSpec SdeNil.
Set Implicit Arguments.
Unset Strict Implicit.
Unset Printing Implicit Defensive.
Import Order.TTheory GRing.Theory Num.Theory.
Local Open Scope ring_scope.

Section Generic.
Variable F : rcfType.
Variable n : nat.
Implicit Types (M : 'M[F]_n) (t : F).

Definition mxsize M : F := \sum_i \sum_j `|M i j|.

Lemma mxsize_ge0 M : 0 <= mxsize M.
Proof. by apply: sumr_ge0 => i _; apply: sumr_ge0 => j _. Qed.

Lemma row_le M i : \sum_j `|M i j| <= mxsize M.
Proof.
by rewrite /mxsize [X in _ <= X](bigD1 i) //= ler_addl; apply: sumr_ge0 => k _; apply: sumr_ge0 => j _.
Qed.

Lemma mxpow_le M k i j : `|mxpow M k i j| <= mxsize M ^+ k.
Proof.
elim: k i j => [|k IH] i j; first by rewrite /= mxE expr0; case: (i == j); rewrite ?normr1 ?normr0 ?ler01 ?lexx.
rewrite mxpowS mxE; apply: le_trans (ler_norm_sum _ _ _) _.
apply: le_trans (_ : \sum_l `|M i l| * mxsize M ^+ k <= _).
  by apply: ler_sum => l _; rewrite normrM ler_wpmul2l.
by rewrite -mulr_suml exprS ler_wpmul2r ?row_le // exprn_ge0 // mxsize_ge0.
Qed.

(* the terms of the series of exp(t M) *)
Definition term M t i j (k : nat) : F := mxpow M k i j / (k`!)%:R * t ^+ k.

Lemma term_le M t i j k : `|term M t i j k| <= (mxsize M * `|t|) ^+ k / (k`!)%:R.
Proof.
rewrite /term normrM normrX exprMn normrM normfV normr_nat mulrAC.
by rewrite ler_wpmul2r ?invr_ge0 ?ler0n // ler_wpmul2r ?exprn_ge0 // mxpow_le.
Qed.

Lemma termZ M t i j k : term M t i j k = mxpow (t *: M) k i j / (k`!)%:R.
Proof. by rewrite /term mxpowZ mxE mulrAC [mxpow _ _ _ _ * _]mulrC. Qed.

Lemma term_0 M i j : term M 0 i j 0 = (1%:M : 'M[F]_n) i j.
Proof. by rewrite /term expr0 fact0 divr1 mulr1. Qed.
Lemma term_0S M i j k : term M 0 i j k.+1 = 0.
Proof. by rewrite /term exprS mul0r mulr0. Qed.

Lemma binom_term k p (s t : F) : (p <= k)%N ->
  (p`!)%:R^-1 * s ^+ p * ((k - p)`!%:R^-1 * t ^+ (k - p)) = (k`!)%:R^-1 * ((s ^+ p * t ^+ (k - p)) *+ 'C(k, p)).
Proof.
move=> h; have nz q : (q`!)%:R != 0 :> F by rewrite pnatr_eq0 -lt0n fact_gt0.
rewrite -[_ *+ 'C(k, p)]mulr_natl.
have e : ('C(k, p)%:R : F) = (k`!)%:R / ((p`!)%:R * (k - p)`!%:R).
  by rewrite -(bin_fact h) natrM [X in _ / X](_ : _ = (p`! * (k - p)`!)%:R) ?natrM // mulfK // mulf_neq0.
rewrite e !mulrA mulVf // mul1r invfM -!mulrA; congr (_ * _).
by rewrite mulrCA.
Qed.

(* Cauchy product *)
Lemma term_cauchy M s t i j k :
  \sum_l \sum_(p < k.+1) term M s i l p * term M t l j (k - p)%N = term M (s + t) i j k.
Proof.
rewrite exchange_big /= /term [s + t]addrC exprDn mulr_sumr; apply: eq_bigr => p _.
have hp : (p <= k)%N by rewrite -ltnS.
have -> : mxpow M k i j = \sum_l mxpow M p i l * mxpow M (k - p) l j.
  by rewrite -[in LHS](subnKC hp) mxpowD mxE.
rewrite -mulrA [t ^+ _ * _]mulrC -binom_term // mulr_suml; apply: eq_bigr => l _.
move: (mxpow M p i l) (mxpow M (k - p) l j) (p`!%:R^-1) ((k - p)`!%:R^-1) (s ^+ p) (t ^+ _) => a b c d x y.
by rewrite -!mulrA; congr (_ * _); rewrite [RHS]mulrCA; congr (_ * _); rewrite [RHS]mulrCA; congr (_ * _).
Qed.
End Generic.

Lemma term_intertwine (F : rcfType) n m (M : 'M[F]_n) (N : 'M[F]_m) (P : 'M[F]_(n, m)) t i j k :
  M *m P = P *m N -> \sum_l P l j * term M t i l k = \sum_l P i l * term N t l j k.
Proof.
move=> h; transitivity ((mxpow M k *m P) i j / (k`!)%:R * t ^+ k); last rewrite (intertwine k h).
  rewrite mxE !mulr_suml; apply: eq_bigr => l _; rewrite /term.
  by rewrite !mulrA [P _ _ * _]mulrC.
by rewrite mxE !mulr_suml; apply: eq_bigr => l _; rewrite /term !mulrA.
Qed.

Lemma term_deriv (F : rcfType) n (M : 'M[F]_n) t i j k :
  \sum_l M i l * term M t l j k = k.+1%:R * (mxpow M k.+1 i j / (k.+1)`!%:R) * t ^+ k.
Proof.
have k0 : k.+1%:R != 0 :> F by rewrite pnatr_eq0.
have -> : k.+1%:R * (mxpow M k.+1 i j / (k.+1)`!%:R) = (M *m mxpow M k) i j / (k`!)%:R.
  rewrite mxpowS factS natrM invfM mulrCA; congr (_ * _).
  by rewrite mulrA divff // mul1r.
by rewrite mxE !mulr_suml; apply: eq_bigr => l _; rewrite /term !mulrA.
Qed.

Lemma INRE n : INR n = n%:R :> R.
Proof. by elim: n => [|n IH] //; rewrite S_INR IH mulrSr. Qed.
Lemma factE n : Factorial.fact n = n`!.
Proof. by elim: n => [|n IH] //; rewrite factS -IH. Qed.
Lemma powE (x : R) n : pow x n = x ^+ n.
Proof. by elim: n => [|n IH] //; rewrite exprS -IH. Qed.
Lemma sum_f_R0E (f : nat -> R) n : sum_f_R0 f n = \sum_(k < n.+1) f k.
Proof. by elim: n => [|n IH]; [rewrite big_ord1|rewrite big_ord_recr /= -IH]. Qed.

Lemma series_big (I : finType) (f : I -> nat -> R) (l : I -> R) :
  (forall i, infinite_sum (f i) (l i)) -> infinite_sum (fun n => \sum_i f i n) (\sum_i l i).
Proof.
move=> h; elim: (index_enum I) => [|i s IH].
  by rewrite big_nil; apply: series_ext series_0 => n; rewrite big_nil.
by rewrite big_cons; apply: series_ext (series_plus _ _ _ _ (h i) IH) => n; rewrite big_cons.
Qed.

Lemma series_first (a : nat -> R) : (forall k, a k.+1 = 0) -> infinite_sum a (a 0%N).
Proof.
move=> h e he; exists 0%N => n _; rewrite sum_f_R0E big_ord_recl /= big1 ?addr0 => [|k _]; last exact: h.
by rewrite R_dist_eq.
Qed.

Lemma exp_series (x : R) : infinite_sum (fun k => (x ^+ k / (k`!)%:R)%R) (Rtrigo_def.exp x).
Proof.
apply: series_ext (series_exp x) => k; rewrite factE INRE powE mulrC RmultE; congr (_ * _).
by rewrite RinvE // pnatr_eq0 -lt0n fact_gt0.
Qed.

Section Laws.
Local Notation K := R_rcfType.

Definition real_expm (n : nat) (M : 'M[K]_n) : 'M[K]_n :=
  \matrix_(i, j) series (fun k => (mxpow M k i j / (k`!)%:R)%R).

Lemma term_abs n (M : 'M[K]_n) t i j : exists l, infinite_sum (fun k => Rabs (term M t i j k)) l.
Proof.
apply: series_le (exp_series (mxsize M * `|t|)%R) => k; apply/RleE.
by rewrite !RabsE normr_id; exact: (@term_le K).
Qed.
Lemma term_sum n (M : 'M[K]_n) t i j : exists l, infinite_sum (term M t i j) l.
Proof. by apply: series_le (exp_series (mxsize M * `|t|)%R) => k; apply/RleE; exact: (@term_le K). Qed.

Lemma expmP n (M : 'M[K]_n) t i j : infinite_sum (term M t i j) (real_expm (t *: M) i j).
Proof.
have := series_correct _ (term_sum M t i j); rewrite mxE.
suff -> : term M t i j = (fun k => (mxpow (t *: M) k i j / (k`!)%:R)%R) by [].
by apply: FunctionalExtensionality.functional_extensionality => k; rewrite termZ.
Qed.

Lemma expmE n (M : 'M[K]_n) t i j l : infinite_sum (term M t i j) l -> real_expm (t *: M) i j = l.
Proof. by move=> h; apply: (@uniqueness_sum (term M t i j)) => //; exact: expmP. Qed.

Theorem real_expm_group : expm_group (fun _ _ => True) real_expm.
Proof.
split=> [n M _|n M s t _|n M t _|n m M N P t _ _ h].
- apply/matrixP => i j; apply: expmE; rewrite -(term_0 M).
  by apply: series_first => k; exact: term_0S.
- apply/matrixP => i j; apply: expmE; rewrite mxE.
  have := series_big (fun l => series_mult _ _ _ _ (expmP M s i l) (expmP M t l j) (term_abs M s i l) (term_abs M t l j)).
  apply: series_ext => k; rewrite -term_cauchy; apply: eq_bigr => l _; rewrite sum_f_R0E.
  by apply: eq_bigr => p _.
- apply/matrixP => i j; apply: expmE; rewrite mxE; apply: series_ext (expmP M t j i) => k.
  by rewrite /term mxpow_trn mxE.
- apply/matrixP => i j; rewrite !mxE.
  have h1 := series_big (fun l => series_scal (P l j) _ _ (expmP M t i l)).
  have h2 := series_big (fun l => series_scal (P i l) _ _ (expmP N t l j)).
  have e : forall k, \sum_l Rmult (P l j) (term M t i l k) = \sum_l Rmult (P i l) (term N t l j k).
    by move=> k; exact: (@term_intertwine K).
  have h3 := series_ext _ _ _ e h1.
  have := uniqueness_sum _ _ _ h3 h2.
  rewrite (eq_bigr (fun l => P l j * real_expm (t *: M) i l)) // => <-.
  by apply: eq_bigr => l _; rewrite mulrC.
Qed.

Lemma derivative_Reals (f g : K -> K) :
  (forall t, derivable_pt_lim f t (g t)) -> derivative f g.
Proof.
move=> h t e /RltE e0; have [[dl /RltE dl0] /= hdl] := h t e e0.
exists dl => // x hx; case: (eqVneq x 0) => [->|x0]; first by rewrite addr0 subrr mul0r subr0 normr0 mulr0.
have hx' : Rlt (Rabs x) dl by apply/RltE.
have /RltE/ltW := hdl x (elimN eqP x0) hx'.
rewrite /Rdiv RinvE // !RplusE !RminusE RmultE RabsE => hh.
have -> : f (t + x) - f t - x * g t = x * ((f (t + x) - f t) / x - g t).
  by rewrite mulrBr mulrCA divff // mulr1.
by rewrite normrM mulrC ler_wpmul2r.
Qed.

Theorem real_expm_deriv : expm_deriv (fun _ _ => True) real_expm.
Proof.
move=> n M _ i j; apply: derivative_Reals => t.
have := @series_derive (fun k => (mxpow M k i j / (k`!)%:R)%R) t.
have e (x : R) : (fun k => Rmult (mxpow M k i j / k`!%:R)%R (pow x k)) = term M x i j.
  by apply: FunctionalExtensionality.functional_extensionality => k; rewrite powE.
have -> : (fun x => series (fun k => Rmult (mxpow M k i j / k`!%:R)%R (pow x k))) = (fun x => real_expm (x *: M) i j).
  apply: FunctionalExtensionality.functional_extensionality => x; rewrite e.
  by apply: series_unique; exact: expmP.
have -> : series (fun k => Rmult (Rmult (INR k.+1) (mxpow M k.+1 i j / (k.+1)`!%:R)%R) (pow t k)) =
   (M *m real_expm (t *: M)) i j.
  apply: series_unique; rewrite mxE; have := series_big (fun l => series_scal (M i l) _ _ (expmP M t l j)).
  by apply: series_ext => k; rewrite INRE powE; exact: (@term_deriv K).
apply=> r; exists (Rtrigo_def.exp (mxsize M * `|r|)%R) => k.
have p0 : 0 <= mxsize M * `|r| :> K by rewrite mulr_ge0 ?mxsize_ge0.
have -> : Rmult (mxpow M k i j / k`!%:R)%R (pow r k) = term M r i j k by rewrite -e.
refine (Rle_trans _ _ _ _ (exp_term_le (mxsize M * `|r|)%R k _)); last by apply/RleE.
apply/RleE; rewrite RabsE; apply: le_trans (@term_le K _ M r i j k) _.
by rewrite factE INRE powE RinvE ?RmultE 1?mulrC // pnatr_eq0 -lt0n fact_gt0.
Qed.
End Laws.
