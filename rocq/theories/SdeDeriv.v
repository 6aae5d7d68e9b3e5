(* Calculus of the derivatives of SdeSpec.v. *)
From mathcomp Require Import all_ssreflect all_algebra.
From mathcomp Require Import ring.
From Verif Require Import Prelude LinAlgSpec LinAlgProofs SdeModel SdeSpec SdeLti.
Set Implicit Arguments.
Unset Strict Implicit.
Unset Printing Implicit Defensive.
Import Order.TTheory GRing.Theory Num.Theory.
Local Open Scope ring_scope.

Section Calculus.
Variable R : rcfType.
Implicit Types f g : R -> R.

Lemma der_ext f g f' g' : f =1 g -> f' =1 g' -> derivative f f' -> derivative g g'.
Proof.
move=> hf hg h t e e0; have [dl d0 hd] := h t e e0; exists dl => // x hx.
by rewrite -!hf -hg; apply: hd.
Qed.

Lemma der_const (c : R) : derivative (fun=> c) (fun=> 0).
Proof.
move=> t e e0; exists 1; rewrite ?ltr01 // => h _.
by rewrite subrr mulr0 subr0 normr0 mulr_ge0 // ltW.
Qed.

Lemma der_id : derivative (id : R -> R) (fun=> 1).
Proof.
move=> t e e0; exists 1; rewrite ?ltr01 // => h _.
have -> : t + h - t - h * 1 = 0 by ring.
by rewrite normr0 mulr_ge0 // ltW.
Qed.

Lemma der_mul f g f' g' : derivative f f' -> derivative g g' ->
  derivative (fun t => f t * g t) (fun t => f' t * g t + f t * g' t).
Proof.
move=> hf hg t e e0.
pose K := `|f t| + `|g t| + (`|f' t| + 1) * (`|g' t| + 1).
have K0 : 0 < K.
  by rewrite ltr_spaddr ?addr_ge0 // mulr_gt0 // ltr_spaddr ?ltr01.
pose e1 := Num.min 1 (e / K).
have e10 : 0 < e1 by rewrite lt_minr ltr01 divr_gt0.
have e11 : e1 <= 1 by rewrite le_minl lexx.
have e1K : e1 * K <= e by rewrite -ler_pdivl_mulr // le_minl lexx orbT.
clearbody e1; have [d1 d10 h1] := hf t e1 e10; have [d2 d20 h2] := hg t e1 e10.
exists (Num.min (Num.min d1 d2) e1); first by rewrite !lt_minr d10 d20.
move=> h; rewrite !lt_minr => /andP [/andP [/h1 {}h1 /h2 {}h2] h3].
set r := f (t + h) - f t - h * f' t in h1; set s := g (t + h) - g t - h * g' t in h2.
have ef : f (t + h) = f t + (h * f' t + r) by rewrite /r; ring.
have eg : g (t + h) = g t + (h * g' t + s) by rewrite /s; ring.
have -> : f (t + h) * g (t + h) - f t * g t - h * (f' t * g t + f t * g' t)
  = f t * s + g t * r + (h * f' t + r) * (h * g' t + s) by rewrite ef eg; ring.
have hb (a : R) (x : R) : `|x| <= e1 * `|h| -> `|h * a + x| <= (`|a| + 1) * `|h|.
  move=> hx; apply: le_trans (ler_norm_add _ _) _; rewrite normrM mulrC mulrDl ler_add2l.
  by apply: le_trans hx _; rewrite ler_wpmul2r.
apply: (@le_trans _ _ (e1 * K * `|h|)); last by rewrite ler_wpmul2r.
have -> : e1 * K * `|h| = (`|f t| * (e1 * `|h|) + `|g t| * (e1 * `|h|)) +
   (`|f' t| + 1) * (`|g' t| + 1) * (e1 * `|h|) by rewrite /K; ring.
apply: le_trans (ler_norm_add _ _) _; apply: ler_add.
  by apply: le_trans (ler_norm_add _ _) _; rewrite !normrM ler_add // ler_wpmul2l.
rewrite normrM; apply: le_trans (ler_pmul _ _ (hb _ _ h1) (hb _ _ h2)) _ => //.
rewrite mulrACA ler_wpmul2l //; first by rewrite mulr_ge0 // addr_ge0.
by rewrite ler_wpmul2r // ltW.
Qed.

Lemma der_add f g f' g' : derivative f f' -> derivative g g' ->
  derivative (fun t => f t + g t) (fun t => f' t + g' t).
Proof.
move=> hf hg t e e0; have e20 : 0 < e / 2%:R by rewrite divr_gt0 ?ltr0n.
have [d1 d10 h1] := hf t _ e20; have [d2 d20 h2] := hg t _ e20.
exists (Num.min d1 d2); first by rewrite lt_minr d10.
move=> h; rewrite lt_minr => /andP [/h1 {}h1 /h2 {}h2].
have -> : f (t + h) + g (t + h) - (f t + g t) - h * (f' t + g' t)
  = (f (t + h) - f t - h * f' t) + (g (t + h) - g t - h * g' t) by ring.
apply: le_trans (ler_norm_add _ _) _; apply: le_trans (ler_add h1 h2) _.
by rewrite -mulrDl -splitr.
Qed.

Lemma der_scale (c : R) f f' : derivative f f' -> derivative (fun t => c * f t) (fun t => c * f' t).
Proof.
move=> hf; apply: (der_ext _ _ (der_mul (der_const c) hf)) => t //.
by rewrite mul0r add0r.
Qed.

Lemma der_sum (I : Type) (r : seq I) (f f' : I -> R -> R) :
  (forall i, derivative (f i) (f' i)) ->
  derivative (fun t => \sum_(i <- r) f i t) (fun t => \sum_(i <- r) f' i t).
Proof.
move=> h; elim: r => [|i r IH].
  by apply: (der_ext _ _ (der_const 0)) => t; rewrite big_nil.
by apply: (der_ext _ _ (der_add (h i) IH)) => t; rewrite big_cons.
Qed.

Lemma der_poly (p : {poly R}) : derivative (fun t => p.[t]) (fun t => p^`().[t]).
Proof.
elim/poly_ind: p => [|p c IH].
  by apply: (der_ext _ _ (der_const 0)) => t; rewrite ?deriv0 hornerC.
apply: (der_ext _ _ (der_add (der_mul IH der_id) (der_const c))) => t.
  by rewrite hornerMXaddC.
by rewrite derivD derivM derivX derivC !addr0 mulr1 hornerD hornerMX mulr1.
Qed.

Lemma der_opp f f' : derivative f f' -> derivative (fun t => f (- t)) (fun t => - f' (- t)).
Proof.
move=> hf t e e0; have [dl d0 h] := hf (- t) e e0; exists dl => // x hx.
have := h (- x); rewrite normrN => /(_ hx); rewrite opprD.
by have -> : - x * f' (- t) = x * - f' (- t) by ring.
Qed.

Lemma mxder_ext m n (f g f' g' : R -> 'M[R]_(m, n)) : f =1 g -> f' =1 g' ->
  mx_derivative f f' -> mx_derivative g g'.
Proof. by move=> hf hg h i j; apply: (der_ext _ _ (h i j)) => t; rewrite ?hf ?hg. Qed.

Lemma mxder_mul m n p (f f' : R -> 'M[R]_(m, n)) (g g' : R -> 'M[R]_(n, p)) :
  mx_derivative f f' -> mx_derivative g g' ->
  mx_derivative (fun t => f t *m g t) (fun t => f' t *m g t + f t *m g' t).
Proof.
move=> hf hg i j.
have h k := der_mul (hf i k) (hg k j).
apply: (der_ext _ _ (der_sum (index_enum (ordinal_finType n)) h)) => t; rewrite !mxE //.
by rewrite big_split.
Qed.

Lemma mxder_tr m n (f f' : R -> 'M[R]_(m, n)) : mx_derivative f f' ->
  mx_derivative (fun t => (f t)^T) (fun t => (f' t)^T).
Proof. by move=> h i j; apply: (der_ext _ _ (h j i)) => t; rewrite mxE. Qed.

Lemma mxder_opp m n (f f' : R -> 'M[R]_(m, n)) : mx_derivative f f' ->
  mx_derivative (fun t => f (- t)) (fun t => - f' (- t)).
Proof.
move=> h i j; apply: (der_ext _ _ (der_opp (h i j))) => t //.
by rewrite mxoppE.
Qed.

(* a derivative is unique *)
Lemma der_unique f f' g' : derivative f f' -> derivative f g' -> f' =1 g'.
Proof.
move=> h1 h2 t; apply/eqP; rewrite -subr_eq0 -normr_eq0; apply: contraT => n0.
have e0 : 0 < `|f' t - g' t| / 4%:R by rewrite divr_gt0 ?ltr0n // lt_def n0 normr_ge0.
have [d1 d10 {}h1] := h1 t _ e0; have [d2 d20 {}h2] := h2 t _ e0.
pose h := Num.min d1 d2 / 2%:R.
have m0 : 0 < Num.min d1 d2 by rewrite lt_minr d10.
have h0 : 0 < h by rewrite divr_gt0 ?ltr0n.
have hm : `|h| < Num.min d1 d2.
  by rewrite gtr0_norm // /h ltr_pdivr_mulr ?ltr0n // mulr_natr mulr2n ltr_addl.
move: hm; rewrite lt_minr => /andP [/h1 {}h1 /h2 {}h2].
have : `|h * (f' t - g' t)| <= `|f' t - g' t| / 4%:R * `|h| + `|f' t - g' t| / 4%:R * `|h|.
  have -> : h * (f' t - g' t) = (f (t + h) - f t - h * g' t) - (f (t + h) - f t - h * f' t) by ring.
  by apply: le_trans (ler_norm_sub _ _) _; apply: ler_add.
rewrite normrM [_ * `|h|]mulrC -mulrDr ler_pmul2l ?normr_gt0 ?gt_eqF //.
have p0 : 0 < `|f' t - g' t| by rewrite lt_def n0 normr_ge0.
have -> : `|f' t - g' t| / 4%:R + `|f' t - g' t| / 4%:R = `|f' t - g' t| / 2%:R by field.
by rewrite ler_pdivl_mulr ?ltr0n // mulr_natr mulr2n ger_addl leNgt p0.
Qed.
End Calculus.

(* the Lyapunov equation *)
Section Lyapunov.
Variable R : rcfType.
Variable C : forall n, 'M[R]_n -> Prop.
Variable expm : forall n, 'M[R]_n -> 'M[R]_n.
Hypothesis eP : expm_group C expm.
Hypothesis dP : expm_deriv C expm.
Variables (d w : nat) (A : 'M[R]_d) (B : 'M[R]_(d, w)).
Hypothesis cP : lti_class C A B.

Lemma lti_F_deriv : mx_derivative (fun t => (discretise_lti_sde expm A B t).1)
                                  (fun t => A *m (discretise_lti_sde expm A B t).1).
Proof. by apply: dP; case: cP. Qed.

Lemma lti_G_deriv : mx_derivative (Gm expm A B)
  (fun t => A *m Gm expm A B t + B *m B^T *m (Fm expm A (- t))^T).
Proof.
have hE := dP (Cphi cP).
move=> i j; apply: (der_ext _ _ (hE (lshift d i) (rshift d j))) => t.
  by rewrite /Gm !mxE.
rewrite (_ : expm (t *: phi A B) = Em expm A B t) // (EmE eP cP) /phi mulmx_block block_mxEur.
by [].
Qed.

(* the pulled-back covariance grows at the rate F(-t) B B^T F(-t)^T *)
Lemma lti_W_deriv : mx_derivative (fun t => Fm expm A (- t) *m Gm expm A B t)
  (fun t => Fm expm A (- t) *m B *m (Fm expm A (- t) *m B)^T).
Proof.
have hF : mx_derivative (Fm expm A) (fun t => A *m Fm expm A t) by apply: dP; case: cP.
have h := mxder_mul (mxder_opp hF) lti_G_deriv.
apply: (mxder_ext _ _ h) => t //; set F := Fm expm A (- t).
have hc : A *m F = F *m A.
  have [_ _ _ hI] := eP; have cA := CA cP.
  by rewrite /F /Fm -(hI _ _ A A A (- t)).
by rewrite mulmxDr mulNmx hc !mulmxA addrA addNr add0r trmx_mul !mulmxA.
Qed.

Lemma lti_lyapunov : mx_derivative (fun t => (discretise_lti_sde expm A B t).2)
  (fun t => let P := (discretise_lti_sde expm A B t).2 in A *m P + P *m A^T + B *m B^T).
Proof.
have hG := lti_G_deriv.
have hF : mx_derivative (Fm expm A) (fun t => A *m Fm expm A t) by apply: dP; case: cP.
have h := mxder_mul hG (mxder_tr hF).
apply: (mxder_ext _ _ h) => t; rewrite (ltiE eP cP) //=.
rewrite mulmxDl -[B *m B^T *m _ *m _]mulmxA -trmx_mul (FV eP cP) trmx1 mulmx1 trmx_mul !mulmxA.
by rewrite addrAC.
Qed.
End Lyapunov.
