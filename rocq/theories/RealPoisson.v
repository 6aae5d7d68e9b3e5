(* The moments of the Poisson distribution as real series. *)
From Coq Require Import Reals Lra.
From mathcomp Require Import all_ssreflect all_algebra ring.
From Verif Require Import RealField RealSeries RealExpm SsModel.
Set Implicit Arguments.
Unset Strict Implicit.
Unset Printing Implicit Defensive.
Import Order.TTheory GRing.Theory Num.Theory.
Local Open Scope ring_scope.
Local Notation K := R_rcfType.
Local Notation rexp := (Rtrigo_def.exp : K -> K).

Lemma pmf_term (F : rcfType) (e mu : F) k : e * ((k`!)%:R^-1 * mu ^+ k) = mu ^+ k * e / (k`!)%:R.
Proof. by move: (_%:R^-1) (mu ^+ k) => a b; ring. Qed.

Lemma poisson_sum (mu : K) : infinite_sum (fun k => poisson_pmf rexp k mu) 1%R.
Proof.
have := series_scal (rexp (- mu)) _ _ (series_exp mu); rewrite -exp_plus.
rewrite (_ : Rplus (- mu)%R mu = R0); last exact: Rplus_opp_l.
rewrite exp_0; apply: series_ext => k; rewrite /poisson_pmf factE INRE powE RinvE; last first.
  by rewrite pnatr_eq0 -lt0n fact_gt0.
exact: (@pmf_term K).
Qed.

Lemma pmf_shift (F : rcfType) (e mu : F) k :
  (k.+1)%:R * (mu ^+ k.+1 * e / ((k.+1)`!)%:R) = mu * (mu ^+ k * e / (k`!)%:R).
Proof.
have n0 : (k`!)%:R != 0 :> F by rewrite pnatr_eq0 -lt0n fact_gt0.
have n1 : (k.+1)%:R != 0 :> F by rewrite pnatr_eq0.
rewrite factS natrM exprS; move: n0 n1; move: (k`!)%:R (k.+1)%:R (mu ^+ k) => a b c h1 h2.
by field; rewrite h1 h2.
Qed.

Lemma poisson_mean (mu : K) : infinite_sum (fun k => k%:R * poisson_pmf rexp k mu)%R mu.
Proof.
have h := series_scal mu _ _ (poisson_sum mu).
have h' : infinite_sum (fun k => k.+1%:R * poisson_pmf rexp k.+1 mu)%R mu.
  by move: h; rewrite Rmult_1_r; apply: series_ext => k; exact: (esym (@pmf_shift K _ mu k)).
by have := series_shift (fun k => k%:R * poisson_pmf rexp k mu)%R _ h'; rewrite mul0r Rplus_0_l.
Qed.

Lemma fact2_term (F : rcfType) (mu p q k : F) : (k + 1) * p = mu * q ->
  mu * (k * q) = (k + 1) * (k + 1 - 1) * p.
Proof. by move=> h; have -> : mu * (k * q) = k * (mu * q) by [ring]; rewrite -h; ring. Qed.

Lemma poisson_fact2 (mu : K) : infinite_sum (fun k => k%:R * (k%:R - 1) * poisson_pmf rexp k mu)%R (mu * mu)%R.
Proof.
have h := series_scal mu _ _ (poisson_mean mu).
have h' : infinite_sum (fun k => k.+1%:R * (k.+1%:R - 1) * poisson_pmf rexp k.+1 mu)%R (mu * mu)%R.
  move: h; apply: series_ext => k; rewrite mulrSr.
  by apply: (@fact2_term K); rewrite -mulrSr; exact: (@pmf_shift K).
by have := series_shift (fun k => k%:R * (k%:R - 1) * poisson_pmf rexp k mu)%R _ h'; rewrite !mul0r Rplus_0_l.
Qed.

Lemma var_term (F : rcfType) (mu p k : F) :
  k * (k - 1) * p + ((1 - mu - mu) * (k * p) + mu * mu * p) = (k - mu) ^+ 2 * p.
Proof. by ring. Qed.
Lemma var_sum (F : rcfType) (mu : F) : mu * mu + ((1 - mu - mu) * mu + mu * mu * 1) = mu.
Proof. by ring. Qed.

Lemma poisson_variance (mu : K) : infinite_sum (fun k => (k%:R - mu) ^+ 2 * poisson_pmf rexp k mu)%R mu.
Proof.
have := series_plus _ _ _ _ (poisson_fact2 mu)
  (series_plus _ _ _ _ (series_scal (1 - mu - mu)%R _ _ (poisson_mean mu)) (series_scal (mu * mu)%R _ _ (poisson_sum mu))).
rewrite (_ : Rplus _ _ = mu); last exact: (@var_sum K).
by apply: series_ext => k; exact: (@var_term K).
Qed.
