(* Proofs about the Ornstein-Uhlenbeck convergence experiment. *)
From Coq Require Import String.
From mathcomp Require Import all_ssreflect all_algebra.
From mathcomp Require Import ring zify.
From Verif Require Import Prelude LinAlgSpec LinAlgProofs SsModel SsProofs ConvModel.
Set Implicit Arguments.
Unset Strict Implicit.
Unset Printing Implicit Defensive.
Import Order.TTheory GRing.Theory Num.Theory.
Local Open Scope ring_scope.

(* the functional equation of the exponential *)
Definition exp_add (R : rcfType) (exp : R -> R) : Prop := forall x y, exp (x + y) = exp x * exp y.

(* ---- A stationary first-order autoregression: the covariance of the joint law ---- *)
(* K is the covariance matrix (indexed from 0) of a chain x_0, x_1 = F x_0 + noise, ... whose first
   state has variance v and whose noises are independent, of variance q *)
Definition chain_cov (R : rcfType) (F v q : R) (K : nat -> nat -> R) : Prop :=
  [/\ K 0%N 0%N = v, forall i j, K i j = K j i,
      forall i j, (j <= i)%N -> K i.+1 j = F * K i j
    & forall i, K i.+1 i.+1 = F ^+ 2 * K i i + q].

Section Conv.
Variable R : rcfType.
Variables (exp log : R -> R) (pi : R).
Variables (dt ell sigma noise_var : R).
Hypotheses (eA : exp_add exp) (eP : exp_spec exp).
Hypotheses (dt0 : 0 < dt) (ell0 : 0 < ell) (s0 : 0 < sigma).
Local Notation F := (conv_F exp dt ell).
Local Notation Sg := (conv_Sigma exp dt ell sigma).

Lemma exp0 : exp 0 = 1.
Proof.
have [h _ _] := eP; have := eA 0 0; rewrite addr0 -{1}[exp 0]mulr1 => /mulfI e.
by rewrite -e // gt_eqF.
Qed.

Lemma exp_nat x n : exp (n%:R * x) = exp x ^+ n.
Proof.
elim: n => [|n IH]; first by rewrite mul0r expr0 exp0.
by rewrite exprS -IH -eA; congr (exp _); rewrite -(addn1 n) natrD mulrDl mul1r addrC.
Qed.

Lemma F_gt0 : 0 < F. Proof. by case: eP => h _ _; exact: h. Qed.
Lemma F_lt1 : F < 1.
Proof.
case: eP => _ _ h; rewrite -exp0; apply: h.
by rewrite mulNr oppr_lt0 divr_gt0.
Qed.

Lemma SgE : Sg = sigma ^+ 2 * (1 - F ^+ 2).
Proof.
rewrite /conv_Sigma /conv_F -exp_nat; congr (_ * (1 - exp _)).
by rewrite !mulNr mulrN mulrA.
Qed.

Lemma Sg_gt0 : 0 < Sg.
Proof.
rewrite SgE mulr_gt0 ?exprn_gt0 // subr_gt0 expr_lt1 ?F_lt1 //; exact: ltW F_gt0.
Qed.

Lemma stationary : F ^+ 2 * sigma ^+ 2 + Sg = sigma ^+ 2.
Proof. by rewrite SgE; ring. Qed.

(* ---- the times ---- *)
Lemma tsE T i : (i < T)%N -> nth 0 (conv_ts dt T) i = dt * i.+1%:R.
Proof.
case: T => [//|[|T]] h.
  have -> : i = 0%N by lia.
  by rewrite /conv_ts /linspace /= mul0r addr0 mulr1.
rewrite /conv_ts /linspace (nth_map 0%N) ?size_iota // nth_iota // add0n.
have e : dt * T.+2%:R - dt = dt * T.+1%:R by rewrite -(addn1 T.+1) natrD; ring.
rewrite e [T.+2.-1]/= mulfK ?pnatr_eq0 // -(addn1 i) natrD; ring.
Qed.

Lemma maternE T (i j : 'I_T) :
  matern12 exp ell sigma T (conv_ts dt T) (conv_ts dt T) i j = sigma ^+ 2 * F ^+ (maxn i j - minn i j).
Proof.
rewrite mxE !tsE // mulrC; congr (_ * _).
rewrite -mulrBr normrM (gtr0_norm dt0) /conv_F -exp_nat; congr exp.
have -> : `|j.+1%:R - i.+1%:R : R| = (maxn i j - minn i j)%:R.
  case: (leqP i j) => h.
    by rewrite ger0_norm ?subr_ge0 ?ler_nat // -natrB // subSS.
  rewrite distrC ger0_norm ?subr_ge0 ?ler_nat ?ltnS ?(ltnW h) //.
  by rewrite -natrB ?subSS // ltnS ltnW.
by field; rewrite gt_eqF.
Qed.

(* the covariance of the chain is the Matern kernel *)
Lemma chain_covP (K : nat -> nat -> R) : chain_cov F (sigma ^+ 2) Sg K ->
  forall i j, K i j = sigma ^+ 2 * F ^+ (maxn i j - minn i j).
Proof.
move=> [h0 hs hr hd].
have D i : K i i = sigma ^+ 2.
  by elim: i => [//|i IH]; rewrite hd IH stationary.
have L i k : K (i + k)%N i = sigma ^+ 2 * F ^+ k.
  elim: k => [|k IH]; first by rewrite addn0 D expr0 mulr1.
  by rewrite addnS hr ?leq_addr // IH [F ^+ k.+1]exprS mulrCA.
move=> i j; case: (leqP i j) => h.
  by rewrite hs -{1}(subnKC h) L.
by rewrite -{1}(subnKC (ltnW h)) L.
Qed.

(* ---- the Cholesky factor ---- *)
Definition ou_coef (j : nat) : R := if j == 0%N then sigma else Num.sqrt Sg.
Definition ou_factor T : 'M[R]_T :=
  \matrix_(i, j) (if (j <= i)%N then ou_coef j * F ^+ (i - j) else 0).

Lemma ou_coef_gt0 j : 0 < ou_coef j.
Proof. by rewrite /ou_coef; case: ifP => // _; rewrite sqrtr_gt0 Sg_gt0. Qed.

Lemma ou_coef_sum i : \sum_(j < i.+1) ou_coef j ^+ 2 * F ^+ (2 * (i - j)) = sigma ^+ 2.
Proof.
elim: i => [|i IH]; first by rewrite big_ord1 subnn muln0 expr0 mulr1.
rewrite big_ord_recr /= subnn muln0 expr0 mulr1 sqr_sqrtr ?(ltW Sg_gt0) //.
rewrite -[RHS]stationary -[X in _ * X + _]IH; congr (_ + _); rewrite big_distrr /=.
apply: eq_bigr => j _; have -> : (2 * (i.+1 - j) = 2 + 2 * (i - j))%N by have := ltn_ord j; lia.
by rewrite exprD mulrCA.
Qed.

Lemma ou_factor_prod T (i k : 'I_T) : (i <= k)%N ->
  (ou_factor T *m (ou_factor T)^T) i k = sigma ^+ 2 * F ^+ (k - i).
Proof.
move=> hik; rewrite mxE.
under eq_bigr do rewrite !mxE.
rewrite -(ou_coef_sum i) big_distrl /=.
have hT : (i.+1 <= T)%N by [].
rewrite (big_ord_widen T (fun j => ou_coef j ^+ 2 * F ^+ (2 * (i - j)) * F ^+ (k - i)) hT).
rewrite [RHS]big_mkcond /=; apply: eq_bigr => j _; rewrite ltnS.
case: (leqP j i) => h; last by rewrite mul0r.
rewrite (leq_trans h hik).
have -> : (k - j = (i - j) + (k - i))%N by lia.
by rewrite mul2n -addnn !exprD; ring.
Qed.

Lemma ou_factor_chol T :
  is_chol (ou_factor T) (matern12 exp ell sigma T (conv_ts dt T) (conv_ts dt T)).
Proof.
split.
- by apply/is_trig_mxP => i j h; rewrite mxE leqNgt h.
- by move=> i; rewrite mxE leqnn subnn expr0 mulr1 ou_coef_gt0.
apply/matrixP => i k; rewrite maternE; case: (leqP i k) => h.
  by rewrite ou_factor_prod.
rewrite -[_ *m _]trmxK trmx_mul trmxK [LHS]mxE ou_factor_prod //; exact: ltnW.
Qed.

Lemma matern_posdef T : posdef (matern12 exp ell sigma T (conv_ts dt T) (conv_ts dt T)).
Proof. exact: chol_posdef (ou_factor_chol T). Qed.

Lemma ou_factor_rec T (w : 'cV[R]_T.+1) (x := ou_factor T.+1 *m w) :
  x 0 0 = sigma * w 0 0 /\
  forall i : 'I_T, x (lift 0 i) 0 = F * x (widen_ord (leqnSn T) i) 0 + Num.sqrt Sg * w (lift 0 i) 0.
Proof.
rewrite /x; split.
  rewrite mxE big_ord_recl big1 ?addr0 ?mxE ?leqnn ?subnn ?expr0 ?mulr1 // => j _.
  by rewrite mxE /= mul0r.
move=> i; rewrite !mxE.
rewrite (bigD1 (lift 0 i)) //= addrC mxE leqnn subnn expr0 mulr1; congr (_ + _).
rewrite big_distrr /= big_mkcond /=; apply: eq_bigr => j _; rewrite !mxE lift0.
case: eqP => [->|/eqP hj] /=.
  by rewrite /bump /= add1n ltnn mul0r mulr0.
have {}hj : (j : nat) != i.+1 by apply: contra hj => /eqP e; apply/eqP/val_inj; rewrite /= /bump /= add1n e.
case: (leqP j i) => h.
  rewrite ifT ?(leqW h) // (subSn h) exprS; ring.
by rewrite ifF ?mul0r ?mulr0 //; lia.
Qed.

Section Sim.
Variable chol : forall n, 'M[R]_n -> 'M[R]_n.
Hypothesis hc : chol_spec chol.

Lemma xsE T (w : 'cV[R]_T) : conv_xs exp chol dt ell sigma w = ou_factor T *m w.
Proof.
rewrite /conv_xs; congr (_ *m _).
exact: (chol_unique (hc (matern_posdef T)) (ou_factor_chol T)).
Qed.

Lemma xs_recursion T (w : 'cV[R]_T.+1) (x := conv_xs exp chol dt ell sigma w) :
  x 0 0 = sigma * w 0 0 /\
  forall i : 'I_T, x (lift 0 i) 0 = F * x (widen_ord (leqnSn T) i) 0 + Num.sqrt Sg * w (lift 0 i) 0.
Proof.
by rewrite /x xsE; exact: ou_factor_rec.
Qed.
End Sim.
End Conv.
