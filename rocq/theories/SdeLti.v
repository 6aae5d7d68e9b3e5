(* Lemmas on discretise_lti_sde. *)
From mathcomp Require Import all_ssreflect all_algebra.
From mathcomp Require Import ring.
From Verif Require Import Prelude LinAlgSpec LinAlgProofs SdeModel SdeSpec.
Set Implicit Arguments.
Unset Strict Implicit.
Unset Printing Implicit Defensive.
Import Order.TTheory GRing.Theory Num.Theory.
Local Open Scope ring_scope.

Section Lti.
Variable R : rcfType.
Variable C : forall n, 'M[R]_n -> Prop.
Variable expm : forall n, 'M[R]_n -> 'M[R]_n.
Hypothesis eP : expm_group C expm.
Variables (d w : nat) (A : 'M[R]_d) (B : 'M[R]_(d, w)).
Hypothesis cP : lti_class C A B.

Definition phi : 'M[R]_(d + d) := block_mx A (B *m B^T) 0 (- A^T).
Definition Fm (t : R) := expm (t *: A).
Definition Em (t : R) := expm (t *: phi).
Definition Gm (t : R) : 'M[R]_d := ursubmx (Em t).

Lemma CA : C A. Proof. by case: cP. Qed.
Lemma Cphi : C phi. Proof. by case: cP. Qed.

Lemma FD s t : Fm (s + t) = Fm s *m Fm t.
Proof. by case: eP => _ h _ _; apply: h; exact: CA. Qed.
Lemma F0 : Fm 0 = 1%:M.
Proof. by case: eP => h _ _ _; apply: h; exact: CA. Qed.
Lemma FV t : Fm t *m Fm (- t) = 1%:M.
Proof. by rewrite -FD subrr F0. Qed.

Lemma EmE t : Em t = block_mx (Fm t) (Gm t) 0 (Fm (- t))^T.
Proof.
case: eP => h0 hD hT hI; case: (cP) => cA cAt cphi _.
have e1 : Em t *m col_mx 1%:M 0 = col_mx 1%:M 0 *m Fm t.
  apply: hI => //; rewrite /phi mul_block_col !mulmx1 !mulmx0 !addr0.
  by rewrite mul_col_mx mul1mx mul0mx.
have e2 : expm (t *: - A^T) *m row_mx 0 1%:M = row_mx 0 1%:M *m Em t.
  apply: hI => //; rewrite mul_row_block !mul0mx !mul1mx !add0r.
  by rewrite mul_mx_row mulmx0 mulmx1.
have e3 : expm (t *: - A^T) = (Fm (- t))^T by rewrite scalerN -scaleNr hT.
move: e1 e2; rewrite e3 -[Em t]submxK mul_block_col mul_row_block !mulmx1 !mulmx0 !addr0 mul_col_mx.
rewrite mul1mx !mul0mx !mul1mx !add0r mul_mx_row mulmx0 mulmx1.
move=> /eq_col_mx [h1 _] /eq_row_mx [h3 h4].
by rewrite h1 -h3 -h4.
Qed.

Lemma GD s t : Gm (s + t) = Fm s *m Gm t + Gm s *m (Fm (- t))^T.
Proof.
have : Em (s + t) = Em s *m Em t by case: eP => _ h _ _; apply: h; exact: Cphi.
by rewrite !EmE mulmx_block => /eq_block_mx [_ -> _ _].
Qed.

Lemma G0 : Gm 0 = 0.
Proof.
have : Em 0 = 1%:M by case: eP => h _ _ _; apply: h; exact: Cphi.
by rewrite EmE (scalar_mx_block d d 1) => /eq_block_mx [_ -> _ _].
Qed.

Lemma ltiE dt : discretise_lti_sde expm A B dt = (Fm dt, Gm dt *m (Fm dt)^T).
Proof.
rewrite /discretise_lti_sde /=; congr (_, _); rewrite -/(block_mx A (B *m B^T) 0 (- A^T)) -/phi -/(Em dt).
by rewrite EmE mul_block_col !mulmx0 !mulmx1 !add0r col_mxKu.
Qed.

Definition covm t := Gm t *m (Fm t)^T.

Lemma covD s t : covm (s + t) = Fm s *m covm t *m (Fm s)^T + covm s.
Proof.
rewrite /covm GD FD trmx_mul mulmxDl !mulmxA; congr (_ + _).
by rewrite -[Gm s *m _ *m _]mulmxA -trmx_mul FV trmx1 mulmx1.
Qed.

Lemma cov0 : covm 0 = 0. Proof. by rewrite /covm G0 mul0mx. Qed.

Lemma cov_sym t : symmetric (covm t).
Proof.
case: eP => h0 hD hT hI; case: (cP) => cA cAt cphi cphit; rewrite -/phi in cphi cphit.
pose J : 'M[R]_(d + d) := block_mx 0 1%:M (- 1%:M) 0.
have e : expm (t *: - phi^T) *m J = J *m Em t.
  apply: hI => //; rewrite /J /phi tr_block_mx opp_block_mx !mulmx_block.
  rewrite !(mulmx0, mul0mx, mulmx1, mul1mx, add0r, addr0, trmx0, oppr0, mulmxN, mulNmx, opprK).
  by rewrite linearN /= trmxK trmx_mul trmxK.
have e' : expm (t *: - phi^T) = (Em (- t))^T by rewrite scalerN -scaleNr hT.
have hG : (Gm (- t))^T = - Gm t.
  move: e; rewrite e' !EmE /J tr_block_mx !mulmx_block.
  rewrite !(mulmx0, mul0mx, mulmx1, mul1mx, add0r, addr0, trmx0, oppr0, mulmxN, mulNmx).
  by case/eq_block_mx => _ _ _.
have : Gm (t - t) = 0 by rewrite subrr G0.
rewrite GD opprK => /eqP; rewrite addrC addr_eq0 => /eqP h.
rewrite /symmetric /covm h linearN /= trmx_mul hG mulNmx opprK.
move: h; rewrite /covm -[Gm (- t)]trmxK hG linearN mulmxN opprK => <-.
by [].
Qed.
End Lti.
