(* The real numbers of Coq's standard library as a real closed field, so that the theorems of this
   development, which hold over every real closed field, apply to the real numbers with the real
   exponential, logarithm and sine. Only the witnesses (Examples) rest on this file, and so on the
   axioms of the standard library's real numbers, epsilon and functional extensionality. *)
From Coq Require Import Reals Epsilon FunctionalExtensionality Lra.
From mathcomp Require Import all_ssreflect all_algebra.
Set Implicit Arguments.
Unset Strict Implicit.
Unset Printing Implicit Defensive.
Import Order.TTheory GRing.Theory Num.Theory.

Definition R_eqb (x y : R) : bool := if Req_EM_T x y is left _ then true else false.
Lemma R_eqP : Equality.axiom R_eqb.
Proof. by move=> x y; rewrite /R_eqb; case: (Req_EM_T x y) => h; constructor. Qed.
Definition R_eqMixin := EqMixin R_eqP.
Canonical R_eqType := Eval hnf in EqType R R_eqMixin.

Definition R_find (P : pred R) (n : nat) : option R :=
  let x := epsilon (inhabits R0) (fun x => P x) in if P x then Some x else None.
Lemma R_find_some P n x : R_find P n = Some x -> P x.
Proof. by rewrite /R_find; case: ifP => // h [<-]. Qed.
Lemma R_find_ex (P : pred R) : (exists x, P x) -> exists n, R_find P n.
Proof. by move=> h; exists 0%N; rewrite /R_find (epsilon_spec (inhabits R0) _ h). Qed.
Lemma R_find_ext (P Q : pred R) : P =1 Q -> R_find P =1 R_find Q.
Proof. by move=> h n; have -> : P = Q by apply: functional_extensionality. Qed.
Definition R_choiceMixin : choiceMixin R := Choice.Mixin R_find_some R_find_ex R_find_ext.
Canonical R_choiceType := Eval hnf in ChoiceType R R_choiceMixin.

Lemma R_addA : associative Rplus. Proof. by move=> x y z; rewrite Rplus_assoc. Qed.
Lemma R_mulA : associative Rmult. Proof. by move=> x y z; rewrite Rmult_assoc. Qed.
Definition R_zmodMixin := ZmodMixin R_addA Rplus_comm Rplus_0_l Rplus_opp_l.
Canonical R_zmodType := Eval hnf in ZmodType R R_zmodMixin.

Lemma R_mulDl : left_distributive Rmult Rplus. Proof. by move=> x y z; exact: Rmult_plus_distr_r. Qed.
Lemma R_mulDr : right_distributive Rmult Rplus. Proof. by move=> x y z; exact: Rmult_plus_distr_l. Qed.
Lemma R_1neq0 : R1 != (0%R : R_zmodType). Proof. by apply/eqP; exact: R1_neq_R0. Qed.
Definition R_ringMixin := RingMixin R_mulA Rmult_1_l Rmult_1_r R_mulDl R_mulDr R_1neq0.
Canonical R_ringType := Eval hnf in RingType R R_ringMixin.
Canonical R_comRingType := Eval hnf in ComRingType R Rmult_comm.

Local Open Scope ring_scope.
Definition R_inv (x : R) : R := if x != 0 :> R then Rinv x else x.
Lemma R_mulV (x : R) : x != 0 :> R -> R_inv x * x = 1 :> R.
Proof. by move=> h; rewrite /R_inv h; apply: Rinv_l; apply/eqP. Qed.
Lemma R_inv0 : R_inv 0 = 0 :> R. Proof. by rewrite /R_inv eqxx. Qed.
Definition R_unitRingMixin := FieldUnitMixin R_mulV R_inv0.
Canonical R_unitRingType := Eval hnf in UnitRingType R R_unitRingMixin.
Canonical R_comUnitRingType := Eval hnf in [comUnitRingType of R].
Lemma R_field_axiom : GRing.Field.mixin_of [unitRingType of R]. Proof. by []. Qed.
Definition R_idomainMixin := FieldIdomainMixin R_field_axiom.
Canonical R_idomainType := Eval hnf in IdomainType R R_idomainMixin.
Canonical R_fieldType := Eval hnf in FieldType R R_field_axiom.

Definition R_leb (x y : R) : bool := if Rle_dec x y is left _ then true else false.
Definition R_ltb (x y : R) : bool := if Rlt_dec x y is left _ then true else false.
Lemma R_leP (x y : R) : reflect (Rle x y) (R_leb x y).
Proof. by rewrite /R_leb; case: (Rle_dec x y) => h; constructor. Qed.
Lemma R_ltP (x y : R) : reflect (Rlt x y) (R_ltb x y).
Proof. by rewrite /R_ltb; case: (Rlt_dec x y) => h; constructor. Qed.

Lemma R_le0_add (x y : R) : R_leb 0 x -> R_leb 0 y -> R_leb 0 (x + y).
Proof. by move=> /R_leP hx /R_leP hy; apply/R_leP; exact: Rplus_le_le_0_compat. Qed.
Lemma R_le0_mul (x y : R) : R_leb 0 x -> R_leb 0 y -> R_leb 0 (x * y).
Proof. by move=> /R_leP hx /R_leP hy; apply/R_leP; exact: Rmult_le_pos. Qed.
Lemma R_le0_anti (x : R) : R_leb 0 x -> R_leb x 0 -> x = 0.
Proof. by move=> /R_leP hx /R_leP hy; exact: Rle_antisym. Qed.
Lemma R_sub_ge0 (x y : R) : R_leb 0 (y - x) = R_leb x y.
Proof.
by apply/R_leP/R_leP => h; [apply: Rminus_le; rewrite -Ropp_minus_distr; apply: Ropp_le_cancel; rewrite Ropp_involutive Ropp_0|exact: Rge_le (Rge_minus _ _ (Rle_ge _ _ h))].
Qed.
Lemma R_le0_total (x : R) : R_leb 0 x || R_leb x 0.
Proof. by case: (Rle_or_lt R0 x) => h; apply/orP; [left|right]; apply/R_leP => //; exact: Rlt_le. Qed.
Lemma R_normN (x : R) : Rabs (- x) = Rabs x. Proof. exact: Rabs_Ropp. Qed.
Lemma R_ge0_norm (x : R) : R_leb 0 x -> Rabs x = x.
Proof. by move=> /R_leP h; exact: Rabs_pos_eq. Qed.
Lemma R_lt_def (x y : R) : R_ltb x y = (y != x) && R_leb x y.
Proof.
apply/R_ltP/andP => [h|[/eqP h1 /R_leP h2]]; last by case: h2 => // h; case: h1.
by split; [apply/eqP => e; move: h; rewrite e; exact: Rlt_irrefl|apply/R_leP; exact: Rlt_le].
Qed.
Definition R_leMixin := RealLeMixin R_le0_add R_le0_mul R_le0_anti R_sub_ge0 R_le0_total R_normN
  R_ge0_norm R_lt_def.
Canonical R_porderType := POrderType ring_display R R_leMixin.
Canonical R_latticeType := LatticeType R R_leMixin.
Canonical R_distrLatticeType := DistrLatticeType R R_leMixin.
Canonical R_orderType := OrderType R R_leMixin.
Canonical R_numDomainType := NumDomainType R R_leMixin.
Canonical R_normedZmodType := NormedZmodType R R R_leMixin.
Canonical R_numFieldType := [numFieldType of R].
Canonical R_realDomainType := [realDomainType of R].
Canonical R_realFieldType := [realFieldType of R].

Lemma RleE (x y : R) : reflect (Rle x y) (x <= y). Proof. exact: R_leP. Qed.
Lemma RltE (x y : R) : reflect (Rlt x y) (x < y). Proof. exact: R_ltP. Qed.

(* polynomials are continuous, so the intermediate value theorem of the standard library applies *)
Lemma R_poly_continuous (p : {poly R}) : continuity (fun x => p.[x]).
Proof.
elim/poly_ind: p => [|p c IH].
  have -> : (fun x : R => (0 : {poly R}).[x]) = fct_cte R0 by apply: functional_extensionality => x; rewrite horner0.
  by apply: continuity_const.
have -> : (fun x : R => (p * 'X + c%:P).[x]) = plus_fct (mult_fct (fun x => p.[x]) id) (fct_cte c).
  by apply: functional_extensionality => x; rewrite hornerD hornerM hornerX hornerC.
apply: continuity_plus; last by apply: continuity_const.
by apply: continuity_mult => //; apply: derivable_continuous; exact: derivable_id.
Qed.

Lemma R_real_closed : Num.real_closed_axiom R_numDomainType.
Proof.
move=> p a b hab /andP [ha hb]; case/RleE: (hab) => [hlt|e]; last first.
  exists a; first by rewrite lexx hab.
  by move: hb; rewrite -e => hb; apply/eqP/le_anti; rewrite ha hb.
case: (eqVneq p.[a] 0) => [h0|ha0]; first by exists a; rewrite ?lexx //; apply/eqP.
case: (eqVneq p.[b] 0) => [h0|hb0]; first by exists b; rewrite ?lexx ?andbT //; apply/eqP.
have ha' : Rlt p.[a] R0 by apply/RltE; rewrite lt_neqAle ha0.
have hb' : Rlt R0 p.[b] by apply/RltE; rewrite lt_neqAle eq_sym hb0.
have [z [[h1 h2] h3]] := IVT _ _ _ (R_poly_continuous p) hlt ha' hb'.
by exists z; [apply/andP; split; apply/RleE|apply/eqP].
Qed.
Canonical R_rcfType := Eval hnf in RcfType R R_real_closed.

(* the operations of the standard library are those of the field *)
Lemma RplusE (x y : R) : Rplus x y = (x + y)%R. Proof. by []. Qed.
Lemma RmultE (x y : R) : Rmult x y = (x * y)%R. Proof. by []. Qed.
Lemma RoppE (x : R) : Ropp x = (- x)%R. Proof. by []. Qed.
Lemma RminusE (x y : R) : Rminus x y = (x - y)%R. Proof. by []. Qed.
Lemma RinvE (x : R) : x != 0%R -> Rinv x = (x^-1)%R. Proof. by move=> h; rewrite /GRing.inv /= /R_inv h. Qed.
Lemma RabsE (x : R) : Rabs x = `|x|%R. Proof. by []. Qed.
