(* Continuity of numbers that depend on a parameter: a nearness structure at a point of any type,
   and the numbers that tend to their value there. *)
From mathcomp Require Import all_ssreflect all_algebra.
From mathcomp Require Import zify ring.
From Verif Require Import Prelude.
Set Implicit Arguments.
Unset Strict Implicit.
Unset Printing Implicit Defensive.
Import Order.TTheory GRing.Theory Num.Theory.
Local Open Scope ring_scope.

(* near P: P holds at all points close enough to t0 *)
Definition nearness (T : Type) (t0 : T) (near : (T -> Prop) -> Prop) : Prop :=
  [/\ near (fun=> True), forall P Q : T -> Prop, near P -> near Q -> near (fun t => P t /\ Q t),
      forall P Q : T -> Prop, (forall t, P t -> Q t) -> near P -> near Q & forall P : T -> Prop, near P -> P t0].

(* the nearness of pairs of numbers *)
Definition near2 (R : rcfType) (q : R * R) (P : R * R -> Prop) : Prop :=
  exists2 d, 0 < d & forall q', `|q'.1 - q.1| < d -> `|q'.2 - q.2| < d -> P q'.

(* g is continuous at a *)
Definition cont_at (R : rcfType) (g : R -> R) (a : R) : Prop :=
  forall e, 0 < e -> exists2 d, 0 < d & forall x, `|x - a| < d -> `|g x - g a| < e.

Lemma near2P (R : rcfType) (q : R * R) : nearness q (near2 q).
Proof.
split=> [|P Q [d d0 hP] [d' d0' hQ]|P Q h [d d0 hP]|P [d d0 hP]].
- by exists 1.
- exists (Num.min d d') => [|q' h1 h2]; first by rewrite lt_minr d0.
  by move: h1 h2; rewrite !lt_minr => /andP [a1 a2] /andP [b1 b2]; split; [exact: hP|exact: hQ].
- by exists d => // q' h1 h2; apply: h; exact: hP.
by apply: hP; rewrite subrr normr0.
Qed.

Section Tends.
Variables (R : rcfType) (T : Type) (t0 : T) (near : (T -> Prop) -> Prop).
Hypothesis nP : nearness t0 near.

Definition tends (f : T -> R) : Prop := forall e, 0 < e -> near (fun t => `|f t - f t0| < e).

Lemma near_and (P Q : T -> Prop) : near P -> near Q -> near (fun t => P t /\ Q t).
Proof. by case: nP => _ h _ _; exact: h. Qed.
Lemma near_sub (P Q : T -> Prop) : (forall t, P t -> Q t) -> near P -> near Q.
Proof. by case: nP => _ _ h _; exact: h. Qed.
Lemma near_all (P : T -> Prop) : (forall t, P t) -> near P.
Proof. by move=> h; case: nP => hT _ hs _; apply: hs hT. Qed.
Lemma near_pt (P : T -> Prop) : near P -> P t0.
Proof. by case: nP => _ _ _ h; exact: h. Qed.
Lemma near_seq (I : eqType) (s : seq I) (P : I -> T -> Prop) : (forall i, i \in s -> near (P i)) ->
  near (fun t => forall i, i \in s -> P i t).
Proof.
elim: s => [|i s IH] h; first exact: near_all.
have h1 := IH (fun j hj => h j (mem_behead (s := i :: s) hj)).
apply: near_sub (near_and (h i (mem_head _ _)) h1) => t [h2 h3] j.
by rewrite inE => /orP [/eqP ->|]; [|exact: h3].
Qed.

Lemma tends_ext (f g : T -> R) : near (fun t => f t = g t) -> tends f -> tends g.
Proof.
move=> h hf e e0; have h0 := near_pt h.
by apply: near_sub (near_and h (hf e e0)) => t [<-]; rewrite -h0.
Qed.
Lemma tends_const (c : R) : tends (fun=> c).
Proof. by move=> e e0; apply: near_all => t; rewrite subrr normr0. Qed.
Lemma tends_opp (f : T -> R) : tends f -> tends (fun t => - f t).
Proof. by move=> h e /h; apply: near_sub => t; rewrite -opprD normrN. Qed.
Lemma tends_add (f g : T -> R) : tends f -> tends g -> tends (fun t => f t + g t).
Proof.
move=> hf hg e e0; have e2 : 0 < e / 2%:R by rewrite divr_gt0 ?ltr0n.
apply: near_sub (near_and (hf _ e2) (hg _ e2)) => t [h1 h2].
rewrite opprD addrACA; apply: (le_lt_trans (ler_norm_add _ _)).
by rewrite [e](_ : e = e / 2%:R + e / 2%:R) ?ltr_add //; field.
Qed.
Lemma tends_sub (f g : T -> R) : tends f -> tends g -> tends (fun t => f t - g t).
Proof. by move=> hf hg; apply: tends_add => //; exact: tends_opp. Qed.
Lemma tends_comp (g : R -> R) (f : T -> R) : cont_at g (f t0) -> tends f -> tends (fun t => g (f t)).
Proof. by move=> hg hf e e0; have [d d0 hd] := hg e e0; apply: near_sub (hf d d0) => t; exact: hd. Qed.

Lemma tends_mul (f g : T -> R) : tends f -> tends g -> tends (fun t => f t * g t).
Proof.
move=> hf hg e e0; pose M := 1 + `|f t0| + `|g t0|.
have M0 : 0 < M by rewrite /M -addrA ltr_spaddl ?ltr01 // addr_ge0.
have d0 : 0 < Num.min 1 (e / M) by rewrite lt_minr ltr01 divr_gt0.
apply: near_sub (near_and (hf _ d0) (hg _ d0)) => t [].
rewrite !lt_minr => /andP [a1 a2] /andP [b1 b2].
have -> : f t * g t - f t0 * g t0 = (f t - f t0) * (g t - g t0) + (f t - f t0) * g t0 + f t0 * (g t - g t0) by ring.
apply: (le_lt_trans (ler_norm_add _ _)); rewrite normrM.
apply: (le_lt_trans (ler_add (ler_norm_add _ _) (lexx _))); rewrite !normrM.
have h : `|f t - f t0| * `|g t - g t0| <= e / M * 1 by apply: ler_pmul => //; exact: ltW.
apply: (@le_lt_trans _ _ (`|f t - f t0| * 1 + `|f t - f t0| * `|g t0| + `|f t0| * (e / M))).
  by apply: ler_add; [apply: ler_add => //; apply: ler_wpmul2l => //; exact: ltW|apply: ler_wpmul2l => //; exact: ltW].
apply: (@lt_le_trans _ _ (e / M * 1 + e / M * `|g t0| + `|f t0| * (e / M))).
  rewrite ltr_add2r -!mulrDr ltr_pmul2r // ltr_spaddl ?ltr01 //.
by rewrite [`|f t0| * _]mulrC -!mulrDr -addrA [`|g t0| + _]addrC addrA -/M divfK ?gt_eqF.
Qed.

Lemma tends_gt (f : T -> R) (a : R) : tends f -> a < f t0 -> near (fun t => a < f t).
Proof.
move=> hf h; have d0 : 0 < f t0 - a by rewrite subr_gt0.
apply: near_sub (hf _ d0) => t; rewrite ltr_norml => /andP [h1 _].
by move: h1; rewrite opprB ltr_sub_addl addrC subrK.
Qed.
Lemma tends_lt2 (f g : T -> R) : tends f -> tends g -> f t0 < g t0 -> near (fun t => f t < g t).
Proof.
move=> hf hg h; have := tends_gt (tends_sub hg hf) (a := 0); rewrite subr_gt0 => /(_ h).
by apply: near_sub => t; rewrite subr_gt0.
Qed.

Lemma cont_inv (a : R) : a != 0 -> cont_at (fun x => x^-1) a.
Proof.
move=> a0 e e0; have na : 0 < `|a| by rewrite normr_gt0.
exists (Num.min (`|a| / 2%:R) (e * `|a| ^+ 2 / 2%:R)) => [|x].
  by rewrite lt_minr !divr_gt0 ?ltr0n // mulr_gt0 // exprn_gt0.
rewrite lt_minr => /andP [h1 h2].
have hx : `|a| / 2%:R < `|x|.
  have : `|a| <= `|x| + `|x - a|.
    by rewrite -{1}[a](_ : x - (x - a) = a) ?ler_norm_sub //; ring.
  move=> h; rewrite -(ltr_add2r (`|x - a|)); apply: lt_le_trans h.
  have {2}-> : `|a| = `|a| / 2%:R + `|a| / 2%:R by field.
  by rewrite ltr_add2l.
have x0 : x != 0 by rewrite -normr_gt0; apply: lt_trans hx; rewrite divr_gt0 ?ltr0n.
have -> : x^-1 - a^-1 = (a - x) / (x * a) by field; rewrite x0 a0.
rewrite normrM normfV normrM distrC ltr_pdivr_mulr; last by rewrite mulr_gt0 // normr_gt0.
apply: (lt_trans h2); rewrite -mulrA ltr_pmul2l // expr2 -mulrA [`|x| * _]mulrC ltr_pmul2l //.
Qed.
Lemma tends_div (f g : T -> R) : tends f -> tends g -> g t0 != 0 -> tends (fun t => f t / g t).
Proof. by move=> hf hg g0; apply: tends_mul => //; apply: tends_comp hg; exact: cont_inv. Qed.

Lemma tends_sum (I : Type) (s : seq I) (f : I -> T -> R) : (forall i, tends (f i)) ->
  tends (fun t => \sum_(i <- s) f i t).
Proof.
move=> h; elim: s => [|i s IH].
  by apply: tends_ext (tends_const 0); apply: near_all => t; rewrite big_nil.
by apply: tends_ext (tends_add (h i) IH); apply: near_all => t; rewrite big_cons.
Qed.
Lemma tends_exp (f : T -> R) n : tends f -> tends (fun t => f t ^+ n).
Proof.
move=> h; elim: n => [|n IH]; first by apply: tends_ext (tends_const 1); exact: near_all.
by apply: tends_ext (tends_mul h IH); apply: near_all => t; rewrite exprS.
Qed.

(* max(0, min(1, x)) *)
Definition clamp (x : R) : R := if x < 0 then 0 else if 1 < x then 1 else x.
Lemma clamp_lip (x y : R) : `|clamp x - clamp y| <= `|x - y|.
Proof.
wlog h : x y / x <= y.
  by move=> H; case: (leP x y) => h; [exact: H|rewrite distrC [X in _ <= X]distrC; apply: H; exact: ltW].
rewrite distrC [X in _ <= X]distrC [X in _ <= X]ger0_norm ?subr_ge0 //.
rewrite /clamp; case: (ltP y 0) => y0.
  by rewrite (le_lt_trans h y0) subrr normr0 subr_ge0.
case: (ltP 1 x) => x1.
  by rewrite (lt_le_trans x1 h) ltNge (ltW (lt_trans ltr01 x1)) /= subrr normr0 subr_ge0.
case: (ltP 1 y) => y1; case: (ltP x 0) => x0.
- by rewrite subr0 normr1 ler_subr_addr; apply: ltW; apply: lt_trans y1; rewrite gtr_addl.
- by rewrite ger0_norm ?subr_ge0 // ler_add2r ltW.
- by rewrite subr0 ger0_norm // ler_addl oppr_ge0 ltW.
by rewrite ger0_norm // subr_ge0.
Qed.
Lemma tends_clamp (f : T -> R) : tends f -> tends (fun t => clamp (f t)).
Proof.
apply: tends_comp => e e0; exists e => // x; exact: le_lt_trans (clamp_lip _ _).
Qed.
End Tends.
