(* The Gaussian moment functional of the development is integration against the normal density: lemmas over the reals
   of the standard library. *)
From Coq Require Import Reals.
From mathcomp Require Import all_ssreflect all_algebra ring.
From Verif Require Import Prelude QuadSpec QuadProofs Moments1DModel Moments1DSpec Moments1DConv Moments1DProofs.
From Verif Require Import LawSpec RealField RealWitness RealGauss.
Set Implicit Arguments.
Unset Strict Implicit.
Unset Printing Implicit Defensive.
Import Order.TTheory GRing.Theory Num.Theory.
Local Open Scope ring_scope.
Arguments line_integral _ _ : clear scopes.
Arguments gk _ : clear scopes.
Local Notation K := R_rcfType.
Local Notation rexp := (Rtrigo_def.exp : K -> K).
Local Notation pi := (PI : K).

(* the density of N(m, v) *)
Definition normal_density (m v x : K) : K := rexp (- (x - m) ^+ 2 / (2%:R * v)) / Num.sqrt (2%:R * pi * v).

Lemma pi_gt0 : 0 < pi. Proof. by apply/RltE; exact: PI_RGT_0. Qed.

Lemma RsqrtE (x : K) : 0 <= x -> R_sqrt.sqrt x = Num.sqrt x.
Proof.
move=> x0; have h : 0 <= (R_sqrt.sqrt x : K) by apply/RleE; exact: sqrt_pos.
apply/eqP; rewrite -(@eqr_expn2 _ 2) ?sqrtr_ge0 // sqr_sqrtr //; apply/eqP.
by rewrite expr2 -RmultE sqrt_sqrt //; apply/RleE.
Qed.

Lemma INRE n : INR n = (n%:R : K).
Proof. by elim: n => // n IH; rewrite S_INR IH -addn1 natrD. Qed.

Lemma RpowE (x : K) n : pow x n = x ^+ n.
Proof. by elim: n => // n IH; rewrite exprS -IH. Qed.

Lemma two_E : IZR 2 = (2%:R : K). Proof. by []. Qed.
Lemma tau_E : R_sqrt.sqrt (Rmult (IZR 2) PI) = Num.sqrt (2%:R * pi).
Proof. by rewrite two_E RmultE RsqrtE // mulr_ge0 ?ler0n ?(ltW pi_gt0). Qed.

Lemma std_momentE n : (std_moment n : K) = gauss_moment 0 1 n.
Proof.
apply: gaussian_unique; split=> // p.
have -> : std_moment p.+2 = Rmult (INR p.+1) (std_moment p) by [].
by rewrite INRE RmultE mul0r add0r mulr1.
Qed.

Lemma line_sum (I : Type) (r : seq I) (f : I -> K -> K) (l : I -> K) :
  (forall i, line_integral (f i) (l i)) -> line_integral (fun x => \sum_(i <- r) f i x) (\sum_(i <- r) l i).
Proof.
move=> h; elim: r => [|i r IH].
  by rewrite big_nil; apply: line_ext line_0 => x; rewrite big_nil.
by rewrite big_cons; apply: line_ext (line_plus _ _ _ _ (h i) IH) => x; rewrite big_cons.
Qed.

Lemma line_std (p : {poly K}) :
  line_integral (fun x => p.[x] * gk x) (Num.sqrt (2%:R * pi) * mom_functional (gauss_moment 0 1) p).
Proof.
rewrite /mom_functional mulr_sumr.
have h (i : 'I_(size p)) : line_integral (fun x => p`_i * (x ^+ i * gk x)) (Num.sqrt (2%:R * pi) * (p`_i * gauss_moment 0 1 i)).
  have := line_scal (p`_i) _ _ (gaussian_moments i).
  rewrite tau_E !RmultE std_momentE mulrCA; apply: line_ext => x; by rewrite !RmultE RpowE.
have := line_sum (index_enum [finType of 'I_(size p)]) h; apply: line_ext => x.
by rewrite horner_coef mulr_suml; apply: eq_bigr => i _; rewrite mulrA.
Qed.

Lemma density_shuffle (F : rcfType) (t r u w : F) : t^-1 * (r^-1 * (w * u)) = w * (u / (t * r)).
Proof. by rewrite invfM; move: (t^-1) (r^-1) => a b; rewrite mulrA [LHS]mulrC mulrA. Qed.

Lemma Rcancel (c M : K) : c != 0 -> Rmult c^-1 (c * M) = M.
Proof. by move=> h; rewrite RmultE mulKf. Qed.

Lemma line_normal (p : {poly K}) (m v : K) : 0 < v ->
  line_integral (fun x => p.[x] * normal_density m v x) (mom_functional (gauss_moment m v) p).
Proof.
move=> v0; pose s := Num.sqrt v; have s0 : 0 < s by rewrite sqrtr_gt0.
have sn : s != 0 by rewrite gt_eqF.
have s2 : s ^+ 2 = v by rewrite sqr_sqrtr // ltW.
have c0 : 0 < Num.sqrt (2%:R * pi) by rewrite sqrtr_gt0 mulr_gt0 ?ltr0n // pi_gt0.
have cn : Num.sqrt (2%:R * pi) != 0 by rewrite gt_eqF.
have h1 := line_std (p \Po (m%:P + s *: 'X)).
have h2 := line_scal (Num.sqrt (2%:R * pi))^-1 _ _ (@line_affine _ _ m s (elimT (RltE _ _) s0) h1).
have e : mom_functional (gauss_moment m v) p = mom_functional (gauss_moment 0 1) (p \Po (m%:P + s *: 'X)).
  rewrite -mom_comp; apply: mom_eq => k _.
  have := gaussian_aff m s (gauss_momentP (0 : K) 1).
  by rewrite mulr0 addr0 mulr1 s2 => h; rewrite (gaussian_unique h).
move: h2; rewrite Rcancel // -e; apply: line_ext => x.
have -> : Rdiv (Rminus x m) s = (x - m) / s by rewrite /Rdiv RinvE.
have -> : Rinv s = s^-1 by rewrite RinvE.
rewrite !RmultE horner_comp hornerD hornerC hornerZ hornerX.
have -> : m + s * ((x - m) / s) = x by rewrite mulrCA mulfV // mulr1 addrC subrK.
rewrite /normal_density; have -> : Num.sqrt (2%:R * pi * v) = Num.sqrt (2%:R * pi) * s.
  by rewrite [LHS]sqrtrM // mulr_ge0 ?ler0n // ltW // pi_gt0.
have -> : gk ((x - m) / s) = rexp (- (x - m) ^+ 2 / (2%:R * v)).
  rewrite /gk /Rdiv; congr (Rtrigo_def.exp _).
  rewrite two_E !RmultE RoppE RinvE ?pnatr_eq0 //.
  by rewrite -s2; field.
exact: density_shuffle.
Qed.

(* ---- the normal law ---- *)
Lemma density_gt0 (m v x : K) : 0 < v -> 0 < normal_density m v x.
Proof.
move=> v0; rewrite divr_gt0 //; first by apply/RltE; exact: exp_pos.
by rewrite sqrtr_gt0 (mulr_gt0 (mulr_gt0 (ltr0Sn _ 1) pi_gt0) v0).
Qed.

Definition normal_integrable (m v : K) (f : K -> K) : Prop :=
  exists l, line_integral (fun x => f x * normal_density m v x) l.
Definition normal_law (m v : K) (f : K -> K) : K :=
  Epsilon.epsilon (inhabits (0 : K)) (line_integral (fun x => f x * normal_density m v x)).

Lemma normal_lawP m v f : normal_integrable m v f ->
  line_integral (fun x => f x * normal_density m v x) (normal_law m v f).
Proof. move=> h; exact: (Epsilon.epsilon_spec (inhabits (0 : K)) _ h). Qed.

Lemma normal_lawE m v f l : line_integral (fun x => f x * normal_density m v x) l -> normal_law m v f = l.
Proof.
move=> h; have h' : normal_integrable m v f by exists l.
exact: line_unique (normal_lawP h') h.
Qed.

Lemma normal_law_poly m v (p : {poly K}) : 0 < v ->
  normal_integrable m v (fun x => p.[x]) /\ normal_law m v (fun x => p.[x]) = mom_functional (gauss_moment m v) p.
Proof. by move=> v0; split; [exists (mom_functional (gauss_moment m v) p)|apply: normal_lawE]; exact: line_normal. Qed.

Lemma dens_integral m v : 0 < v -> line_integral (normal_density m v) 1.
Proof.
move=> v0; have := line_normal 1 m v0.
rewrite (_ : mom_functional _ _ = 1); last by rewrite -(expr0 'X) momXn; have [] := gauss_momentP m v.
by apply: line_ext => x; rewrite hornerC mul1r.
Qed.

Lemma normal_law_one m v : 0 < v -> normal_law m v (fun=> 1) = 1.
Proof.
by move=> v0; apply: normal_lawE; apply: line_ext (dens_integral m v0) => x; rewrite mul1r.
Qed.

Lemma normal_is_law m v : 0 < v -> is_law (fun=> true) (normal_integrable m v) (normal_law m v).
Proof.
move=> v0; split.
- by move=> p; have [] := normal_law_poly m p v0.
- by move=> f g [l h] e; exists l; apply: line_ext h => x; rewrite (e x).
- move=> c f g [l h] [k h']; exists (c * l + k).
  by apply: line_ext (line_plus _ _ _ _ (line_scal c _ _ h) h') => x; rewrite RplusE !RmultE mulrDl mulrA.
- move=> c f g /normal_lawP h /normal_lawP h'; apply: normal_lawE.
  by apply: line_ext (line_plus _ _ _ _ (line_scal c _ _ h) h') => x; rewrite RplusE !RmultE mulrDl mulrA.
- move=> f g /normal_lawP h /normal_lawP h' hfg; apply/RleE; apply: (line_le _ _ _ _ _ h h') => x; apply/RleE.
  by rewrite ler_pmul2r ?density_gt0 // hfg.
exact: normal_law_one.
Qed.

Lemma densityE m v x : 0 < v -> normal_density m v x =
  Rmult (Rtrigo_def.exp (Rmult (Ropp (Rmult (Rminus x m) (Rminus x m))) (2%:R * v)^-1)) (Num.sqrt (2%:R * pi * v))^-1.
Proof. by []. Qed.

Lemma density_cont m v x : 0 < v -> cont_at (normal_density m v) x.
Proof.
move=> v0; have := plain_normal_cont m (2%:R * v)^-1 (Num.sqrt (2%:R * pi * v))^-1 x.
apply: cont_at_ext => z; by rewrite densityE.
Qed.

(* bounded continuous functions and indicators of half lines are integrable *)
Lemma normal_bounded m v (f : K -> K) (B : K) : 0 < v ->
  locally_integrable (fun x => f x * normal_density m v x) -> (forall x, `|f x| <= B) ->
  normal_integrable m v f.
Proof.
move=> v0 hi hB; have h := line_scal B _ _ (dens_integral m v0).
apply: (line_dominated _ _ _ h hi) => x; apply/RleE; rewrite RabsE RmultE normrM.
rewrite [`|normal_density _ _ _|]gtr0_norm ?density_gt0 //; by rewrite ler_pmul2r ?density_gt0.
Qed.

Lemma normal_bounded_cont m v (f : K -> K) (B : K) : 0 < v ->
  (forall x, cont_at f x) -> (forall x, `|f x| <= B) -> normal_integrable m v f.
Proof.
move=> v0 hc hB; apply: (normal_bounded v0 _ hB).
by apply: product_integrable => // x; exact: density_cont.
Qed.

Lemma normal_indicator m v c : 0 < v ->
  normal_integrable m v (fun x => ((x <= c)%R)%:R) /\ normal_integrable m v (fun x => ((x < c)%R)%:R).
Proof.
move=> v0; have [hi _] := dens_integral m v0.
split; apply: (@normal_bounded _ _ _ 1 v0) => [|x]; rewrite ?ger0_norm ?ler0n ?lern1 ?leq_b1 //.
- apply: (cut_integrable (normal_density m v) _ c hi) => x /RltE hx; last by rewrite leNgt hx mul0r.
  by rewrite ltW // mul1r.
- apply: (cut_integrable (normal_density m v) _ c hi) => x /RltE hx; last by rewrite ltNge ltW // mul0r.
  by rewrite hx mul1r.
Qed.
