(* Real random numbers that meet the hypotheses of C110: one uniform from the integral over [0, 1], two
   independent uniforms from the iterated integral over the unit square. *)
From Coq Require Import Reals FunctionalExtensionality Lra.
From mathcomp Require Import all_ssreflect all_algebra.
From Verif Require Import Prelude ResampleModel ResampleSpec ResampleProofs ResampleLaw ResampleLawProps.
From Verif Require Import ResampleRefs PfUnbiased PfUnbiasedProps.
From Verif Require Import RealField RealInt RealUniform.
Set Implicit Arguments.
Unset Strict Implicit.
Unset Printing Implicit Defensive.
Import Order.TTheory GRing.Theory Num.Theory.
Local Open Scope ring_scope.
Local Notation RR := R_rcfType.

Lemma integral_expectation : @is_expectation RR RR integrable integral.
Proof.
split.
- by split; [exact: integrable_const|exact: integral_const].
- by move=> c f g hf hg; split; [exact: integrable_comb|exact: integral_lin].
- by move=> f g hf h; have -> : g = f by apply: functional_extensionality => k; rewrite h.
Qed.
Lemma step_draw (b : RR) : 0 <= b <= 1 ->
  integrable (fun k : RR => (unit_id k <= b :> RR)%:R : RR) /\ integral (fun k : RR => (unit_id k <= b :> RR)%:R : RR) = b.
Proof.
move=> /andP [/RleE b0 /RleE b1]; apply: unit_step => // x h.
- by have -> : (unit_id x <= b :> RR) = true by apply/RleE.
- by have -> : (unit_id x <= b :> RR) = false by apply/negP => /RleE.
Qed.
Lemma real_uniform : @uniform_draw RR RR integrable integral unit_id.
Proof.
split=> [k|b hb]; last exact: step_draw.
by have [h1 h2] := unit_id_in k; apply/andP; split; [apply/RleE|apply/RltE].
Qed.

Lemma integral2_expectation : @is_expectation RR (RR * RR) integrable2 integral2.
Proof.
split.
- exact: integral2_one.
- by move=> c f g hf hg; exact: integral2_comb.
- by move=> f g hf h; have -> : g = f by apply: functional_extensionality => k; rewrite h.
Qed.
(* the two uniforms *)
Definition two (k : RR * RR) : seq RR := [:: unit_id k.1; unit_id k.2].
Lemma one_draw : integrable (fun _ : RR => 1 : RR) /\ integral (fun _ : RR => 1 : RR) = 1.
Proof. by split; [exact: integrable_const|exact: integral_const]. Qed.
Lemma two_uniform i : (i < 2)%N -> @uniform_draw RR (RR * RR) integrable2 integral2 (fun k => nth 0 (two k) i).
Proof.
have [d1 e1] := one_draw.
have in01 x : 0 <= (unit_id x : RR) < 1.
  by have [h1 h2] := unit_id_in x; apply/andP; split; [apply/RleE|apply/RltE].
case: i => [|[|//]] _; split=> [k|b hb] //=.
- have [d e] := step_draw hb; have [D E] := integral2_prod _ _ d d1.
  have h (k : RR * RR) : (unit_id k.1 <= b :> RR)%:R * 1 = (unit_id k.1 <= b :> RR)%:R :> RR by rewrite mulr1.
  have [D' E'] := ex_ext integral2_expectation D h; split=> //.
  by rewrite -[LHS]E' [LHS]E e e1; exact: (mulr1 (b : RR)).
- have [d e] := step_draw hb; have [D E] := integral2_prod _ _ d1 d.
  have h (k : RR * RR) : 1 * (unit_id k.2 <= b :> RR)%:R = (unit_id k.2 <= b :> RR)%:R :> RR by rewrite mul1r.
  have [D' E'] := ex_ext integral2_expectation D h; split=> //.
  by rewrite -[LHS]E' [LHS]E e e1; exact: (mul1r (b : RR)).
Qed.
Lemma two_independent i j : (i < 2)%N -> (j < 2)%N -> i != j ->
  @independent_draws RR (RR * RR) integrable2 integral2 (fun k => nth 0 (two k) i) (fun k => nth 0 (two k) j).
Proof.
case: i => [|[|//]] _; case: j => [|[|//]] _ // _ b c hb hc /=.
- have [d e] := step_draw hb; have [d' e'] := step_draw hc; have [D E] := integral2_prod _ _ d d'.
  by split=> //; rewrite [LHS]E e e'.
- have [d e] := step_draw hb; have [d' e'] := step_draw hc; have [D E] := integral2_prod _ _ d' d.
  have h (k : RR * RR) : (unit_id k.1 <= c :> RR)%:R * (unit_id k.2 <= b :> RR)%:R
           = (unit_id k.2 <= b :> RR)%:R * (unit_id k.1 <= c :> RR)%:R :> RR by rewrite mulrC.
  have [D' E'] := ex_ext integral2_expectation D h; split=> //.
  by rewrite -[LHS]E' [LHS]E e e'; exact: (mulrC (c : RR) b).
Qed.

Lemma two_weights : weight_vector [:: 4%:R^-1; 1 - 4%:R^-1 : RR].
Proof.
split; last by rewrite !big_cons big_nil addr0 addrC subrK.
by rewrite /= andbT invr_ge0 ler0n /= subr_ge0 invf_le1 ?ltr0n // ler1n.
Qed.

(* C110 and C112 for two particles *)
Example two_particles_unbiased :
  let w := [:: 4%:R^-1; 1 - 4%:R^-1 : RR] in
  [/\ integral (fun k : RR => (count_mem 0%N (systematic (@ss_left_ref RR) w (unit_id k)))%:R) = 2%:R * 4%:R^-1,
      integral2 (fun k : RR * RR => (count_mem 0%N (stratified (@ss_left_ref RR) w (two k)))%:R) = 2%:R * 4%:R^-1
    & integral2 (fun k : RR * RR => (sum_at (fun j => j%:R) (stratified (@ss_left_ref RR) w (two k))
                                       - 2%:R * wmean w (fun j => j%:R)) ^+ 2)
      <= 2%:R * wvar w (fun j => j%:R)].
Proof.
move=> w; have hs := @ss_left_refP RR; split.
- exact: (systematic_copies (j := 0%N) hs two_weights integral_expectation real_uniform).
- exact: (stratified_copies (j := 0%N) hs two_weights integral2_expectation two_uniform).
- exact: (stratified_variance (fun j => j%:R) hs two_weights integral2_expectation two_uniform two_independent).2.
Qed.

(* C111 with the real exponential and logarithm *)
Example bits_filter (ys : seq bool) :
  bitsE (R := RR) (2 + 3 * size ys) (fun k => Rtrigo_def.exp (- (bootstrap_filter (ln : RR -> RR) (drop 2)
     (fun k m => chunks m (drop 2 k)) ex_trans (fun y => map (@ex_g RR y)) (@ex_resample RR) ys ex_init k 2).2 : RR))
  = ex_nu (path_mean (@ex_P RR) (@ex_g RR) (fun=> 1) ys).
Proof.
apply: (@ex_filter RR Rtrigo_def.exp ln).
- exact: exp_0. - exact: exp_plus. - by move=> u /RltE; exact: exp_ln.
Qed.
