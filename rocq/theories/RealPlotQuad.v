(* The three laws of reproduce_paper_plots/plot_quadrature_rules.py over the reals of the standard library: proofs. *)
From Coq Require Import Reals.
From mathcomp Require Import all_ssreflect all_algebra ring zify.
From Verif Require Import Prelude LinAlgSpec QuadModel QuadSpec QuadProofs Moments1DModel Moments1DSpec
  Moments1DConv Moments1DProofs RealField RealWitness RealGauss RealGamma RealNormal PlotQuadModel RealDensitySpec RealDensity.
Set Implicit Arguments.
Unset Strict Implicit.
Unset Printing Implicit Defensive.
Import Order.TTheory GRing.Theory Num.Theory.
Local Open Scope ring_scope.
Arguments line_integral _ _ : clear scopes.
Arguments cont_at _ _ : clear scopes.
Arguments uniform_integral _ _ _ : clear scopes.
Arguments cont_local _ _ _ _ _ : clear scopes.
Local Notation K := R_rcfType.
Local Notation rexp := (Rtrigo_def.exp : K -> K).
Local Notation pi := (PI : K).

Lemma poly_integral (w : K -> K) (M : nat -> K) : (forall n, line_integral (fun x => x ^+ n * w x) (M n)) ->
  forall p : {poly K}, line_integral (fun x => p.[x] * w x) (mom_functional M p).
Proof.
move=> h p; rewrite /mom_functional.
have h1 (i : 'I_(size p)) : line_integral (fun x => p`_i * (x ^+ i * w x)) (p`_i * M i).
  by have := line_scal (p`_i) _ _ (h i); apply: line_ext => x; rewrite RmultE.
have := line_sum (index_enum [finType of 'I_(size p)]) h1; apply: line_ext => x.
by rewrite horner_coef mulr_suml; apply: eq_bigr => i _; rewrite mulrA.
Qed.

(* ---- the uniform law ---- *)
Lemma factE n : Factorial.fact n = n`!.
Proof. by elim: n => // n IH; rewrite factS -IH. Qed.

Lemma uniform_sum (F : rcfType) (a b : F) n : a < b ->
  (b ^+ n.+1 - a ^+ n.+1) / (n.+1%:R * (b - a)) = 1 / n.+1%:R * \sum_(i < n.+1) a ^+ i * b ^+ (n - i).
Proof.
move=> ab; have h : b - a != 0 by rewrite gt_eqF // subr_gt0.
have h' : (n.+1%:R : F) != 0 by rewrite pnatr_eq0.
rewrite subrXX; have -> : \sum_(i < n.+1) b ^+ (n.+1 - i.+1) * a ^+ i = \sum_(i < n.+1) a ^+ i * b ^+ (n - i).
  by apply: eq_bigr => i _; rewrite mulrC subSS.
by move: (\sum_(i < _) _) (n.+1%:R) h' => t c h'; rewrite -[b - a]/(b - a); move: (b - a) h => d h; field; rewrite h' h.
Qed.

Lemma uniform_moment (a b : K) n : a < b ->
  line_integral (fun x => x ^+ n * uniform_density a b x) (1 / n.+1%:R * \sum_(i < n.+1) a ^+ i * b ^+ (n - i)).
Proof.
move=> ab; have := uniform_integral n a b (elimT (RltE _ _) ab).
have n0 : (0 : K) < n.+1%:R * (b - a) by rewrite mulr_gt0 ?ltr0n // subr_gt0.
have d0 : (0 : K) < b - a by rewrite subr_gt0.
have -> : Rdiv (Rminus (pow b n.+1) (pow a n.+1)) (Rmult (INR n.+1) (Rminus b a)) =
   1 / n.+1%:R * \sum_(i < n.+1) a ^+ i * b ^+ (n - i).
  by rewrite -uniform_sum // /Rdiv !RpowE INRE RinvE // gt_eqF.
apply: line_ext => x; rewrite /uniform_density.
case: Rle_dec => [/RleE ->|h]; last by have -> : (a <= x) = false by [apply/RleE]; rewrite mulr0.
case: Rle_dec => [/RleE ->|h]; last by have -> : (x <= b) = false by [apply/RleE]; rewrite mulr0.
by rewrite RpowE RmultE RinvE // gt_eqF.
Qed.

Lemma uniform_is_density (a b : K) : a < b -> is_density (uniform_density a b).
Proof.
move=> ab; have d0 : (0 : K) < b - a by rewrite subr_gt0.
split.
- by move=> x; rewrite /uniform_density; case: ifP => // _; rewrite invr_ge0 ltW.
- by move=> p; eexists; apply: poly_integral => n; exact: uniform_moment.
- have := uniform_moment 0 ab; rewrite big_ord_recl big_ord0 !expr0 !mulr1 addr0 divr1 mulr1.
  by apply: line_ext => x; rewrite expr0 mul1r.
exists a, b; split=> // x hx.
have e z : a < z < b -> uniform_density a b z = (b - a)^-1.
  by case/andP=> h1 h2; rewrite /uniform_density !ltW.
rewrite e // invr_gt0; split=> //.
apply: (cont_local _ (fun=> (b - a)^-1) a b) => [|z [/RltE h1 /RltE h2]|]; last exact: const_cont.
  by case/andP: hx => /RltE h1 /RltE h2.
by apply: e; rewrite h1.
Qed.

(* ---- the gamma law ---- *)
Lemma gamma_shuffle (F : rcfType) (t x e c : F) n k : t != 0 -> c != 0 ->
  t ^+ n / c * (t^-1 * ((x / t) ^+ (k + n) * e)) = x ^+ n * (x ^+ k * e / (c * t ^+ k.+1)).
Proof.
move=> t0 c0; have tn : t ^+ n != 0 by rewrite expf_neq0.
have tk : t ^+ k != 0 by rewrite expf_neq0.
rewrite expr_div_n !exprD exprS; move: (t ^+ n) (t ^+ k) (x ^+ n) (x ^+ k) tn tk => a b d f a0 b0.
by field; rewrite t0 c0 a0 b0.
Qed.

Lemma gamma_moment (k : nat) (theta : K) n : 0 < theta ->
  line_integral (fun x => x ^+ n * gamma_density k.+1 theta x) (theta ^+ n * ((k + n)`!)%:R / (k`!)%:R).
Proof.
move=> t0; have tn : theta != 0 by rewrite gt_eqF.
have fn : ((k`!)%:R : K) != 0 by rewrite pnatr_eq0 -lt0n fact_gt0.
have := @line_affine _ _ 0 theta (elimT (RltE _ _) t0) (gamma_integral (k + n)).
pose c : K := theta ^+ n / (k`!)%:R.
have -> : theta ^+ n * ((k + n)`!)%:R / (k`!)%:R = Rmult c (INR (Factorial.fact (k + n))).
  by rewrite INRE factE RmultE mulrAC.
move=> /(line_scal c); apply: line_ext => x.
have -> : Rdiv (Rminus x 0) theta = x / theta by rewrite /Rdiv RinvE // RminusE subr0.
rewrite !RmultE RinvE // /gamma_density.
case: Rle_dec => [/RleE|h].
  by rewrite pmulr_lle0 ?invr_gt0 // => ->; rewrite !mulr0.
have -> : (x <= 0) = false.
  by apply/negbTE/negP => h'; apply: h; apply/RleE; rewrite pmulr_lle0 ?invr_gt0.
rewrite RpowE RoppE; exact: gamma_shuffle.
Qed.

Lemma gamma_is_density k (theta : K) : 0 < theta -> is_density (gamma_density k.+1 theta).
Proof.
move=> t0; have tn : theta != 0 by rewrite gt_eqF.
have fp : (0 : K) < (k`!)%:R by rewrite ltr0n fact_gt0.
have cp : (0 : K) < (k`!)%:R * theta ^+ k.+1 by rewrite mulr_gt0 ?exprn_gt0.
have ep x : (0 : K) < rexp (- (x / theta)) by apply/RltE; exact: exp_pos.
split.
- move=> x; rewrite /gamma_density; case: (lerP x 0) => // x0.
  by rewrite divr_ge0 ?(ltW cp) // mulr_ge0 ?exprn_ge0 ?(ltW x0) // ltW.
- by move=> p; eexists; apply: poly_integral => n; exact: gamma_moment.
- have := gamma_moment k 0 t0; rewrite expr0 mul1r addn0 divff ?gt_eqF //.
  by apply: line_ext => x; rewrite expr0 mul1r.
exists 0, 1; split; [exact: ltr01|move=> x hx]; have /andP [x0 x1] := hx.
have e z : 0 < z -> gamma_density k.+1 theta z = z ^+ k * rexp (- (z / theta)) / (k`!%:R * theta ^+ k.+1).
  by move=> z0; rewrite /gamma_density leNgt z0.
rewrite e // divr_gt0 // ?mulr_gt0 ?exprn_gt0 //; split=> //.
apply: (cont_local _ (fun z => z ^+ k * rexp (- (z / theta)) / (k`!%:R * theta ^+ k.+1)) 0 1).
- by split; apply/RltE.
- by move=> z [/RltE h1 _]; exact: e.
have := gamma_cont k theta^-1 ((k`!)%:R * theta ^+ k.+1)^-1 x; apply: cont_at_ext => z.
by rewrite RpowE.
Qed.

(* ---- the normal mixture ---- *)
Lemma mixtureE means variances weights x : normal_mixture means variances weights x =
  \sum_(t <- zip (zip means variances) weights) t.2 * normal_density t.1.1 t.1.2 x.
Proof. by []. Qed.

Definition mix_moment (means variances weights : seq K) (n : nat) : K :=
  \sum_(t <- zip (zip means variances) weights) t.2 * gauss_moment t.1.1 t.1.2 n.

Lemma line_sum_in (I : eqType) (r : seq I) (f : I -> K -> K) (l : I -> K) :
  (forall i, i \in r -> line_integral (f i) (l i)) -> line_integral (fun x => \sum_(i <- r) f i x) (\sum_(i <- r) l i).
Proof.
elim: r => [|i r IH] h.
  by rewrite big_nil; apply: line_ext line_0 => x; rewrite big_nil.
rewrite big_cons; apply: line_ext (line_plus _ _ _ _ (h i (mem_head _ _)) (IH _)) => [x|j hj]; first by rewrite big_cons.
by apply: h; rewrite inE hj orbT.
Qed.

Lemma plot_orderE N : (0 < N)%N -> (plot_order N).+1 = N.*2.
Proof. by rewrite /plot_order; lia. Qed.

Section Mixture.
Variables means variances weights : seq K.
Hypothesis s1 : size means = size weights.
Hypothesis s2 : size variances = size weights.
Hypothesis vp : all (fun v => 0 < v) variances.
Hypothesis wp : all (fun v => 0 <= v) weights.
Hypothesis w1 : jsum weights = 1.
Let comps := zip (zip means variances) weights.

Lemma szip : size (zip means variances) = size weights.
Proof. by rewrite size_zip s1 s2 minnn. Qed.
Lemma comp_var t : t \in comps -> 0 < t.1.2.
Proof.
move=> ht; have h : t.1 \in zip means variances.
  by rewrite -(@unzip1_zip _ _ (zip means variances) weights) ?szip // map_f.
have : t.1.2 \in variances by rewrite -(@unzip2_zip _ _ means variances) ?s1 ?s2 // map_f.
exact: (allP vp).
Qed.
Lemma comp_weight t : t \in comps -> 0 <= t.2.
Proof.
by move=> ht; apply: (allP wp); rewrite -(@unzip2_zip _ _ (zip means variances) weights) ?szip // map_f.
Qed.
Lemma comps_sum : \sum_(t <- comps) t.2 = 1.
Proof. by rewrite -w1 jsumE -(@unzip2_zip _ _ (zip means variances) weights) ?szip // big_map. Qed.
Lemma comps_mean : \sum_(t <- comps) t.2 * t.1.1 = jsum (jmul means weights).
Proof.
rewrite jsumE /jmul big_map.
have -> : zip means weights = [seq (t.1.1, t.2) | t <- comps].
  rewrite /comps; elim: means variances weights s1 s2 => [|m ms IH] [|v vs] [|w ws] //= [e1] [e2].
  by rewrite (IH vs).
by rewrite big_map; apply: eq_bigr => t _; rewrite mulrC.
Qed.

Lemma mixture_moment n : line_integral (fun x => x ^+ n * normal_mixture means variances weights x)
  (mix_moment means variances weights n).
Proof.
have h t : t \in comps -> line_integral (fun x => t.2 * (x ^+ n * normal_density t.1.1 t.1.2 x)) (t.2 * gauss_moment t.1.1 t.1.2 n).
  move=> /comp_var v0; have := line_normal 'X^n t.1.1 v0; rewrite momXn => /(line_scal t.2); apply: line_ext => x.
  by rewrite RmultE hornerXn.
have := line_sum_in h; apply: line_ext => x; rewrite mixtureE mulr_sumr.
by apply: eq_bigr => t _; rewrite mulrCA.
Qed.

Lemma mixture_cont (r : seq (K * K * K)) x : (forall t, t \in r -> 0 < t.1.2) ->
  cont_at (fun z => \sum_(t <- r) t.2 * normal_density t.1.1 t.1.2 z) x.
Proof.
elim: r => [|t r IH] h.
  by apply: (cont_at_ext (fun=> 0)) (const_cont _ _) => z; rewrite big_nil.
apply: (cont_at_ext (fun z => Rplus (Rmult t.2 (normal_density t.1.1 t.1.2 z)) (\sum_(t <- r) t.2 * normal_density t.1.1 t.1.2 z))).
  by move=> z; rewrite big_cons.
apply/cont_at_pt; apply: (continuity_pt_plus (fun z => Rmult t.2 (normal_density t.1.1 t.1.2 z))).
  apply: (continuity_pt_mult (fun=> t.2)); apply/cont_at_pt; first exact: const_cont.
  by apply: density_cont; apply: h; rewrite mem_head.
by apply/cont_at_pt; apply: IH => u hu; apply: h; rewrite inE hu orbT.
Qed.

Lemma mixture_gt0 x : 0 < normal_mixture means variances weights x.
Proof.
rewrite mixtureE lt_neqAle; apply/andP; split; last first.
  by rewrite big_seq sumr_ge0 // => t ht; rewrite mulr_ge0 ?comp_weight // ltW // density_gt0 // comp_var.
apply/negP => /eqP /esym; rewrite big_seq => e.
have h t : t \in comps -> t.2 * normal_density t.1.1 t.1.2 x = 0.
  move=> ht; apply/eqP; move/eqP: e; rewrite psumr_eq0 => [/allP /(_ t ht)|u hu]; first by rewrite ht.
  by rewrite mulr_ge0 ?comp_weight // ltW // density_gt0 // comp_var.
have := comps_sum; rewrite big_seq big1 => [/esym /eqP|t ht]; first by rewrite oner_eq0.
by move/eqP: (h t ht); rewrite mulf_eq0 => /orP [/eqP //|/eqP e']; have := density_gt0 t.1.1 x (comp_var ht); rewrite e' ltxx.
Qed.

Lemma mix_moment0 : mix_moment means variances weights 0 = 1.
Proof. by rewrite -comps_sum; apply: eq_bigr => t _; have [-> _ _] := gauss_momentP t.1.1 t.1.2; rewrite mulr1. Qed.
Lemma mix_moment1 : mix_moment means variances weights 1 = jsum (jmul means weights).
Proof. by rewrite -comps_mean; apply: eq_bigr => t _; have [_ -> _] := gauss_momentP t.1.1 t.1.2. Qed.

Lemma mixture_is_density : is_density (normal_mixture means variances weights).
Proof.
split.
- by move=> x; rewrite ltW // mixture_gt0.
- by move=> p; eexists; apply: poly_integral => n; exact: mixture_moment.
- have := mixture_moment 0; rewrite mix_moment0; by apply: line_ext => x; rewrite expr0 mul1r.
exists 0, 1; split; [exact: ltr01|move=> x _; split]; first exact: mixture_gt0.
by apply: mixture_cont; exact: comp_var.
Qed.

Lemma mixture_rmsE N k : (0 < N)%N -> (k < N.*2)%N ->
  (plot_mixture_rms means variances weights N)`_k = mix_moment means variances weights k.
Proof.
move=> N0 hk; rewrite /plot_mixture_rms nth_iota_map ?plot_orderE // jsumE big_map big_seq /mix_moment [RHS]big_seq.
apply: eq_bigr => t ht; rewrite mulrC; congr (_ * _).
by rewrite (gaussian_unique (raw_normal_gauss t.1.1 (ltW (comp_var ht)))).
Qed.

Lemma size_mixture_rms N : (0 < N)%N -> size (plot_mixture_rms means variances weights N) = N.*2.
Proof. by move=> N0; rewrite size_map size_iota plot_orderE. Qed.

Lemma mixture_cms N k : (0 < N)%N -> (k < N.*2)%N ->
  line_integral (fun x => (x - jsum (jmul means weights)) ^+ k * normal_mixture means variances weights x)
    (raw_to_central (plot_mixture_rms means variances weights N))`_k.
Proof.
move=> N0 hk; have hs := size_mixture_rms N0.
rewrite raw_to_centralE ?hs // mixture_rmsE ?mix_moment1 //; last by lia.
rewrite /central_moment (@mom_eq _ _ (mix_moment means variances weights)) => [|j]; last first.
  by rewrite size_exp_XsubC => hj; apply: mixture_rmsE => //; lia.
have := poly_integral mixture_moment (('X - (jsum (jmul means weights))%:P) ^+ k); apply: line_ext => x.
by rewrite horner_exp hornerXsubC.
Qed.
End Mixture.

Lemma uniform_rmsE (a b : K) N n : (0 < N)%N -> (n < N.*2)%N ->
  (plot_uniform_rms a b N)`_n = 1 / n.+1%:R * \sum_(i < n.+1) a ^+ i * b ^+ (n - i).
Proof.
move=> N0 hn; rewrite /plot_uniform_rms plot_orderE // nth_iota_map //.
by rewrite (jsum_iota (fun i => a ^+ i * b ^+ (n - i))).
Qed.

Lemma gamma_rmsE k (theta : K) N n : (0 < N)%N -> (n < N.*2)%N ->
  (plot_gamma_rms k.+1 theta N)`_n = theta ^+ n * ((k + n)`!)%:R / (k`!)%:R.
Proof. by move=> N0 hn; rewrite nth_iota_map ?plot_orderE. Qed.

Section Rules.
Variable chol : forall n, 'M[K]_n -> 'M[K]_n.
Variable eigh : forall n, 'M[K]_n -> 'M[K]_n * 'rV[K]_n.
Hypothesis cholP : chol_spec chol.
Hypothesis eighP : eigh_spec eigh.

Lemma mixture_rule means variances weights N :
  size means = size weights -> size variances = size weights ->
  all (fun v => 0 < v) variances -> all (fun v => 0 <= v) weights -> jsum weights = 1 -> (0 < N)%N ->
  is_density (normal_mixture means variances weights) /\
  exists ws, exists2 xs, plot_mixture_rule chol eigh means variances weights N = Some (ws, xs)
    & gauss_rule (normal_mixture means variances weights) N ws xs.
Proof.
move=> s1 s2 vp wp w1 N0; have hd := mixture_is_density s1 s2 vp wp w1; split=> //.
apply: (dens_rule hd cholP eighP) => //; first by rewrite size_raw_to_central size_mixture_rms.
by move=> k hk; exact: mixture_cms.
Qed.

Lemma uniform_rule a b N : a < b -> (0 < N)%N -> is_density (uniform_density a b) /\
  exists ws, exists2 xs, plot_uniform_rule chol eigh a b N = Some (ws, xs)
    & gauss_rule (uniform_density a b) N ws xs /\ all (fun x => a <= x <= b) xs.
Proof.
move=> ab N0; have hd := uniform_is_density ab; split=> //.
have [||ws [xs hq hr]] := dens_rule hd cholP eighP (ms := plot_uniform_rms a b N) (m := 0) false N0.
- by rewrite size_map size_iota plot_orderE.
- move=> k hk; rewrite uniform_rmsE //; have := uniform_moment k ab; apply: line_ext => x; by rewrite subr0.
exists ws, xs => //; split=> //.
have sup x : uniform_density a b x != 0 -> a <= x <= b by rewrite /uniform_density; case: ifP => //; rewrite eqxx.
have /allP l := rule_lower hr (fun x h => proj1 (andP (sup x h))).
have /allP u := rule_upper hr (fun x h => proj2 (andP (sup x h))).
by apply/allP => x hx; rewrite l ?u.
Qed.

Lemma gamma_rule k theta N : (0 < k)%N -> 0 < theta -> (0 < N)%N -> is_density (gamma_density k theta) /\
  exists ws, exists2 xs, plot_gamma_rule chol eigh k theta N = Some (ws, xs)
    & gauss_rule (gamma_density k theta) N ws xs /\ all (fun x => 0 <= x) xs.
Proof.
case: k => // k _ t0 N0; have hd := gamma_is_density k t0; split=> //.
have [||ws [xs hq hr]] := dens_rule hd cholP eighP (ms := plot_gamma_rms k.+1 theta N) (m := 0) false N0.
- by rewrite size_map size_iota plot_orderE.
- move=> n hn; rewrite gamma_rmsE //; have := gamma_moment k n t0; apply: line_ext => x; by rewrite subr0.
exists ws, xs => //; split=> //; apply: (rule_lower hr) => x; rewrite /gamma_density.
by case: (lerP x 0) => [_|/ltW //]; rewrite eqxx.
Qed.
End Rules.
