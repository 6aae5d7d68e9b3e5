(* inverse_fourier on characteristic functions of normal laws and their mixtures, over the reals: lemmas. *)
From Coq Require Import Reals.
From mathcomp Require Import all_ssreflect all_algebra ring complex.
From Verif Require Import Prelude QuadSpec QuadProofs Moments1DModel Moments1DSpec Moments1DConv Moments1DProofs.
From Verif Require Import FourierModel FourierProofs LawSpec RealField RealSeries RealWitness RealExpLim RealGauss RealTrapz.
From Verif Require Import RealNormal DardelModel RealChar.
Set Implicit Arguments.
Unset Strict Implicit.
Unset Printing Implicit Defensive.
Import Order.TTheory GRing.Theory Num.Theory.
Local Open Scope ring_scope.
Arguments line_integral _ _ : clear scopes.
Arguments gk _ : clear scopes.
Arguments fint _ _ _ : clear scopes.
Arguments tsum _ _ _ : clear scopes.
Arguments gaps _ _ _ : clear scopes.
Arguments pick_A _ _ _ _ _ : clear scopes.
Arguments pick_n _ _ _ : clear scopes.
Local Notation K := R_rcfType.
Local Notation rexp := (Rtrigo_def.exp : K -> K).
Local Notation rcos := (cos : K -> K).
Local Notation rsin := (sin : K -> K).
Local Notation pi := (PI : K).
Local Notation ii := ('i%C : K[i]).
Local Notation cx := (real_complex K).

Section Algebra.
Variable F : rcfType.
Lemma re_cell (a b : F) (u w : F[i]) :
  complex.Re ((real_complex F b - real_complex F a) * (u + w) / 2%:R) = (b - a) * (complex.Re u + complex.Re w) / 2%:R.
Proof.
have -> : 2%:R^-1 = real_complex F 2%:R^-1 :> F[i] by rewrite fmorphV rmorph_nat.
by rewrite -rmorphB; case: u w => [u1 u2] [w1 w2]; rewrite /= !(mul0r, mulr0, subr0, addr0).
Qed.
Lemma sqrt_alg (t v s : F) : 0 < v -> s ^+ 2 = t / v -> 0 <= s -> 0 <= t -> s = t / Num.sqrt (t * v).
Proof.
move=> v0 hs s0 t0; have v1 := lt0r_neq0 v0.
have -> : s = Num.sqrt (t / v) by rewrite -hs sqrtr_sqr ger0_norm.
case: (eqVneq t 0) => [->|t1]; first by rewrite !mul0r sqrtr0.
have q0 : Num.sqrt (t * v) != 0 by rewrite gt_eqF // sqrtr_gt0 mulr_gt0 // lt_def t1.
apply: (mulIf q0); rewrite divfK // -sqrtrM; last by rewrite divr_ge0 // ltW.
have -> : t / v * (t * v) = t ^+ 2 by field.
by rewrite sqrtr_sqr ger0_norm.
Qed.
Lemma expo (d v : F) : d ^+ 2 * v^-1 / 2%:R = d ^+ 2 / (2%:R * v).
Proof. by rewrite invfM -mulrA [v^-1 * _]mulrC. Qed.
Lemma swap_div (t q e : F) : t / q * e = t * (e / q).
Proof. by rewrite -mulrA [q^-1 * e]mulrC. Qed.
Lemma cancel_div (s c e : F) : s != 0 -> s * (c * (e / s)) = c * e.
Proof. by move=> hs; rewrite mulrCA [s * _]mulrC divfK. Qed.
Lemma expo2 (z v s : F) : s ^+ 2 = v -> - z ^+ 2 / (2%:R * v^-1) = - (s * z * (s * z)) / 2%:R.
Proof. by move=> <-; rewrite -expr2 exprMn invfM invrK !mulNr mulrA mulrAC [s ^+ 2 * _]mulrC. Qed.
Lemma cell_scal (c d a b t : F) : d * (c * a + c * b) / 2%:R + c * t = c * (d * (a + b) / 2%:R + t).
Proof. by field. Qed.
Lemma div_close (T t N B : F) : 0 < t -> `|T - t * N| <= B -> `|T / t - N| <= B / t.
Proof.
move=> t0; have t1 := lt0r_neq0 t0; rewrite ler_pdivl_mulr // => h.
have -> : `|T / t - N| * t = `|T / t - N| * `|t| by rewrite (gtr0_norm t0).
by rewrite -normrM mulrBl divfK // [N * t]mulrC.
Qed.
End Algebra.

Lemma Rdiv2 (a : K) : Rdiv a (IZR 2) = a / 2%:R.
Proof. by rewrite /Rdiv RinvE ?two_E ?pnatr_eq0. Qed.

Lemma re_trapz (g : K -> K[i]) z0 zs :
  complex.Re (trapz [seq g z | z <- z0 :: zs] [seq cx z | z <- z0 :: zs]) = tsum (fun z => complex.Re (g z)) z0 zs.
Proof.
elim: zs z0 => [|z zs IH] z0 //.
rewrite -[trapz _ _]/((cx z - cx z0) * (g z0 + g z) / 2%:R + trapz [seq g z | z <- z :: zs] [seq cx z | z <- z :: zs]).
by rewrite raddfD /= re_cell IH Rdiv2.
Qed.

Lemma inv_fourier_tsum x (phi : K -> K[i]) z0 zs :
  inverse_fourier real_cexp pi x [seq phi z | z <- z0 :: zs] (z0 :: zs) =
  tsum (fun z => complex.Re (real_cexp (- 'i%C * cx x * cx z) * phi z)) z0 zs / (2%:R * pi).
Proof.
rewrite /inverse_fourier -(re_trapz (fun z => real_cexp (- 'i%C * cx x * cx z) * phi z)); congr (complex.Re (trapz _ _) / _).
by elim: (z0 :: zs) => //= z r ->.
Qed.

Lemma tsum_ext f g z0 zs : f =1 g -> tsum f z0 zs = tsum g z0 zs.
Proof. by move=> h; elim: zs z0 => //= z zs IH z0; rewrite IH !h. Qed.

Lemma cexp_neg x z : real_cexp (- 'i%C * cx x * cx z) = Complex (rcos (x * z)) (- rsin (x * z)).
Proof.
have -> : - 'i%C * cx x * cx z = ii * cx (- (x * z)) :> K[i] by rewrite rmorphN rmorphM mulrN !mulNr mulrA.
by rewrite [X in real_cexp X]/= cexp_imag; congr Complex; [exact: cos_neg|exact: sin_antisym].
Qed.

Section One.
Variables (m v x : K).
Hypothesis v0 : 0 < v.

Lemma integrandE z : complex.Re (real_cexp (- 'i%C * cx x * cx z) * ghf_cf real_cexp z m v) = fint (m - x) (Num.sqrt v) z.
Proof.
rewrite cexp_neg ghf_cfE /= /fint /gk.
have -> : Ropp (Rmult (Rmult (Num.sqrt v) z) (Rmult (Num.sqrt v) z)) = - (z ^+ 2 * v) :> K.
  by rewrite !RmultE RoppE -expr2 exprMn sqr_sqrtr ?ltW // mulrC.
have -> : Rdiv (- (z ^+ 2 * v)) (IZR 2) = - (z ^+ 2 * v / 2%:R) :> K by rewrite Rdiv2 mulNr.
rewrite RmultE mulrA mulNr opprK mulrA -mulrDl; congr (_ * _).
have -> : Rmult (m - x) z = z * m - x * z :> K by rewrite RmultE mulrC mulrBr [x * z]mulrC.
by rewrite [RHS]cos_minus RplusE !RmultE addrC [X in X + _]mulrC [X in _ + X]mulrC addrC.
Qed.

Lemma fint_integral : line_integral (fint (m - x) (Num.sqrt v)) (2%:R * pi * normal_density m v x).
Proof.
have w0 : 0 < v^-1 by rewrite invr_gt0.
have h := line_scal (Num.sqrt (2%:R * pi * v^-1)) _ _ (cos_law 0 (m - x) w0).
have tp0 : 0 < 2%:R * pi by rewrite mulr_gt0 ?ltr0n ?pi_gt0.
have s0 : Num.sqrt (2%:R * pi * v^-1) != 0 by rewrite gt_eqF // sqrtr_gt0 mulr_gt0.
have <- : Rmult (Num.sqrt (2%:R * pi * v^-1)) (rexp (- ((m - x) ^+ 2 * v^-1 / 2%:R))) = 2%:R * pi * normal_density m v x.
  have eS : Num.sqrt (2%:R * pi * v^-1) = 2%:R * pi / Num.sqrt (2%:R * pi * v).
    by apply: (sqrt_alg v0); rewrite ?sqrtr_ge0 ?(ltW tp0) // sqr_sqrtr // ltW // mulr_gt0.
  have eE : - ((m - x) ^+ 2 * v^-1 / 2%:R) = - (x - m) ^+ 2 / (2%:R * v) by rewrite expo mulNr -[m - x]opprB sqrrN.
  rewrite /normal_density [in LHS]eS [in LHS]eE; exact: swap_div.
apply: line_ext h => z.
have e2 : - (z - 0) ^+ 2 / (2%:R * v^-1) = - (Num.sqrt v * z * (Num.sqrt v * z)) / 2%:R.
  by rewrite subr0; apply: expo2; rewrite sqr_sqrtr // ltW.
rewrite /normal_density e2 subr0 /fint /gk Rdiv2; exact: cancel_div.
Qed.
End One.

Definition grid (h : K) : rel K := fun a b => (a <= b) && (b - a <= h).
Lemma gapsP h z0 zs : path (grid h) z0 zs -> gaps h z0 zs.
Proof.
elim: zs z0 => //= z zs IH z0 /andP [/andP [h1 h2] /IH h3]; split=> //.
by split; apply/RleE; rewrite ?subr_ge0.
Qed.
Lemma lastE (z0 : K) zs : List.last zs z0 = last z0 zs.
Proof.
case: zs z0 => // z zs z0; rewrite -[last _ _]/(last z zs).
by elim: zs z => // z' zs IH z; exact: IH.
Qed.

Definition inv_bound (m v x h A a b : K) : K :=
  ((`|x - m| + Num.sqrt v) * h / 2%:R * (b - a) + 4%:R / Num.sqrt v * rexp (- (v * A ^+ 2 / 2%:R))) / (2%:R * pi).

Lemma inv_fourier_normal (m v x h A z0 : K) zs : 0 < v -> path (grid h) z0 zs -> 0 <= A -> z0 <= - A -> A <= last z0 zs ->
  `|inverse_fourier real_cexp pi x [seq ghf_cf real_cexp z m v | z <- z0 :: zs] (z0 :: zs) - normal_density m v x|
  <= inv_bound m v x h A z0 (last z0 zs).
Proof.
move=> v0 hp hA hz hb; rewrite inv_fourier_tsum.
rewrite (tsum_ext z0 zs (@integrandE m v x v0)).
have s0 : 0 < Num.sqrt v by rewrite sqrtr_gt0.
have tp0 : 0 < 2%:R * pi by rewrite mulr_gt0 ?ltr0n ?pi_gt0.
have tp1 := lt0r_neq0 tp0.
have := fint_trapezoid (m - x) (Num.sqrt v) _ h A z0 zs _ (fint_integral m x v0) (gapsP hp) _ _ _.
move=> /(_ (RltE _ _ s0)) /(_ (RleE _ _ hA)) /(_ (RleE _ _ hz)).
rewrite lastE => /(_ (RleE _ _ hb)) /RleE.
move=> hle; rewrite /inv_bound; apply: div_close => //; apply: le_trans hle _.
have e4 : Rdiv (IZR 4) (Num.sqrt v) = 4%:R / Num.sqrt v.
  by rewrite -INRE INR_IZR_INZ /Rdiv RinvE ?(lt0r_neq0 s0).
have eg : gk (Num.sqrt v * A) = rexp (- (v * A ^+ 2 / 2%:R)).
  by rewrite /gk Rdiv2 !RmultE RoppE -expr2 exprMn sqr_sqrtr ?ltW // mulNr.
by rewrite RplusE [X in _ + X <= _]RmultE e4 [X in _ + _ * X <= _]eg Rdiv2 RabsE [`|x - m|]distrC.
Qed.

(* mixtures *)
Lemma tsumS f z0 z zs : tsum f z0 (z :: zs) = (z - z0) * (f z0 + f z) / 2%:R + tsum f z zs.
Proof. by rewrite /= Rdiv2. Qed.
Lemma tsum_sum (I : Type) (r : seq I) (f : I -> K -> K) z0 zs :
  tsum (fun z => \sum_(i <- r) f i z) z0 zs = \sum_(i <- r) tsum (f i) z0 zs.
Proof.
elim: zs z0 => [|z zs IH] z0; first by rewrite big1.
rewrite [LHS]/= IH RplusE Rdiv2 RmultE RplusE -big_split mulr_sumr mulr_suml -big_split; apply: eq_bigr => i _.
by rewrite /= Rdiv2.
Qed.
Lemma tsum_scal (c : K) (f : K -> K) z0 zs : tsum (fun z => c * f z) z0 zs = c * tsum f z0 zs.
Proof.
elim: zs z0 => [|z zs IH] z0; first by rewrite mulr0.
rewrite !tsumS IH; exact: cell_scal.
Qed.

(* the characteristic function of a mixture of normal laws, components (weight, mean, variance) *)
Definition mixture_cf (comps : seq (K * K * K)) (z : K) : K[i] :=
  \sum_(c <- comps) cx c.1.1 * ghf_cf real_cexp z c.1.2 c.2.
Definition mixture_density (comps : seq (K * K * K)) (x : K) : K :=
  \sum_(c <- comps) c.1.1 * normal_density c.1.2 c.2 x.

Lemma inv_fourier_mixtureE comps x z0 zs :
  inverse_fourier real_cexp pi x [seq mixture_cf comps z | z <- z0 :: zs] (z0 :: zs) =
  \sum_(c <- comps) c.1.1 * inverse_fourier real_cexp pi x [seq ghf_cf real_cexp z c.1.2 c.2 | z <- z0 :: zs] (z0 :: zs).
Proof.
rewrite inv_fourier_tsum.
rewrite (@tsum_ext _ (fun z => \sum_(c <- comps) c.1.1 * complex.Re (real_cexp (- 'i%C * cx x * cx z) * ghf_cf real_cexp z c.1.2 c.2))); last first.
  move=> z; rewrite /mixture_cf mulr_sumr raddf_sum; apply: eq_bigr => c _.
  move: (real_cexp _) (ghf_cf _ _ _ _) (c.1.1) => [a b] [u w] r /=.
  by rewrite !(mul0r, subr0, addr0) !mulrA [a * r]mulrC mulrBr !mulrA [b * r]mulrC.
rewrite tsum_sum mulr_suml; apply: eq_bigr => c _.
by rewrite tsum_scal -[LHS]mulrA (inv_fourier_tsum x (fun z => ghf_cf real_cexp z c.1.2 c.2)).
Qed.

Lemma inv_fourier_mixture comps (x h A z0 : K) zs :
  all (fun c => (0 <= c.1.1) && (0 < c.2)) comps -> path (grid h) z0 zs -> 0 <= A -> z0 <= - A -> A <= last z0 zs ->
  `|inverse_fourier real_cexp pi x [seq mixture_cf comps z | z <- z0 :: zs] (z0 :: zs) - mixture_density comps x|
  <= \sum_(c <- comps) c.1.1 * inv_bound c.1.2 c.2 x h A z0 (last z0 zs).
Proof.
move=> hc hp hA hz hb; rewrite inv_fourier_mixtureE /mixture_density -sumrB.
apply: le_trans (ler_norm_sum _ _ _) _; elim: comps hc => [|c comps IH] /=; first by rewrite !big_nil.
case/andP=> /andP [w0 v0] /IH {IH} hle; rewrite !big_cons ler_add // -mulrBr normrM (ger0_norm w0).
by apply: ler_wpmul2l => //; exact: inv_fourier_normal.
Qed.

(* convergence on uniform grids *)
Definition linspace_sym (A : K) (n : nat) : seq K := mkseq (fun i => - A + i%:R * (2%:R * A / n.+1%:R)) n.+2.

Section Alg2.
Variable F : rcfType.
Lemma bound_split (L A s t g n : F) : n != 0 -> t != 0 -> s != 0 ->
  (L * (2%:R * A / n) / 2%:R * (A - - A) + 4%:R / s * g) / t = (2%:R * L * A ^+ 2 / t) / n + (4%:R / s / t) * g.
Proof. by move=> hn ht hs; field; rewrite hn ht hs. Qed.
Lemma last_alg (A n : F) : n != 0 -> - A + n * (2%:R * A / n) = A.
Proof. by move=> hn; field. Qed.
Lemma step_alg (A i d : F) : - A + (1 + i) * d - (- A + i * d) = d.
Proof. by ring. Qed.
End Alg2.

Lemma linspace_path (A : K) n : 0 <= A ->
  [/\ linspace_sym A n = (- A) :: behead (linspace_sym A n),
      path (grid (2%:R * A / n.+1%:R)) (- A) (behead (linspace_sym A n))
    & last (- A) (behead (linspace_sym A n)) = A].
Proof.
move=> A0; set l := linspace_sym A n.
have n0 : n.+1%:R != 0 :> K by rewrite pnatr_eq0.
have e : l = - A :: behead l.
  by rewrite /l /linspace_sym /mkseq /=; congr (_ :: _); rewrite mul0r addr0.
have sl : size l = n.+2 by rewrite size_mkseq.
have sb : size (behead l) = n.+1 by rewrite size_behead sl.
split=> //.
- apply/(pathP 0) => i; rewrite sb => hi; rewrite -e nth_behead !nth_mkseq //; last exact: leqW.
  have -> : i.+1%:R = 1 + i%:R :> K by rewrite -[i.+1]add1n natrD.
  have es := step_alg A i%:R (2%:R * A / n.+1%:R).
  have d0 : 0 <= 2%:R * A / n.+1%:R by rewrite divr_ge0 ?mulr_ge0 ?ler0n.
  by rewrite /grid es lexx andbT -subr_ge0 es.
- rewrite (last_nth 0) -e sb nth_mkseq //; exact: last_alg.
Qed.

Lemma bound_small (m v x e : K) : 0 < v -> 0 < e -> exists2 A0 : K, 0 < A0 & forall A, A0 <= A ->
  exists N, forall n, (N <= n)%N -> inv_bound m v x (2%:R * A / n.+1%:R) A (- A) A < e.
Proof.
move=> v0 e0.
have s0 : 0 < Num.sqrt v by rewrite sqrtr_gt0.
have tp0 : 0 < 2%:R * pi by rewrite mulr_gt0 ?ltr0n ?pi_gt0.
have e2 : 0 < e / 2%:R by rewrite divr_gt0 ?ltr0n.
have [A0 [A00 hA]] := pick_A (Num.sqrt v) (4%:R / Num.sqrt v / (2%:R * pi)) (e / 2%:R) (elimT (RltE _ _) s0) (elimT (RltE _ _) e2).
exists A0; first by apply/RltE.
move=> A hA0; have := hA A (elimT (RleE _ _) hA0).
set L := `|x - m| + Num.sqrt v.
have [N hN] := pick_n (2%:R * L * A ^+ 2 / (2%:R * pi)) (e / 2%:R) (elimT (RltE _ _) e2).
move=> /RltE; rewrite RmultE RabsE => h1; exists N => n /ssrnat.leP /hN /RltE.
rewrite INRE RabsE /Rdiv RinvE ?pnatr_eq0 // RmultE => h2.
have eg : gk (Num.sqrt v * A) = rexp (- (v * A ^+ 2 / 2%:R)).
  by rewrite /gk Rdiv2 !RmultE RoppE -expr2 exprMn sqr_sqrtr ?ltW // mulNr.
rewrite /inv_bound -/L bound_split ?pnatr_eq0 ?(lt0r_neq0 s0) ?(lt0r_neq0 tp0) //.
have es : e = e / 2%:R + e / 2%:R by rewrite -splitr.
rewrite es; apply: ltr_add.
- by apply: le_lt_trans h2; rewrite ler_pmul2r ?invr_gt0 ?ltr0n // ler_norm.
- apply: le_lt_trans h1; rewrite -eg; apply: ler_wpmul2r; last exact: ler_norm.
  by apply/RleE; apply: Rlt_le; exact: gk_pos.
Qed.

Lemma mixture_small comps (x e : K) : all (fun c => (0 <= c.1.1) && (0 < c.2)) comps -> 0 < e ->
  exists2 A0 : K, 0 < A0 & forall A, A0 <= A -> exists N, forall n, (N <= n)%N ->
    \sum_(c <- comps) c.1.1 * inv_bound c.1.2 c.2 x (2%:R * A / n.+1%:R) A (- A) A < e.
Proof.
elim: comps e => [|c comps IH] e /=.
  by move=> _ e0; exists 1; [exact: ltr01|] => A _; exists 0%N => n _; rewrite big_nil.
case/andP=> /andP [w0 v0] hc e0.
have e2 : 0 < e / 2%:R by rewrite divr_gt0 ?ltr0n.
have [A1 A10 h1] := IH _ hc e2.
have w1 : 0 < c.1.1 + 1 by rewrite ltr_spaddr.
have e3 : 0 < e / 2%:R / (c.1.1 + 1) by rewrite divr_gt0.
have [A2 A20 h2] := bound_small c.1.2 x v0 e3.
exists (A1 + A2); first by rewrite addr_gt0.
move=> A hA.
have [|N1 hN1] := h1 A; first by apply: le_trans hA; rewrite ler_addl ltW.
have [|N2 hN2] := h2 A; first by apply: le_trans hA; rewrite ler_addr ltW.
exists (maxn N1 N2) => n; rewrite geq_max => /andP [n1 n2].
rewrite big_cons.
have es : e = e / 2%:R + e / 2%:R by rewrite -splitr.
rewrite es; apply: ltr_le_add; last by apply: ltW; exact: hN1.
have hb := hN2 _ n2; set b := inv_bound _ _ _ _ _ _ _ in hb *.
case: (ltrP 0 b) => b0.
  have /lt_le_trans : c.1.1 * b < (c.1.1 + 1) * b by rewrite ltr_pmul2r // ltr_addl.
  apply; rewrite mulrC; apply: ltW; by rewrite -ltr_pdivl_mulr.
by apply: le_lt_trans e2; rewrite mulr_ge0_le0.
Qed.
