(* Proofs: Legendre expansion (C25), saddle point (C26), truncated CGF. *)
From mathcomp Require Import all_ssreflect all_algebra.
From mathcomp Require Import ring zify.
From Verif Require Import Prelude Egf QuadSpec QuadProofs QuadMain.
From Verif Require Import Moments1DModel Moments1DSpec Moments1DProofs Moments1DConv BellProofs PdfModel PdfSpec HermiteProofs.
Set Implicit Arguments.
Unset Strict Implicit.
Unset Printing Implicit Defensive.
Import Order.TTheory GRing.Theory Num.Theory.
Local Open Scope ring_scope.

Section Integral.
Variable R : rcfType.
Variables a b : R.
Let l (k : nat) : R := (b ^+ k.+1 - a ^+ k.+1) / k.+1%:R.
Notation L := (poly_integral a b).

Lemma LE p : L p = mom_functional l p.
Proof. by []. Qed.
Lemma LD p q : L (p + q) = L p + L q.
Proof. exact: (momD l). Qed.
Lemma LB p q : L (p - q) = L p - L q.
Proof. exact: (momB l). Qed.
Lemma LZ c p : L (c *: p) = c * L p.
Proof. exact: (momZ l). Qed.
Lemma L0 : L 0 = 0.
Proof. exact: (mom0 l). Qed.
Lemma L_sum I (r : seq I) (P : pred I) (F : I -> {poly R}) :
  L (\sum_(i <- r | P i) F i) = \sum_(i <- r | P i) L (F i).
Proof. exact: (mom_sum l). Qed.

Lemma ftc (p : {poly R}) : L p^`() = p.[b] - p.[a].
Proof.
have hX n : L ('X^n)^`() = ('X^n).[b] - ('X^n).[a].
  rewrite derivXn -scaler_nat LZ LE momXn /l !hornerXn; case: n => [|n] /=.
    by rewrite mul0r !expr0 subrr.
  by rewrite mulrC divfK // pnatr_eq0.
rewrite -[p]coefK poly_def raddf_sum /= L_sum !horner_sum -sumrB.
by apply: eq_bigr => i _; rewrite derivZ LZ hX !hornerZ mulrBr.
Qed.

Lemma by_parts (p q : {poly R}) : L (p^`() * q) = (p * q).[b] - (p * q).[a] - L (p * q^`()).
Proof. by rewrite -ftc derivM LD addrK. Qed.

Lemma L1 : L 1 = b - a.
Proof. by rewrite -(derivX R) ftc !hornerX. Qed.

Lemma primitive (p : {poly R}) : exists q, q^`() = p.
Proof.
exists (\poly_(i < (size p).+1) (if i == 0%N then 0 else p`_i.-1 / i%:R)).
apply/polyP => i; rewrite coef_deriv coef_poly /= ltnS.
case: ltnP => h; last by rewrite mul0rn nth_default.
by rewrite -mulr_natr divfK // pnatr_eq0.
Qed.
End Integral.

Section Legendre.
Variable R : rcfType.
Notation L := (poly_integral (-1 : R) 1).

Definition lcoef (k i : nat) : R :=
  (-1) ^+ i * 2%:R ^- k * ((2 * k - 2 * i)`!)%:R / ((i`!)%:R * ((k - i)`!)%:R * ((k - 2 * i)`!)%:R).
Definition LP (k : nat) : {poly R} := \sum_(i < k./2.+1) lcoef k i *: 'X^(k - 2 * i).

Lemma legendre_combE k (rms : seq R) : (k < size rms)%N ->
  legendre_comb k rms = mom_functional (nth 0 rms) (LP k).
Proof.
move=> h; rewrite /legendre_comb jsum_iota /LP mom_sum; apply: eq_bigr => i _.
by rewrite momZ momXn jget_nth // (leq_ltn_trans (leq_subr _ _)).
Qed.

Lemma legendreE k x : legendre k x = (LP k).[x].
Proof.
rewrite /legendre legendre_combE ?size_map ?size_iota // /LP mom_sum horner_sum.
apply: eq_bigr => i _; rewrite momZ momXn hornerZ hornerXn nth_iota_map //.
by rewrite ltnS leq_subr.
Qed.

Let U : {poly R} := 'X^2 - 1.
Notation W k := (U ^+ k).

Lemma rodrigues k : (W k)^`(k) = (2%:R ^+ k * (k`!)%:R) *: LP k.
Proof.
rewrite /U exprDn linear_sum /=.
have h2 : (k./2.+1 <= k.+1)%N by rewrite ltnS; lia.
rewrite /LP (big_ord_widen _ (fun i => lcoef k i *: ('X^(k - 2 * i) : {poly R})) h2) scaler_sumr [RHS]big_mkcond.
apply: eq_bigr => i _; have hi : (i <= k)%N by rewrite -ltnS.
rewrite -exprM -[(-1) ^+ i]/(_) -(rmorphN1 (polyC_rmorphism R)) -rmorphX /= mulrC mul_polyC -scaler_nat [_ *: (_ *: _)]scalerA.
rewrite 2!linearZ /= derivnXn -scaler_nat !scalerA.
case: ltnP => hk; last first.
  by rewrite ffact_small ?mulr0 ?scale0r //; lia.
have -> : (2 * (k - i) - k = k - 2 * i)%N by lia.
congr (_ *: _); rewrite /lcoef bin_frac //.
have hf : ((2 * (k - i)) ^_ k)%:R = ((2 * k - 2 * i)`!)%:R / ((k - 2 * i)`!)%:R :> R.
  apply: (mulIf (@fact_neq0 R (k - 2 * i))); rewrite divfK ?fact_neq0 // -natrM; congr (_%:R).
  by have := @ffact_fact (2 * (k - i)) k; rewrite -mulnBr => <-; last lia; congr (_ * _`!)%N; lia.
rewrite hf; have h1 := @fact_neq0 R k; have h3 := @fact_neq0 R i; have h4 := @fact_neq0 R (k - i).
have h5 := @fact_neq0 R (k - 2 * i); have h6 : (2%:R ^+ k : R) != 0 by rewrite expf_neq0 // pnatr_eq0.
move: h1 h3 h4 h5 h6; move: (k`!%:R : R) (i`!%:R : R) ((k - i)`!%:R : R) ((k - 2 * i)`!%:R : R) (2%:R ^+ k : R).
move: ((2 * k - 2 * i)`!%:R : R) ((-1) ^+ i : R) => x1 x2 x3 x4 x5 x6 x7 h3 h4 h5 h6 h7.
by field; rewrite h4 h5 h6 h7.
Qed.

Lemma W_deriv k j : (j <= k)%N -> exists r, (W k)^`(j) = U ^+ (k - j) * r.
Proof.
elim: j => [|j IH] h; first by exists 1; rewrite subn0 mulr1.
have [r hr] := IH (ltnW h); rewrite derivnS hr derivM deriv_exp.
have -> : (k - j).-1 = (k - j.+1)%N by lia.
have {2}-> : (k - j = (k - j.+1).+1)%N by lia.
exists (U^`() *+ (k - j) * r + U * r^`()).
rewrite exprS; move: (k - j)%N (U ^+ (k - j.+1)) U^`() r^`() U => c w u' r' v.
rewrite mulrDr !mulrnAl !mulrnAr !mulrA; congr (_ *+ _ + _ * _); last by rewrite mulrC.
by congr (_ * _); rewrite mulrC.
Qed.

Lemma U_root x : x = 1 \/ x = -1 -> U.[x] = 0.
Proof. by rewrite /U !hornerE; case=> ->; ring. Qed.

Lemma W_boundary k j (q : {poly R}) x : (j < k)%N -> x = 1 \/ x = -1 -> ((W k)^`(j) * q).[x] = 0.
Proof.
move=> h hx; have [r ->] := W_deriv (ltnW h).
have -> : (k - j = (k - j).-1.+1)%N by lia.
by rewrite exprS !hornerM U_root // !mul0r.
Qed.

Lemma W_parts k j (q : {poly R}) : (j <= k)%N ->
  L ((W k)^`(k) * q) = (-1) ^+ j * L ((W k)^`(k - j) * q^`(j)).
Proof.
elim: j => [|j IH] h; first by rewrite subn0 derivn0 expr0 mul1r.
rewrite IH 1?ltnW //; have -> : (k - j = (k - j.+1).+1)%N by lia.
rewrite derivnS by_parts !W_boundary ?subrr ?sub0r; [|by lia|by right|by lia|by left].
by rewrite derivnS exprS mulN1r mulrN mulNr.
Qed.

Lemma LP_orth_low k (q : {poly R}) : (size q <= k)%N -> L (LP k * q) = 0.
Proof.
move=> h; have h0 : (2%:R ^+ k * (k`!)%:R : R) != 0 by rewrite mulf_neq0 ?fact_neq0 ?expf_neq0 // pnatr_eq0.
apply: (mulfI h0); rewrite mulr0 -LZ scalerAl -rodrigues (@W_parts k k) // (derivn_poly0 h).
by rewrite mulr0 L0 mulr0.
Qed.

Definition beta (k : nat) : R := L ((1 - 'X^2) ^+ k).
Lemma beta_rec k : (2 * k + 3)%:R * beta k.+1 = (2 * k + 2)%:R * beta k.
Proof.
have : L ((1 - 'X^2) ^+ k.+1) = L (('X : {poly R})^`() * (1 - 'X^2) ^+ k.+1) by rewrite derivX mul1r.
rewrite by_parts !hornerM !horner_exp.
have -> : (1 - 'X^2 : {poly R}).[1] = 0 by rewrite !hornerE; ring.
have -> : (1 - 'X^2 : {poly R}).[-1] = 0 by rewrite !hornerE; ring.
rewrite expr0n /= !mulr0 subrr sub0r.
rewrite deriv_exp /= derivB derivXn -polyC1 derivC polyC1 sub0r expr1 => h.
have e : 'X * ('X *- 2 * (1 - 'X^2) ^+ k *+ k.+1) =
   (2 * k.+1)%:R *: ((1 - 'X^2) ^+ k.+1 - (1 - 'X^2) ^+ k) :> {poly R}.
  rewrite [in RHS]scaler_nat (exprS (1 - 'X^2) k) mulrnA mulrnAr; congr (_ *+ _).
  by move: ((1 - 'X^2) ^+ k) => w; rewrite !mulr2n; ring.
rewrite e LZ LB in h; rewrite /beta.
move: h; move: (L _) (L _) => x y h.
have -> : (2 * k + 3)%:R = 1 + (2 * k.+1)%:R :> R by rewrite -[1]/(1%:R) -natrD; congr (_%:R); lia.
have -> : (2 * k + 2)%:R = (2 * k.+1)%:R :> R by congr (_%:R); lia.
by rewrite mulrDl mul1r {1}h; ring.
Qed.

Lemma betaE k : beta k = 2%:R ^+ (2 * k + 1) * (k`!)%:R ^+ 2 / ((2 * k + 1)`!)%:R.
Proof.
elim: k => [|k IH]; first by rewrite /beta expr0 L1 opprK !expr1 fact0 expr1n divr1 mulr1.
have h : ((2 * k + 3)%:R : R) != 0 by rewrite pnatr_eq0; lia.
apply: (mulfI h); rewrite beta_rec IH.
have -> : (2 * k.+1 + 1)`! = ((2 * k + 3) * ((2 * k + 2) * (2 * k + 1)`!))%N.
  rewrite (_ : 2 * k.+1 + 1 = (2 * k + 1).+2)%N; last by lia.
  by rewrite 2!factS; congr (_ * (_ * _))%N; lia.
have -> : (2 * k.+1 + 1 = (2 * k + 1).+2)%N by lia.
rewrite factS !natrM !exprS.
have h1 := @fact_neq0 R (2 * k + 1); have h2 : ((2 * k + 2)%:R : R) != 0 by rewrite pnatr_eq0; lia.
have h3 : (2 * k + 2)%:R = 2%:R * k.+1%:R :> R by rewrite -natrM; congr (_%:R); lia.
rewrite h3 in h2 *; move: h h1 h2.
move: ((2 * k + 3)%:R : R) ((2 * k + 1)`!%:R : R) (k.+1%:R : R) (k`!%:R : R) (2%:R ^+ (2 * k + 1) : R) => x1 x2 x3 x4 x5 h h1 h2.
have h4 : x3 != 0 by apply: contraNneq h2 => ->; rewrite mulr0.
by field; rewrite h h1 h4.
Qed.

Lemma LP_size k : size (LP k) = k.+1.
Proof.
have h0 : lcoef k 0 != 0.
  rewrite /lcoef !muln0 !subn0 expr0 mul1r; do !(rewrite mulf_neq0 //); rewrite ?invr_eq0 ?mulf_neq0 ?fact_neq0 //.
  by rewrite expf_neq0 // pnatr_eq0.
rewrite /LP big_ord_recl muln0 subn0 size_addl; first by rewrite size_scale // size_polyXn.
rewrite size_scale // size_polyXn ltnS; apply: (leq_trans (size_sum _ _ _)).
apply/bigmax_leqP => i _; apply: (leq_trans (size_scale_leq _ _)); rewrite size_polyXn lift0; have := ltn_ord i; lia.
Qed.

Lemma LP_top k : (LP k)^`(k) = (((2 * k)`!)%:R / (2%:R ^+ k * (k`!)%:R))%:P.
Proof.
apply/polyP => i; rewrite coef_derivn coefC; case: i => [|i] /=; last first.
  by rewrite nth_default ?mul0rn // LP_size; lia.
rewrite addn0 ffactnn /LP coef_sum big_ord_recl coefZ coefXn muln0 subn0 eqxx mulr1 big1; last first.
  move=> i _; rewrite coefZ coefXn lift0.
  have -> : (k == (k - 2 * i.+1)%N) = false by apply/negP => /eqP; have := ltn_ord i; lia.
  by rewrite mulr0.
rewrite addr0 /lcoef !muln0 !subn0 expr0 mul1r fact0 mul1r -mulr_natr.
have h1 := @fact_neq0 R k; have h6 : (2%:R ^+ k : R) != 0 by rewrite expf_neq0 // pnatr_eq0.
move: h1 h6; move: (k`!%:R : R) (2%:R ^+ k : R) ((2 * k)`!%:R : R) => x y z h1 h6.
by field; rewrite h1 h6.
Qed.

Lemma LP_norm k : L (LP k * LP k) = 2%:R / (2 * k + 1)%:R.
Proof.
have h1 := @fact_neq0 R k; have h6 : (2%:R ^+ k : R) != 0 by rewrite expf_neq0 // pnatr_eq0.
have h0 : (2%:R ^+ k * (k`!)%:R : R) != 0 by rewrite mulf_neq0.
apply: (mulfI h0); rewrite -LZ scalerAl -rodrigues (@W_parts k k) // subnn derivn0 LP_top.
rewrite [U ^+ k * _]mulrC mul_polyC LZ mulrCA -LZ.
have -> : (-1) ^+ k *: U ^+ k = (1 - 'X^2) ^+ k by rewrite -exprZn scaleN1r opprB.
rewrite -/(beta k) betaE.
have -> : (2 * k + 1)`! = ((2 * k + 1) * (2 * k)`!)%N by rewrite addn1 factS.
rewrite natrM addn1 exprS mul2n -addnn exprD.
have h2 := @fact_neq0 R (k + k); have h3 : ((k + k).+1%:R : R) != 0 by rewrite pnatr_eq0.
move: h1 h6 h2 h3; move: (k`!%:R : R) (2%:R ^+ k : R) ((k + k)`!%:R : R) ((k + k).+1%:R : R) => x y z w h1 h6 h2 h3.
by field; rewrite h1 h6 h2 h3.
Qed.

Lemma LP_orth k j : L (LP k * LP j) = if k == j then 2%:R / (2 * k + 1)%:R else 0.
Proof.
case: eqP => [<-|/eqP h]; first exact: LP_norm.
case: (ltngtP k j) => hk; last by rewrite hk eqxx in h.
  by rewrite mulrC LP_orth_low // LP_size.
by rewrite LP_orth_low // LP_size.
Qed.

Variable rms : seq R.
Let M := mom_functional (nth 0 rms).
Definition leg_poly : {poly R} := \sum_(k < size rms) ((2 * k + 1)%:R / 2%:R * M (LP k)) *: LP k.

Lemma leg_LP j : (j < size rms)%N -> L (LP j * leg_poly) = M (LP j).
Proof.
move=> h; rewrite /leg_poly mulr_sumr L_sum (bigD1 (Ordinal h)) //= big1 ?addr0.
  rewrite -scalerAr LZ LP_orth eqxx.
  have h3 : ((2 * j + 1)%:R : R) != 0 by rewrite pnatr_eq0 addn1.
  by move: h3; move: ((2 * j + 1)%:R : R) (M _) => x y h3; field.
move=> k hk; rewrite -scalerAr LZ LP_orth [j == _]eq_sym.
by rewrite (_ : (k == j :> nat) = false) ?mulr0 //; apply: contraNF hk => /eqP h1; apply/eqP/val_inj.
Qed.

Lemma leg_match (p : {poly R}) : (size p <= size rms)%N -> L (p * leg_poly) = M p.
Proof.
move: {2}(size p) (leqnn (size p)) => n; elim: n p => [|n IH] p hp hs.
  move: hp; rewrite leqn0 size_poly_eq0 => /eqP ->; by rewrite mul0r L0 /M mom0.
case: (leqP (size p) n) => hn; first exact: IH.
have hpn : size p = n.+1 by lia.
have hn' : (n < size rms)%N by rewrite -hpn.
pose c := p`_n / (LP n)`_n.
have hl : (LP n)`_n != 0 by have := lead_coef_eq0 (LP n); rewrite lead_coefE LP_size /= -size_poly_eq0 LP_size => ->.
have hr : (size (p - c *: LP n)%R <= n)%N.
  apply/leq_sizeP => i hi; rewrite coefB coefZ.
  case: (ltnP n i) => hin; first by rewrite !nth_default ?mulr0 ?subr0 ?LP_size ?hpn.
  have -> : i = n by lia.
  by rewrite divfK // subrr.
rewrite -[p](subrK (c *: LP n)).
rewrite mulrDl LD IH //; last by apply: (leq_trans hr); apply: ltnW.
rewrite -scalerAl LZ leg_LP // /M (momD _ (p - c *: LP n) (c *: LP n)).
by congr (_ + _); rewrite momZ.
Qed.

Lemma leg_sumE y : jsum [seq legendre_coeff rms k * legendre k y | k <- iota 0 (size rms)] = leg_poly.[y].
Proof.
rewrite jsum_iota /leg_poly horner_sum; apply: eq_bigr => k _.
by rewrite hornerZ legendreE /legendre_coeff legendre_combE.
Qed.

(* change of variables from [a, b] to [-1, 1] *)
Lemma integral_comp (a b : R) (p : {poly R}) : a < b ->
  2%:R / (b - a) * poly_integral a b (p \Po ((- (a + b) / (b - a))%:P + (2%:R / (b - a)) *: 'X)) = L p.
Proof.
move=> hab; have h0 : b - a != 0 by rewrite gt_eqF // subr_gt0.
have [q <-] := primitive p; rewrite ftc -LZ.
set u := _%:P + _ *: 'X.
have du : u^`() = (2%:R / (b - a))%:P by rewrite /u derivD derivC derivZ derivX add0r alg_polyC.
have -> : (2%:R / (b - a)) *: (q^`() \Po u) = (q \Po u)^`() by rewrite deriv_comp du -mul_polyC mulrC.
rewrite ftc !horner_comp /u !hornerE.
have -> : - (a + b) / (b - a) + 2%:R / (b - a) * b = 1 by field.
by have -> : - (a + b) / (b - a) + 2%:R / (b - a) * a = -1 by field.
Qed.

Definition leg_pdf_poly (a b : R) : {poly R} :=
  (2%:R / (b - a)) *: (leg_poly \Po ((- (a + b) / (b - a))%:P + (2%:R / (b - a)) *: 'X)).

Lemma leg_pdfE a b x : legendre_poly_expansion rms a b x = (leg_pdf_poly a b).[x].
Proof.
rewrite /legendre_poly_expansion leg_sumE /leg_pdf_poly hornerZ horner_comp !hornerE.
congr (_ * leg_poly.[_]); rewrite mulrBl mulNr addrC; congr (_ + _).
by rewrite mulrAC.
Qed.

(* the moments of the variable mapped to [-1, 1] are matched *)
Lemma leg_pdf_scaled a b k : a < b -> (k < size rms)%N ->
  poly_integral a b (((- (a + b) / (b - a))%:P + (2%:R / (b - a)) *: 'X) ^+ k * leg_pdf_poly a b) = rms`_k.
Proof.
move=> hab hk; rewrite /leg_pdf_poly; set u := _%:P + _ *: 'X.
rewrite -scalerAr LZ.
have -> : u ^+ k * (leg_poly \Po u) = ('X^k * leg_poly) \Po u.
  by rewrite rmorphM rmorphX /= comp_polyX.
by rewrite integral_comp // leg_match ?size_polyXn // /M momXn.
Qed.

Lemma leg_pdf_default k : (k < size rms)%N ->
  poly_integral (-1) 1 ('X^k * leg_pdf_poly (-1) 1) = rms`_k.
Proof.
move=> hk; rewrite -(@leg_pdf_scaled (-1) 1 k) //; last by rewrite -subr_gt0 opprK addr_gt0 ?ltr01.
congr (poly_integral _ _ (_ ^+ _ * _)).
by rewrite addNr oppr0 mul0r polyC0 add0r opprK divff ?scale1r // pnatr_eq0.
Qed.
End Legendre.
