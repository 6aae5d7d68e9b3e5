(* Proofs: Hermite polynomials (C23) and Gram--Charlier (C24). *)
From mathcomp Require Import all_ssreflect all_algebra.
From mathcomp Require Import ring zify.
From Verif Require Import Prelude Egf QuadSpec QuadProofs QuadMain.
From Verif Require Import Moments1DModel Moments1DSpec Moments1DProofs Moments1DConv BellProofs PdfModel.
Set Implicit Arguments.
Unset Strict Implicit.
Unset Printing Implicit Defensive.
Import Order.TTheory GRing.Theory Num.Theory.
Local Open Scope ring_scope.

Section Hermite.
Variable R : rcfType.
Notation H n := (hermite_probabilist n ('X : {poly R})).
Notation G := (mom_functional (gauss_moment (0 : R) 1)).

Lemma hermite_rec (S : ringType) (x : S) n :
  hermite_probabilist n.+2 x = x * hermite_probabilist n.+1 x - n.+1%:R * hermite_probabilist n x.
Proof. by []. Qed.

Lemma nat_ind2 (P : nat -> Prop) : P 0%N -> P 1%N -> (forall n, P n -> P n.+1 -> P n.+2) -> forall n, P n.
Proof.
move=> h0 h1 h2; suff: forall n, P n /\ P n.+1 by move=> h n; case: (h n).
by elim=> [|n [a b]]; split=> //; apply: h2.
Qed.

Lemma natpolyE (p : {poly R}) n : n%:R * p = n%:R *: p.
Proof. by rewrite mulr_natl scaler_nat. Qed.

Lemma deriv_natl (p : {poly R}) n : (n%:R * p)^`() = n%:R * p^`().
Proof. by rewrite !natpolyE derivZ. Qed.

Lemma hermite_horner n (x : R) : (H n).[x] = hermite_probabilist n x.
Proof.
elim/nat_ind2: n => [||n h0 h1]; [exact: hornerC|exact: hornerX|].
by rewrite !hermite_rec natpolyE !hornerE h0 h1.
Qed.

Lemma hermite_size n : size (H n) = n.+1 /\ lead_coef (H n) = 1.
Proof.
elim/nat_ind2: n => [||n [h0 l0] [h1 l1]].
- by rewrite /= size_poly1 lead_coef1.
- by rewrite /= size_polyX lead_coefX.
rewrite hermite_rec natpolyE.
have hX : size ('X * H n.+1) = n.+3 by rewrite -commr_polyX size_mulX ?h1 // -size_poly_eq0 h1.
have hs : (size (- (n.+1%:R *: H n))%R < size ('X * H n.+1)%R)%N.
  by rewrite size_opp hX ltnS (leq_trans (size_scale_leq _ _)) // h0.
by rewrite size_addl // lead_coefDl // hX -commr_polyX lead_coefMX.
Qed.

Lemma hermite_deriv n : (H n.+1)^`() = n.+1%:R * H n.
Proof.
elim/nat_ind2: n => [||n h0 h1].
- by rewrite /= derivX mul1r.
- by rewrite /= mulr1 -expr2 derivB derivXn expr1 -['X *+ 2]mulr_natl -polyC1 derivC subr0.
rewrite hermite_rec derivB derivM derivX mul1r h1 deriv_natl h0.
rewrite [in RHS]hermite_rec -[in LHS]/(H n.+2) [in LHS]hermite_rec.
have -> : n.+3%:R = 1 + n.+2%:R :> {poly R} by rewrite -addn1 natrD addrC.
move: (H n) (H n.+1) (n.+1%:R : {poly R}) (n.+2%:R : {poly R}) => p q a b.
ring.
Qed.

(* Stein's identity *)
Lemma stein (m v : R) (p : {poly R}) :
  mom_functional (gauss_moment m v) (('X - m%:P) * p) = v * mom_functional (gauss_moment m v) p^`().
Proof.
have [g0 g1 g2] := gauss_momentP m v.
have hX n : mom_functional (gauss_moment m v) (('X - m%:P) * 'X^n)
            = v * mom_functional (gauss_moment m v) ('X^n)^`().
  rewrite mulrBl -exprS mul_polyC momB momZ !momXn derivXn -scaler_nat momZ momXn.
  case: n => [|n]; first by rewrite g1 g0 mul0r mulr0 mulr1 subrr.
  by rewrite g2 /=; move: (gauss_moment m v n.+1) (gauss_moment m v n) n.+1%:R => x y z; ring.
rewrite -[p]coefK poly_def mulr_sumr raddf_sum /= !mom_sum mulr_sumr.
by apply: eq_bigr => i _; rewrite derivZ -scalerAr !momZ hX mulrCA.
Qed.

Lemma stein01 (p : {poly R}) : G ('X * p) = G p^`().
Proof. by have := stein 0 1 p; rewrite polyC0 subr0 mul1r. Qed.

Lemma hermite_parts n (q : {poly R}) : G (H n * q) = G q^`(n).
Proof.
elim/nat_ind2: n q => [||n h0 h1] q; first by rewrite mul1r.
  by rewrite stein01.
rewrite hermite_rec mulrBl momB -!mulrA stein01 derivM hermite_deriv momD -mulrA addrAC subrr add0r.
by rewrite h1 -derivSn derivnS.
Qed.

Lemma derivn_small (q : {poly R}) n : (size q <= n)%N -> q^`(n) = 0.
Proof.
move=> h; apply/polyP => i; rewrite coef_derivn coef0 nth_default ?mul0rn //.
by rewrite (leq_trans h) // leq_addr.
Qed.

Lemma hermite_orth n m : G (H n * H m) = if n == m then (n`!)%:R else 0.
Proof.
have main k l : (l <= k)%N -> G (H k * H l) = if k == l then (k`!)%:R else 0.
  move=> hl; rewrite hermite_parts; case: eqP => [<-|hne].
    have -> : (H k)^`(k) = (k`!)%:R%:P.
      apply/polyP => i; rewrite coef_derivn coefC; case: i => [|i].
        have [hs hlead] := hermite_size k.
        rewrite addn0 ffactnn; move: hlead; rewrite lead_coefE hs /= => ->.
        by [].
      by rewrite nth_default ?mul0rn //; case: (hermite_size k) => -> _; rewrite addnS ltnS leq_addr.
    by rewrite -[_%:P]mulr1 mul_polyC -(expr0 'X) momZ momXn mulr1.
  rewrite derivn_small ?mom0 //; case: (hermite_size l) => -> _.
  by rewrite ltn_neqAle hl andbT eq_sym; apply/eqP.
case: (leqP m n) => h; first exact: main.
by rewrite mulrC main 1?ltnW // (gtn_eqF h) (ltn_eqF h).
Qed.

(* a polynomial is determined by its values *)
Lemma poly_ext (p q : {poly R}) : (forall x, p.[x] = q.[x]) -> p = q.
Proof.
move=> h; apply/eqP; rewrite -subr_eq0; apply/eqP.
apply: (@roots_geq_poly_eq0 _ _ [seq (i%:R : R) | i <- iota 0 (size (p - q))]).
- by apply/allP => x _; rewrite rootE !hornerE h subrr.
- by rewrite map_inj_uniq ?iota_uniq // => i j /eqP; rewrite eqr_nat => /eqP.
by rewrite size_map size_iota.
Qed.

(* x^n = sum_k C(n, k) mu_k He_{n-k}(x) *)
Lemma hermite_power n :
  'X^n = \sum_(k < n.+1) ('C(n, k)%:R * gauss_moment (0 : R) 1 k) *: H (n - k)%N.
Proof.
apply: poly_ext => x; rewrite hornerXn horner_sum.
under eq_bigr do rewrite hornerZ hermite_horner.
rewrite -/(conv (gauss_moment (0 : R) 1) (fun i => hermite_probabilist i x) n).
set e := conv _ _.
have mus := gaussian_of_rec (gauss_momentP (0 : R) 1).
have hs i : shift (fun i => hermite_probabilist i x) i
   = x * hermite_probabilist i x + -1 * conv (tee R) (fun i => hermite_probabilist i x) i.
  rewrite conv_tee /shift; case: i => [|i]; first by rewrite /= mul0r mulr0 mulr1 addr0.
  by rewrite hermite_rec mulN1r.
have he i : e i.+1 = x * e i.
  rewrite -/(shift e i) /e shift_conv.
  rewrite (eq_conv (a' := conv (tee R) (gauss_moment 0 1)) (b' := fun i => hermite_probabilist i x)) //; last first.
    by move=> k _; rewrite mus mul0r add0r mul1r.
  rewrite [X in _ + X](eq_conv (a' := gauss_moment 0 1) (b' := fun i => x * hermite_probabilist i x + -1 * conv (tee R) (fun i => hermite_probabilist i x) i)) //.
  rewrite convDr !convZr convA (eq_conv (a' := conv (gauss_moment 0 1) (tee R)) (b' := fun i => hermite_probabilist i x)) //; last first.
    by move=> k _; rewrite convC.
  by rewrite mulN1r addrCA subrr addr0.
elim: n => [|n IH]; first by rewrite /e /conv big_ord1 expr0 /gauss_moment /= !mul1r.
by rewrite he -IH exprS.
Qed.
End Hermite.

Section GC.
Variable R : rcfType.
Notation H n := (hermite_probabilist n ('X : {poly R})).
Notation mu := (gauss_moment (0 : R) 1).
Notation G := (mom_functional mu).

Lemma cpow_ext (a b : nat -> R) k n : (forall i, (i <= n)%N -> a i = b i) -> cpow a k n = cpow b k n.
Proof.
elim: k n => [|k IH] n h //=; apply: eq_conv => // i hi.
by apply: IH => j hj; apply: h; apply: leq_trans hi.
Qed.

Lemma complete_bell_take (xs : seq R) j : (j <= size xs)%N ->
  complete_bell j (take j xs) = complete_bell j xs.
Proof.
move=> h; have hs : size (take j xs) = j by rewrite size_takel.
rewrite !complete_bellE ?hs //; apply: eq_bigr => k _; congr (_ / _).
apply: cpow_ext => i hi; rewrite /bseq; case: eqP => // /eqP h0.
by rewrite nth_take // prednK ?lt0n.
Qed.

Lemma seq_unique (y z c : nat -> R) N : y 0%N = z 0%N ->
  (forall n, (n < N)%N -> shift y n = conv c y n) ->
  (forall n, (n < N)%N -> shift z n = conv c z n) ->
  forall n, (n <= N)%N -> y n = z n.
Proof.
move=> h0 hy hz; elim/ltn_ind => [[|n]] IH hn //.
rewrite -/(shift y n) -/(shift z n) hy // hz //; apply: eq_conv => // k hk.
by apply: IH; lia.
Qed.

Variables (ks : seq R) (m : nat -> R).
Hypothesis ks2 : (1 < size ks)%N.
Hypothesis vpos : 0 < ks`_1.
Hypothesis m0 : m 0%N = 1.
Hypothesis hm : is_cumulants m (fun j => ks`_j.-1) (size ks).
Let s := Num.sqrt ks`_1.
Let mean := ks`_0.
Let bi : seq R := [:: 0; 0] ++ drop 2 ks.
Let B j := complete_bell j bi.
Let b' j := s^-1 ^+ j * B j.
Let m' := aff m (- mean / s) s^-1.
(* derivative of the cumulant series of the standardised variable *)
Let c (j : nat) : R := s^-1 ^+ j.+1 * bi`_j + tee R j.

Lemma s_neq0 : s != 0.
Proof. by rewrite /s gt_eqF // sqrtr_gt0. Qed.
Lemma s_sqr : s ^+ 2 = ks`_1.
Proof. by rewrite sqr_sqrtr // ltW. Qed.

Lemma bi_size : size bi = size ks.
Proof. by rewrite size_cat size_drop /=; lia. Qed.

Lemma c_alt j : s^-1 ^+ j.+1 * ks`_j = c j + mean / s * del R j.
Proof.
rewrite /c /bi; case: j => [|[|j]] /=.
- by rewrite mulr0 add0r /tee /= add0r /del mulr1 expr1 mulrC.
- rewrite mulr0 add0r /tee /del /= mulr0 addr0 exprVn -s_sqr mulVf //.
  by rewrite expf_neq0 // s_neq0.
by rewrite nth_drop /tee /del /= mulr0 !addr0 !add2n.
Qed.

Lemma b'_rec n : (n < size ks)%N -> shift b' n = conv (fun j => s^-1 ^+ j.+1 * bi`_j) b' n.
Proof.
move=> hn; rewrite {1}/shift /b' /B complete_bell_rec ?bi_size // mulr_sumr.
rewrite /conv; apply: eq_bigr => i _.
have hi : (i <= n)%N by rewrite -ltnS.
have -> : s^-1 ^+ n.+1 = s^-1 ^+ i.+1 * s^-1 ^+ (n - i) by rewrite -exprD; congr (_ ^+ _); lia.
by move: (complete_bell _ _) (bi`_i) (s^-1 ^+ i.+1) (s^-1 ^+ (n - i)) => x y z w; ring.
Qed.

Lemma mub_rec n : (n < size ks)%N -> shift (conv mu b') n = conv c (conv mu b') n.
Proof.
move=> hn; have mus := gaussian_of_rec (gauss_momentP (0 : R) 1).
rewrite shift_conv (eq_conv (a' := conv (tee R) mu) (b' := b')) //; last first.
  by move=> k _; rewrite mus mul0r add0r mul1r.
rewrite [X in _ + X](eq_conv (a' := mu) (b' := conv (fun j => s^-1 ^+ j.+1 * bi`_j) b')) //; last first.
  by move=> k hk; apply: b'_rec; apply: leq_ltn_trans hn.
rewrite /c convDl addrC; congr (_ + _); last by rewrite -convA.
rewrite convA [RHS]convA; apply: eq_conv => // k _; exact: convC.
Qed.

Lemma m'_rec n : (n < size ks)%N -> shift m' n = conv c m' n.
Proof.
move=> hn; rewrite /m' /aff; set mm := fun k => s^-1 ^+ k * m k; set E := cexp _.
have hmm k : (k < size ks)%N -> shift mm k = conv (fun j => s^-1 ^+ j.+1 * ks`_j) mm k.
  move=> hk; rewrite /shift /mm hm // mulr_sumr /conv; apply: eq_bigr => i _.
  have hi : (i <= k)%N by rewrite -ltnS.
  have -> : s^-1 ^+ k.+1 = s^-1 ^+ i.+1 * s^-1 ^+ (k - i) by rewrite -exprD; congr (_ ^+ _); lia.
  by move: (m _) (ks`_i.+1.-1) (s^-1 ^+ i.+1) (s^-1 ^+ (k - i)) => x y z w; ring.
rewrite shift_conv (eq_conv (a' := fun k => - mean / s * E k) (b' := mm)) //; last first.
  by move=> k _; rewrite shift_cexp.
rewrite convZl [X in _ + X](eq_conv (a' := E) (b' := conv (fun j => c j + mean / s * del R j) mm)) //; last first.
  move=> k hk; rewrite hmm ?(leq_ltn_trans hk) //; apply: eq_conv => // i _; exact: c_alt.
rewrite [X in _ + X](_ : _ = conv c (conv E mm) n + mean / s * conv E mm n); last first.
  rewrite convA (eq_conv (a' := conv (fun j => c j + mean / s * del R j) E) (b' := mm)) //; last first.
    by move=> k _; rewrite convC.
  by rewrite -convA convDl convZl conv1l.
by rewrite addrC -addrA mulNr mulNr subrr addr0.
Qed.

Lemma gc_moments n : (n <= size ks)%N -> conv mu b' n = m' n.
Proof.
apply: (@seq_unique _ _ c); [|exact: mub_rec|exact: m'_rec].
by rewrite /m' /aff /conv !big_ord1 /cexp m0 /b' /B /gauss_moment /complete_bell /= !expr0 !mul1r.
Qed.

Let Q : {poly R} := \sum_(j < (size ks).+1) (b' j / (j`!)%:R) *: H j.

Lemma GHQ i : (i <= size ks)%N -> G (H i * Q) = b' i.
Proof.
move=> hi; rewrite /Q mulr_sumr mom_sum.
rewrite (bigD1 (Ordinal (hi : (i < (size ks).+1)%N))) //= big1 ?addr0.
  by rewrite -scalerAr momZ hermite_orth eqxx divfK // fact_neq0.
move=> j hj; rewrite -scalerAr momZ hermite_orth [i == _]eq_sym.
by rewrite (_ : (j == i :> nat) = false) ?mulr0 //; apply: contraNF hj => /eqP h; apply/eqP/val_inj.
Qed.

Lemma GXQ n : (n <= size ks)%N -> G ('X^n * Q) = m' n.
Proof.
move=> hn; rewrite hermite_power mulr_suml mom_sum -gc_moments // /conv; apply: eq_bigr => k _.
by rewrite -scalerAl momZ GHQ // (leq_trans (leq_subr _ _)).
Qed.

Definition gc_poly : {poly R} := Q \Po ((- mean / s)%:P + s^-1 *: 'X).

Lemma gc_seriesE x : gc_series ks x = gc_poly.[x].
Proof.
rewrite /gc_series !jget_nth ?(ltnW ks2) // -/mean -/s -/bi.
rewrite jsum_iota.
rewrite /gc_poly horner_comp /Q horner_sum; apply: eq_bigr => j _.
rewrite hornerZ hermite_horner !hornerE complete_bell_take ?bi_size -1?ltnS // -/(B j).
rewrite [_ + s^-1 * x](_ : _ = (x - mean) / s); last by rewrite mulrBl addrC mulNr mulrC.
congr (_ * _); rewrite /b' exprVn.
have h1 := @fact_neq0 R j; have h2 : s ^+ j != 0 by rewrite expf_neq0 // s_neq0.
by move: h1 h2; move: (j`!%:R : R) (s ^+ j) => u w h1 h2; field; rewrite h1 h2.
Qed.

Lemma gc_match n : (n <= size ks)%N ->
  mom_functional (gauss_moment ks`_0 ks`_1) ('X^n * gc_poly) = m n.
Proof.
move=> hn.
have hg k : gauss_moment mean ks`_1 k = aff mu mean s k.
  have := gaussian_aff mean s (gauss_momentP (0 : R) 1).
  by rewrite mulr0 addr0 mulr1 s_sqr => h; rewrite (gaussian_unique h).
rewrite (@mom_eq _ _ (aff mu mean s)); last by move=> k _; exact: hg.
rewrite mom_comp rmorphM rmorphX /= comp_polyX /gc_poly -comp_polyA.
have -> : ((- mean / s)%:P + s^-1 *: 'X) \Po (mean%:P + s *: 'X) = 'X.
  rewrite linearD linearZ /= comp_polyC comp_polyX scalerDr scalerA mulVf ?s_neq0 // scale1r addrA.
  by rewrite -mul_polyC -polyCM -polyCD [s^-1 * _]mulrC mulNr addNr polyC0 add0r.
rewrite comp_polyXr.
pose m'' k := G ('X^k * Q).
have lin (p : {poly R}) : G (p * Q) = mom_functional m'' p.
  rewrite -{1}[p]coefK poly_def mulr_suml mom_sum; apply: eq_bigr => k _.
  by rewrite -scalerAl momZ.
rewrite lin mom_aff (@aff_ext _ _ m'); last first.
  by move=> k hk; apply: GXQ; apply: leq_trans hn.
rewrite /m' aff_aff [s * (_ / _)]mulrC divfK ?s_neq0 // addrN divff ?s_neq0 //.
exact: aff_id.
Qed.
End GC.
