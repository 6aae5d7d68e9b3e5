(* Gauss-Hermite: the one-dimensional rule. *)
From mathcomp Require Import all_ssreflect all_algebra.
From mathcomp Require Import ring zify.
From Verif Require Import Prelude LinAlgSpec SpectralProofs LdlProofs.
From Verif Require Import QuadModel QuadSpec QuadProofs QuadMain QuadProps.
From Verif Require Import Moments1DModel Moments1DSpec Moments1DProofs HermiteProofs PdfModel GfsSgp.
From Verif Require Import GfsModel SigmaModel SigmaSpec.
Set Implicit Arguments.
Unset Strict Implicit.
Unset Printing Implicit Defensive.
Import Order.TTheory GRing.Theory Num.Theory.
Local Open Scope ring_scope.

Section He.
Variable R : rcfType.
Notation H n := (hermite_probabilist n ('X : {poly R})).
Notation h n x := (hermite_probabilist n (x : R)).
Notation G := (mom_functional (gauss_moment (0 : R) 1)).

Lemma he_low n (q : {poly R}) : (size q <= n)%N -> G (H n * q) = 0.
Proof. by move=> hq; rewrite hermite_parts derivn_small // mom0. Qed.

Lemma size_low (p : {poly R}) n a : (size p <= n.+1)%N -> a = p`_n ->
  (size (p - a *: H n)%R <= n)%N.
Proof.
move=> hp ->; have [sH lH] := hermite_size R n.
apply/leq_sizeP => j; rewrite leq_eqVlt => /orP[/eqP<-|hj].
  rewrite coefB coefZ; have -> : (H n)`_n = 1 by rewrite -lH /lead_coef sH.
  by rewrite mulr1 subrr.
by rewrite coefB coefZ [p`_j]nth_default ?(leq_trans hp) // [(H n)`_j]nth_default ?sH // mulr0 subr0.
Qed.

Lemma gauss_admissible n : admissible (gauss_moment (0 : R) 1) n.
Proof.
move=> p p0 hp; have [k] := ubnP (size p); elim: k p p0 {hp} => // k IH p p0; rewrite ltnS => hp.
have sp : (0 < size p)%N by rewrite size_poly_gt0.
set n' := (size p).-1; have hn' : (size p = n'.+1)%N by rewrite prednK.
set a := p`_n'; have a0 : a != 0 by rewrite -/(lead_coef p) lead_coef_eq0.
set r := p - a *: H n'.
have hr : (size r <= n')%N by apply: size_low; rewrite ?hn'.
have -> : p = a *: H n' + r by rewrite /r addrCA subrr addr0.
have -> : (a *: H n' + r) * (a *: H n' + r)
        = a ^+ 2 *: (H n' * H n') + (2%:R * a) *: (H n' * r) + r * r.
  rewrite -!mul_polyC expr2 !polyCM (rmorphMn _ 1) /=; move: (H n') (a%:P) => u b; ring.
rewrite !momD !momZ (he_low hr) mulr0 addr0 hermite_orth eqxx.
apply: ltr_paddr; last by rewrite mulr_gt0 ?ltr0n ?fact_gt0 // exprn_even_gt0.
have [->|r0] := eqVneq r 0; first by rewrite mulr0 mom0.
by apply/ltW/IH => //; apply: leq_ltn_trans hr _; rewrite -hn'.
Qed.

Lemma zip_sum_nth (ws xs : seq R) n (f : R -> R -> R) : size ws = n -> size xs = n ->
  \sum_(p <- zip ws xs) f p.1 p.2 = \sum_(i < n) f ws`_i xs`_i.
Proof.
move=> hw hx; rewrite (big_nth (0, 0)) size_zip hw hx minnn big_mkord.
by apply: eq_bigr => i _; rewrite nth_zip ?hw ?hx.
Qed.

(* The Gauss rule of N(0, 1) exists and its nodes are the roots of the Hermite polynomial. *)
Lemma gauss_rule n : (0 < n)%N -> exists ws, exists2 xs : seq R,
  [/\ size ws = n, size xs = n, uniq xs & H n = \prod_(x <- xs) ('X - x%:P)]
  & forall p : {poly R}, (size p <= n.*2)%N -> \sum_(q <- zip ws xs) q.1 * p.[q.2] = G p.
Proof.
move=> n0; set ms := mkseq (gauss_moment (0 : R) 1) n.*2.
have sms : size ms = n.*2 by rewrite size_mkseq.
have half : (size ms)./2 = n by rewrite sms doubleK.
have hm k : (k < n.*2)%N -> ms`_k = gauss_moment 0 1 k by move=> hk; rewrite nth_mkseq.
have hadm : admissible (nth 0 ms) (size ms)./2.
  rewrite half => p p0 hp; rewrite (_ : mom_functional _ _ = G (p * p)); first exact: (gauss_admissible p0 hp).
  apply: eq_bigr => k _; rewrite hm //; apply: leq_trans (ltn_ord k) _.
  by rewrite (leq_trans (size_mul_leq _ _)) //; move: hp; move: (size p) => s; lia.
have s1 : (1 < size ms)%N by rewrite sms; move: n0; clear; lia.
have [ws [xs _ [sw sx ex']]] := moment_quadrature_reproduces_moments 0 false
  (@chol_ref_spec R) (@eigh_ref_spec R) s1 (oner_neq0 R) hadm.
rewrite half in sw sx ex'.
have ex k : (k < n.*2)%N -> expect ws xs (fun x => x ^+ k) = ms`_k / ms`_0.
  by move=> hk; rewrite -ex' //; apply: expect_ext => x; rewrite subr0 divr1.
have exact1 (p : {poly R}) : (size p <= n.*2)%N -> \sum_(q <- zip ws xs) q.1 * p.[q.2] = G p.
  move=> hp; rewrite -expect_sumE expect_horner /mom_functional; apply: eq_bigr => k _.
  have hk : (k < n.*2)%N by apply: leq_trans hp.
  by rewrite ex // !hm // ?double_gt0 // /gauss_moment /= divr1.
have zero (p q : {poly R}) : (size p + size q <= n.*2.+1)%N -> (forall x, x \in xs -> p.[x] = 0) ->
    G (p * q) = 0.
  move=> hs hz; rewrite -exact1; last by rewrite (leq_trans (size_mul_leq _ _)) // -subn1 leq_subLR.
  rewrite big1_seq // => -[w x] /andP[_ /zip_snd_mem hx] /=.
  by rewrite hornerM hz // mul0r mulr0.
have prod0 (s : seq R) x : x \in s -> (\prod_(y <- s) ('X - y%:P)).[x] = 0.
  by move=> hx; apply/rootP; rewrite root_prod_XsubC.
have ux : uniq xs.
  apply/negPn/negP => nu; have hu : (size (undup xs) < n)%N.
    by rewrite -sx ltn_size_undup.
  set om := \prod_(y <- undup xs) ('X - y%:P).
  have som : size om = (size (undup xs)).+1 by rewrite size_prod_XsubC.
  have om0 : om != 0 by rewrite -size_poly_gt0 som.
  have := gauss_admissible om0 (leqnn _); rewrite zero ?ltxx //.
    by rewrite som; move: (size (undup xs)) hu => u; lia.
  by move=> x hx; rewrite prod0 // mem_undup.
exists ws, xs; last exact: exact1.
split=> //; set om := \prod_(y <- xs) ('X - y%:P).
have som : size om = n.+1 by rewrite size_prod_XsubC sx.
have lom : om`_n = 1.
  by have := monicP (monic_prod_XsubC xs xpredT id); rewrite /lead_coef -/om som.
have [sH lH] := hermite_size R n.
set q := om - H n; have hq : (size q <= n)%N.
  by rewrite /q -[H n]scale1r; apply: size_low; rewrite ?som.
have [q0|q0] := eqVneq q 0; first by apply/esym/eqP; rewrite -subr_eq0 -/q q0.
have := gauss_admissible q0 hq; rewrite {1}/q mulrBl momB he_low // zero ?subr0 ?ltxx //.
  by rewrite som; move: (size q) hq => u; lia.
by move=> x hx; rewrite prod0.
Qed.

(* Christoffel-Darboux. *)
Definition kern n (x y : R) : R := \sum_(k < n) h k x * h k y / (k`!)%:R.
Lemma kern_cd n x y :
  (x - y) * kern n.+1 x y = (h n.+1 x * h n y - h n x * h n.+1 y) / (n`!)%:R.
Proof.
elim: n => [|n IH]; first by rewrite /kern big_ord1 /= !divr1 !mulr1 mul1r.
rewrite /kern big_ord_recr -/(kern n.+1 x y) mulrDr IH !hermite_rec factS natrM.
have f0 : (n`!)%:R != 0 :> R by rewrite pnatr_eq0 -lt0n fact_gt0.
have n0 : n.+1%:R != 0 :> R by rewrite pnatr_eq0.
move: (h n.+1 x) (h n.+1 y) (h n x) (h n y) (n`!)%:R (n.+1%:R) f0 n0 => a b a' b' f m f0 m0.
by field; rewrite f0.
Qed.
Lemma kern_diag n x :
  (n`!)%:R * kern n.+1 x x = n.+1%:R * h n x ^+ 2 - (x * h n x - h n.+1 x) * h n.+1 x.
Proof.
elim: n => [|n IH]; first by rewrite /kern big_ord1 /= divr1 !mulr1 subrr mul0r subr0 expr1n mulr1.
rewrite /kern big_ord_recr -/(kern n.+1 x x) mulrDr factS {1}natrM -mulrA IH !hermite_rec natrM.
have f0 : (n`!)%:R != 0 :> R by rewrite pnatr_eq0 -lt0n fact_gt0.
have n0 : n.+1%:R != 0 :> R by rewrite pnatr_eq0.
rewrite -[nat_of_ord ord_max]/(n.+1) -[n.+2]addn1 natrD.
move: (h n.+1 x) (h n x) (n`!)%:R (n.+1%:R) f0 n0 => a b f m f0 m0.
by field; rewrite f0.
Qed.

Definition kpoly n (y : R) : {poly R} := \sum_(k < n) (h k y / (k`!)%:R) *: H k.
Lemma kpolyE n x y : (kpoly n y).[x] = kern n x y.
Proof.
by rewrite horner_sum; apply: eq_bigr => k _; rewrite hornerZ hermite_horner mulrC mulrA.
Qed.
Lemma kpoly_size n y : (size (kpoly n y) <= n)%N.
Proof.
apply: leq_trans (size_sum _ _ _) _; apply/bigmax_leqP => k _.
by apply: leq_trans (size_scale_leq _ _) _; rewrite (hermite_size R k).1.
Qed.
Lemma kpoly_mean n y : G (kpoly n.+1 y) = 1.
Proof.
have GH k : G (H k) = (k == 0%N)%:R.
  by have := hermite_orth R k 0; rewrite /= mulr1 => ->; case: k.
rewrite /kpoly mom_sum big_ord_recl big1 ?addr0 => [|k _].
  by rewrite momZ GH /= divr1 mulr1.
by rewrite momZ GH /= mulr0.
Qed.

(* The Gauss weight at a node. *)
Definition gh_lambda n (x : R) : R := (n`!)%:R / (n%:R ^+ 2 * h n.-1 x ^+ 2).

Lemma gh_rule n : (0 < n)%N -> exists2 xs : seq R,
  [/\ size xs = n, uniq xs & forall x, (x \in xs) = (h n x == 0)]
  & forall p : {poly R}, (size p <= n.*2)%N -> \sum_(x <- xs) gh_lambda n x * p.[x] = G p.
Proof.
move=> n0; have [ws [xs [sw sx ux eH] ex]] := gauss_rule n0.
have rt x : (x \in xs) = (h n x == 0).
  by rewrite -hermite_horner -[_ == 0]/(root _ _) eH root_prod_XsubC.
exists xs => // p hp; rewrite -ex // (zip_sum_nth (fun w x => w * p.[x]) sw sx) (big_nth 0) sx big_mkord.
apply: eq_bigr => i _; congr (_ * _).
case: n n0 i sw sx rt ex {hp eH} => // n _ i sw sx rt ex.
have hx : xs`_i \in xs by rewrite mem_nth ?sx.
have := kpoly_mean n xs`_i; rewrite -ex; last by rewrite (leq_trans (kpoly_size _ _)) // -addnn leq_addr.
rewrite (zip_sum_nth (fun w x => w * (kpoly n.+1 xs`_i).[x]) sw sx) (bigD1 i) //= big1 ?addr0 => [|j hj].
  have rx : h n.+1 xs`_i = 0 by apply/eqP; rewrite -rt.
  have := kern_diag n xs`_i; rewrite kpolyE rx mulr0 subr0 => hk hw.
  have f0 : (n`!)%:R != 0 :> R by rewrite pnatr_eq0 -lt0n fact_gt0.
  have m0 : n.+1%:R != 0 :> R by rewrite pnatr_eq0.
  have u0 : n.+1%:R * h n xs`_i ^+ 2 != 0.
    by rewrite -hk mulf_neq0 //; apply/eqP => k0; move: hw; rewrite k0 mulr0 => /eqP; rewrite eq_sym oner_eq0.
  have k0 : kern n.+1 xs`_i xs`_i != 0.
    by apply/eqP => k0; move: hw; rewrite k0 mulr0 => /eqP; rewrite eq_sym oner_eq0.
  apply: (mulIf k0); rewrite hw /gh_lambda factS natrM -pred_Sn.
  move: hk; move: (kern _ _ _) => k hk.
  have -> : k = n.+1%:R * h n xs`_i ^+ 2 / (n`!)%:R by rewrite -hk mulrC mulrA mulVf // mul1r.
  move: u0; rewrite mulf_eq0 negb_or sqrf_eq0 => /andP[_].
  move: (h n _) (n`!)%:R f0 m0 => u f f0 m0 u0; move: (n.+1%:R) m0 => m m0.
  by field; rewrite f0 m0 u0.
rewrite kpolyE; have hne : xs`_j - xs`_i != 0.
  by rewrite subr_eq0 nth_uniq ?sx.
have := kern_cd n xs`_j xs`_i.
have -> : h n.+1 xs`_i = 0 by apply/eqP; rewrite -rt.
have -> : h n.+1 xs`_j = 0 by apply/eqP; rewrite -rt mem_nth ?sx.
rewrite mulr0 !mul0r subrr mul0r => /eqP; rewrite mulf_eq0 (negbTE hne) /= => /eqP ->.
by rewrite mulr0.
Qed.
End He.
