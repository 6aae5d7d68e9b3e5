(* Properties C55 and C72: characteristic functions and the inverse Fourier transform. *)
From mathcomp Require Import all_ssreflect all_algebra.
From mathcomp Require Import ring complex.
From Verif Require Import Prelude LinAlgSpec SpectralProofs LdlProofs QuadModel QuadSpec QuadProofs QuadMain.
From Verif Require Import FourierModel FourierProofs.
Set Implicit Arguments.
Unset Strict Implicit.
Unset Printing Implicit Defensive.
Import Order.TTheory GRing.Theory Num.Theory.
Local Open Scope ring_scope.

Section Cf.
Variable R : rcfType.
Variable chol : forall n, 'M[R]_n -> 'M[R]_n.
Variable eigh : forall n, 'M[R]_n -> 'M[R]_n * 'rV[R]_n.
Hypothesis cholP : chol_spec chol.
Hypothesis eighP : eigh_spec eigh.
Variable cexp : R[i] -> R[i].
Local Notation cx x := (real_complex R x).

(* C55: defined; modulus at most one, conjugate symmetric, one at zero. *)
Theorem characteristic_fn_total z (ms : seq R) mean scale : (1 < size ms)%N ->
  exists c, characteristic_fn chol eigh cexp z ms mean scale = Some c.
Proof. exact: cf_total. Qed.

Theorem characteristic_fn_laws z (ms : seq R) mean scale c : unit_exp cexp ->
  admissible (nth 0 ms) (size ms)./2 ->
  characteristic_fn chol eigh cexp z ms mean scale = Some c ->
  [/\ `|c| <= 1, characteristic_fn chol eigh cexp (- z) ms mean scale = Some (conjc c) & z = 0 -> c = 1].
Proof. exact: cf_basic. Qed.

(* C55: positive definite in the sense of Bochner. *)
Theorem characteristic_fn_positive_definite (phi : R -> R[i]) (ms : seq R) mean scale n
    (c : 'I_n -> R[i]) (z : 'I_n -> R) : exp_morph cexp -> admissible (nth 0 ms) (size ms)./2 ->
  (forall t, characteristic_fn chol eigh cexp t ms mean scale = Some (phi t)) ->
  0 <= \sum_j \sum_k c j * conjc (c k) * phi (z j - z k).
Proof. by move=> he ha hp; exact: (cf_bochner cholP eighP c z he ha hp). Qed.

(* C55: mean and scale act as location and scale, and the representation does not matter. *)
Theorem characteristic_fn_affine z (ms : seq R) mean scale c : exp_morph cexp ->
  characteristic_fn chol eigh cexp (z * scale) ms 0 1 = Some c ->
  characteristic_fn chol eigh cexp z ms mean scale = Some (cexp ('i%C * cx (z * mean)) * c).
Proof. exact: cf_affine. Qed.

Theorem characteristic_fn_representation z (ms ms' : seq R) mean scale c : 0 < scale ->
  size ms' = size ms ->
  (forall k, (k < (size ms)./2.*2)%N -> ms'`_k = affine_moments (nth 0 ms) mean scale k) ->
  admissible (nth 0 ms) (size ms)./2 ->
  characteristic_fn chol eigh cexp z ms 0 1 = Some c ->
  characteristic_fn chol eigh cexp z ms' mean scale = Some c.
Proof. exact: cf_repr. Qed.

(* C55: exact on laws with as many atoms as nodes. *)
Theorem characteristic_fn_exact z (ms as_ zs : seq R) :
  size as_ = size zs -> (size ms)./2 = size zs -> (0 < size zs)%N -> uniq zs ->
  all (fun w => 0 < w) as_ -> jsum as_ = 1 ->
  (forall k, (k < (size ms)./2.*2)%N -> ms`_k = discrete_moment as_ zs k) ->
  characteristic_fn chol eigh cexp z ms 0 1
  = Some (\sum_(p <- zip as_ zs) cx p.1 * cexp ('i%C * cx (z * p.2))).
Proof. by move=> h1 h2 h3 hu hp hs hm; exact: (cf_discrete cexp cholP eighP z h1 h2 h3 hu hp hs hm). Qed.

(* C55: error bound for every law with the given moments. *)
Theorem characteristic_fn_error z (ms as_ zs : seq R) c :
  size as_ = size zs -> all (fun w => 0 <= w) as_ ->
  (forall k, (k < (size ms)./2.*2)%N -> ms`_k = discrete_moment as_ zs k) -> jsum as_ = 1 ->
  admissible (nth 0 ms) (size ms)./2 -> taylor_exp (size ms)./2.*2 cexp ->
  characteristic_fn chol eigh cexp z ms 0 1 = Some c ->
  `|c - \sum_(p <- zip as_ zs) cx p.1 * cexp ('i%C * cx (z * p.2))|
  <= cx (2%:R * z ^+ (size ms)./2.*2 / ((size ms)./2.*2)`!%:R * discrete_moment as_ zs (size ms)./2.*2).
Proof. by move=> h1 h2 hm hs ha ht h; exact: (cf_error cholP eighP h1 h2 hm hs ha ht h). Qed.
End Cf.
Print Assumptions characteristic_fn_total.
Print Assumptions characteristic_fn_laws.
Print Assumptions characteristic_fn_positive_definite.
Print Assumptions characteristic_fn_affine.
Print Assumptions characteristic_fn_representation.
Print Assumptions characteristic_fn_exact.
Print Assumptions characteristic_fn_error.

Section Grid.
Variable R : rcfType.
Variable cexp : R[i] -> R[i].
Variable pi : R.
Local Notation cx x := (real_complex R x).

(* C72: the transform of a tabulated density *)
Theorem characteristic_from_pdf_laws z (ps xs : seq R) : unit_exp cexp -> size ps = size xs ->
  characteristic_from_pdf cexp 0 ps xs = cx (trapz ps xs) /\
  characteristic_from_pdf cexp (- z) ps xs = conjc (characteristic_from_pdf cexp z ps xs).
Proof. exact: cf_pdf_basic. Qed.

Theorem characteristic_from_pdf_bound z (ps xs : seq R) : unit_exp cexp -> size ps = size xs ->
  all (fun p => 0 <= p) ps -> sorted <=%R xs ->
  `|characteristic_from_pdf cexp z ps xs| <= cx (trapz ps xs).
Proof. exact: cf_pdf_le. Qed.

Theorem characteristic_from_pdf_shift z (ps xs : seq R) a : exp_morph cexp -> size ps = size xs ->
  characteristic_from_pdf cexp z ps [seq x + a | x <- xs]
  = cexp ('i%C * cx (z * a)) * characteristic_from_pdf cexp z ps xs.
Proof. exact: cf_pdf_shift. Qed.

(* C72: the inverse transform *)
Theorem inverse_fourier_real x (cfs : seq R[i]) (zs : seq R) : unit_exp cexp -> size cfs = size zs ->
  [seq - z | z <- zs] = rev zs -> [seq conjc c | c <- cfs] = rev cfs ->
  complex.Im (trapz [seq cexp (- 'i%C * cx x * cx p.1) * p.2 | p <- zip zs cfs] [seq cx z | z <- zs]) = 0.
Proof. exact: if_real. Qed.

Theorem inverse_fourier_shift x a (cfs : seq R[i]) (zs : seq R) : exp_morph cexp -> size cfs = size zs ->
  inverse_fourier cexp pi x [seq cexp ('i%C * cx (a * p.1)) * p.2 | p <- zip zs cfs] zs
  = inverse_fourier cexp pi (x - a) cfs zs.
Proof. exact: if_shift. Qed.

Theorem inverse_fourier_bound x (cfs : seq R[i]) (zs as_ : seq R) : unit_exp cexp -> 0 < pi ->
  size cfs = size zs -> sorted <=%R zs -> [seq `|c| | c <- cfs] = [seq cx a | a <- as_] ->
  `|inverse_fourier cexp pi x cfs zs| <= trapz as_ zs / (2%:R * pi).
Proof. exact: if_le. Qed.

Theorem inverse_fourier_max x (as_ zs : seq R) : unit_exp cexp -> 0 < pi -> size as_ = size zs ->
  sorted <=%R zs -> all (fun a => 0 <= a) as_ ->
  `|inverse_fourier cexp pi x [seq cx a | a <- as_] zs| <= inverse_fourier cexp pi 0 [seq cx a | a <- as_] zs.
Proof. exact: if_max. Qed.
End Grid.
Print Assumptions characteristic_from_pdf_laws.
Print Assumptions characteristic_from_pdf_bound.
Print Assumptions characteristic_from_pdf_shift.
Print Assumptions inverse_fourier_real.
Print Assumptions inverse_fourier_shift.
Print Assumptions inverse_fourier_bound.
Print Assumptions inverse_fourier_max.

(* ---- the hypotheses on the exponential ---- *)
Section Witness.
Variable R : rcfType.
Local Notation cx x := (real_complex R x).

(* the Cayley transform *)
Definition cayley (z : R[i]) : R[i] := (1 + z / 2%:R) / (1 - z / 2%:R).

Lemma cayley_den (t : R) : 1 - 'i%C * cx t / 2%:R != 0.
Proof.
apply/eqP => /(congr1 (@complex.Re R)) h.
have : complex.Re (1 - 'i%C * cx t / 2%:R) = 1.
  have -> : 'i%C * cx t / 2%:R = 'i%C * cx (t / 2%:R).
    by rewrite cxM mulrA fmorphV rmorph_nat.
  by rewrite raddfB /=; ring.
by rewrite h /= => /eqP; rewrite eq_sym oner_eq0.
Qed.

Example unit_exp_ex : unit_exp cayley /\ forall t, t != 0 -> cayley ('i%C * cx t) != 1.
Proof.
split; first split.
- by rewrite /cayley mul0r subr0 addr0 divr1.
- move=> z; rewrite /cayley.
  have h (a b : R[i]) : conjc (a / b) = conjc a / conjc b by rewrite conjcM conjc_inv.
  by rewrite h conjcD conjcB h conjc1 conjc_nat.
- move=> t; rewrite /cayley normrM normfV.
  have -> : 1 + 'i%C * cx t / 2%:R = conjc (1 - 'i%C * cx t / 2%:R).
    rewrite conjcB conjcM conjc_inv conjc_nat conj_i conjc1.
    by rewrite rmorphN mulrN mulNr opprK.
  by rewrite normc_conj divff // normr_eq0 cayley_den.
- move=> t t0; rewrite /cayley; apply/eqP => h.
  have : 1 + 'i%C * cx t / 2%:R = 1 - 'i%C * cx t / 2%:R by apply: (divIf (cayley_den t)); rewrite h divff ?cayley_den.
  move/addrI/eqP; rewrite -subr_eq0 opprK -mulr2n mulrn_eq0 /= mulf_eq0 invr_eq0 pnatr_eq0 orbF mulf_eq0.
  have ii : ('i%C : R[i]) == 0 = false by rewrite eq_complex /= oner_eq0 andbF.
  by rewrite ii /= fmorph_eq0 (negbTE t0).
Qed.

(* over the reals the complex exponential satisfies this; in every ordered field the constant does *)
Example exp_morph_ex : exp_morph (fun=> 1 : R[i]).
Proof. by split=> //; rewrite ?conjc1 // => *; rewrite ?mulr1 ?conjc1. Qed.

Example taylor_exp_ex m : taylor_exp m (fun z : R[i] => \sum_(k < m) z ^+ k / (k`!)%:R).
Proof.
by move=> t; rewrite subrr normr0 ler0c divr_ge0 ?ler0n // exprn_ge0.
Qed.

(* a uniform two-point law on -1, 1 gives four admissible moments *)
Example characteristic_ex :
  let as_ : seq R := [:: 2%:R^-1; 2%:R^-1] in let zs : seq R := [:: -1; 1] in
  let ms := [seq discrete_moment as_ zs k | k <- iota 0 4] in
  [/\ size as_ = size zs, (size ms)./2 = size zs, uniq zs, all (fun w => 0 < w) as_ & jsum as_ = 1] /\
  admissible (nth 0 ms) (size ms)./2.
Proof.
move=> as_ zs ms; have hu : uniq zs.
  by rewrite /= inE andbT -subr_eq0 -opprD oppr_eq0 -mulr2n pnatr_eq0.
have hp : all (fun w => 0 < w) as_ by rewrite /= invr_gt0 ltr0n.
split; first by split=> //=; field.
move=> p p0 sp; have := @discrete_admissible R as_ zs erefl hu hp p p0 sp.
rewrite (@mom_eq _ (discrete_moment as_ zs) (nth 0 ms)) // => k hk.
have h4 : (k < 4)%N.
  apply: leq_trans hk _; apply: leq_trans (size_mul_leq _ _) _.
  by case: (size p) sp => [|[|[|]]].
by rewrite (nth_map 0%N) ?size_iota // nth_iota.
Qed.
End Witness.
