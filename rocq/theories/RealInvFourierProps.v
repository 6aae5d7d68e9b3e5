(* Property C131: inverse_fourier recovers the density of normal laws and their mixtures from the characteristic
   function on a grid. *)
From Coq Require Import Reals.
From mathcomp Require Import all_ssreflect all_algebra complex.
From Verif Require Import Prelude FourierModel RealField RealWitness RealGauss RealTrapz RealNormal DardelModel RealChar RealInvFourier.
Set Implicit Arguments.
Unset Strict Implicit.
Unset Printing Implicit Defensive.
Import Order.TTheory GRing.Theory Num.Theory.
Local Open Scope ring_scope.
Arguments line_integral _ _ : clear scopes.
Local Notation K := R_rcfType.
Local Notation rexp := (Rtrigo_def.exp : K -> K).
Local Notation pi := (PI : K).
Local Notation cx := (real_complex K).

(* the integral that the function approximates: (1 / 2 pi) int exp(-ixz) phi(z) dz is the density *)
Theorem fourier_inversion_normal (m v x : K) : 0 < v ->
  line_integral (fun z => complex.Re (real_cexp (- 'i%C * cx x * cx z) * ghf_cf real_cexp z m v))
    (2%:R * pi * normal_density m v x).
Proof. by move=> v0; apply: line_ext (fint_integral m x v0) => z; rewrite (integrandE m x v0). Qed.

(* the error on any increasing grid of mesh h that covers [-A, A] *)
Theorem inverse_fourier_normal (m v x h A z0 : K) (zs : seq K) :
  0 < v -> path (fun a b => (a <= b) && (b - a <= h)) z0 zs -> 0 <= A -> z0 <= - A -> A <= last z0 zs ->
  `|inverse_fourier real_cexp pi x [seq ghf_cf real_cexp z m v | z <- z0 :: zs] (z0 :: zs) - normal_density m v x|
  <= ((`|x - m| + Num.sqrt v) * h / 2%:R * (last z0 zs - z0)
      + 4%:R / Num.sqrt v * rexp (- (v * A ^+ 2 / 2%:R))) / (2%:R * pi).
Proof. exact: inv_fourier_normal. Qed.

(* mixtures, component (weight, mean, variance) *)
Theorem inverse_fourier_mixture (comps : seq (K * K * K)) (x h A z0 : K) (zs : seq K) :
  all (fun c => (0 <= c.1.1) && (0 < c.2)) comps ->
  path (fun a b => (a <= b) && (b - a <= h)) z0 zs -> 0 <= A -> z0 <= - A -> A <= last z0 zs ->
  let cf z := \sum_(c <- comps) cx c.1.1 * ghf_cf real_cexp z c.1.2 c.2 in
  let pdf x := \sum_(c <- comps) c.1.1 * normal_density c.1.2 c.2 x in
  `|inverse_fourier real_cexp pi x [seq cf z | z <- z0 :: zs] (z0 :: zs) - pdf x|
  <= \sum_(c <- comps) c.1.1 * (((`|x - c.1.2| + Num.sqrt c.2) * h / 2%:R * (last z0 zs - z0)
      + 4%:R / Num.sqrt c.2 * rexp (- (c.2 * A ^+ 2 / 2%:R))) / (2%:R * pi)).
Proof. exact: inv_fourier_mixture. Qed.

(* on the uniform grids linspace(-A, A, n + 2) it converges to the density, first with n and then with A *)
Theorem inverse_fourier_converges (comps : seq (K * K * K)) (x e : K) :
  all (fun c => (0 <= c.1.1) && (0 < c.2)) comps -> 0 < e ->
  let cf z := \sum_(c <- comps) cx c.1.1 * ghf_cf real_cexp z c.1.2 c.2 in
  let pdf x := \sum_(c <- comps) c.1.1 * normal_density c.1.2 c.2 x in
  exists2 A0 : K, 0 < A0 & forall A, A0 <= A -> exists N, forall n, (N <= n)%N ->
    let zs := mkseq (fun i => - A + i%:R * (2%:R * A / n.+1%:R)) n.+2 in
    `|inverse_fourier real_cexp pi x [seq cf z | z <- zs] zs - pdf x| < e.
Proof.
move=> hc e0 cf pdf; have [A0 A00 hA] := mixture_small x hc e0; exists A0 => // A hA0.
have [N hN] := hA A hA0; exists N => n hn.
have Age : 0 <= A by apply: le_trans hA0; exact: ltW.
have [el hp hl] := linspace_path n Age.
cbv zeta; rewrite -[mkseq _ _]/(linspace_sym A n) el; apply: le_lt_trans (hN n hn).
have hb := inv_fourier_mixture x hc hp Age (lexx _); rewrite hl in hb; exact: (hb (lexx _)).
Qed.

Example inverse_fourier_ex :
  let zs := [:: -1; 0; 1] : seq K in
  [/\ path (fun a b => (a <= b) && (b - a <= (1 : K))) (-1) (behead zs), (0 : K) < 1 &
      all (fun c : K * K * K => (0 <= c.1.1) && (0 < c.2)) [:: (1 / 2%:R, 1, 1); (1 / 2%:R, -1, 2%:R)]].
Proof.
split; rewrite /= ?ltr01 //.
- by rewrite sub0r opprK subr0 lexx oppr_le0 ler01.
- by rewrite divr_ge0 ?ler01 ?ler0n // ltr0n.
Qed.

Print Assumptions fourier_inversion_normal.
Print Assumptions inverse_fourier_normal.
Print Assumptions inverse_fourier_mixture.
Print Assumptions inverse_fourier_converges.
