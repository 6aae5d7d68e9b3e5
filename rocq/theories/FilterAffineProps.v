(* Property C76: the one-dimensional raw moment filter commutes with affine changes of the state. *)
From mathcomp Require Import all_ssreflect all_algebra.
From mathcomp Require Import ring zify.
From Verif Require Import Prelude LinAlgSpec LinAlgProofs LdlProofs SpectralProofs.
From Verif Require Import QuadModel QuadSpec QuadProofs QuadMain QuadStrict.
From Verif Require Import Egf Moments1DModel Moments1DSpec Moments1DProofs Moments1DConv.
From Verif Require Import Filter1DModel Filter1DSpec Filter1DProofs Filter1DSim Filter1DProps FilterAffine.
Set Implicit Arguments.
Unset Strict Implicit.
Unset Printing Implicit Defensive.
Import Order.TTheory GRing.Theory Num.Theory.
Local Open Scope ring_scope.

Section Props.
Variable R : rcfType.
Variable chol : forall n, 'M[R]_n -> 'M[R]_n.
Variable eigh : forall n, 'M[R]_n -> 'M[R]_n * 'rV[R]_n.
Variable log : R -> R.
Variables (Y Y' : Type).
Local Notation raw_filter := (moment_filter_rms chol eigh log).

(* The raw moments of (X - c) / s, for X with raw moments ms: sum_j C(k, j) (-c)^(k-j) ms_j / s^k. *)
Definition recentred (c s : R) (ms : seq R) : seq R :=
  [seq (\sum_(j < k.+1) 'C(k, j)%:R * (- c) ^+ (k - j) * ms`_j) / s ^+ k | k <- iota 0 (size ms)].

Lemma affine_sum (m : nat -> R) c s k :
  affine_moments m c s k = (\sum_(j < k.+1) 'C(k, j)%:R * (- c) ^+ (k - j) * m j) / s ^+ k.
Proof.
rewrite -[LHS]/(scaled_moment m c s k) scaled_central central_aff /aff convC; congr (_ / _).
by apply: eq_bigr => j _; rewrite expr1n mul1r /cexp -!mulrA [m _ * _]mulrC.
Qed.

Lemma recentredE c s ms : recentred c s ms = aff_seq c s ms.
Proof. by apply: eq_map => k; rewrite affine_sum. Qed.

(* C76. Feeding the filter the recentred prior, the transition and likelihood of the recentred state
   (and relabelled measurements) recentres every moment vector and leaves the likelihood unchanged.
   s may be negative: s = -1 is the reflection of the state. *)
Theorem raw_filter_affine_equivariant (c s : R) (g : Y -> Y') cond cond' pdf pdf' st st' (rms0 : seq R) ys :
  chol_spec chol -> eigh_spec eigh -> s != 0 -> (forall y x, 0 < pdf y x) ->
  rms0`_0 = 1 -> admissible (nth 0 rms0) (size rms0)./2 ->
  (forall x, admissible (cond x) (size rms0)./2) -> (forall x, cond x 0%N = 1) ->
  (forall x k, (k < size rms0)%N -> cond' ((x - c) / s) k =
     (\sum_(j < k.+1) 'C(k, j)%:R * (- c) ^+ (k - j) * cond x j) / s ^+ k) ->
  (forall y x, pdf' (g y) ((x - c) / s) = pdf y x) ->
  raw_filter cond' pdf' st' (recentred c s rms0) [seq g y | y <- ys] =
  omap (fun o => ([seq recentred c s r | r <- o.1], o.2)) (raw_filter cond pdf st rms0 ys).
Proof.
move=> hc he s0 hp h0 ha hcond hc1 hcc hpp.
rewrite recentredE /moment_filter_rms size_aff; case: ltnP => // hs.
have hok := rms_always_ok hc he st ys hs ha hcond hp.
have hcc' x k : (k < size rms0)%N -> cond' ((x - c) / s) k = affine_moments (cond x) c s k.
  by move=> hk; rewrite affine_sum hcc.
rewrite (affine_sim hc he s0 log st' hcc' hc1 hpp 0 erefl hs h0 hok).
by case: (scan _ _ _) => [[a b] o] /=; rewrite (eq_map (recentredE c s)).
Qed.

(* C76 for the normal transitions of the library (moments.py lines 182-255), given the conditional
   mean and variance mv x of the state; mv' are those of the recentred state. *)
Theorem normal_filter_affine_equivariant (c s : R) (g : Y -> Y') mv mv' (N : nat) pdf pdf' st st'
    (rms0 : seq R) ys :
  chol_spec chol -> eigh_spec eigh -> s != 0 -> (forall y x, 0 < pdf y x) ->
  size rms0 = (2 * N)%N -> rms0`_0 = 1 -> admissible (nth 0 rms0) N ->
  (forall x, 0 < (mv x).2) ->
  (forall x, mv' ((x - c) / s) = (((mv x).1 - c) / s, (mv x).2 / s ^+ 2)) ->
  (forall y x, pdf' (g y) ((x - c) / s) = pdf y x) ->
  raw_filter (normal_cond_raw mv' N) pdf' st' (recentred c s rms0) [seq g y | y <- ys] =
  omap (fun o => ([seq recentred c s r | r <- o.1], o.2))
    (raw_filter (normal_cond_raw mv N) pdf st rms0 ys).
Proof.
move=> hc he s0 hp hs h0 ha hv hmv hpp.
case: N hs ha => [|N] hs ha; first by rewrite /moment_filter_rms size_map size_iota hs.
have hN : ((size rms0)./2 = N.+1)%N by rewrite hs mul2n doubleK.
have hr x n : (n < size rms0)%N -> normal_cond_raw mv N.+1 x n = gauss_moment (mv x).1 (mv x).2 n.
  by rewrite hs => hn; rewrite normal_cond_rawE // ltW.
apply: raw_filter_affine_equivariant => //; rewrite ?hN //.
- move=> x; apply: (adm_ext _ (gauss_admissible (mv x).1 (hv x))) => k hk.
  by rewrite hr // hs mul2n.
- by move=> x; rewrite hr ?hs // mul2n.
move=> x k hk; rewrite normal_cond_rawE -?hs //; last by rewrite hmv /= divr_ge0 ?sqr_ge0 ?ltW.
rewrite -affine_sum (@affine_ext R c s _ (gauss_moment (mv x).1 (mv x).2)); last first.
  by move=> j hj; rewrite hr // (leq_ltn_trans hj).
rewrite -[RHS]/(scaled_moment _ c s k) scaled_aff.
rewrite (gaussian_unique (gaussian_aff _ _ (gauss_momentP _ _))) hmv /=.
by congr gauss_moment; field.
Qed.

End Props.

Section Central.
Variable R : rcfType.
Variable chol : forall n, 'M[R]_n -> 'M[R]_n.
Variable eigh : forall n, 'M[R]_n -> 'M[R]_n * 'rV[R]_n.
Variable log : R -> R.
Variables (Y Y' : Type).
Local Notation central_filter := (moment_filter_cms chol eigh log).

(* central moments of (X - c) / s *)
Definition rescaled (s : R) (cms : seq R) : seq R := [seq cms`_n / s ^+ n | n <- iota 0 (size cms)].

Lemma recentred1 (c s : R) ms : (1 < size ms)%N -> ms`_0 = 1 -> (recentred c s ms)`_1 = (ms`_1 - c) / s.
Proof.
move=> hs h0; rewrite nth_iota_map // !big_ord_recl big_ord0 /= h0 bin0 bin1 expr1 expr0.
by rewrite addr0 !mulr1 !mul1r expr1 addrC.
Qed.

Lemma raw_to_central_recentred (c s : R) ms : s != 0 -> (1 < size ms)%N -> ms`_0 = 1 ->
  raw_to_central (recentred c s ms) = rescaled s (raw_to_central ms).
Proof.
move=> s0 hs h0; have sz : size (recentred c s ms) = size ms by rewrite size_map size_iota.
apply: (@eq_from_nth _ 0) => [|n]; rewrite size_raw_to_central sz.
  by rewrite size_map size_iota size_raw_to_central.
move=> hn; rewrite raw_to_centralE ?sz // [RHS]nth_iota_map ?size_raw_to_central // raw_to_centralE //.
rewrite recentred1 // (@central_ext _ _ (aff (nth 0 ms) (- c / s) s^-1)); last first.
  move=> k hk; rewrite recentredE nth_aff ?(leq_ltn_trans hk) // -[LHS]/(scaled_moment _ c s k).
  by rewrite scaled_aff.
rewrite central_aff aff_aff -[RHS]scaled_central scaled_aff !mul1r -mulNr -mulrDl opprB addrC addKr.
by [].
Qed.

(* C76, the central moment filter: central moments scale by s^-n, the mean is recentred. *)
Theorem central_filter_affine_equivariant (c s : R) (g : Y -> Y') cond condc condc' condm condm' pdf pdf'
    st st' (cms0 : seq R) mean0 ys :
  chol_spec chol -> eigh_spec eigh -> s != 0 -> (forall y x, 0 < pdf y x) ->
  cms0`_0 = 1 -> cms0`_1 = 0 -> admissible (nth 0 cms0) (size cms0)./2 ->
  (forall x, admissible (cond x) (size cms0)./2) -> (forall x, cond x 0%N = 1) ->
  (forall x n m, (n < size cms0)%N -> condc x n m = central_moment (cond x) m n) ->
  (forall x, condm x = cond x 1%N) ->
  (forall x n m, (n < size cms0)%N -> condc' ((x - c) / s) n ((m - c) / s) = condc x n m / s ^+ n) ->
  (forall x, condm' ((x - c) / s) = (condm x - c) / s) ->
  (forall y x, pdf' (g y) ((x - c) / s) = pdf y x) ->
  central_filter condc' condm' pdf' st' (rescaled s cms0) ((mean0 - c) / s) [seq g y | y <- ys] =
  omap (fun o => ([seq (rescaled s r.1, (r.2 - c) / s) | r <- o.1], o.2))
    (central_filter condc condm pdf st cms0 mean0 ys).
Proof.
move=> hc he s0 hp h0 h1 ha hcond hc1 hcc hcm hcc' hcm' hpp.
case: (ltnP (size cms0) 2) => hs.
  by rewrite /moment_filter_cms size_map size_iota hs.
pose rms0 := central_to_raw cms0 mean0.
have sz : size rms0 = size cms0 by rewrite size_central_to_raw.
have eC : cms0 = raw_to_central rms0 by rewrite central_raw_central.
have e0 : rms0`_0 = 1.
  by rewrite central_to_raw_aff 1?ltnW // /aff /conv big_ord1 /cexp !expr0 !mul1r h0.
have e1 : rms0`_1 = mean0.
  rewrite central_to_raw_aff // /aff /conv !big_ord_recr big_ord0 /= /cexp h0 h1.
  by rewrite !mulr0 !add0r subnn expr0 binn !mulr1 mul1r expr1.
have ha' : admissible (nth 0 rms0) (size rms0)./2.
  rewrite sz; apply: (adm_ext _ (adm_aff mean0 (oner_neq0 R) ha)) => k hk.
  rewrite central_to_raw_aff //; apply: leq_trans hk _.
  by rewrite -{2}[size cms0]odd_double_half leq_addl.
pose cond' z k := affine_moments (cond (s * z + c)) c s k.
have inv x : s * ((x - c) / s) + c = x by field.
have inv' z : ((s * z + c) - c) / s = z by field.
pose r0 := recentred c s rms0.
have szr : size r0 = size cms0 by rewrite size_map size_iota sz.
have hs' : (1 < size rms0)%N by rewrite sz.
have -> : rescaled s cms0 = raw_to_central r0 by rewrite raw_to_central_recentred // -eC.
have -> : (mean0 - c) / s = r0`_1 by rewrite recentred1 // e1.
have adm' z : admissible (cond' z) (size r0)./2.
  rewrite szr; apply: (adm_ext _ (adm_aff (- c / s) (invr_neq0 s0) (hcond (s * z + c)))) => k hk.
  by rewrite -scaled_aff.
have admr : admissible (nth 0 r0) (size r0)./2.
  rewrite szr -sz; apply: (adm_ext _ (adm_aff (- c / s) (invr_neq0 s0) ha')) => k hk.
  rewrite /r0 recentredE nth_aff -?scaled_aff //; apply: leq_trans hk _.
  by rewrite -{2}[size rms0]odd_double_half leq_addl.
pose pdf2 y := pdf' (g y).
have hpdf' y z : 0 < pdf2 y z by rewrite /pdf2 -[z]inv' hpp.
have -> : central_filter condc' condm' pdf' st' (raw_to_central r0) r0`_1 [seq g y | y <- ys] =
          central_filter condc' condm' pdf2 st' (raw_to_central r0) r0`_1 ys.
  rewrite /moment_filter_cms; case: ifP => // _.
  set b1 := cms_body _ _ _ _ _ _ _; set b2 := cms_body _ _ _ _ _ _ _.
  suff -> : forall a, scan b1 a [seq g y | y <- ys] = scan b2 a ys by [].
  by elim: (ys) => [|y l IH] a //; rewrite [map _ _]/= !scan_cons IH.
rewrite (raw_central_filters_agree log st st' ys hc he hpdf' admr adm').
- have -> : moment_filter_rms chol eigh log cond' pdf2 st r0 ys = 
      moment_filter_rms chol eigh log cond' pdf2 st (recentred c s rms0) [seq id y | y <- ys].
    by rewrite map_id.
  rewrite (raw_filter_affine_equivariant log (g := id) st st ys hc he s0 hp e0 ha' (cond := cond) (pdf := pdf)) //; last first.
  + by move=> x k hk; rewrite /cond' inv affine_sum.
  + by rewrite sz.
  rewrite {1}eC -e1 (raw_central_filters_agree log st st ys hc he hp ha' (cond := cond)) ?sz //.
  case hr : (moment_filter_rms _ _ _ _ _ _ rms0 ys) => [[out nell]|] //=; congr (Some (_, _)).
  have hcond2 x : admissible (cond x) (size rms0)./2 by rewrite sz.
  have [_ hin] := raw_filter_invariant hc he hp ha' hcond2 hr.
  rewrite -!map_comp; apply/eq_in_map => r /hin [h2 h3 h4] /=.
  by rewrite raw_to_central_recentred ?recentred1 ?h2 // h2.
- move=> z n m; rewrite szr => hn; rewrite -[z in LHS]inv' -[m in LHS]inv' hcc' // hcc // -[LHS]scaled_central.
  rewrite central_aff scaled_aff (@aff_ext _ (cond' z) (aff (cond (s * z + c)) (- c / s) s^-1)); last first.
    by move=> k _; rewrite -scaled_aff.
  by rewrite aff_aff; congr (aff _ _ _ _); field.
- move=> z; rewrite -[z in LHS]inv' hcm' hcm /cond' affine_sum !big_ord_recl big_ord0 /= hc1.
  by rewrite bin0 bin1 !expr1 expr0 addr0 !mulr1 !mul1r addrC.
Qed.

(* C76 for the normal transitions, central moments. *)
Theorem normal_central_filter_affine_equivariant (c s : R) (g : Y -> Y') mv mv' (N : nat) pdf pdf' st st'
    (cms0 : seq R) mean0 ys :
  chol_spec chol -> eigh_spec eigh -> s != 0 -> (forall y x, 0 < pdf y x) ->
  size cms0 = (2 * N)%N -> cms0`_0 = 1 -> cms0`_1 = 0 -> admissible (nth 0 cms0) N ->
  (forall x, 0 < (mv x).2) ->
  (forall x, mv' ((x - c) / s) = (((mv x).1 - c) / s, (mv x).2 / s ^+ 2)) ->
  (forall y x, pdf' (g y) ((x - c) / s) = pdf y x) ->
  central_filter (normal_cond_central mv' N) (fun x => (mv' x).1) pdf' st' (rescaled s cms0) ((mean0 - c) / s)
    [seq g y | y <- ys] =
  omap (fun o => ([seq (rescaled s r.1, (r.2 - c) / s) | r <- o.1], o.2))
    (central_filter (normal_cond_central mv N) (fun x => (mv x).1) pdf st cms0 mean0 ys).
Proof.
move=> hc he s0 hp hs h0 h1 ha hv hmv hpp.
have hN : ((size cms0)./2 = N)%N by rewrite hs mul2n doubleK.
apply: (central_filter_affine_equivariant (cond := fun x => gauss_moment (mv x).1 (mv x).2)) => //; rewrite ?hN //.
- by move=> x; apply: gauss_admissible.
- by move=> x n m hn; rewrite normal_cond_centralE -?hs // ltW.
- move=> x n m hn; rewrite !normal_cond_centralE -?hs // ?hmv /= ?divr_ge0 ?sqr_ge0 ?ltW //.
  rewrite -[RHS]scaled_central central_aff scaled_aff.
  rewrite !(gaussian_unique (gaussian_aff _ _ (gauss_momentP _ _))).
  by congr gauss_moment; field.
- by move=> x; rewrite hmv.
Qed.
End Central.

(* C76 for the Euler-Maruyama transition: a recentred diffusion has drift and dispersion divided by s
   (the sign of the dispersion is immaterial). *)
Section Euler.
Variable R : rcfType.
Variable chol : forall n, 'M[R]_n -> 'M[R]_n.
Variable eigh : forall n, 'M[R]_n -> 'M[R]_n * 'rV[R]_n.
Variable log : R -> R.
Variables (Y Y' : Type) (c s : R) (g : Y -> Y').
Variables (drift drift' dispersion dispersion' : R -> R) (dt : R) (N : nat).
Variables (pdf : Y -> R -> R) (pdf' : Y' -> R -> R) (st st' : bool).
Implicit Types (ms : seq R) (ys : seq Y).
Local Notation raw_filter := (moment_filter_rms chol eigh log).
Local Notation central_filter := (moment_filter_cms chol eigh log).

Let recentred_diffusion := [/\ 0 < dt, forall x, dispersion x != 0,
  forall x, drift' ((x - c) / s) = drift x / s
  & forall x, dispersion' ((x - c) / s) ^+ 2 = dispersion x ^+ 2 / s ^+ 2].

Lemma euler_mv : s != 0 -> recentred_diffusion ->
  (forall x, 0 < (euler_mean_var drift dispersion dt x).2) /\
  (forall x, euler_mean_var drift' dispersion' dt ((x - c) / s) =
     (((euler_mean_var drift dispersion dt x).1 - c) / s, (euler_mean_var drift dispersion dt x).2 / s ^+ 2)).
Proof.
move=> s0 [hd hb hdr hdi]; split=> x /=; first by rewrite mulr_gt0 // lt_def sqrf_eq0 hb sqr_ge0.
by rewrite /euler_mean_var hdr hdi; congr pair; field.
Qed.

Theorem euler_filter_affine_equivariant ms ys :
  chol_spec chol -> eigh_spec eigh -> s != 0 -> (forall y x, 0 < pdf y x) ->
  size ms = (2 * N)%N -> ms`_0 = 1 -> admissible (nth 0 ms) N -> recentred_diffusion ->
  (forall y x, pdf' (g y) ((x - c) / s) = pdf y x) ->
  raw_filter (euler_cond_raw drift' dispersion' dt N) pdf' st' (recentred c s ms) [seq g y | y <- ys] =
  omap (fun o => ([seq recentred c s r | r <- o.1], o.2))
    (raw_filter (euler_cond_raw drift dispersion dt N) pdf st ms ys).
Proof.
by move=> hc he s0 hp hs h0 ha hr hpp; have [h1 h2] := euler_mv s0 hr; apply: normal_filter_affine_equivariant.
Qed.

Theorem euler_central_filter_affine_equivariant ms mean0 ys :
  chol_spec chol -> eigh_spec eigh -> s != 0 -> (forall y x, 0 < pdf y x) ->
  size ms = (2 * N)%N -> ms`_0 = 1 -> ms`_1 = 0 -> admissible (nth 0 ms) N -> recentred_diffusion ->
  (forall y x, pdf' (g y) ((x - c) / s) = pdf y x) ->
  central_filter (euler_cond_central drift' dispersion' dt N) (euler_cond_mean drift' dispersion' dt) pdf' st'
    (rescaled s ms) ((mean0 - c) / s) [seq g y | y <- ys] =
  omap (fun o => ([seq (rescaled s r.1, (r.2 - c) / s) | r <- o.1], o.2))
    (central_filter (euler_cond_central drift dispersion dt N) (euler_cond_mean drift dispersion dt) pdf st
       ms mean0 ys).
Proof.
move=> hc he s0 hp hs h0 h1 ha hr hpp; have [h2 h3] := euler_mv s0 hr.
exact: (normal_central_filter_affine_equivariant log st st' mean0 ys hc he s0 hp hs h0 h1 ha h2 h3 hpp).
Qed.
End Euler.
Print Assumptions raw_filter_affine_equivariant.
Print Assumptions central_filter_affine_equivariant.
Print Assumptions normal_filter_affine_equivariant.
Print Assumptions normal_central_filter_affine_equivariant.
Print Assumptions euler_filter_affine_equivariant.
Print Assumptions euler_central_filter_affine_equivariant.

(* A random walk seen in shifted and reflected coordinates, with a Cauchy-shaped likelihood. *)
Example affine_hypotheses_ex (R : rcfType) (N : nat) :
  let c := 3%:R : R in let s := - 2%:R : R in
  let rms0 := mkseq (gauss_moment (1 : R) 1) (2 * N.+1) in
  let pdf := fun y x : R => (1 + (y - x) ^+ 2)^-1 in
  let pdf' := fun y x : R => (1 + (y - (s * x + c)) ^+ 2)^-1 in
  [/\ s != 0, forall y x, 0 < pdf y x, size rms0 = (2 * N.+1)%N /\ rms0`_0 = 1,
      admissible (nth 0 rms0) N.+1 &
      [/\ forall x : R, (fun z => - z - c / s) ((x - c) / s) = (fun z => - z) x / s,
          forall x : R, (fun _ => 1 / 2%:R) ((x - c) / s) ^+ 2 = (fun _ => 1) x ^+ 2 / s ^+ 2 &
          forall y x, pdf' (id y) ((x - c) / s) = pdf y x]].
Proof.
have s0 : - 2%:R != 0 :> R by rewrite oppr_eq0 pnatr_eq0.
move=> c s rms0 pdf pdf'; split=> //; last split.
- by move=> y x; rewrite invr_gt0 ltr_paddr ?ltr01 ?sqr_ge0.
- by rewrite size_mkseq nth_mkseq // mul2n double_gt0.
- apply: (adm_ext _ (gauss_admissible 1 ltr01)) => k hk; by rewrite nth_mkseq // mul2n.
- by move=> x /=; rewrite /c /s; field.
- by move=> x /=; rewrite /s; field.
- by move=> y x; rewrite /pdf' /pdf /s /c; congr ((1 + (y - _) ^+ 2)^-1); field.
Qed.
