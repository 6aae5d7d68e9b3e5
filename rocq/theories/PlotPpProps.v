(* Properties C141 and C142: the statistics and bands of plot_prey_predator_estimation.py. *)
From mathcomp Require Import all_ssreflect all_algebra.
From mathcomp Require Import ring zify.
From Verif Require Import Prelude MultiIndexModel MultiIndexSpec NdIndexModel MultiIndexProps PlotPpModel.
Set Implicit Arguments.
Unset Strict Implicit.
Unset Printing Implicit Defensive.
Import Order.TTheory GRing.Theory Num.Theory.
Local Open Scope ring_scope.

Section Law.
Variable R : rcfType.
(* a law with finitely many atoms: pairs of a mass and a point *)
Definition law_E (L : seq (R * seq R)) (f : seq R -> R) : R := \sum_(p <- L) p.1 * f p.2.
Definition law_mean (L : seq (R * seq R)) (k : nat) : R := law_E L (fun x => nth 0 x k).
Definition law_cov (L : seq (R * seq R)) (i j : nat) : R :=
  law_E L (fun x => (nth 0 x i - law_mean L i) * (nth 0 x j - law_mean L j)).
(* the raw and central moments in the order of the multi-indices *)
Definition law_rms d (L : seq (R * seq R)) (mis : seq (seq nat)) : seq R :=
  [seq law_E L (fun x => \prod_(i < d) nth 0 x i ^+ nth 0%N mi i) | mi : seq nat <- mis].
Definition law_cms d (L : seq (R * seq R)) (mis : seq (seq nat)) : seq R :=
  [seq law_E L (fun x => \prod_(i < d) (nth 0 x i - law_mean L i) ^+ nth 0%N mi i) | mi : seq nat <- mis].
(* the mass of an interval of the coordinate k *)
Definition law_mass (L : seq (R * seq R)) (k : nat) (b : R * R) : R :=
  \sum_(p <- L | b.1 <= nth 0 p.2 k <= b.2) p.1.
End Law.

Section P.
Variable R : rcfType.
Implicit Types L : seq (R * seq R).

Lemma prod_unit d (f : nat -> R) i : (i < d)%N -> \prod_(a < d) f a ^+ nth 0%N [seq (a == i : nat) | a <- iota 0 d] a = f i.
Proof.
move=> hi; have e (a : 'I_d) : nth 0%N [seq (a == i : nat) | a <- iota 0 d] a = (val a == i).
  by rewrite (nth_map 0%N) ?size_iota // nth_iota.
under eq_bigr do rewrite e; rewrite (bigD1 (Ordinal hi)) //= eqxx expr1 big1 ?mulr1 // => a ha.
by case: eqP => // ea; move: ha; rewrite -val_eqE /= ea eqxx.
Qed.

Lemma prod_pair d (f : nat -> R) i j : (i < d)%N -> (j < d)%N ->
  \prod_(a < d) f a ^+ nth 0%N [seq ((a == i : nat) + (a == j : nat))%N | a <- iota 0 d] a = f i * f j.
Proof.
move=> hi hj; rewrite -{1}(prod_unit f hi) -{1}(prod_unit f hj) -big_split; apply: eq_bigr => a _ /=.
by rewrite -exprD; congr (_ ^+ _); rewrite !(nth_map 0%N) ?size_iota // !nth_iota.
Qed.

Lemma law_covE L i j : \sum_(p <- L) p.1 = 1 ->
  law_cov L i j = law_E L (fun x => nth 0 x i * nth 0 x j) - law_mean L i * law_mean L j.
Proof.
move=> s1; have h (a b : R) : \sum_(p <- L) p.1 * ((nth 0 p.2 i - a) * (nth 0 p.2 j - b))
   = (\sum_(p <- L) p.1 * (nth 0 p.2 i * nth 0 p.2 j)) - b * (\sum_(p <- L) p.1 * nth 0 p.2 i)
     - a * (\sum_(p <- L) p.1 * nth 0 p.2 j) + a * b * (\sum_(p <- L) p.1).
  rewrite !mulr_sumr -!sumrB -big_split; apply: eq_bigr => p _ /=; ring.
rewrite /law_cov /law_E h s1 -/(law_E L (fun x => nth 0 x i)) -/(law_E L (fun x => nth 0 x j)) -/(law_mean L i) -/(law_mean L j).
by move: (\sum_(p <- L) _) (law_mean L i) (law_mean L j) => t a b; ring.
Qed.

(* what is drawn from the raw moments of a law *)
Lemma pe_rawE d u mis L : (1 < u)%N -> generate_graded_lexico_multi_indices d u 0 = Some mis -> \sum_(p <- L) p.1 = 1 ->
  pe_raw d (law_rms d L mis) = Some ([seq law_mean L i | i <- iota 0 d], [seq [seq law_cov L i j | j <- iota 0 d] | i <- iota 0 d]).
Proof.
move=> u1 hg s1; rewrite /pe_raw /law_rms.
set M := (fun mi : seq nat => law_E L (fun x => \prod_(i < d) nth 0 x i ^+ nth 0%N mi i)).
have [m -> [sm hm]] := extract_mean_correct 0 M hg (ltnW u1).
have [c -> [sc hc]] := extract_cov_correct 0 M hg u1.
have em i : (i < d)%N -> nth 0 m i = law_mean L i.
  by move=> hi; rewrite hm // /M /law_mean /law_E; apply: eq_bigr => p _; rewrite (prod_unit (fun a => nth 0 p.2 a)).
congr (Some (_, _)).
  apply: (@eq_from_nth _ 0); rewrite ?size_map ?size_iota // => i; rewrite sm => hi.
  by rewrite em // (nth_map 0%N) ?size_iota // nth_iota.
apply/eq_in_map => i; rewrite mem_iota add0n => /= hi; apply/eq_in_map => j; rewrite mem_iota add0n => /= hj.
have [_ ->] := hc i j hi hj; rewrite !em // law_covE //; congr (_ - _).
by rewrite /M /law_E; apply: eq_bigr => p _; rewrite (prod_pair (fun a => nth 0 p.2 a)).
Qed.

Lemma pe_centralE d u mis L : (1 < u)%N -> generate_graded_lexico_multi_indices d u 0 = Some mis ->
  pe_central d (law_cms d L mis) [seq law_mean L i | i <- iota 0 d]
  = Some ([seq law_mean L i | i <- iota 0 d], [seq [seq law_cov L i j | j <- iota 0 d] | i <- iota 0 d]).
Proof.
move=> u1 hg; rewrite /pe_central /law_cms.
set M := (fun mi : seq nat => law_E L (fun x => \prod_(i < d) (nth 0 x i - law_mean L i) ^+ nth 0%N mi i)).
have [c -> [sc hc]] := extract_cov_correct 0 M hg u1; congr (Some (_, _)).
apply: (@eq_from_nth _ [::]); rewrite ?size_map ?size_iota // => i; rewrite sc => hi.
rewrite (nth_map 0%N) ?size_iota // nth_iota // add0n.
have [si _] := hc i i hi hi.
apply: (@eq_from_nth _ 0); rewrite si ?size_map ?size_iota // => j hj.
rewrite (nth_map 0%N) ?size_iota // nth_iota // add0n.
have [_ ->] := hc i j hi hj; rewrite /M /law_cov /law_E; apply: eq_bigr => p _.
by rewrite (prod_pair (fun a => nth 0 p.2 a - law_mean L a)).
Qed.

(* C141: from the moments of a law both modes draw the same bands: the mean plus and minus 1.96 standard deviations *)
Theorem prey_predator_bands d u mis L k : (1 < u)%N -> (k < d)%N ->
  generate_graded_lexico_multi_indices d u 0 = Some mis -> \sum_(p <- L) p.1 = 1 ->
  let band := (law_mean L k - 196%:R / 100%:R * Num.sqrt (law_cov L k k), law_mean L k + 196%:R / 100%:R * Num.sqrt (law_cov L k k)) in
  omap (pe_band k) (pe_raw d (law_rms d L mis)) = Some band /\
  omap (pe_band k) (pe_central d (law_cms d L mis) [seq law_mean L i | i <- iota 0 d]) = Some band.
Proof.
move=> u1 hk hg s1 band; rewrite (pe_rawE u1 hg s1) (pe_centralE L u1 hg) /= /pe_band /=.
by rewrite !(nth_map 0%N) ?size_iota // !nth_iota.
Qed.

(* C141: the band has at least the mass 1 - 1/1.96^2 (0.7396...) *)
Theorem prey_predator_bands_mass L k b : all (fun p => 0 <= p.1) L -> \sum_(p <- L) p.1 = 1 ->
  b = (law_mean L k - 196%:R / 100%:R * Num.sqrt (law_cov L k k), law_mean L k + 196%:R / 100%:R * Num.sqrt (law_cov L k k)) ->
  1 - (196%:R / 100%:R) ^- 2 <= law_mass L k b.
Proof.
move=> w0 s1 ->; set m := law_mean L k; set v := law_cov L k k; set c : R := 196%:R / 100%:R.
have c0 : 0 < c by rewrite divr_gt0 ?ltr0n.
clearbody c; have c2 : 0 < c ^+ 2 by rewrite exprn_gt0.
pose q (p : R * seq R) := nth 0 p.2 k - m.
have vE : v = \sum_(p <- L) p.1 * q p ^+ 2 by rewrite /v /law_cov /law_E; apply: eq_bigr => p _; rewrite expr2.
clearbody v; have v0 : 0 <= v by rewrite vE big_seq sumr_ge0 // => p hp; rewrite mulr_ge0 ?sqr_ge0 // (allP w0).
pose inb (p : R * seq R) := m - c * Num.sqrt v <= nth 0 p.2 k <= m + c * Num.sqrt v.
have inbE p : inb p = (q p ^+ 2 <= c ^+ 2 * v).
  have -> : c ^+ 2 * v = (c * Num.sqrt v) ^+ 2 by rewrite exprMn sqr_sqrtr.
  have h0 : 0 <= c * Num.sqrt v by rewrite mulr_ge0 ?sqrtr_ge0 // ltW.
  rewrite -[q p ^+ 2]real_normK ?num_real // ler_pexpn2r ?nnegrE ?normr_ge0 // ler_norml /inb /q.
  by rewrite ler_subr_addr addrC ler_subl_addl.
rewrite /law_mass -/(inb _); set S := \sum_(p <- L | _) _.
have sp : S + (\sum_(p <- L | ~~ inb p) p.1) = 1 by rewrite -s1 [RHS](bigID inb).
suff h : \sum_(p <- L | ~~ inb p) p.1 <= c ^- 2 by rewrite -sp ler_subl_addr ler_add2l.
have out : c ^+ 2 * v * (\sum_(p <- L | ~~ inb p) p.1) <= \sum_(p <- L | ~~ inb p) p.1 * q p ^+ 2.
  rewrite mulr_sumr big_seq_cond [X in _ <= X]big_seq_cond ler_sum // => p /andP [hp].
  by rewrite inbE -ltNge => /ltW h; rewrite mulrC ler_wpmul2l // (allP w0).
have le : \sum_(p <- L | ~~ inb p) p.1 * q p ^+ 2 <= v.
  rewrite vE [X in _ <= X](bigID inb) /= ler_addr big_seq_cond sumr_ge0 // => p /andP [hp _].
  by rewrite mulr_ge0 ?sqr_ge0 // (allP w0).
have [vz|vp] := eqVneq v 0; last first.
  have {}vp : 0 < v by rewrite lt_neqAle eq_sym vp.
  have := le_trans out le; rewrite mulrAC -[X in _ <= X]mul1r ler_pmul2r // => h.
  by rewrite -[X in X <= _]mul1r -(mulVf (lt0r_neq0 c2)) -mulrA -[X in _ <= X]mulr1 ler_pmul2l ?invr_gt0.
suff -> : \sum_(p <- L | ~~ inb p) p.1 = 0 by rewrite invr_ge0 ltW.
rewrite big_seq_cond big1 // => p /andP [hp]; rewrite inbE vz mulr0 -ltNge => qp.
have t0 : p.1 * q p ^+ 2 = 0.
  apply: le_anti; rewrite mulr_ge0 ?sqr_ge0 ?(allP w0) // andbT -[X in _ <= X]vz vE (perm_big _ (perm_to_rem hp)) big_cons ler_addl.
  by rewrite big_seq sumr_ge0 // => r /mem_rem hr; rewrite mulr_ge0 ?sqr_ge0 // (allP w0).
by move/eqP: t0; rewrite mulf_eq0 (gt_eqF qp) orbF => /eqP.
Qed.

(* C142: the band need not have the mass 95%: three atoms, with 3/4 in the band *)
Theorem prey_predator_bands_95_refuted :
  exists L : seq (R * seq R), [/\ all (fun p => 0 <= p.1) L, \sum_(p <- L) p.1 = 1 &
    law_mass L 0 (law_mean L 0 - 196%:R / 100%:R * Num.sqrt (law_cov L 0 0), law_mean L 0 + 196%:R / 100%:R * Num.sqrt (law_cov L 0 0)) < 95%:R / 100%:R].
Proof.
exists [:: (3%:R / 4%:R, [:: 0; 0]); (8%:R^-1, [:: 1; 0]); (8%:R^-1, [:: -1; 0])]; set L := [:: _; _; _].
have n2 : (2%:R : R) != 0 by rewrite pnatr_eq0.
have n4 : (4%:R : R) != 0 by rewrite pnatr_eq0.
have n8 : (8%:R : R) != 0 by rewrite pnatr_eq0.
have mE : law_mean L 0 = 0 by rewrite /law_mean /law_E !big_cons big_nil /=; field.
have vE : law_cov L 0 0 = 2%:R^-1 ^+ 2 by rewrite /law_cov mE /law_E !big_cons big_nil /=; field.
have sE : Num.sqrt (law_cov L 0 0) = 2%:R^-1 by rewrite vE sqrtr_sqr ger0_norm // invr_ge0 ler0n.
split.
- by rewrite /L /= !invr_ge0 mulr_ge0 ?invr_ge0 ?ler0n.
- by rewrite /L !big_cons big_nil /=; field.
rewrite sE mE /law_mass.
have cE : 196%:R / 100%:R * 2%:R^-1 = 98%:R / 100%:R :> R.
  have n100 : (100%:R : R) != 0 by rewrite pnatr_eq0.
  by field.
have c1 : 98%:R / 100%:R < 1 :> R by rewrite ltr_pdivr_mulr ?ltr0n // mul1r ltr_nat.
have c0 : 0 <= 98%:R / 100%:R :> R by rewrite divr_ge0 ?ler0n.
rewrite cE sub0r add0r /L !big_cons big_nil /= oppr_le0 c0 /= [1 <= _]leNgt c1 andbF ler_opp2 [1 <= _]leNgt c1 /= addr0.
by rewrite ltr_pdivr_mulr ?ltr0n // mulrAC ltr_pdivl_mulr ?ltr0n // -!natrM ltr_nat.
Qed.
End P.
Print Assumptions prey_predator_bands_95_refuted.
Print Assumptions prey_predator_bands.
Print Assumptions prey_predator_bands_mass.


(* the premises hold of one atom, whose band is a point *)
Example prey_predator_bands_ex (R : rcfType) (x y : R) : exists mis,
  generate_graded_lexico_multi_indices 2 3 0 = Some mis /\
  omap (pe_band 1) (pe_raw 2 (law_rms 2 [:: (1, [:: x; y])] mis)) = Some (y, y).
Proof.
eexists; split; first by vm_compute; reflexivity.
have hg : generate_graded_lexico_multi_indices 2 3 0 = Some [:: [:: 0; 0]; [:: 0; 1]; [:: 1; 0]; [:: 0; 2]; [:: 1; 1]; [:: 2; 0]; [:: 0; 3]; [:: 1; 2]; [:: 2; 1]; [:: 3; 0]]%N by vm_compute.
have [|-> _] := @prey_predator_bands R 2 3 _ [:: (1, [:: x; y])] 1 isT isT hg; first by rewrite big_seq1.
have -> : law_mean [:: (1, [:: x; y])] 1 = y by rewrite /law_mean /law_E big_seq1 mul1r.
have -> : law_cov [:: (1, [:: x; y])] 1 1 = 0 by rewrite /law_cov /law_mean /law_E !big_seq1 /= !mul1r subrr mulr0.
by rewrite sqrtr0 mulr0 subr0 addr0.
Qed.
