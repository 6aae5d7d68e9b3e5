(* Discrete laws in several dimensions: change of variable, a unisolvent set of points. *)
From mathcomp Require Import all_ssreflect all_algebra.
From mathcomp Require Import zify ring.
From Verif Require Import Prelude MultiIndexModel MultiIndexSpec MultiIndexProofs MultiIndexGramProofs MultiIndexMain.
From Verif Require Import NdIndexModel NdIndexProofs LinAlgSpec LinAlgProofs SpectralProofs LdlModel LdlProofs.
From Verif Require Import QuadModel QuadSpec QuadProofs QuadMain QuadNdModel QuadNdSpec QuadNdProofs QuadNdGram.
From Verif Require Import QuadNdAffine QuadNdMain QuadNdFinal QuadNdExact.
Set Implicit Arguments.
Unset Strict Implicit.
Unset Printing Implicit Defensive.
Import Order.TTheory GRing.Theory Num.Theory.
Local Open Scope ring_scope.

Section Disc.
Variable R : rcfType.
Implicit Types (ws : seq R) (zs : seq (seq R)).

Lemma nd_discrete_exact chol eigh d N full inds ws zs ldl qw qx :
  @chol_spec R chol -> @eigh_spec R eigh -> (0 < N)%N ->
  generate_graded_lexico_multi_indices d (2 * N - 1) 0 = Some full ->
  gram_and_hankel_indices_graded_lexico N d = Some inds ->
  size ws = 'C(N.-1 + d, d) -> size zs = 'C(N.-1 + d, d) ->
  all (fun w => 0 < w) ws -> all (fun z => size z == d) zs -> unisolvent d N zs ->
  moment_quadrature_nd chol eigh [seq discrete_nd ws zs x | x <- full] inds None None ldl
    = Some (qw, qx) ->
  forall f, expect_nd qw qx f = expect_nd ws zs f / jsum ws.
Proof.
move=> hc he hN hf hi; have [hd -> ->] := layoutE hN hf hi; have [n hn] := basis_pos hd hN.
rewrite -(sizeb hd hN) hn -/(mvec d N _) => sw sz hw hz hu hq f.
exact: (quad_exact hc he hd hN hn sw sz hw hz hu f hq).
Qed.

(* moments of a discrete law as sums of product polynomials *)
Definition peval (ps : seq {poly R}) (z : seq R) : R := \prod_(p <- zip ps z) p.1.[p.2].

Lemma tens_sum I (r : seq I) (w : I -> R) (F : I -> seq nat -> R) ps :
  tens_functional (fun k => \sum_(i <- r) w i * F i k) ps =
  \sum_(i <- r) w i * tens_functional (F i) ps.
Proof.
elim: ps F => [|p ps IH] F //=.
rewrite [LHS]momE; under [LHS]eq_bigr => j _ do rewrite (IH (fun i t => F i (nat_of_ord j :: t))) mulr_sumr.
rewrite exchange_big /=; apply: eq_bigr => i _; rewrite momE mulr_sumr.
by apply: eq_bigr => j _; rewrite mulrCA.
Qed.

Lemma tens_mono_eval ps z : size z = size ps -> tens_functional (mono z) ps = peval ps z.
Proof.
elim: ps z => [|p ps IH] [|a z] //= hs; first by rewrite /mono /peval /= !big_nil.
rewrite momE /peval /= big_cons /= -/(peval ps z) -IH; last exact: succn_inj.
rewrite horner_coef mulr_suml; apply: eq_bigr => j _; rewrite -mulrA; congr (_ * _).
transitivity (tens_functional (fun t => \sum_(i <- [:: tt]) a ^+ j * mono z t) ps).
  by apply: tens_ext => t; rewrite big_seq1 /mono /= big_cons.
by rewrite tens_sum big_seq1.
Qed.

Lemma disc_tens ws zs ps : all (fun z => size z == size ps) zs ->
  tens_functional (discrete_nd ws zs) ps = \sum_(p <- zip ws zs) p.1 * peval ps p.2.
Proof.
move=> hz; rewrite /discrete_nd (tens_sum _ (fun p => p.1) (fun p k => mono p.2 k)).
rewrite !big_seq; apply: eq_bigr => p hp; congr (_ * _).
by apply: tens_mono_eval; apply/eqP; apply: (allP hz); exact: (zip_mem hp).2.
Qed.

Lemma peval_std mean scale z k : size z = size k ->
  peval [seq ((nth 1 scale a)^-1 *: ('X - (nth 0 mean a)%:P)) ^+ (nth 0%N k a) | a <- iota 0 (size k)] z =
  mono (std_coords mean scale z) k.
Proof.
move=> hs; rewrite /peval /mono /std_coords hs.
rewrite (big_nth (0, 0)) size_zip size_map size_iota hs minnn.
rewrite [RHS](big_nth (0, 0%N)) size_zip size_map size_iota minnn !big_mkord.
apply: eq_bigr => i _; rewrite !nth_zip ?size_map ?size_iota ?hs //=.
rewrite (nth_map 0%N) ?size_iota // nth_iota // (nth_map 0%N) ?size_iota // nth_iota // add0n.
by rewrite horner_exp !hornerE mulrC.
Qed.

Lemma affine_disc d ws zs mean scale k :
  all (fun z => size z == d) zs -> size k = d ->
  affine_nd (discrete_nd ws zs) mean scale k =
  discrete_nd ws [seq std_coords mean scale z | z <- zs] k.
Proof.
move=> hz hk; rewrite /affine_nd disc_tens ?size_map ?size_iota ?hk //.
rewrite /discrete_nd -hk.
have -> : zip ws [seq std_coords mean scale z | z <- zs] = [seq (p.1, std_coords mean scale p.2) | p <- zip ws zs].
  by elim: ws zs {hz} => [|w ws IH] [|z zs] //=; rewrite IH.
rewrite big_map !big_seq; apply: eq_bigr => p hp /=; rewrite peval_std //.
by rewrite hk; apply/eqP; apply: (allP hz); exact: (zip_mem hp).2.
Qed.

Lemma three_points_unisolvent :
  unisolvent 2 2 ([:: [:: 0; 0]; [:: 1; 0]; [:: 0; 1]] : seq (seq R)).
Proof.
move=> b hb c hc.
have hperm : perm_eq b [:: [:: 0; 0]; [:: 0; 1]; [:: 1; 0]]%N.
  have [ub eb] := hb; apply: uniq_perm => // x; rewrite eb.
  by have := @mem_blocks 2 0 2 x => /= ->.
have e (z : seq R) : \sum_(x <- b) c x * mono z x =
   \sum_(x <- [:: [:: 0; 0]; [:: 0; 1]; [:: 1; 0]]%N) c x * mono z x by exact: perm_big.
have {}e (u v : R) : \sum_(x <- b) c x * mono [:: u; v] x =
   c [:: 0; 0]%N + c [:: 0; 1]%N * v + c [:: 1; 0]%N * u.
  by rewrite e !big_cons big_nil /mono /= !big_cons !big_nil /= !expr0 !expr1; ring.
case: (c [:: 0; 0]%N =P 0) => [c0|/eqP c0]; last first.
  by exists [:: 0; 0]; rewrite ?inE ?eqxx // e !mulr0 !addr0.
case: (c [:: 0; 1]%N =P 0) => [c1|/eqP c1]; last first.
  by exists [:: 0; 1]; rewrite ?inE ?eqxx ?orbT // e c0 mulr0 mulr1 add0r addr0.
case: hc => x; rewrite (perm_mem hperm) !inE => /or3P [] /eqP ->; rewrite ?c0 ?c1 ?eqxx //.
by move=> c2; exists [:: 1; 0]; rewrite ?inE ?eqxx ?orbT // e c0 c1 mul0r mulr1 !add0r.
Qed.
End Disc.
