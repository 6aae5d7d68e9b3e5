(* The predicted scale of the multi-dimensional scaled filter. *)
From mathcomp Require Import all_ssreflect all_algebra.
From mathcomp Require Import zify ring.
From Verif Require Import Prelude Egf MultiIndexModel MultiIndexSpec MultiIndexProofs MultiIndexGramProofs MultiIndexMain.
From Verif Require Import NdIndexModel NdIndexProofs LinAlgSpec LinAlgProofs SpectralProofs LdlModel LdlProofs.
From Verif Require Import QuadModel QuadSpec QuadProofs QuadMain QuadNdModel QuadNdSpec QuadNdProofs QuadNdGram.
From Verif Require Import QuadNdAffine QuadNdMain QuadNdFinal QuadNdExact QuadNdDisc.
From Verif Require Import Moments1DModel Moments1DSpec Moments1DProofs Moments1DConv.
From Verif Require Import Filter1DSpec Filter1DProofs Filter1DSim Filter1DRun FilterNdModel FilterNdSpec FilterNdProofs FilterNdRun.
Set Implicit Arguments.
Unset Strict Implicit.
Unset Printing Implicit Defensive.
Import Order.TTheory GRing.Theory Num.Theory.
Local Open Scope ring_scope.

Section Scale.
Variables (R : rcfType).
Variable chol : forall n, 'M[R]_n -> 'M[R]_n.
Variable eigh : forall n, 'M[R]_n -> 'M[R]_n * 'rV[R]_n.
Variables (d N : nat) (full : seq (seq nat)) (inds : seq (seq (seq int))).
Hypothesis hN : (0 < N)%N.
Hypothesis hf : generate_graded_lexico_multi_indices d (2 * N - 1) 0 = Some full.
Hypothesis hi : gram_and_hankel_indices_graded_lexico N d = Some inds.
Local Notation quad := (quad_nd chol eigh inds).
Local Notation E wx := (expect_nd wx.1 wx.2).
Local Notation dbl a := ([seq (2 * n)%N | n <- munit d a]).

Lemma nd_predict_var conds condmv st (s : seq R * seq R * seq R) (mu v : seq R -> seq R) a :
  (1 < N)%N -> (a < d)%N -> (forall x, condmv x = (mu x, v x)) ->
  (forall x j c r, (j < size full)%N -> nth [::] full j = dbl a ->
     cond_at full conds x j c r = (nth 0 (v x) a + (nth 0 (mu x) a - nth 0 c a) ^+ 2) / nth 0 r a ^+ 2) ->
  let s' := scms_nd_predict chol eigh full inds conds condmv st s in
  let wx := quad s.1.1 (Some s.1.2) (Some s.2) st in
  nth 0 s'.2 a != 0 ->
  look full s'.1.1 (dbl a) * nth 0 s'.2 a ^+ 2
    = nth 0 s'.2 a ^+ 2 + E wx (fun x => (nth 0 (mu x) a - nth 0 s'.1.2 a) ^+ 2).
Proof.
case: s => [[c m] r] h1 ha hmv hc; rewrite /scms_nd_predict (full_dim hN hf hi) /=.
set wx := quad _ _ _ _; set m' := columns wx d (fun x j => nth 0 (condmv x).1 j); set r' := [seq Num.sqrt _ | _ <- _].
have hr : nth 0 r' a = Num.sqrt (E wx (fun x => nth 0 (v x) a)).
  rewrite (nth_map 0) ?size_columns // /columns (nth_map 0%N) ?size_iota // nth_iota // add0n.
  by congr Num.sqrt; apply: expect_nd_ext => x; rewrite hmv.
move=> h0; have hin := two_full hN hf hi h1 ha.
have v0 : 0 <= E wx (fun x => nth 0 (v x) a).
  by rewrite leNgt; apply/negP => hv; move: h0; rewrite hr ltr0_sqrtr // eqxx.
have hj : (index (dbl a) full < size full)%N by rewrite index_mem.
rewrite /look {1}/columns (nth_map 0%N) ?size_iota // nth_iota // add0n.
rewrite [X in X * _](expect_nd_ext _ _ (g := fun x => (nth 0 r' a ^+ 2)^-1 * (nth 0 (v x) a + (nth 0 (mu x) a - nth 0 m' a) ^+ 2))); last first.
  by move=> x; rewrite hc // ?nth_index // mulrC.
rewrite expect_nd_mul mulrC mulrA divff ?expf_eq0 // mul1r expect_ndD; congr (_ + _).
by rewrite hr sqr_sqrtr.
Qed.

Lemma nth_munit a i : (i < d)%N -> nth 0%N (munit d a) i = (i == a).
Proof. by move=> hi'; rewrite /munit (nth_map 0%N) ?size_iota // nth_iota. Qed.

(* the law of N(x, I), axis by axis *)
Definition walk (x : seq R) (c r : seq R) (k : seq nat) : R :=
  \prod_(i < size k) scaled_moment (gauss_moment (nth 0 x i) 1) (nth 0 c i) (nth 0 r i) (nth 0%N k i).

Lemma walk2 x c r a : (a < d)%N ->
  walk x c r (dbl a) = (1 + (nth 0 x a - nth 0 c a) ^+ 2) / nth 0 r a ^+ 2.
Proof.
move=> ha; rewrite /walk size_map size_munit (bigD1 (Ordinal ha)) //= big1 ?mulr1; last first.
  move=> i; rewrite -val_eqE /= => hia.
  rewrite (nth_map 0%N) ?size_munit // nth_munit // (negbTE hia) muln0 scaled_central expr0 divr1 central0.
  by [].
rewrite (nth_map 0%N) ?size_munit // nth_munit // eqxx scaled_central central2; congr (_ / _).
have [h0 h1' h] := gauss_momentP (nth 0 x a) (1 : R).
by rewrite h h0 h1'; move: (nth 0 x a) (nth 0 c a) => p q; ring.
Qed.
End Scale.

(* three points with mean zero and unit variances *)
Section Three.
Variable R : rcfType.
Definition pts : seq (seq R) := [:: [:: 1; 0]; [:: -1; -1]; [:: -1; 2%:R]].
Definition pws : seq R := [:: 2%:R^-1; 3%:R^-1; 6%:R^-1].
Lemma pts_unisolvent : unisolvent 2 2 pts.
Proof.
move=> b hb c hc.
have hperm : perm_eq b [:: [:: 0; 0]; [:: 0; 1]; [:: 1; 0]]%N.
  have [ub eb] := hb; apply: uniq_perm => // x; rewrite eb.
  by have := @mem_blocks 2 0 2 x => /= ->.
have e (z : seq R) : \sum_(x <- b) c x * mono z x =
   \sum_(x <- [:: [:: 0; 0]; [:: 0; 1]; [:: 1; 0]]%N) c x * mono z x by exact: perm_big.
have {}e (u v : R) : \sum_(x <- b) c x * mono [:: u; v] x =
   c [:: 0; 0]%N + c [:: 0; 1]%N * v + c [:: 1; 0]%N * u.
  by rewrite e !big_cons big_nil /mono /= !big_cons !big_nil /= !expr0 !expr1; ring.
have e1 := e 1 0; have e2 := e (-1) (-1); have e3 := e (-1) 2%:R.
case: (eqVneq (\sum_(x <- b) c x * mono [:: 1; 0] x) 0) => [z1|]; last by exists [:: 1; 0]; rewrite ?inE ?eqxx.
case: (eqVneq (\sum_(x <- b) c x * mono [:: -1; -1] x) 0) => [z2|]; last by exists [:: -1; -1]; rewrite ?inE ?eqxx ?orbT.
case: (eqVneq (\sum_(x <- b) c x * mono [:: -1; 2%:R] x) 0) => [z3|]; last by exists [:: -1; 2%:R]; rewrite ?inE ?eqxx ?orbT.
case: hc => x hx; suff -> : c x = 0 by rewrite eqxx.
rewrite z1 in e1; rewrite z2 in e2; rewrite z3 in e3.
move: hx; rewrite (perm_mem hperm) !inE => /or3P [] /eqP ->; move: e1 e2 e3;
  move: (c [:: 0; 0]%N) (c [:: 0; 1]%N) (c [:: 1; 0]%N) => p q r e1 e2 e3.
- have : 6%:R * p = 3%:R * (p + q * 0 + r * 1) + 2%:R * (p + q * -1 + r * -1) + (p + q * 2%:R + r * -1) by ring.
  by rewrite -e1 -e2 -e3 !mulr0 !addr0 => /eqP; rewrite mulf_eq0 pnatr_eq0 /= => /eqP.
- have : 3%:R * q = (p + q * 2%:R + r * -1) - (p + q * -1 + r * -1) by ring.
  by rewrite -e2 -e3 subrr => /eqP; rewrite mulf_eq0 pnatr_eq0 /= => /eqP.
- have : 6%:R * r = 3%:R * (p + q * 0 + r * 1) - 2%:R * (p + q * -1 + r * -1) - (p + q * 2%:R + r * -1) by ring.
  by rewrite -e1 -e2 -e3 !mulr0 !subr0 => /eqP; rewrite mulf_eq0 pnatr_eq0 /= => /eqP.
Qed.

Lemma pws_pos : all (fun w => 0 < w) pws.
Proof. by rewrite /= !invr_gt0 !ltr0n. Qed.
Lemma pws1 : jsum pws = 1.
Proof. by rewrite jsumE !big_cons big_nil; field. Qed.
Lemma pts_dim : all (fun z => size z == 2%N) pts.
Proof. by []. Qed.

Variable chol : forall n, 'M[R]_n -> 'M[R]_n.
Variable eigh : forall n, 'M[R]_n -> 'M[R]_n * 'rV[R]_n.
Hypothesis cholP : chol_spec chol.
Hypothesis eighP : eigh_spec eigh.
Variables (full : seq (seq nat)) (inds : seq (seq (seq int))).
Hypothesis hf : generate_graded_lexico_multi_indices 2 (2 * 2 - 1) 0 = Some full.
Hypothesis hi : gram_and_hankel_indices_graded_lexico 2 2 = Some inds.
Let N0 : (0 < 2)%N. Proof. by []. Qed.

Definition pms : seq R := [seq discrete_nd pws pts k | k <- full].

Lemma pms_adm : admissible_nd 2 2 (look full pms).
Proof.
move=> b hb c hc.
have := discrete_nd_admissible (erefl : size pws = size pts) pws_pos pts_dim pts_unisolvent hb hc.
rewrite (_ : \sum_(x <- b) _ = \sum_(x <- b) \sum_(y <- b) c x * c y * look full pms (madd x y)) //.
rewrite !big_seq; apply: eq_bigr => x hx; rewrite !big_seq; apply: eq_bigr => y hy; congr (_ * _).
rewrite look_map // (full_mem N0 hf hi).
have [_ eb] := hb; move: hx hy; rewrite !eb => /and3P [/eqP sx _ lx] /and3P [/eqP sy _ ly].
rewrite -maddE size_mi_add ?sx ?sy // eqxx sumn_mi_add ?sx ?sy //=; lia.
Qed.

Lemma pms_quad st f : expect_nd (quad_nd chol eigh inds pms (Some [:: 0; 0]) (Some [:: 1; 1]) st).1
   (quad_nd chol eigh inds pms (Some [:: 0; 0]) (Some [:: 1; 1]) st).2 f = expect_nd pws pts f.
Proof.
have hs : size pms = size full by rewrite size_map.
have e : shift_nd full pms [:: 0; 0] [:: 1; 1] = pms.
  apply/eq_in_map => k hk.
  rewrite (look_affine_ext N0 hf hi _ _ hk (M := discrete_nd pws pts)); last by move=> t ht; rewrite look_map.
  rewrite (@affine_disc _ 2%N) //; last by move: hk; rewrite (full_mem N0 hf hi) => /andP [/eqP].
  by rewrite (_ : map _ _ = pts) // /std_coords /pts /= !subr0 !divr1.
rewrite -{1 2}e (quad_scaled cholP eighP N0 hf hi st st) //; first last.
- by rewrite /= !ltr01.
- exact: pms_adm.
have [ws [xs hq]] := quad_ex chol eigh N0 hf hi pms None None st.
rewrite /quad_nd hq /=.
rewrite (nd_discrete_exact cholP eighP N0 hf hi _ _ pws_pos pts_dim pts_unisolvent hq) //.
by rewrite pws1 divr1.
Qed.

Lemma nd_scale_wrong st conds a :
  (forall x j c r, (j < size full)%N -> cond_at full conds x j c r = walk x c r (nth [::] full j)) ->
  (a < 2)%N ->
  let s' := scms_nd_predict chol eigh full inds conds (fun x => (x, [:: 1; 1])) st (pms, [:: 0; 0], [:: 1; 1]) in
  nth 0 s'.2 a = 1 /\ look full s'.1.1 [seq (2 * n)%N | n <- munit 2 a] = 2%:R.
Proof.
move=> hc ha s'.
have e1 : expect_nd pws pts (fun=> 1) = 1.
  by rewrite expect_nd1 // pws1.
have ones b : (b < 2)%N -> nth 0 ([:: 1; 1] : seq R) b = 1 by case: b => [|[|]].
have hr : nth 0 s'.2 a = 1.
  rewrite /s' /scms_nd_predict (full_dim N0 hf hi).
  by case: (a) ha => [|[|]] //= _; rewrite pms_quad e1 sqrtr1.
have hm : nth 0 s'.1.2 a = 0.
  rewrite /s' /scms_nd_predict (full_dim N0 hf hi).
  by case: (a) ha => [|[|]] //= _; rewrite pms_quad expect_ndE /pws /pts /= !big_cons big_nil /=; field.
split=> //.
have := @nd_predict_var R chol eigh 2%N 2%N full inds N0 hf hi conds (fun x => (x, [:: 1; 1])) st
  (pms, [:: 0; 0], [:: 1; 1]) (fun x => x) (fun=> [:: 1; 1]) a isT ha (fun=> erefl).
cbv zeta; rewrite -/s' hr oner_eq0 expr1n mulr1 hm pms_quad => -> //; last first.
  by move=> x j c r hj ej; rewrite hc // ej walk2 // ones.
by rewrite expect_ndE /pws /pts /= !big_cons big_nil /=; case: (a) ha => [|[|]] //= _; field.
Qed.
End Three.
