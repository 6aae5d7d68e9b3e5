(* The multi-dimensional raw-moment filter on linear Gaussian dynamics. *)
From mathcomp Require Import all_ssreflect all_algebra.
From mathcomp Require Import zify ring.
From Verif Require Import Prelude MultiIndexModel MultiIndexSpec MultiIndexProofs MultiIndexGramProofs MultiIndexMain.
From Verif Require Import NdIndexModel NdIndexProofs LinAlgSpec LinAlgProofs SpectralProofs LdlModel LdlProofs.
From Verif Require Import QuadModel QuadSpec QuadProofs QuadMain QuadNdModel QuadNdSpec QuadNdProofs QuadNdGram.
From Verif Require Import QuadNdAffine QuadNdMain QuadNdFinal QuadNdExact QuadNdDisc.
From Verif Require Import Filter1DSpec Filter1DProofs Filter1DSim Filter1DRun FilterNdModel FilterNdSpec FilterNdProofs FilterNdRun.
From Verif Require Import MomentsNdModel MomentsNdSpec MomentsNdKan MomentsNdMvn MomentsNdAffine MomentsNdMain GaussNd GaussNdGh.
Set Implicit Arguments.
Unset Strict Implicit.
Unset Printing Implicit Defensive.
Import Order.TTheory GRing.Theory Num.Theory.
Local Open Scope ring_scope.

Section Run.
Variables (R : rcfType).
Variable chol : forall n, 'M[R]_n -> 'M[R]_n.
Variable eigh : forall n, 'M[R]_n -> 'M[R]_n * 'rV[R]_n.
Hypothesis cholP : chol_spec chol.
Hypothesis eighP : eigh_spec eigh.
Variables (d N : nat) (full : seq (seq nat)) (inds : seq (seq (seq int))).
Hypothesis hN : (0 < N)%N.
Hypothesis hf : generate_graded_lexico_multi_indices d (2 * N - 1) 0 = Some full.
Hypothesis hi : gram_and_hankel_indices_graded_lexico N d = Some inds.
Variable st : bool.
Local Notation quad := (quad_nd chol eigh inds).
Local Notation E wx := (expect_nd wx.1 wx.2).

Definition gm (m : 'cV[R]_d) (P : 'M[R]_d) : seq R := [seq raw_moments_mvn_kan m P k | k <- full].

Lemma gm_mvn m P M : P^T = P -> mvn_moments m P M -> [seq M k | k <- full] = gm m P.
Proof.
move=> hP hM; apply/eq_in_map => k hk; apply: (mvn_unique hM (kan_moments m hP)).
by move: hk; rewrite (full_mem hN hf hi) => /andP [/eqP].
Qed.

Lemma look_gm m P k : k \in full -> look full (gm m P) k = raw_moments_mvn_kan m P k.
Proof.
move=> hk; rewrite /look /gm (nth_map [::]) ?index_mem // nth_index //.
Qed.

Lemma gm_adm m P : posdef P -> admissible_nd d N (look full (gm m P)).
Proof.
move=> hP; have [sP _] := hP; have ha := gauss_nd_admissible hP (kan_moments m sP) hN.
move=> b hb c hc; have := ha b hb c hc.
rewrite (_ : \sum_(x <- b) _ = \sum_(x <- b) \sum_(y <- b) c x * c y * look full (gm m P) (madd x y)) //.
rewrite !big_seq; apply: eq_bigr => x hx; rewrite !big_seq; apply: eq_bigr => y hy; congr (_ * _).
rewrite look_gm // (full_mem hN hf hi).
have [_ eb] := hb; move: hx hy; rewrite !eb => /and3P [/eqP sx _ lx] /and3P [/eqP sy _ ly].
rewrite -maddE size_mi_add ?sx ?sy // eqxx sumn_mi_add ?sx ?sy //=; lia.
Qed.

Lemma gm_quad m P : posdef P -> exists ws, exists2 xs, quad (gm m P) None None st = (ws, xs)
  & [/\ size ws = size xs, all (fun x => size x == d) xs, jsum ws = 1 &
        forall k, k \in full -> expect_nd ws xs (fun x => mono x k) = raw_moments_mvn_kan m P k].
Proof.
move=> hP; have [sP _] := hP; have hM := kan_moments m sP.
have ha := gauss_nd_admissible hP hM hN.
have [ws [xs hq [h1 h2 h3 h4 h5]]] := nd_exact_raw cholP eighP hN hf hi ha st.
exists ws, xs; first by rewrite /quad_nd hq.
split=> // k; rewrite (full_mem hN hf hi) => /andP [hk hs].
rewrite h5; last by rewrite /in_range hk /=; lia.
by case: hM => -> _; rewrite divr1.
Qed.

Lemma cvec_size x : size x = d -> [seq cvec d x i 0 | i <- enum 'I_d] = x :> seq R.
Proof.
move=> hx; apply: (@eq_from_nth _ 0) => [|i]; first by rewrite size_map size_enum_ord.
rewrite size_map size_enum_ord => hi'; rewrite (nth_map (Ordinal hi')) ?size_enum_ord //.
by rewrite mxE (nth_enum_ord (Ordinal hi')).
Qed.

Lemma mono_cvec (x : seq R) k : size x = d -> size k = d -> mono x k = \prod_(i < d) cvec d x i 0 ^+ nth 0%N k i.
Proof. by move=> hx hk; rewrite -monoE // cvec_size. Qed.

Variables (F : 'M[R]_d) (u : 'cV[R]_d) (Q : 'M[R]_d).
Hypothesis hQ : possemidef Q.
Local Notation F' m := (F *m m + u).
Local Notation P' P := (F *m P *m F^T + Q).

Variable mc : 'cV[R]_d -> 'cV[R]_d * 'M[R]_d.
Hypothesis hmc : forall x, mc x = (F *m x + u, Q).
Local Notation predict := (rms_nd_predict chol eigh full inds (IndexFn (nd_cond_raw mc full)) st).

Lemma mc_sym x : ((mc x).2)^T = (mc x).2.
Proof. by rewrite hmc; case: hQ. Qed.

Lemma full_sizes : all (fun k => size k == d) full.
Proof.
apply/(all_nthP [::]) => j hj; have [h1 h2] := full_nth hN hf hi hj.
by move: h2; rewrite (full_mem hN hf hi) => /andP [].
Qed.

Lemma predict_gm m P : posdef P -> predict (gm m P) = gm (F' m) (P' P).
Proof.
move=> hP; have [ws [xs hq [h1 h2 h3 h4]]] := gm_quad m hP.
rewrite /rms_nd_predict hq /= [RHS](_ : _ = [seq raw_moments_mvn_kan (F' m) (P' P) k | k <- full]) //.
rewrite -[RHS](map_iota_full full (fun k => raw_moments_mvn_kan (F' m) (P' P) k)).
apply/eq_in_map => j; rewrite mem_iota add0n => /andP [_ hj].
have [_ hk] := full_nth hN hf hi hj; have := hk; rewrite (full_mem hN hf hi) => /andP [/eqP sk lk].
have [sP _] := hP; have [sQ _] := hQ.
have hE k : size k = d -> (sumn k <= (2 * N).-1)%N ->
    \sum_(q <- [seq (p.1, cvec d p.2) | p <- zip ws xs]) q.1 * \prod_(i < d) q.2 i 0 ^+ nth 0%N k i
    = raw_moments_mvn_kan m P k.
  move=> hk' hs'; rewrite -h4; last by rewrite (full_mem hN hf hi) hk' eqxx /=; lia.
  rewrite expect_ndE big_map big_seq [RHS]big_seq; apply: eq_bigr => q hq' /=.
  have [_ hx] := zip_mem hq'; rewrite mono_cvec //; exact/eqP/(allP h2).
have lk' : (sumn (nth [::] full j) <= (2 * N).-1)%N by lia.
rewrite -(affine_rule F u sQ sP (kan_moments m sP) hE sk lk') expect_ndE big_map.
by apply: eq_bigr => q _ /=; rewrite cond_rawE ?full_sizes // /transition hmc.
Qed.

Hypothesis hF : F \in unitmx \/ posdef Q.

Lemma qformD n (A B : 'M[R]_n) v : qform (A + B) v = qform A v + qform B v.
Proof. by rewrite /qform mulmxDr mulmxDl mxE. Qed.

Lemma posdef_pred P : posdef P -> posdef (P' P).
Proof.
move=> hP; have [sP pP] := hP; have [sQ pQ] := hQ.
have pF v : 0 <= qform (F *m P *m F^T) v.
  have -> : qform (F *m P *m F^T) v = qform P (F^T *m v).
    by rewrite /qform trmx_mul trmxK !mulmxA.
  by case: (eqVneq (F^T *m v) 0) => [->|h]; [rewrite /qform mulmx0 mxE|exact/ltW/pP].
split=> [|v hv]; first by rewrite /symmetric linearD /= !trmx_mul trmxK sP sQ mulmxA.
rewrite qformD; case: hF => [uF|[_ pdQ]]; last by apply: ltr_paddl => //; exact: pdQ.
apply: ltr_paddr => //.
have uFt : F^T \in unitmx by rewrite unitmx_tr.
have := posdef_congr hP uFt; rewrite trmxK; case=> _; exact.
Qed.

Variables (Y : Type) (pdf : Y -> seq R -> R) (c : Y -> R).
Hypothesis hpdf : forall y x, pdf y x = c y.
Hypothesis hc : forall y, c y != 0.
Local Notation update := (rms_nd_update chol eigh full inds pdf st).

Lemma update_gm y m P : posdef P -> update y (gm m P) = (gm m P, c y).
Proof.
move=> hP; have [ws [xs hq [h1 h2 h3 h4]]] := gm_quad m hP.
have e2 : expect_nd ws xs (pdf y) = c y.
  rewrite expect_ndE; under eq_bigr do rewrite hpdf.
  rewrite -mulr_suml (_ : \sum_(q <- zip ws xs) q.1 = 1) ?mul1r // -h3 jsumE.
  by rewrite -[in RHS](@unzip1_zip _ _ ws xs) ?h1 // big_map.
rewrite /rms_nd_update hq /= e2; congr pair.
rewrite -map_comp [RHS](_ : _ = [seq raw_moments_mvn_kan m P k | k <- full]) //.
rewrite -[RHS](map_iota_full full (fun k => raw_moments_mvn_kan m P k)).
apply/eq_in_map => j; rewrite mem_iota add0n => /andP [_ hj] /=.
have [_ hk] := full_nth hN hf hi hj; have := hk; rewrite (full_mem hN hf hi) => /andP [/eqP sk lk].
rewrite -h4 // !expect_ndE mulr_suml big_seq [RHS]big_seq; apply: eq_bigr => q /zip_mem [_ hx].
rewrite hpdf jprod_raw ?mulrA ?mulfK // sk; apply/esym/eqP; exact: (allP h2).
Qed.

(* the prediction recursion of the Kalman filter *)
Fixpoint kalman_predictions (m : 'cV[R]_d) (P : 'M[R]_d) (n : nat) : seq ('cV[R]_d * 'M[R]_d) :=
  if n is n'.+1 then (F *m m + u, F *m P *m F^T + Q)
    :: kalman_predictions (F *m m + u) (F *m P *m F^T + Q) n' else [::].

Lemma run_gm m P ys : posdef P ->
  let step := rms_nd_step chol eigh full inds pdf (IndexFn (nd_cond_raw mc full)) st in
  [/\ states step (gm m P) ys = [seq gm q.1 q.2 | q <- kalman_predictions m P (size ys)],
      liks step (gm m P) ys = [seq c y | y <- ys] &
      forall i, (i < size ys)%N ->
        exists m2 P2, posdef P2 /\ nth [::] (gm m P :: states step (gm m P) ys) i = gm m2 P2].
Proof.
move=> hP step; elim: ys m P hP => [|y ys IH] m P hP; first by [].
have hP' := posdef_pred hP; have [e1 e2 e3] := IH (F' m) _ hP'.
have es : step (gm m P) y = (gm (F' m) (P' P), c y) by rewrite /step /rms_nd_step predict_gm // update_gm.
rewrite states_cons liks_cons es e1 e2; split=> // [[|i]] hlt; first by exists m, P.
have [m2 [P2 [h1 h2]]] := e3 i hlt; exists m2, P2; split=> //; rewrite -h2 /= e1.
by case: (i).
Qed.
End Run.
