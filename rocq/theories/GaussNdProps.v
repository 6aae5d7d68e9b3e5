(* Properties C66, C67, C68: Gauss--Hermite expectations under N(m, L L^T), moment
   quadratures of Gaussian laws, and the moment filters on linear dynamics. *)
From mathcomp Require Import all_ssreflect all_algebra.
From mathcomp Require Import zify ring.
From mathcomp Require Import polyrcf.
From Verif Require Import Prelude NdIndexModel MultiIndexModel MultiIndexSpec MultiIndexProofs LinAlgSpec LinAlgProofs QuadSpec QuadNdModel QuadNdSpec QuadNdAffine.
From Verif Require Import QuadNdProofs QuadNdMain QuadNdFinal SmallMx SpectralProofs LdlProofs Filter1DRun FilterNdModel FilterNdSpec FilterNdProofs FilterNdRun FilterNdScale FilterNdProps.
From Verif Require Import GfsModel GfsSpec GfsSgp SigmaModel SigmaSpec SigmaCub SigmaGh SigmaGhNd SigmaGhRule SigmaProps.
From Verif Require Import Moments1DSpec MomentsNdModel MomentsNdSpec MomentsNdKan MomentsNdMvn.
From Verif Require Import MomentsNdAffine MomentsNdMain GaussNd GaussNdGh GaussNdRun MomentsNdProps.
Set Implicit Arguments.
Unset Strict Implicit.
Unset Printing Implicit Defensive.
Import Order.TTheory GRing.Theory Num.Theory.
Local Open Scope ring_scope.

(* C66: gaussian_expectation integrates every polynomial of total degree at most
   2 order - 1 exactly, for every mean and every factor L of the covariance. *)
Theorem gaussian_expectation_exact (R : rcfType) (roots : seq R -> seq R) (pi : R) d order
    (ms : seq 'cV[R]_d) (Ls : seq 'M[R]_d) (Ms : seq (seq nat -> R)) (ts : seq (R * ('I_d -> nat))) :
  roots_spec roots -> 0 < pi -> (0 < order)%N ->
  all (fun t => (\sum_i t.2 i <= 2 * order - 1)%N) ts ->
  size Ls = size ms -> size Ms = size ms ->
  (forall i, (i < size ms)%N ->
     mvn_moments (nth 0 ms i) (nth 0 Ls i *m (nth 0 Ls i)^T) (nth (fun=> 0) Ms i)) ->
  gaussian_expectation roots pi order ms Ls (fun xs => [seq (mpoly_eval ts x)%:M : 'M[R]_1 | x <- xs])
  = [seq (\sum_(t <- ts) t.1 * M [seq t.2 i | i <- enum 'I_d])%:M | M <- Ms].
Proof.
move=> hroots pi0 n0 hts; rewrite /gaussian_expectation.
have step m L M : mvn_moments m (L *m L^T) M ->
    expectation_from_nodes (gauss_hermite roots pi d order)
      (fun xs => [seq (mpoly_eval ts x)%:M : 'M[R]_1 | x <- xs])
      (gen_sigma_points (gauss_hermite roots pi d order) m L)
    = (\sum_(t <- ts) t.1 * M [seq t.2 i | i <- enum 'I_d])%:M.
  move=> hM; rewrite [LHS]mx11_scalar; congr (_%:M); rewrite /expectation_from_nodes sg_scalarE /EE.
  rewrite /mpoly_eval; under eq_bigr do rewrite mulr_sumr.
  rewrite exchange_big /=.
  elim: ts hts => [|t ts IH]; first by rewrite !big_nil.
  case/andP => ht hts; rewrite !big_cons IH //; congr (_ + _).
  have hk := size_mlist t.2.
  have hs : (sumn (mlist t.2) <= order.*2.-1)%N by rewrite sumn_mlist; apply: leq_trans ht _; rewrite -mul2n; lia.
  have hP : (L *m L^T)^T = L *m L^T by rewrite trmx_mul trmxK.
  rewrite -/(mlist t.2) (mvn_unique hM (kan_moments m hP) hk) -(gh_affine hroots pi0 n0 m L hk hs) mulr_sumr.
  apply: eq_bigr => q _; rewrite /term_eval mulrCA; congr (_ * (_ * _)).
  by apply: eq_bigr => i _; rewrite nth_mlist.
elim: ms Ls Ms => [|m ms IH] [|L Ls] [|M Ms] //= [hL] [hM] h.
congr (_ :: _); first exact: (step _ _ _ (h 0%N isT)).
by apply: IH => // i hi; exact: (h i.+1 hi).
Qed.

(* C67: the moments of a Gaussian law with positive definite covariance are admissible for
   every order. *)
Theorem gaussian_admissible (R : rcfType) d N (m : 'cV[R]_d) (P : 'M[R]_d) M :
  posdef P -> mvn_moments m P M -> (0 < N)%N -> admissible_nd d N M.
Proof. by move=> hP hM hN; exact: (gauss_nd_admissible hP hM hN). Qed.

Section Filters.
Variables (R : rcfType) (chol : forall n, 'M[R]_n -> 'M[R]_n) (eigh : forall n, 'M[R]_n -> 'M[R]_n * 'rV[R]_n).
Variables (log : R -> R) (Y : Type) (d N : nat) (full : seq (seq nat)) (inds : seq (seq (seq int))).

(* C67: the moment quadrature of such a law, built from the library's formula for its
   moments, integrates every monomial of degree at most 2N-1 exactly. *)
Theorem gaussian_nd_quadrature (m : 'cV[R]_d) (P : 'M[R]_d) M ldl :
  chol_spec chol -> eigh_spec eigh -> layout d N full inds -> posdef P -> mvn_moments m P M ->
  exists ws, exists2 xs,
    moment_quadrature_nd chol eigh [seq raw_moments_mvn_kan m P k | k <- full] inds None None ldl = Some (ws, xs)
  & [/\ size ws = size xs, all (fun x => size x == d) xs, jsum ws = 1 &
        forall k, size k = d -> (sumn k <= 2 * N - 1)%N -> expect_nd ws xs (fun x => mono x k) = M k].
Proof.
move=> hc he [hN hf hi] hP hM; have [sP _] := hP.
have ha := gauss_nd_admissible hP (kan_moments m sP) hN.
have [ws [xs hq [h1 h2 h3 h4 h5]]] := QuadNdFinal.nd_exact_raw hc he hN hf hi ha ldl.
exists ws, xs => //; split=> // k hk hs.
rewrite h5; last by rewrite /in_range hk eqxx.
by case: (kan_moments m sP) => -> _; rewrite divr1 (mvn_unique hM (kan_moments m sP) hk).
Qed.

Variables (w : nat) (A : 'M[R]_d) (b : 'cV[R]_d) (B : 'M[R]_(d, w)) (dt : R).
Let drift (x : 'cV[R]_d) : 'cV[R]_d := A *m x + b.
Let dispersion (x : 'cV[R]_d) : 'M[R]_(d, w) := B.
Let mc := nd_euler_mean_cov drift dispersion dt.
Let F := 1%:M + dt *: A.
Let Q := dt *: (B *m B^T).

Lemma lin_mc x : mc x = (F *m x + dt *: b, Q).
Proof. by rewrite /mc /nd_euler_mean_cov /drift /F mulmxDl mul1mx -scalemxAl scalerDr addrA. Qed.

Lemma lin_psd : 0 <= dt -> possemidef Q.
Proof.
move=> hdt; split=> [|v]; first by rewrite /symmetric /Q linearZ /= trmx_mul trmxK.
have -> : qform Q v = dt * \sum_i (B^T *m v) i 0 ^+ 2.
  rewrite /qform /Q -scalemxAr -scalemxAl mxE; congr (_ * _).
  have -> : v^T *m (B *m B^T) *m v = (B^T *m v)^T *m (B^T *m v) by rewrite trmx_mul trmxK !mulmxA.
  by rewrite mxE; apply: eq_bigr => i _; rewrite mxE expr2.
by apply: mulr_ge0 => //; apply: sumr_ge0 => i _; exact: sqr_ge0.
Qed.

(* C68: one prediction of the raw filter on linear dynamics maps the moments of N(m, P) to
   those of the Kalman prediction N(F m + dt b, F P F^T + dt B B^T), F = 1 + dt A. *)
Theorem linear_prediction_exact (m : 'cV[R]_d) (P : 'M[R]_d) M M' st :
  chol_spec chol -> eigh_spec eigh -> layout d N full inds -> 0 <= dt ->
  posdef P -> mvn_moments m P M ->
  mvn_moments (F *m m + dt *: b) (F *m P *m F^T + Q) M' ->
  rms_nd_predict chol eigh full inds (IndexFn (nd_cond_raw mc full)) st [seq M k | k <- full]
  = [seq M' k | k <- full].
Proof.
move=> hc he [hN hf hi] hdt hP hM hM'; have [sP _] := hP; have [sQ _] := lin_psd hdt.
have sP' : (F *m P *m F^T + Q)^T = F *m P *m F^T + Q by rewrite linearD /= sQ !trmx_mul trmxK sP mulmxA.
rewrite (gm_mvn hN hf hi sP hM) (gm_mvn hN hf hi sP' hM').
exact: (predict_gm hc he hN hf hi st (lin_psd hdt) lin_mc m hP).
Qed.

(* C68: with a likelihood that does not depend on the state, all three filters follow the
   Kalman predictions for any number of steps. *)
Theorem linear_filters_exact (pdf : Y -> seq R -> R) (c : Y -> R) (m : 'cV[R]_d) (P : 'M[R]_d) st ys :
  chol_spec chol -> eigh_spec eigh -> layout d N full inds -> 0 <= dt ->
  F \in unitmx \/ posdef Q -> posdef P ->
  (forall y x, pdf y x = c y) -> (forall y, c y != 0) ->
  moment_filter_nd_rms chol eigh log full inds (IndexFn (nd_cond_raw mc full)) pdf st
    [seq raw_moments_mvn_kan m P k | k <- full] ys
  = Ok ([seq [seq raw_moments_mvn_kan q.1 q.2 k | k <- full]
        | q <- kalman_predictions F (dt *: b) Q m P (size ys)], - \sum_(y <- ys) log (c y)).
Proof.
move=> hc he [hN hf hi] hdt hF hP h1 h2.
have [e1 e2 _] := run_gm hc he hN hf hi st (lin_psd hdt) lin_mc hF h1 h2 m ys hP.
rewrite rms_nd_run (traceable_inds hN hf hi) size_map eqxx /=.
by rewrite -/(gm full m P) e1 e2 big_map.
Qed.

(* C68: the central and scaled filters then return the central and standardised versions. *)
Theorem linear_filters_agree (pdf : Y -> seq R -> R) (c : Y -> R) (m : 'cV[R]_d) (P : 'M[R]_d) st' mean0 scale0 ys :
  chol_spec chol -> eigh_spec eigh -> layout d N full inds -> (1 < N)%N -> 0 <= dt ->
  posdef Q -> posdef P ->
  (forall y x, pdf y x = c y) -> (forall y, c y != 0) ->
  size mean0 = d -> size scale0 = d -> all (fun s => 0 < s) scale0 ->
  let rms0 := [seq raw_moments_mvn_kan m P k | k <- full] in
  let out := [seq [seq raw_moments_mvn_kan q.1 q.2 k | k <- full]
             | q <- kalman_predictions F (dt *: b) Q m P (size ys)] in
  let nell := - \sum_(y <- ys) log (c y) in
  moment_filter_nd_cms chol eigh log full inds (IndexFn (nd_cond_central mc full)) (nd_euler_cond_mean drift dt)
    pdf st' (shift_nd full rms0 mean0 [::]) mean0 ys = Ok ([seq central_nd d full r | r <- out], nell) /\
  moment_filter_nd_scms chol eigh log full inds (IndexFn (nd_cond_scaled mc full)) (nd_cond_mean_var mc)
    pdf st' (shift_nd full rms0 mean0 scale0) mean0 scale0 ys = Ok ([seq scaled_nd d full r | r <- out], nell).
Proof.
move=> hc he hl hN1 hdt hQ hP h1 h2 s1 s2 s3 rms0 out nell; have [hN hf hi] := hl.
have hF : F \in unitmx \/ posdef Q by right.
have hr := linear_filters_exact m st' ys hc he hl hdt hF hP h1 h2.
apply: (@euler_nd_filters_agree R chol eigh log Y d N full inds w drift dispersion dt pdf st' st' rms0 mean0
          scale0 ys out nell hc he hl hN1 s1 s2 s3 hr) => i hi'.
have [e1 e2 e3] := run_gm hc he hN hf hi st' (lin_psd hdt) lin_mc hF h1 h2 m ys hP.
rewrite /out -/(gm full m P) -/(gm full _ _) in e1 *.
have [m' [P' [hP' er]]] := e3 i hi'; move: er; rewrite e1 => -> /=; split.
- exact: (gm_adm hN hf hi m' hP').
- rewrite (predict_gm hc he hN hf hi st' (lin_psd hdt) lin_mc m' hP').
  apply: (gm_adm hN hf hi); exact: (posdef_pred (lin_psd hdt) hF hP').
apply/allP => s /mapP [a]; rewrite mem_iota add0n => /andP [_ ha] ->.
have [ws [xs hq [k1 k2 k3 k4]]] := gm_quad hc he hN hf hi st' m' hP'.
rewrite hq /= sqrtr_gt0 expect_ndE -/mc.
have -> : \sum_(p <- zip ws xs) p.1 * nth 0 (nd_cond_mean_var mc p.2).2 a = Q (Ordinal ha) (Ordinal ha).
  have e x : nth 0 (nd_cond_mean_var mc x).2 a = Q (Ordinal ha) (Ordinal ha).
    rewrite /nd_cond_mean_var lin_mc /= (nth_map (Ordinal ha)) ?size_enum_ord //.
    by have -> : nth (Ordinal ha) (enum 'I_d) a = Ordinal ha by exact: (nth_ord_enum (Ordinal ha) (Ordinal ha)).
  under eq_bigr do rewrite e.
  rewrite -mulr_suml (_ : \sum_(q <- zip ws xs) q.1 = 1) ?mul1r // -k3 jsumE.
  by rewrite -[in RHS](@unzip1_zip _ _ ws xs) ?k1 // big_map.
have [_ pQ] := hQ; have := pQ (delta_mx (Ordinal ha) 0).
have -> : qform Q (delta_mx (Ordinal ha) 0) = Q (Ordinal ha) (Ordinal ha).
  by rewrite /qform trmx_delta -rowE -colE !mxE.
apply; apply/eqP => /matrixP /(_ (Ordinal ha) 0); rewrite !mxE !eqxx /= => /eqP.
by rewrite oner_eq0.
Qed.
End Filters.

Print Assumptions gaussian_expectation_exact.
Print Assumptions gaussian_admissible.
Print Assumptions gaussian_nd_quadrature.
Print Assumptions linear_prediction_exact.
Print Assumptions linear_filters_exact.
Print Assumptions linear_filters_agree.

Section Examples.
Variable R : rcfType.
Let rts := fun c : seq R => rootsR (Poly (rev c)).

(* E[X0^2 X1] = 8 under N((1, 2), L L^T) with L L^T = [[2,1],[1,3]], at order two; the second
   entry uses the unit covariance at mean zero. *)
Example gaussian_expectation_ex (L : 'M[R]_2) : L *m L^T = mx2 2%:R 1 1 3%:R ->
  let m0 : 'cV[R]_2 := \col_i (i : nat).+1%:R in
  let f := [:: (1 : R, fun i : 'I_2 => if i == 0 then 2%N else 1%N)] in
  gaussian_expectation rts 1 2 [:: m0; 0] [:: L; 1%:M] (fun xs => [seq (mpoly_eval f x)%:M : 'M[R]_1 | x <- xs])
  = [:: 8%:R%:M; 0].
Proof.
move=> hL m0 f; have hP : (mx2 2%:R 1 1 3%:R : 'M[R]_2)^T = mx2 2%:R 1 1 3%:R by exact: mx2_sym.
pose Ms := [:: raw_moments_mvn_kan m0 (mx2 2%:R 1 1 3%:R); raw_moments_mvn_kan (0 : 'cV[R]_2) 1%:M].
rewrite (gaussian_expectation_exact (Ms := Ms)) //=; first last.
- by move=> [|[|//]] _ /=; rewrite ?hL ?mul1mx ?trmx1; apply: kan_moments; rewrite ?trmx1.
- by rewrite andbT !big_ord_recl big_ord0.
- exact: ltr01.
- exact: roots_ref_spec.
rewrite !big_cons !big_nil !addr0 !mul1r.
pose e := fun i : 'I_2 => if i == 0 then 2%N else 1%N.
have em : [seq e i | i <- enum 'I_2] = [:: 2; 1]%N.
  rewrite -/(mlist e); apply: (@eq_from_nth _ 0%N) => [|i]; rewrite size_mlist //; case: i => [|[|//]] _.
    by rewrite (nth_mlist e (0 : 'I_2)).
  by rewrite (nth_mlist e (1 : 'I_2)).
rewrite -[[seq _ | i <- enum 'I_2]]/[seq e i | i <- enum 'I_2] em; have [_ _ ->] := mvn_kan_ex R.
by rewrite -kan_central kan_odd //; congr [:: _; _]; apply/matrixP => i j; rewrite !mxE mul0rn.
Qed.

(* a rotating linear SDE with unit dispersion: every hypothesis of the filter theorems holds *)
Example linear_filters_ex :
  exists chol : forall n, 'M[R]_n -> 'M[R]_n, exists eigh : forall n, 'M[R]_n -> 'M[R]_n * 'rV[R]_n,
  exists full inds,
  let A : 'M[R]_2 := mx2 0 1 (-1) 0 in let dt : R := 2%:R^-1 in
  [/\ chol_spec chol, eigh_spec eigh, layout 2 2 full inds,
      posdef (dt *: ((1%:M : 'M[R]_2) *m 1%:M^T)) &
      posdef (mx2 (2%:R : R) 1 1 3%:R) /\ 0 <= dt /\ 1%:M + dt *: A \in unitmx].
Proof.
exists (@chol_ref R), (@eigh_ref R).
have [full hf] : exists full, generate_graded_lexico_multi_indices 2 (2 * 2 - 1) 0 = Some full by eexists; vm_compute; reflexivity.
have [inds hi] : exists inds, gram_and_hankel_indices_graded_lexico 2 2 = Some inds by eexists; vm_compute; reflexivity.
exists full, inds => A dt; split=> //.
- exact: chol_ref_spec.
- exact: eigh_ref_spec.
- have -> : dt *: ((1%:M : 'M[R]_2) *m 1%:M^T) = mx2 dt 0 0 dt.
    rewrite trmx1 mulmx1; apply/matrixP => i j; rewrite !mxE.
    by case: i => [[|[|//]] ?]; case: j => [[|[|//]] ?]; rewrite /= ?mulr1 ?mulr0.
  have h : 0 < dt by rewrite invr_gt0 ltr0n.
  by apply: mx2_posdef => //; rewrite expr2 mul0r subr0 mulr_gt0.
split; first by apply: mx2_posdef; rewrite ?ltr0n // (_ : _ - _ = 5%:R) ?ltr0n //; ring.
split; first by rewrite invr_ge0 ler0n.
have h5 : (5%:R / 4%:R : R) != 0 by rewrite mulf_neq0 ?invr_eq0 ?pnatr_eq0.
suff h : (1%:M + dt *: A) *m ((4%:R / 5%:R) *: (1%:M - dt *: A)) = 1%:M by case: (mulmx1_unit h).
rewrite -scalemxAr mulmxDl !mulmxBr !mul1mx mulmx1 addrA subrK -scalemxAl -scalemxAr scalerA.
apply/matrixP => i j; rewrite !mxE !big_ord_recl big_ord0 !mxE.
by case: i => [[|[|//]] ?]; case: j => [[|[|//]] ?]; rewrite /= /dt; field.
Qed.
End Examples.
