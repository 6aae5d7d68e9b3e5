(* Properties C34, C35, C36, C37, C65: moments of multivariate normal and uniform laws, the
   conditional moments of discretised SDEs, and Gaussian sums. *)
From mathcomp Require Import all_ssreflect all_algebra.
From mathcomp Require Import zify ring.
From Verif Require Import Prelude NdIndexModel MultiIndexModel LinAlgSpec QuadSpec QuadNdModel QuadNdSpec QuadNdAffine.
From Verif Require Import SmallMx Moments1DSpec Moments1DProofs SigmaSpec MomentsNdModel MomentsNdSpec MomentsNdKan MomentsNdMvn.
From Verif Require Import MomentsNdAffine MomentsNdMain GaussNd GaussNdGh MgfModel MgfProofs.
From Verif Require Import SpectralProofs LdlProofs FilterNdModel FilterNdSpec FilterNdProofs FilterNdRun FilterNdScale FilterNdProps.
Set Implicit Arguments.
Unset Strict Implicit.
Unset Printing Implicit Defensive.
Import Order.TTheory GRing.Theory Num.Theory.
Local Open Scope ring_scope.

(* C34: the Kan--Magnus sums are the moments of N(m, P). *)
Theorem mvn_kan_moments (R : rcfType) d (m : 'cV[R]_d) (P : 'M[R]_d) : P^T = P ->
  mvn_moments m P (raw_moments_mvn_kan m P) /\
  mvn_moments 0 P (central_moments_mvn_kan P).
Proof.
move=> hP; split; first exact: kan_moments.
have [h0 h] := kan_moments 0 hP; split=> [|n i hn]; first by rewrite kan_central.
by rewrite !kan_central h //; congr (_ + _); apply: eq_bigr => j _; rewrite kan_central.
Qed.

(* C34: the recursion has one solution, so the theorem above fixes every value. *)
Theorem mvn_moments_unique (R : rcfType) d (m : 'cV[R]_d) (P : 'M[R]_d) M M' :
  mvn_moments m P M -> mvn_moments m P M' -> forall n, size n = d -> M n = M' n.
Proof. by move=> h h' n; exact: (mvn_unique h h'). Qed.

(* C34: and it is the expected one: for a diagonal covariance it is solved by the products
   of the moments of the one-dimensional normal laws. *)
Theorem mvn_moments_independent (R : rcfType) d (m : 'cV[R]_d) (v : 'I_d -> R) n : size n = d ->
  raw_moments_mvn_kan m (\matrix_(i, j) ((i == j)%:R * v i)) n
  = \prod_(i < d) gauss_moment (m i 0) (v i) (nth 0%N n i).
Proof.
move=> hn; have hP : (\matrix_(i, j) ((i == j)%:R * v i))^T = \matrix_(i, j) ((i == j)%:R * v i).
  by apply/matrixP => i j; rewrite !mxE eq_sym; case: eqP => [->|]; rewrite ?mul0r.
exact: (mvn_unique (kan_moments m hP) (mvn_diag m v) hn).
Qed.

(* C34: the moments found by differentiating the moment generating function are the same. *)
Theorem mvn_mgf_is_kan (R : rcfType) d (exp : R -> R) (m : 'cV[R]_d) (P : 'M[R]_d) n :
  exp 0 = 1 -> P^T = P -> size n = d ->
  raw_moments_mvn_mgf exp m P n = raw_moments_mvn_kan m P n.
Proof. by move=> h0 hP hn; exact: mgf_kan. Qed.

(* C34: central moments are the raw moments of the centred law, and vanish for odd order. *)
Theorem mvn_central_moments (R : rcfType) d (m : 'cV[R]_d) (P : 'M[R]_d) n : size n = d -> P^T = P ->
  central_moments_mvn_kan P n = affine_nd (raw_moments_mvn_kan m P) [seq m i 0 | i <- enum 'I_d] [::] n
  /\ (odd (sumn n) -> central_moments_mvn_kan P n = 0).
Proof.
move=> hn hP; split; last exact: kan_odd.
rewrite kan_central -kan_shift //; congr (raw_moments_mvn_kan _ _ _).
apply/colP => i; rewrite !mxE (nth_map i) ?size_enum_ord // (nth_ord_enum i i).
by rewrite subrr.
Qed.

(* C35: moments of the uniform law on a box: the product of the averages of
   (x - mean_i)^(k_i) over the sides, computed from any primitives. *)
Theorem uniform_nd_moments (R : rcfType) (bounds : seq (R * R)) (k : seq nat) (means : seq R) (Ps : seq {poly R}) :
  size bounds = size k -> size means = size k -> size Ps = size k ->
  (forall i, (i < size k)%N -> (nth 0 Ps i)^`() = ('X - (nth 0 means i)%:P) ^+ nth 0%N k i) ->
  moments_nd_uniform bounds k (Some means)
  = \prod_(t <- zip bounds Ps) ((t.2.[t.1.2] - t.2.[t.1.1]) / (t.1.2 - t.1.1)).
Proof. exact: uniform_prim. Qed.

(* C35: without means the raw moments are returned, and those about a mean are their
   conversion. *)
Theorem uniform_nd_raw_and_central (R : rcfType) (bounds : seq (R * R)) (k : seq nat) :
  size bounds = size k ->
  moments_nd_uniform bounds k None = moments_nd_uniform bounds k (Some (nseq (size k) 0)) /\
  moments_nd_uniform bounds k None = \prod_(t <- zip k bounds)
     ((t.2.2 ^+ t.1.+1 - t.2.1 ^+ t.1.+1) / (t.1.+1%:R * (t.2.2 - t.2.1))) /\
  forall means, size means = size k -> moments_nd_uniform bounds k (Some means)
    = affine_nd (fun k' => moments_nd_uniform bounds k' None) means [::] k.
Proof.
move=> hb; split; first by rewrite /moments_nd_uniform hb.
split; last by move=> means hm; exact: uniform_affine.
rewrite /moments_nd_uniform jprodE big_map.
elim: k bounds hb => [|k ks IH] [|b bs] //=; first by rewrite !big_nil.
by case=> hs; rewrite !big_cons IH // !subr0 invfM mulrA.
Qed.

Section Cond.
Variables (R : rcfType) (d : nat) (full : seq (seq nat)).
Hypothesis hfull : all (fun k => size k == d) full.

(* C36: the five functions returned for a normal transition with conditional mean and
   covariance mc x (Euler--Maruyama, or the normal TME variant) describe one law: C x is the
   moment sequence of N(mean, cov), and the central, scaled, mean and variance functions
   are its conversions. *)
Theorem normal_nd_conditional_moments (mc : 'cV[R]_d -> 'cV[R]_d * 'M[R]_d) (C : seq R -> seq nat -> R) :
  (forall x, ((mc x).2)^T = (mc x).2) ->
  (forall x, mvn_moments (mc (cvec d x)).1 (mc (cvec d x)).2 (C x)) ->
  [/\ forall x j, (j < size full)%N -> nd_cond_raw mc full x j = C x (nth [::] full j),
      forall x j c, (j < size full)%N ->
        nd_cond_central mc full x j c = affine_nd (C x) c [::] (nth [::] full j),
      forall x j c s, (j < size full)%N -> (forall a, (a < d)%N -> nth 1 s a != 0) ->
        nd_cond_scaled mc full x j c s = affine_nd (C x) c s (nth [::] full j) &
      forall x a, (a < d)%N -> nth 0 (nd_cond_mean_var mc x).1 a = C x (munit d a) /\
        nth 0 (nd_cond_mean_var mc x).2 a
        = affine_nd (C x) (nd_cond_mean_var mc x).1 [::] (minc (munit d a) a)].
Proof.
move=> hsym hC.
have e x k : size k = d -> C x k = transition mc x k.
  by move=> hk; apply: (mvn_unique (hC x) (transition_mvn hsym x) hk).
have e' x c s k : size k = d -> affine_nd (C x) c s k = affine_nd (transition mc x) c s k.
  by move=> hk; apply: tens_ext => t; rewrite size_map size_iota hk => ht; exact: e.
split=> [x j hj|x j c hj|x j c s hj hs|x a ha].
- by rewrite cond_rawE // e // (full_size hfull).
- by rewrite cond_centralE // e' // (full_size hfull).
- by rewrite cond_scaledE // e' // (full_size hfull).
have [h1 h2] := cond_mean_varE hsym x ha.
have hu : size (munit d a) = d by rewrite size_map size_iota.
have hv : size (minc (munit d a) a) = d by rewrite -[X in minc _ X]/(val (Ordinal ha)) size_minc.
by split; [rewrite h1 e|rewrite h2 e'].
Qed.

(* C36: the Euler--Maruyama instance. *)
Theorem euler_nd_conditional_moments w (drift : 'cV[R]_d -> 'cV[R]_d) (dispersion : 'cV[R]_d -> 'M[R]_(d, w))
    (dt : R) (C : seq R -> seq nat -> R) :
  (forall x, let u := cvec d x in
     mvn_moments (u + dt *: drift u) (dt *: (dispersion u *m (dispersion u)^T)) (C x)) ->
  let mc := nd_euler_mean_cov drift dispersion dt in
  [/\ forall x j, (j < size full)%N -> nd_cond_raw mc full x j = C x (nth [::] full j),
      forall x j c, (j < size full)%N ->
        nd_cond_central mc full x j c = affine_nd (C x) c [::] (nth [::] full j),
      forall x j c s, (j < size full)%N -> (forall a, (a < d)%N -> nth 1 s a != 0) ->
        nd_cond_scaled mc full x j c s = affine_nd (C x) c s (nth [::] full j),
      forall x, nd_euler_cond_mean drift dt x = (nd_cond_mean_var mc x).1 &
      forall x a, (a < d)%N -> nth 0 (nd_cond_mean_var mc x).1 a = C x (munit d a) /\
        nth 0 (nd_cond_mean_var mc x).2 a
        = affine_nd (C x) (nd_cond_mean_var mc x).1 [::] (minc (munit d a) a)].
Proof.
move=> hC mc; have hsym x : ((mc x).2)^T = (mc x).2.
  by rewrite /mc /nd_euler_mean_cov /= linearZ /= trmx_mul trmxK.
by have [h1 h2 h3 h4] := normal_nd_conditional_moments hsym hC.
Qed.

(* C65: the functions built on tme.expectation describe one functional, whatever the SDE and
   the order: they only need the expansion to be linear in the test function. *)
Theorem tme_nd_conditional_moments (tme : ('cV[R]_d -> R) -> 'cV[R]_d -> R) x :
  (forall f g, f =1 g -> tme f (cvec d x) = tme g (cvec d x)) ->
  (forall a b f g, tme (fun u => a * f u + b * g u) (cvec d x)
                   = a * tme f (cvec d x) + b * tme g (cvec d x)) ->
  let C := nd_tme_cond_raw tme x in
  [/\ forall k c, size k = d -> nd_tme_cond_central tme x k c = affine_nd C c [::] k,
      forall k c s, size k = d -> nd_tme_cond_scaled tme x k c s = affine_nd C c s k &
      forall a, (a < d)%N -> nth 0 (nd_tme_cond_mean tme x) a = C (munit d a)].
Proof.
by move=> h1 h2 C; split=> *; [exact: tme_centralE|exact: tme_scaledE|exact: tme_meanE].
Qed.

(* C37: a Gaussian sum with weights summing to one. Ms are the moment sequences of the
   components; everything stored belongs to their mixture. *)
Theorem gaussian_sum_nd_consistent (means : seq 'cV[R]_d) (covs : seq 'M[R]_d) (weights : seq R)
    (Ms : seq (seq nat -> R)) :
  \sum_(w <- weights) w = 1 -> size means = size weights -> size covs = size weights ->
  all (fun P : 'M[R]_d => P^T == P) covs -> size Ms = size weights ->
  (forall i, (i < size weights)%N ->
     mvn_moments (nth 0 means i) (nth 0 covs i) (nth (fun=> 0) Ms i)) ->
  let g := gaussian_sum_nd_new means covs weights full in
  let M k := \sum_(t <- zip weights Ms) t.1 * t.2 k in
  let mu := [seq gsn_mean g i 0 | i <- enum 'I_d] in
  [/\ gsn_rms g = [seq M k | k <- full], gsn_cms g = [seq affine_nd M mu [::] k | k <- full],
      forall i : 'I_d, gsn_mean g i 0 = M (munit d i) &
      forall i j : 'I_d, gsn_cov g i j = affine_nd M mu [::] (minc (munit d j) i)].
Proof.
move=> h1 h2 h3 h4 h5 h6 g M mu; split.
- exact: gsn_rmsE.
- exact: gsn_cmsE.
- by move=> i; exact: gsn_meanE.
- by move=> i j; exact: gsn_covE.
Qed.
End Cond.

(* C36, C38: with the library's Euler--Maruyama callbacks the raw, central and scaled filters
   agree. *)
Section Filters.
Variables (R : rcfType) (chol : forall n, 'M[R]_n -> 'M[R]_n) (eigh : forall n, 'M[R]_n -> 'M[R]_n * 'rV[R]_n).
Variables (log : R -> R) (Y : Type) (d N : nat) (full : seq (seq nat)) (inds : seq (seq (seq int))).
Variables (w : nat) (drift : 'cV[R]_d -> 'cV[R]_d) (dispersion : 'cV[R]_d -> 'M[R]_(d, w)) (dt : R).
Let mc := nd_euler_mean_cov drift dispersion dt.

Theorem euler_nd_filters_agree (pdf : Y -> seq R -> R) st st' rms0 mean0 scale0 ys out nell :
  chol_spec chol -> eigh_spec eigh -> layout d N full inds -> (1 < N)%N ->
  size mean0 = d -> size scale0 = d -> all (fun s => 0 < s) scale0 ->
  moment_filter_nd_rms chol eigh log full inds (IndexFn (nd_cond_raw mc full)) pdf st rms0 ys = Ok (out, nell) ->
  (forall i, (i < size ys)%N -> let r := nth [::] (rms0 :: out) i in
     [/\ admissible_nd d N (look full r),
         admissible_nd d N (look full (rms_nd_predict chol eigh full inds (IndexFn (nd_cond_raw mc full)) st r)) &
         all (fun s => 0 < s) (pscale chol eigh d inds st (nd_cond_mean_var mc) r)]) ->
  moment_filter_nd_cms chol eigh log full inds (IndexFn (nd_cond_central mc full)) (nd_euler_cond_mean drift dt)
    pdf st' (shift_nd full rms0 mean0 [::]) mean0 ys = Ok ([seq central_nd d full r | r <- out], nell) /\
  moment_filter_nd_scms chol eigh log full inds (IndexFn (nd_cond_scaled mc full)) (nd_cond_mean_var mc)
    pdf st' (shift_nd full rms0 mean0 scale0) mean0 scale0 ys = Ok ([seq scaled_nd d full r | r <- out], nell).
Proof.
move=> hc he hl hN hm hs hs0 hr hadm; have [hN0 hf hi] := hl.
have hsym x : ((mc x).2)^T = (mc x).2.
  by rewrite /mc /nd_euler_mean_cov /= linearZ /= trmx_mul trmxK.
have hfull : all (fun k => size k == d) full.
  apply/(all_nthP [::]) => j hj; have [h1 h2] := full_nth hN0 hf hi hj.
  by move: h2; rewrite (full_mem hN0 hf hi) => /andP [].
have e1 x j : (j < size full)%N -> cond_at full (IndexFn (nd_cond_raw mc full)) x j = transition mc x (nth [::] full j).
  by move=> hj; exact: cond_rawE.
have e2 x j c : (j < size full)%N -> cond_at full (IndexFn (nd_cond_central mc full)) x j c
    = affine_nd (transition mc x) c [::] (nth [::] full j) by move=> hj; exact: cond_centralE.
have e3 x j c s : (j < size full)%N -> size s = d -> all (fun r => 0 < r) s ->
    cond_at full (IndexFn (nd_cond_scaled mc full)) x j c s = affine_nd (transition mc x) c s (nth [::] full j).
  move=> hj hs1 hs2; apply: cond_scaledE => // a ha; apply/lt0r_neq0.
  by apply: (all_nthP 1 hs2); rewrite hs1.
have e4 x a : (a < d)%N -> nth 0 (nd_cond_mean_var mc x).1 a = transition mc x (munit d a).
  by move=> ha; have [] := cond_mean_varE hsym x ha.
split; last exact: (nd_raw_scaled_filters_agree _ hc he hl hN e1 e3 e4 hm hs hs0 hr hadm).
apply: (nd_raw_central_filters_agree _ hc he hl e1 e2 _ hm hr) => [|i hi']; last by have [] := hadm i hi'.
exact: e4.
Qed.
End Filters.

Print Assumptions mvn_kan_moments.
Print Assumptions mvn_moments_unique.
Print Assumptions mvn_moments_independent.
Print Assumptions mvn_mgf_is_kan.
Print Assumptions mvn_central_moments.
Print Assumptions uniform_nd_moments.
Print Assumptions uniform_nd_raw_and_central.
Print Assumptions normal_nd_conditional_moments.
Print Assumptions euler_nd_conditional_moments.
Print Assumptions tme_nd_conditional_moments.
Print Assumptions gaussian_sum_nd_consistent.
Print Assumptions euler_nd_filters_agree.

Section Examples.
Variable R : rcfType.
Let P0 : 'M[R]_2 := mx2 2%:R 1 1 3%:R.
Let m0 : 'cV[R]_2 := \col_i (i : nat).+1%:R.

Let ents : [/\ m0 0 0 = 1, m0 1 0 = 2%:R, P0 0 0 = 2%:R & P0 0 1 = 1].
Proof. by rewrite /m0 /P0 /mx2 !mxE. Qed.

(* E[X0 X1] = 1 * 2 + 1 and E[X0^2 X1] = 8 under N((1,2), [[2,1],[1,3]]). *)
Example mvn_kan_ex :
  [/\ P0^T = P0, raw_moments_mvn_kan m0 P0 [:: 1; 1]%N = 3%:R &
      raw_moments_mvn_kan m0 P0 [:: 2; 1]%N = 8%:R].
Proof.
have [e1 e2 e3 e4] := ents.
have hP : P0^T = P0 by exact: mx2_sym.
have hM := kan_moments m0 hP; split=> //.
  rewrite -[[:: 1; 1]%N]/(minc (munit 2 (1 : 'I_2)) (0 : 'I_2)) (mvn_second _ _ hM).
  by rewrite e1 e2 e4; ring.
have [h1 h2] := hM.
rewrite -[[:: 2; 1]%N]/(minc (minc (munit 2 (1 : 'I_2)) (0 : 'I_2)) (0 : 'I_2)) h2 //.
rewrite (mvn_second _ _ hM) !big_ord_recl big_ord0.
have -> : lift ord0 ord0 = 1 :> 'I_2 by apply: val_inj.
rewrite -[ord0]/(0 : 'I_2) -[mdec _ (0 : 'I_2)]/(munit 2 (1 : 'I_2)) -[mdec _ (1 : 'I_2)]/(munit 2 (0 : 'I_2)).
rewrite !(mvn_first _ hM) e1 e2 e3 e4 /=; ring.
Qed.

(* a fourth moment of the standard normal law, from the generating function as well *)
Example mvn_mgf_ex : exists exp : R -> R, exp 0 = 1 /\
  raw_moments_mvn_mgf exp (0 : 'cV[R]_2) 1%:M [:: 2; 4]%N = 3%:R.
Proof.
exists (fun x => x + 1); split; first by rewrite add0r.
rewrite mvn_mgf_is_kan ?add0r ?trmx1 //.
have -> : (1%:M : 'M[R]_2) = \matrix_(i, j) ((i == j)%:R * (fun=> 1) i).
  by apply/matrixP => i j; rewrite !mxE mulr1.
rewrite mvn_moments_independent // !big_ord_recl big_ord0 /= !mxE /gauss_moment /=; ring.
Qed.

(* the box [-1, 2] x [0, 4] *)
Example uniform_nd_ex :
  [/\ moments_nd_uniform [:: (-1, 2%:R); (0, 4%:R)] [:: 2; 1]%N None = 2%:R :> R,
      moments_nd_uniform [:: (-1, 2%:R); (0, 4%:R)] [:: 2; 1]%N (Some [:: 2%:R^-1; 2%:R]) = 0 :> R &
      exists Ps : seq {poly R}, size Ps = 2%N /\
       forall i, (i < 2)%N -> (nth 0 Ps i)^`() = ('X - (nth 0 [:: 2%:R^-1; 2%:R] i)%:P) ^+ nth 0%N [:: 2; 1]%N i].
Proof.
split; rewrite /moments_nd_uniform ?jprodE ?big_map /= ?big_cons ?big_nil; rewrite /=.
- by field; rewrite ?pnatr_eq0.
- by field; rewrite ?pnatr_eq0.
have h k (a : R) : ((k.+1%:R^-1)%:P * ('X - a%:P) ^+ k.+1)^`() = ('X - a%:P) ^+ k.
  rewrite derivM derivC mul0r add0r deriv_exp derivXsubC mul1r /= mulrnAr -mulrnAl.
  by rewrite -polyCMn -mulr_natr mulVf ?pnatr_eq0 // mul1r.
exists [:: (3%:R^-1)%:P * ('X - (2%:R^-1)%:P) ^+ 3; (2%:R^-1)%:P * ('X - (2%:R)%:P) ^+ 2].
by split=> // [[|[|//]]] _; rewrite h.
Qed.

(* Langevin drift x - x^3 (first coordinate), dispersion depending on the state *)
Let drift (x : 'cV[R]_2) : 'cV[R]_2 := \col_i (if i == 0 then x 0 0 - x 0 0 ^+ 3 else - x 1 0).
Let disp (x : 'cV[R]_2) : 'M[R]_(2, 1) := \matrix_(i, j) (if i == 0 then 1 else x 0 0).
Let mcE := nd_euler_mean_cov drift disp 2%:R^-1.

Example euler_nd_ex : exists C : seq R -> seq nat -> R,
  (forall x, let u := cvec 2 x in
     mvn_moments (u + 2%:R^-1 *: drift u) (2%:R^-1 *: (disp u *m (disp u)^T)) (C x)) /\
  C [:: 2%:R; 1] [:: 1; 1]%N = 2%:R^-1.
Proof.
have hsym x : ((mcE x).2)^T = (mcE x).2.
  by rewrite /mcE /nd_euler_mean_cov /= linearZ /= trmx_mul trmxK.
exists (transition mcE); split; first by move=> x; exact: (transition_mvn hsym x).
rewrite -[[:: 1; 1]%N]/(minc (munit 2 (1 : 'I_2)) (0 : 'I_2)) (mvn_second _ _ (transition_mvn hsym _)).
by rewrite /mcE /nd_euler_mean_cov /drift /disp /cvec /= !mxE !big_ord_recl !big_ord0 !mxE /=; field.
Qed.

(* a symmetric two-point expansion *)
Example tme_nd_ex : exists tme : ('cV[R]_2 -> R) -> 'cV[R]_2 -> R,
  [/\ forall x f g, f =1 g -> tme f (cvec 2 x) = tme g (cvec 2 x),
      forall x a b f g, tme (fun u => a * f u + b * g u) (cvec 2 x)
                     = a * tme f (cvec 2 x) + b * tme g (cvec 2 x) &
      nd_tme_cond_central tme [:: 0; 0] [:: 1; 1]%N [:: 0; 0] = 1].
Proof.
exists (fun f x => (f (x + const_mx 1) + f (x - const_mx 1)) / 2%:R); split.
- by move=> x f g e; rewrite !e.
- by move=> x a b f g; field.
rewrite /nd_tme_cond_central !jprodE !big_map; rewrite ?big_enum ?enumT /= !big_ord_recl !big_ord0 !mxE /=; by field.
Qed.

(* two components with different means and covariances *)
Example gaussian_sum_nd_ex :
  let means := [:: m0; 0] in let covs := [:: P0; 1%:M] in let weights := [:: 3%:R^-1; 2%:R / 3%:R] in
  exists Ms : seq (seq nat -> R),
  [/\ \sum_(w <- weights) w = 1, all (fun P : 'M[R]_2 => P^T == P) covs, size Ms = size weights,
      forall i, (i < size weights)%N -> mvn_moments (nth 0 means i) (nth 0 covs i) (nth (fun=> 0) Ms i) &
      gsn_cov (gaussian_sum_nd_new means covs weights [::]) 0 1 = 7%:R / 9%:R].
Proof.
have [e1 e2 e3 e4] := ents.
move=> means covs weights; exists [:: raw_moments_mvn_kan m0 P0; raw_moments_mvn_kan (0 : 'cV[R]_2) 1%:M].
have hP : P0^T = P0 by exact: mx2_sym.
split=> //.
- by rewrite !big_cons big_nil; field.
- by rewrite /= hP trmx1 !eqxx.
- by move=> [|[|//]] _; apply: kan_moments; rewrite ?trmx1.
rewrite /gaussian_sum_nd_new /= !big_cons !big_nil /= scaler0 !addr0 mul0mx addr0.
rewrite ![fun_of_matrix _ 0 1]mxE !big_ord_recl !big_ord0 ![fun_of_matrix _ _ _]mxE.
have -> : nat_of_ord (1 : 'I_2) = 1%N by [].
by rewrite /=; field.
Qed.
End Examples.
