(* The Cramer-Rao script: proofs. *)
From mathcomp Require Import all_ssreflect all_algebra.
From Verif Require Import Prelude LinAlgSpec LinAlgProofs GfsModel GfsSpec GfsProofs PcrlbModel PcrlbProofs CrModel.
From Verif Require Import SsModel SsProofs.
Set Implicit Arguments.
Unset Strict Implicit.
Unset Printing Implicit Defensive.
Import Order.TTheory GRing.Theory Num.Theory.
Local Open Scope ring_scope.

Section CrP.
Variable R : rcfType.
Variable hess0 : forall p q, ('cV[R]_p -> 'cV[R]_q -> R) -> 'cV[R]_p -> 'cV[R]_q -> 'M[R]_p.
Variable hess1 : forall p q, ('cV[R]_p -> 'cV[R]_q -> R) -> 'cV[R]_p -> 'cV[R]_q -> 'M[R]_q.
Variable jac10 : forall p q, ('cV[R]_p -> 'cV[R]_q -> R) -> 'cV[R]_p -> 'cV[R]_q -> 'M[R]_(q, p).
Variables (dx dy : nat).

(* states before step k *)
Lemma with_initial_col (x0s : seq 'cV[R]_dx) xss k : size x0s = size xss ->
  [seq nth 0 run k | run <- with_initial x0s xss] = if k is k'.+1 then [seq nth 0 run k' | run <- xss] else x0s.
Proof.
elim: x0s xss => [|x l ih] [|y m] //=; first by case: k.
by case=> /ih {ih}; rewrite /with_initial /= => ->; case: k.
Qed.

Lemma cr_pairs T (x0s : seq 'cV[R]_dx) (xss : seq (seq 'cV[R]_dx)) (yss : seq (seq 'cV[R]_dy)) : size x0s = size xss ->
  zip (transpose_runs 0 T yss)
    (zip (behead (transpose_runs 0 T.+1 (with_initial x0s xss)))
         (take (size (transpose_runs 0 T.+1 (with_initial x0s xss))).-1 (transpose_runs 0 T.+1 (with_initial x0s xss))))
  = [seq ([seq nth 0 run k | run <- yss],
          ([seq nth 0 run k | run <- xss], if k is k'.+1 then [seq nth 0 run k' | run <- xss] else x0s)) | k <- iota 0 T].
Proof.
move=> h; rewrite {3}/transpose_runs size_map size_iota -pred_Sn.
have -> : behead (transpose_runs 0 T.+1 (with_initial x0s xss)) = [seq [seq nth 0 run k | run <- xss] | k <- iota 0 T].
  rewrite /transpose_runs /= (iotaDl 1 0) -map_comp; apply: eq_map => k /=.
  by rewrite add1n with_initial_col.
have -> : take T (transpose_runs 0 T.+1 (with_initial x0s xss))
    = [seq if k is k'.+1 then [seq nth 0 run k' | run <- xss] else x0s | k <- iota 0 T].
  rewrite /transpose_runs -map_take take_iota (minn_idPl (leqnSn T)); apply: eq_map => k; exact: with_initial_col.
by rewrite /transpose_runs !zip_map.
Qed.

Lemma cr_j0E (l0 : 'cV[R]_dx -> R) x0s :
  cr_j0 hess0 l0 x0s = - ((size x0s)%:R^-1 *: \sum_(x <- x0s) @hess0 dx 0 (fun u _ => l0 u) x 0).
Proof.
rewrite /cr_j0 /mx_mean size_map; congr (- (_ *: _)).
by elim: x0s => [|x s ih] /=; rewrite ?big_nil // big_cons ih.
Qed.

Lemma scan_size (A B C : Type) (f : A -> B -> A * C) (a : A) (s : seq B) : size (scan f a s).2 = size s.
Proof.
elim: s a => [|x s ih] a //=; case: (f a x) => a' y.
by have := ih a'; case: (scan f a' s) => a'' ys /= ->.
Qed.

Lemma cr_js_spec (l0 : 'cV[R]_dx -> R) lt (ll : 'cV[R]_dy -> 'cV[R]_dx -> R) T
    (x0s : seq 'cV[R]_dx) (xss : seq (seq 'cV[R]_dx)) (yss : seq (seq 'cV[R]_dy)) : size x0s = size xss ->
  cr_js hess0 hess1 jac10 l0 lt ll T x0s xss yss
  = (scan (pcrlb_body hess0 hess1 jac10 lt ll) (cr_j0 hess0 l0 x0s)
      [seq ([seq nth 0 run k | run <- yss],
            ([seq nth 0 run k | run <- xss], if k is k'.+1 then [seq nth 0 run k' | run <- xss] else x0s)) | k <- iota 0 T]).2
  /\ size (crlbs hess0 hess1 jac10 l0 lt ll T x0s xss yss) = T.
Proof.
move=> h; rewrite /crlbs size_map /cr_js /posterior_cramer_rao cr_pairs //.
by rewrite scan_size size_map size_iota.
Qed.

Hypothesis dP : second_derivatives hess0 hess1 jac10.

Lemma cr_j0_gauss (m0 : 'cV[R]_dx) P0 (c : R) x0s : posdef P0 -> (0 < size x0s)%N ->
  cr_j0 hess0 (fun x => c - 2%:R^-1 * qform (invmx P0) (x - m0)) x0s = invmx P0.
Proof.
move=> pP hs; rewrite /cr_j0 (@mx_mean_const _ _ _ (- invmx P0)) ?opprK // => x.
pose f := fun (u : 'cV[R]_dx) (_ : 'cV[R]_0) => c - 2%:R^-1 * qform (invmx P0) (u - m0).
have q : quadratic2 f (- invmx P0) ((0 : 'M[R]_(dx, 0))^T *m invmx P0) (- ((0 : 'M[R]_(dx, 0))^T *m invmx P0 *m 0)).
  have [h1 h2 [a0 [a1 [a2 h3]]]] := gauss_quadratic (0 : 'M[R]_(dx, 0)) m0 c pP.
  by split=> //; exists a0, a1, a2 => u y; rewrite -h3 /gauss_logpdf mul0mx subr0.
by have [] := dP x 0 q.
Qed.

Lemma cr_kalman (chol : forall n, 'M[R]_n -> 'M[R]_n) (log : R -> R) (pi : R) (F Q P0 : 'M[R]_dx) (b m0 : 'cV[R]_dx) (c0 cx cy : R)
    (H : 'M[R]_(1, dx)) (c : 'cV[R]_1) (Xi : 'M[R]_1) T x0s xss (yss : seq (seq 'cV[R]_1)) ys :
  posdef Q -> posdef Xi -> posdef P0 -> (0 < size x0s)%N -> size xss = size x0s -> size yss = size x0s -> size ys = T ->
  exists ms vs es, kf chol log pi F Q H Xi m0 P0 ys = Some (ms, vs, es) /\
  crlbs hess0 hess1 jac10 (fun x => c0 - 2%:R^-1 * qform (invmx P0) (x - m0)) (gauss_logpdf F b Q cx) (gauss_logpdf H c Xi cy)
    T x0s xss yss = vs.
Proof.
move=> pQ pX pP hs sx sy st; rewrite /crlbs /cr_js cr_j0_gauss //.
have pj : posdef (invmx P0) by exact: posdef_inv.
have h1 : size (transpose_runs 0 T.+1 (with_initial x0s xss)) = (size (transpose_runs 0 T yss)).+1.
  by rewrite !size_map !size_iota.
have h2 : size ys = size (transpose_runs 0 T yss) by rewrite size_map size_iota.
have h3 : all (fun s => size s == size x0s) (transpose_runs 0 T.+1 (with_initial x0s xss)).
  by apply/allP => s /mapP [k _ ->]; rewrite !size_map size_zip sx minnn.
have h4 : all (fun s => size s == size x0s) (transpose_runs 0 T yss).
  by apply/allP => s /mapP [k _ ->]; rewrite size_map sy.
have [ms [vs [es [e1 e2]]]] := pcrlb_kf dP chol log pi F b cx cy H c m0 pQ pX pj hs h1 h2 h3 h4.
exists ms, vs, es; rewrite invmxK in e1; split=> //.
by rewrite e2 -map_comp -[RHS]map_id; apply: eq_map => v /=; rewrite invmxK.
Qed.
End CrP.

Lemma cr_loglik_spec (R : rcfType) (exp log : R -> R) (y : int) (x : 'cV[R]_2) :
  exp_spec exp -> log_spec exp log -> y = 0 \/ y = 1 -> exp (cr_loglik exp log y x) = pp_pmf exp y x.
Proof.
move=> he [_ hl]; rewrite /cr_loglik /pp_pmf /bernoulli_pmf.
have /andP [h1 h2] : 0 < pp_emission exp (x 0 0) < 1 by rewrite /pp_emission sigm_gt0 // sigm_lt1.
case=> -> /=.
  by rewrite mul0r add0r subr0 mul1r hl // subr_gt0.
by rewrite mul1r subrr mul0r addr0 hl.
Qed.
