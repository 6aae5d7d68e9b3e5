(* Properties C53 and C54: Lanczos iterations and the posterior Cramer-Rao bound. *)
From mathcomp Require Import all_ssreflect all_algebra.
From mathcomp Require Import ring.
From Verif Require Import Prelude LinAlgSpec LinAlgProofs SpectralProofs LdlProofs SmallMx.
From Verif Require Import GfsModel GfsSpec GfsVec LanczosModel LanczosProofs PcrlbModel PcrlbProofs.
Set Implicit Arguments.
Unset Strict Implicit.
Unset Printing Implicit Defensive.
Import Order.TTheory GRing.Theory Num.Theory.
Local Open Scope ring_scope.

Section Lz.
Variable R : rcfType.

(* C53: orthonormal columns, and V^T A V is the tridiagonal matrix of the returned coefficients. *)
Theorem lanczos_tridiagonal n (a : 'M[R]_n) v0 m vs al be : symmetric a -> dotv v0 v0 = 1 ->
  lanczos a v0 m.+1 = (vs, al, be) ->
  [/\ size vs = m.+1, size al = m.+1 & size be = m] /\
  (all (fun b => b != 0) be ->
   let V : 'M_(n, m.+1) := \matrix_(i, j) nth 0 vs j i 0 in
   [/\ nth 0 vs 0 = v0, V^T *m V = 1%:M
     & forall i j : 'I_m.+1, (V^T *m a *m V) i j =
         if i == j :> nat then nth 0 al i else if i == j.+1 :> nat then nth 0 be j
         else if j == i.+1 :> nat then nth 0 be i else 0]).
Proof. by move=> ha hv e; exact: (lanczos_entries ha hv e). Qed.

(* C53: with as many iterations as dimensions the factorisation is exact. *)
Theorem lanczos_full n (a : 'M[R]_n.+1) v0 vs al be : symmetric a -> dotv v0 v0 = 1 ->
  lanczos a v0 n.+1 = (vs, al, be) -> all (fun b => b != 0) be ->
  let V : 'M_n.+1 := \matrix_(i, j) nth 0 vs j i 0 in
  let T : 'M_n.+1 := \matrix_(i, j)
    (if i == j :> nat then nth 0 al i else if i == j.+1 :> nat then nth 0 be j
     else if j == i.+1 :> nat then nth 0 be i else 0) in
  V *m V^T = 1%:M /\ a = V *m T *m V^T.
Proof. by move=> ha hv e hb; exact: (lanczos_exact ha hv e hb). Qed.

(* C53: the tridiagonal matrix reproduces the first 2m moments of A at the start vector. *)
Theorem lanczos_moment_match n (a : 'M[R]_n) v0 m vs al be : symmetric a -> dotv v0 v0 = 1 ->
  lanczos a v0 m.+1 = (vs, al, be) -> all (fun b => b != 0) be ->
  let T : 'M_m.+1 := \matrix_(i, j)
    (if i == j :> nat then nth 0 al i else if i == j.+1 :> nat then nth 0 be j
     else if j == i.+1 :> nat then nth 0 be i else 0) in
  forall k, (k <= m.*2.+1)%N -> (v0^T *m (mxpow a k *m v0)) 0 0 = mxpow T k 0 0.
Proof. by move=> ha hv e hb; exact: (lanczos_moments ha hv e hb). Qed.

(* C53: breakdown happens exactly when v0, A v0, ..., A^m v0 are dependent. *)
Theorem lanczos_breakdown_iff n (a : 'M[R]_n) v0 m : symmetric a -> dotv v0 v0 = 1 ->
  all (fun b => b != 0) (lanczos a v0 m.+1).2 <->
  row_free (\matrix_(k < m.+1, i < n) (mxpow a k *m v0) i 0).
Proof. by move=> ha hv; exact: breakdown_iff. Qed.

Variable eigh : forall n, 'M[R]_n -> 'M[R]_n * 'rV[R]_n.
Hypothesis eighP : eigh_spec eigh.

(* C53: m + 1 Ritz pairs give A^k v for k <= m, and the quadratic forms up to k = 2m + 1. *)
Theorem lanczos_ritz_powers n (a : 'M[R]_n) v0 m X lam : symmetric a ->
  row_free (\matrix_(k < m.+1, i < n) (mxpow a k *m v0) i 0) ->
  lanczos_ritz eigh a v0 m false = Some (X, lam) ->
  [/\ forall k, (k <= m)%N -> \sum_j (lam 0 j) ^+ k *: col j X = mxpow a k *m v0,
      forall k, (k <= m.*2.+1)%N ->
        (v0^T *m \sum_j (lam 0 j) ^+ k *: col j X) 0 0 = (v0^T *m (mxpow a k *m v0)) 0 0
    & forall i j, i != j -> ((col i X)^T *m col j X) 0 0 = 0].
Proof. by move=> ha hK e; exact: (ritz_powers eighP ha hK e). Qed.

(* C53: in full dimension the Ritz pairs are eigenpairs and give every power. *)
Theorem lanczos_ritz_full n (a : 'M[R]_n.+1) v0 X lam : symmetric a ->
  row_free (\matrix_(k < n.+1, i < n.+1) (mxpow a k *m v0) i 0) ->
  lanczos_ritz eigh a v0 n false = Some (X, lam) ->
  (forall j, a *m col j X = lam 0 j *: col j X) /\
  forall k, \sum_j (lam 0 j) ^+ k *: col j X = mxpow a k *m v0.
Proof. by move=> ha hK e; exact: (ritz_exact eighP ha hK e). Qed.
End Lz.
Print Assumptions lanczos_tridiagonal.
Print Assumptions lanczos_full.
Print Assumptions lanczos_moment_match.
Print Assumptions lanczos_breakdown_iff.
Print Assumptions lanczos_ritz_powers.
Print Assumptions lanczos_ritz_full.

(* The swap matrix started at the first coordinate: the second Krylov vector is the other one. *)
Section LzEx.
Variable R : rcfType.
Let a : 'M[R]_2 := mx2 0 1 1 0.
Let v0 : 'cV[R]_2 := delta_mx 0 0.

Lemma swap_krylov : (\matrix_(k < 2, i < 2) (mxpow a k *m v0) i 0) = 1%:M.
Proof.
have e : a *m v0 = delta_mx 1 0 by apply/colP => i; rewrite -colE !mxE; case: i => [[|[|i]]] hi.
apply/matrixP => k i; rewrite mxE; case: k => [[|[|k]]] hk //=.
  by rewrite mul1mx !mxE; case: i => [[|[|i]]] hi.
by rewrite mulmx1 e !mxE; case: i => [[|[|i]]] hi.
Qed.

Example lanczos_ex : [/\ symmetric a, dotv v0 v0 = 1,
  row_free (\matrix_(k < 2, i < 2) (mxpow a k *m v0) i 0),
  all (fun b => b != 0) (lanczos a v0 2).2 & eigh_spec (@eigh_ref R)].
Proof.
have hv : dotv v0 v0 = 1 by rewrite /dotv !big_ord_recl big_ord0 !mxE /=; ring.
have hK : row_free (\matrix_(k < 2, i < 2) (mxpow a k *m v0) i 0).
  by rewrite swap_krylov row_free_unit unitmx1.
split=> //; first exact: mx2_sym; last exact: eigh_ref_spec.
by apply/(lanczos_breakdown_iff 1) => //; exact: mx2_sym.
Qed.

(* Wrong without the Krylov condition: one iteration does not represent A v. *)
Example lanczos_short_refuted (eigh : forall n, 'M[R]_n -> 'M[R]_n * 'rV[R]_n) (eighP : eigh_spec eigh) :
  exists X lam, lanczos_ritz eigh a v0 0 false = Some (X, lam) /\
    \sum_j (lam 0 j) ^+ 1 *: col j X != mxpow a 1 *m v0.
Proof.
rewrite /lanczos_ritz; case E: (lanczos _ _ _) => [[vs al] be]; case F: (eigh _ _) => [U lam].
exists (\matrix_(i, j) (\sum_k columns 1 vs i k * U k j * (U 0 j * norm2 v0))), lam; split=> //.
have hv : norm2 v0 = 1.
  by rewrite /norm2 !big_ord_recl big_ord0 !mxE /= !expr0n !expr1n /= !addr0 sqrtr1.
move: E; rewrite hv invr1 scale1r /lanczos /= => -[e1 e2 _].
apply/eqP => /(congr1 (fun M : 'cV_2 => M 1 0)).
rewrite big_ord_recl big_ord0 addr0 [LHS]mxE [in LHS]mxE [in LHS]mxE big_ord_recl big_ord0 addr0.
rewrite [columns _ _ _ _]mxE -e1 /= [v0 _ _]mxE /= mul0r mul0r mulr0 mulmx1 => /eqP.
by rewrite -colE !mxE /= eq_sym oner_eq0.
Qed.
End LzEx.

Section Pcrlb.
Variable R : rcfType.
Variable hess0 : forall p q, ('cV[R]_p -> 'cV[R]_q -> R) -> 'cV[R]_p -> 'cV[R]_q -> 'M[R]_p.
Variable hess1 : forall p q, ('cV[R]_p -> 'cV[R]_q -> R) -> 'cV[R]_p -> 'cV[R]_q -> 'M[R]_q.
Variable jac10 : forall p q, ('cV[R]_p -> 'cV[R]_q -> R) -> 'cV[R]_p -> 'cV[R]_q -> 'M[R]_(q, p).
Hypothesis dP : second_derivatives hess0 hess1 jac10.

(* C54, scalar measurements: the inverse Kalman covariances, whatever the trajectories. *)
Theorem pcrlb_is_kalman dx (chol : forall n, 'M[R]_n -> 'M[R]_n) (log : R -> R) (pi : R)
    (F Q : 'M[R]_dx) (b : 'cV[R]_dx) (cx cy : R)
    (H : 'M[R]_(1, dx)) (c : 'cV[R]_1) (Xi : 'M[R]_1) (j0 : 'M[R]_dx) m0 N xss yss ys :
  posdef Q -> posdef Xi -> posdef j0 -> (0 < N)%N -> size xss = (size yss).+1 -> size ys = size yss ->
  all (fun s => size s == N) xss -> all (fun s => size s == N) yss ->
  exists ms vs es, kf chol log pi F Q H Xi m0 (invmx j0) ys = Some (ms, vs, es) /\
  posterior_cramer_rao hess0 hess1 jac10 (gauss_logpdf F b Q cx) (gauss_logpdf H c Xi cy) xss yss j0
  = [seq invmx v | v <- vs].
Proof. by move=> pQ pX pj hN h1 h2 h3 h4; exact: (pcrlb_kf dP _ _ _ _ _ _ _ _ _ _ pQ pX pj hN h1 h2 h3 h4). Qed.

(* C54, measurements of every dimension: the inverse covariances of Bayes' rule. *)
Theorem pcrlb_is_bayes dx dy (F Q : 'M[R]_dx) (b : 'cV[R]_dx) (cx cy : R)
    (H : 'M[R]_(dy, dx)) (c : 'cV[R]_dy) (Xi : 'M[R]_dy) (j0 : 'M[R]_dx) N xss yss :
  posdef Q -> posdef Xi -> posdef j0 -> (0 < N)%N -> size xss = (size yss).+1 ->
  all (fun s => size s == N) xss -> all (fun s => size s == N) yss ->
  chain_of (fun j (_ : seq 'cV[R]_dy) j' => posdef j' /\
      forall m y, exists m', bayes_rule H c Xi m (F *m invmx j *m F^T + Q) y m' (invmx j'))
    j0 yss
    (posterior_cramer_rao hess0 hess1 jac10 (gauss_logpdf F b Q cx) (gauss_logpdf H c Xi cy) xss yss j0).
Proof. by move=> pQ pX pj hN h1 h3 h4; exact: (pcrlb_bayes dP _ _ _ _ _ _ pQ pX pj hN h1 h3 h4). Qed.
End Pcrlb.
Print Assumptions pcrlb_is_kalman.
Print Assumptions pcrlb_is_bayes.

(* Identity covariances, one Monte Carlo sample, one step. *)
Example pcrlb_ex (R : rcfType) d (x0 x1 : 'cV[R]_d) (y : 'cV[R]_1) :
  [/\ posdef (1%:M : 'M[R]_d), posdef (1%:M : 'M[R]_1),
      size [:: [:: x0]; [:: x1]] = (size [:: [:: y]]).+1
    & all (fun s => size s == 1%N) [:: [:: x0]; [:: x1]] /\ all (fun s => size s == 1%N) [:: [:: y]]] /\
  second_derivatives (@hess0_ref R) (@hess1_ref R) (@jac10_ref R).
Proof. by split; [split=> //; apply: scalar_posdef; rewrite ltr01|exact: refs_spec]. Qed.
