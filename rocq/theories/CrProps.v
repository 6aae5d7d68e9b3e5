(* Property C139: the Cramer-Rao script of the prey-predator experiment. *)
From mathcomp Require Import all_ssreflect all_algebra.
From Verif Require Import Prelude LinAlgSpec LinAlgProofs SmallMx GfsVec GfsModel GfsSpec PcrlbModel PcrlbProofs CrModel CrProofs.
From Verif Require Import SsModel SsProofs.
Set Implicit Arguments.
Unset Strict Implicit.
Unset Printing Implicit Defensive.
Import Order.TTheory GRing.Theory Num.Theory.
Local Open Scope ring_scope.

Section Cr.
Variable R : rcfType.
Variable hess0 : forall p q, ('cV[R]_p -> 'cV[R]_q -> R) -> 'cV[R]_p -> 'cV[R]_q -> 'M[R]_p.
Variable hess1 : forall p q, ('cV[R]_p -> 'cV[R]_q -> R) -> 'cV[R]_p -> 'cV[R]_q -> 'M[R]_q.
Variable jac10 : forall p q, ('cV[R]_p -> 'cV[R]_q -> R) -> 'cV[R]_p -> 'cV[R]_q -> 'M[R]_(q, p).

(* C139, for every model: step k sees the measurements and the states of step k of all runs, and the states of step k - 1,
   which are the initial states for the first step; there are T bounds. *)
Theorem cramer_rao_alignment dx dy (l0 : 'cV[R]_dx -> R) lt (ll : 'cV[R]_dy -> 'cV[R]_dx -> R) T
    (x0s : seq 'cV[R]_dx) (xss : seq (seq 'cV[R]_dx)) (yss : seq (seq 'cV[R]_dy)) : size x0s = size xss ->
  cr_js hess0 hess1 jac10 l0 lt ll T x0s xss yss
  = (scan (pcrlb_body hess0 hess1 jac10 lt ll) (cr_j0 hess0 l0 x0s)
      [seq ([seq nth 0 run k | run <- yss],
            ([seq nth 0 run k | run <- xss], if k is k'.+1 then [seq nth 0 run k' | run <- xss] else x0s)) | k <- iota 0 T]).2
  /\ size (crlbs hess0 hess1 jac10 l0 lt ll T x0s xss yss) = T.
Proof. exact: cr_js_spec. Qed.

(* C139: the initial information is minus the mean over all runs of the second derivatives of the initial log density *)
Theorem cramer_rao_initial dx (l0 : 'cV[R]_dx -> R) (x0s : seq 'cV[R]_dx) :
  cr_j0 hess0 l0 x0s = - ((size x0s)%:R^-1 *: \sum_(x <- x0s) @hess0 dx 0 (fun u _ => l0 u) x 0).
Proof. exact: cr_j0E. Qed.

Hypothesis dP : second_derivatives hess0 hess1 jac10.

(* C139, linear Gaussian models: the script returns the Kalman covariances from the covariance of the initial law, whatever
   was simulated. *)
Theorem cramer_rao_is_kalman dx (chol : forall n, 'M[R]_n -> 'M[R]_n) (log : R -> R) (pi : R)
    (F Q P0 : 'M[R]_dx) (b m0 : 'cV[R]_dx) (c0 cx cy : R)
    (H : 'M[R]_(1, dx)) (c : 'cV[R]_1) (Xi : 'M[R]_1) T x0s xss (yss : seq (seq 'cV[R]_1)) ys :
  posdef Q -> posdef Xi -> posdef P0 -> (0 < size x0s)%N -> size xss = size x0s -> size yss = size x0s -> size ys = T ->
  exists ms vs es, kf chol log pi F Q H Xi m0 P0 ys = Some (ms, vs, es) /\
  crlbs hess0 hess1 jac10 (fun x => c0 - 2%:R^-1 * qform (invmx P0) (x - m0)) (gauss_logpdf F b Q cx) (gauss_logpdf H c Xi cy)
    T x0s xss yss = vs.
Proof. exact: cr_kalman. Qed.
End Cr.
Print Assumptions cramer_rao_alignment.
Print Assumptions cramer_rao_initial.
Print Assumptions cramer_rao_is_kalman.

(* C139: the log likelihood of the script is that of the model *)
Theorem cramer_rao_likelihood (R : rcfType) (exp log : R -> R) (y : int) (x : 'cV[R]_2) :
  exp_spec exp -> log_spec exp log -> y = 0 \/ y = 1 -> exp (cr_loglik exp log y x) = pp_pmf exp y x.
Proof. exact: cr_loglik_spec. Qed.
Print Assumptions cramer_rao_likelihood.

(* Two runs of one step *)
Example cramer_rao_ex (R : rcfType) d (x0 x1 : 'cV[R]_d) (y : 'cV[R]_1) :
  let x0s := [:: x0; x1] in let xss := [:: [:: x1]; [:: x0]] in let yss := [:: [:: y]; [:: y]] in
  [/\ posdef (1%:M : 'M[R]_d), posdef (1%:M : 'M[R]_1), (0 < size x0s)%N, size xss = size x0s & size yss = size x0s] /\
  second_derivatives (@hess0_ref R) (@hess1_ref R) (@jac10_ref R).
Proof. by split; [split=> //; apply: scalar_posdef; rewrite ltr01|exact: refs_spec]. Qed.
