(* A differentiation operator over the reals: right wherever the function is differentiable. *)
From Coq Require Import Reals Epsilon.
From mathcomp Require Import all_ssreflect all_algebra ring.
From Verif Require Import Prelude LinAlgSpec LinAlgProofs LdlProofs SmallMx GfsModel GfsSpec GfsProofs GfsKf GfsVec EkfLin NlProps RealField.
Set Implicit Arguments.
Unset Strict Implicit.
Unset Printing Implicit Defensive.
Import Order.TTheory GRing.Theory Num.Theory.
Local Open Scope ring_scope.

Definition K := R_rcfType.

Definition real_jac n m (f : 'cV[K]_n -> 'cV[K]_m) (x : 'cV[K]_n) : 'M[K]_(m, n) :=
  epsilon (inhabits 0) (has_jacobian f x).

Theorem real_jac_spec : jac_spec real_jac.
Proof.
move=> n m f x D h; apply: (@jacobian_unique K _ _ f x) => //.
have ex : exists D, has_jacobian f x D by exists D.
exact: (@epsilon_spec _ (inhabits 0) (has_jacobian f x) ex).
Qed.

(* C85: the hypotheses of the theorems on ekf and eks hold together for a nonlinear model. *)
Example ekf_linearised_ex (log : K -> K) (pi : K) (m0 : 'cV[K]_1) ys fw :
  let f := fun (x : 'cV[K]_1) (t : K) => (x + x *m x, 1%:M : 'M[K]_1) in
  let h := fun x : 'cV[K]_1 => (x *m x, 1%:M : 'M[K]_1) in
  exists outs,
    ekf (@chol_ref K) log pi real_jac real_jac f h m0 1%:M 0 ys fw
    = Some ([seq s.1.1 | s <- outs], [seq s.1.2 | s <- outs], [seq s.2 | s <- outs]) /\
    chain_of (linearised_step log pi (fun x => x + x *m x) (fun x => 1%:M + 2%:R *: x) (fun=> 1%:M)
      (fun x => x *m x) (fun x => 2%:R *: x) (fun=> 1%:M)) (m0, 1%:M, 0) ys outs.
Proof.
move=> f h; have [h1 [h2 h3]] := quadratic_model K.
have p1 : posdef (1%:M : 'M[K]_1) by apply: scalar_posdef; rewrite ltr01.
exact: (@ekf_linearised_exact K (@chol_ref K) log pi real_jac real_jac 1 0 f h
  (fun x => 1%:M + 2%:R *: x) (fun x => 2%:R *: x) m0 1%:M ys fw real_jac_spec real_jac_spec h1 h2 (fun=> p1) h3 p1).
Qed.
Print Assumptions real_jac_spec.
