(* What the Gaussian filters and smoothers should compute, stated without reference to
   the code: Gaussian densities as quadratic forms and determinants, Bayes' rule, the
   joint law of a linear Gaussian model. *)
From mathcomp Require Import all_ssreflect all_algebra.
From Verif Require Import LinAlgSpec.
Set Implicit Arguments.
Unset Strict Implicit.
Unset Printing Implicit Defensive.
Import Order.TTheory GRing.Theory Num.Theory.
Local Open Scope ring_scope.

Section Spec.
Variable R : rcfType.

(* A logarithm: the only law used is multiplicativity on the positive numbers. *)
Definition log_spec (log : R -> R) : Prop :=
  forall x y, 0 < x -> 0 < y -> log (x * y) = log x + log y.

(* The logarithm of the density of N(mu, S) at x. *)
Definition log_gauss (log : R -> R) (pi : R) n (x mu : 'cV[R]_n) (S : 'M[R]_n) : R :=
  - 2%:R^-1 * (qform (invmx S) (x - mu) + log ((2%:R * pi) ^+ n * \det S)).

(* Bayes' rule for x ~ N(m, P), y | x ~ N(A x + c, Q):
     N(y; A x + c, Q) N(x; m, P) = N(y; A m + c, A P A^T + Q) N(x; m', P')
   for every x.  The two sides are exponentials of quadratic forms divided by square
   roots of determinants: the exponents and the determinants agree. *)
Definition bayes_rule dx dy (A : 'M[R]_(dy, dx)) (c : 'cV[R]_dy) (Q : 'M[R]_dy)
    (m : 'cV[R]_dx) (P : 'M[R]_dx) (y : 'cV[R]_dy) (m' : 'cV[R]_dx) (P' : 'M[R]_dx) : Prop :=
  [/\ posdef P',
      forall x, qform (invmx Q) (y - (A *m x + c)) + qform (invmx P) (x - m)
              = qform (invmx (A *m P *m A^T + Q)) (y - (A *m m + c))
                + qform (invmx P') (x - m')
    & \det Q * \det P = \det (A *m P *m A^T + Q) * \det P'].

(* Exact filtering in the affine Gaussian model
     x_k = F x_{k-1} + b + N(0, Sigma),   y_k = H x_k + c + N(0, Xi)
   from x_{k-1} ~ N(m, v): one step to the posterior N(m', v') with the negative log
   predictive density of y added to l. *)
Definition exact_step dx dy (log : R -> R) (pi : R)
    (F : 'M[R]_dx) (b : 'cV[R]_dx) (Sigma : 'M[R]_dx)
    (H : 'M[R]_(dy, dx)) (c : 'cV[R]_dy) (Xi : 'M[R]_dy)
    (s : 'cV[R]_dx * 'M[R]_dx * R) (y : 'cV[R]_dy) (s' : 'cV[R]_dx * 'M[R]_dx * R) : Prop :=
  let mp := F *m s.1.1 + b in
  let vp := F *m s.1.2 *m F^T + Sigma in
  bayes_rule H c Xi mp vp y s'.1.1 s'.1.2 /\ s'.2 = s.2 - log_gauss log pi y (H *m mp + c) (H *m vp *m H^T + Xi).

(* A whole history of such steps. *)
Fixpoint chain_of (S Y : Type) (step : S -> Y -> S -> Prop) (s : S) (ys : seq Y) (outs : seq S)
  : Prop :=
  match ys, outs with
  | [::], [::] => True
  | y :: ys', s' :: outs' => step s y s' /\ chain_of step s' ys' outs'
  | _, _ => False
  end.

(* Twice the negative log posterior, up to a constant, of a trajectory x_1, ..., x_T of
   the linear Gaussian model with x_1 ~ N(mp, vp):
     |x_1 - mp|^2_vp + sum_k |x_k - F x_{k-1}|^2_Sigma + sum_k |y_k - H x_k|^2_Xi. *)
Fixpoint traj_cost dx dy (F Sigma : 'M[R]_dx) (H : 'M[R]_(dy, dx)) (Xi : 'M[R]_dy)
    (x : 'cV[R]_dx) (ys : seq 'cV[R]_dy) (xs : seq 'cV[R]_dx) : R :=
  match ys, xs with
  | y :: ys', x' :: xs' =>
      qform (invmx Sigma) (x' - F *m x) + qform (invmx Xi) (y - H *m x')
      + traj_cost F Sigma H Xi x' ys' xs'
  | _, _ => 0
  end.
Definition posterior_cost dx dy (F Sigma : 'M[R]_dx) (H : 'M[R]_(dy, dx)) (Xi : 'M[R]_dy)
    (mp : 'cV[R]_dx) (vp : 'M[R]_dx) (ys : seq 'cV[R]_dy) (xs : seq 'cV[R]_dx) : R :=
  match ys, xs with
  | y :: ys', x :: xs' =>
      qform (invmx vp) (x - mp) + qform (invmx Xi) (y - H *m x)
      + traj_cost F Sigma H Xi x ys' xs'
  | _, _ => 0
  end.

(* The Gaussian with quadratic cost J over trajectories of length T has marginal
   N(m, v) at time k: the minimum of J over the other states is the quadratic form of v
   about m, up to a constant (for a Gaussian, integrating out and minimising agree). *)
Definition gauss_marginal d (J : seq 'cV[R]_d -> R) (T k : nat) (m : 'cV[R]_d) (v : 'M[R]_d)
  : Prop :=
  posdef v /\
  exists c,
    (forall xs, size xs = T -> c + qform (invmx v) (nth 0 xs k - m) <= J xs) /\
    (forall x, exists xs, [/\ size xs = T, nth 0 xs k = x &
                             J xs = c + qform (invmx v) (x - m)]).

(* The mode of the trajectory. *)
Definition unique_minimiser d (J : seq 'cV[R]_d -> R) (T : nat) (xs : seq 'cV[R]_d) : Prop :=
  size xs = T /\
  forall zs, size zs = T -> J xs <= J zs /\ (J zs = J xs -> zs = xs).

(* A differentiation oracle that is right on affine maps. *)
Definition jac_affine_spec
    (jac : forall n m, ('cV[R]_n -> 'cV[R]_m) -> 'cV[R]_n -> 'M[R]_(m, n)) : Prop :=
  forall n m (f : 'cV[R]_n -> 'cV[R]_m) (A : 'M[R]_(m, n)) (b : 'cV[R]_m),
    (forall x, f x = A *m x + b) -> forall x, jac n m f x = A.

(* A sigma-point rule with unit mass, mean zero and identity covariance. *)
Definition sg_rule d (w : seq R) (xi : seq 'cV[R]_d) : Prop :=
  [/\ size w = size xi,
      \sum_(p <- zip w xi) p.1 = 1,
      \sum_(p <- zip w xi) p.1 *: p.2 = 0
    & \sum_(p <- zip w xi) p.1 *: (p.2 *m p.2^T) = 1%:M].
End Spec.
