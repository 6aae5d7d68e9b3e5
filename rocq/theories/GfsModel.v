(* Gaussian filters and smoothers: mfs/classical_filters_smoothers/gfs.py, and the
   integration helpers of mfs/classical_filters_smoothers/quadratures.py they call.
   Vectors are column matrices; dot products, '@' and einsum are matrix products.
   Library calls enter as arguments: [chol] (jax.lax.linalg.cholesky), [log], [pi],
   [jacfwd]/[jacrev] (automatic differentiation). *)
From mathcomp Require Import all_ssreflect all_algebra.
From Verif Require Import Prelude LinAlgSpec.
Set Implicit Arguments.
Unset Strict Implicit.
Unset Printing Implicit Defensive.
Import Order.TTheory GRing.Theory Num.Theory.
Local Open Scope ring_scope.

(* jax.lax.scan with a body that may raise. *)
Fixpoint oscan (S X O : Type) (body : S -> X -> option (S * O)) (s : S) (xs : seq X)
  : option (S * seq O) :=
  match xs with
  | [::] => Some (s, [::])
  | x :: xs' =>
      if body s x is Some (s1, o) then
        if oscan body s1 xs' is Some (s2, os) then Some (s2, o :: os) else None
      else None
  end.

(* jax.lax.scan(body, init, xs, reverse=True): from the last element to the first, the
   outputs stay aligned with xs. *)
Definition scan_reverse (S X O : Type) (body : S -> X -> S * O) (s : S) (xs : seq X)
  : S * seq O :=
  let r := scan body s (rev xs) in (r.1, rev r.2).

Section Rk4.
Variable R : fieldType.
Variables (p q k l : nat).

(* quadratures.py:33-53 rk4_m_cov *)
Definition rk4_m_cov (ode : 'M[R]_(p, q) -> 'M[R]_(k, l) -> 'M[R]_(p, q) * 'M[R]_(k, l))
    (m : 'M[R]_(p, q)) (v : 'M[R]_(k, l)) (dt : R) : 'M[R]_(p, q) * 'M[R]_(k, l) :=
  let: (k1_m, k1_v) := ode m v in
  let: (k2_m, k2_v) := ode (m + 2%:R^-1 *: (dt *: k1_m)) (v + 2%:R^-1 *: (dt *: k1_v)) in
  let: (k3_m, k3_v) := ode (m + 2%:R^-1 *: (dt *: k2_m)) (v + 2%:R^-1 *: (dt *: k2_v)) in
  let: (k4_m, k4_v) := ode (m + dt *: k3_m) (v + dt *: k3_v) in
  (m + 6%:R^-1 *: (dt *: (k1_m + 2%:R *: k2_m + 2%:R *: k3_m + k4_m)),
   v + 6%:R^-1 *: (dt *: (k1_v + 2%:R *: k2_v + 2%:R *: k3_v + k4_v))).

(* quadratures.py:56-79 rk4_m_cov_backward *)
Definition rk4_m_cov_backward
    (ode : 'M[R]_(p, q) -> 'M[R]_(k, l) -> 'M[R]_(p, q) -> 'M[R]_(k, l) ->
           'M[R]_(p, q) * 'M[R]_(k, l))
    (m : 'M[R]_(p, q)) (v : 'M[R]_(k, l)) (mf : 'M[R]_(p, q)) (vf : 'M[R]_(k, l)) (dt : R)
    : 'M[R]_(p, q) * 'M[R]_(k, l) :=
  let: (k1_m, k1_v) := ode m v mf vf in
  let: (k2_m, k2_v) :=
    ode (m + 2%:R^-1 *: (dt *: k1_m)) (v + 2%:R^-1 *: (dt *: k1_v)) mf vf in
  let: (k3_m, k3_v) :=
    ode (m + 2%:R^-1 *: (dt *: k2_m)) (v + 2%:R^-1 *: (dt *: k2_v)) mf vf in
  let: (k4_m, k4_v) := ode (m + dt *: k3_m) (v + dt *: k3_v) mf vf in
  (m + 6%:R^-1 *: (dt *: (k1_m + 2%:R *: k2_m + 2%:R *: k3_m + k4_m)),
   v + 6%:R^-1 *: (dt *: (k1_v + 2%:R *: k2_v + 2%:R *: k3_v + k4_v))).
End Rk4.

(* quadratures.py:82-108 SigmaPoints: the weights w and the pre-sigma points xi.  The
   fields d and n_points are the dimension index and the length of the lists; wc is
   never read by the code. *)
Record sigma_points (R : Type) (d : nat) := SigmaPoints {
  sg_w : seq R;
  sg_xi : seq 'cV[R]_d }.

Section Sgp.
Variable R : rcfType.

(* quadratures.py:196-199 gen_sigma_points: m + einsum('ij,...j->...i', chol, xi) *)
Definition gen_sigma_points d (sg : sigma_points R d) (m : 'cV[R]_d) (chol_of_v : 'M[R]_d)
  : seq 'cV[R]_d :=
  [seq m + chol_of_v *m x | x <- sg_xi sg].

(* quadratures.py:216-229 expectation: einsum('i,i...->...', w, evals) *)
Definition sg_expectation d (sg : sigma_points R d) a b (evals : seq 'M[R]_(a, b))
  : 'M[R]_(a, b) :=
  foldr (fun p acc => p.1 *: p.2 + acc) 0 (zip (sg_w sg) evals).

(* quadratures.py:201-214 expectation_from_nodes *)
Definition expectation_from_nodes d (sg : sigma_points R d) a b
    (v_f : seq 'cV[R]_d -> seq 'M[R]_(a, b)) (chi : seq 'cV[R]_d) : 'M[R]_(a, b) :=
  sg_expectation sg (v_f chi).

(* gfs.py:40-42 _vectorised_outer *)
Definition vectorised_outer a b (xs : seq 'cV[R]_a) (ys : seq 'cV[R]_b) : seq 'M[R]_(a, b) :=
  [seq p.1 *m p.2^T | p <- zip xs ys].
End Sgp.

Section Gfs.
Variable R : rcfType.
(* jax.lax.linalg.cholesky *)
Variable chol : forall n, 'M[R]_n -> 'M[R]_n.
(* jnp.log and math.pi *)
Variable log : R -> R.
Variable pi : R.
(* jax.jacfwd and jax.jacrev of a vector-valued function *)
Variables jacfwd jacrev : forall n m, ('cV[R]_n -> 'cV[R]_m) -> 'cV[R]_n -> 'M[R]_(m, n).

(* gfs.py:45-46 _log_normal_pdf: jax.scipy.stats.norm.logpdf(x, mu, sqrt(variance)),
   that is (log(2 pi scale^2) + (x - mu)^2 / scale^2) / -2 *)
Definition log_normal_pdf (x mu variance : R) : R :=
  let scale := Num.sqrt variance in
  (log (2%:R * pi * scale ^+ 2) + (x - mu) ^+ 2 / scale ^+ 2) / (- 2%:R).

(* gfs.py:49-51 _log_mvn_pdf.  triangular_solve(chol, x - mu) with a vector right-hand
   side and the default arguments solves z triu(chol) = (x - mu)^T. *)
Definition log_mvn_pdf n (x mu : 'cV[R]_n) (L : 'M[R]_n) : R :=
  let z := tsolve_default L (x - mu)^T in
  - 2%:R^-1 * ((z *m z^T) 0 0 + 2%:R * \sum_i log (Num.sqrt (2%:R * pi) * L i i)).

(* gfs.py:54-58 _linear_predict *)
Definition linear_predict d (F Sigma : 'M[R]_d) (m : 'cV[R]_d) (P : 'M[R]_d) :=
  (F *m m, F *m P *m F^T + Sigma).

(* triangular_solve(a, b) with the default arguments and its shape check: with
   left_side=False the last dimension of b must be that of a. *)
Definition tsolve_checked n m k (a : 'M[R]_n) (b : 'M[R]_(m, k)) : option 'M[R]_(m, k) :=
  match n =P k with
  | ReflectT e => Some (b *m castmx (e, e) (invmx (triu a)))
  | ReflectF _ => None
  end.

(* gfs.py:61-80 _linear_update, the branch H.shape[0] == 1 (lines 73-75) *)
Definition linear_update_scalar dx (mp : 'cV[R]_dx) (vp : 'M[R]_dx) (H : 'M[R]_(1, dx))
    (pred_y : 'cV[R]_1) (Xi : 'M[R]_1) (y : 'cV[R]_1) : option ('cV[R]_dx * 'M[R]_dx * R) :=
  let S := H *m vp *m H^T + Xi in
  let K := \matrix_(i, j) ((vp *m H^T) i j / S 0 0) in
  let n_ell := - log_normal_pdf (y 0 0) (pred_y 0 0) (S 0 0) in
  Some (mp + K *m (y - pred_y), vp - K *m S *m K^T, n_ell).

(* gfs.py:61-80 _linear_update, the other branch (lines 76-79): the gain comes from
   triangular_solve(chol, H @ vp).T with the default arguments *)
Definition linear_update_vector dx dy (mp : 'cV[R]_dx) (vp : 'M[R]_dx) (H : 'M[R]_(dy, dx))
    (pred_y : 'cV[R]_dy) (Xi : 'M[R]_dy) (y : 'cV[R]_dy)
    : option ('cV[R]_dx * 'M[R]_dx * R) :=
  let S := H *m vp *m H^T + Xi in
  let L := chol S in
  if tsolve_checked L (H *m vp) is Some X then
    let K := X^T in
    let n_ell := - log_mvn_pdf y pred_y L in
    Some (mp + K *m (y - pred_y), vp - K *m S *m K^T, n_ell)
  else None.

(* gfs.py:61-80 _linear_update: the branch is chosen by the shape of H *)
Definition linear_update dx dy : 'cV[R]_dx -> 'M[R]_dx -> 'M[R]_(dy, dx) -> 'cV[R]_dy ->
    'M[R]_dy -> 'cV[R]_dy -> option ('cV[R]_dx * 'M[R]_dx * R) :=
  match dy with
  | 1%N => @linear_update_scalar dx
  | k => @linear_update_vector dx k
  end.

(* jax.scipy.linalg.cho_solve((c, True), b): forward then backward substitution with
   the lower factor c *)
Definition cho_solve_lower n m (c : 'M[R]_n) (b : 'M[R]_(n, m)) : 'M[R]_(n, m) :=
  invmx (tril c)^T *m (invmx (tril c) *m b).

(* jax.scipy.linalg.cho_factor(a) returns the upper factor chol(a)^T and
   cho_solve((c, False), b) substitutes with c^T then c *)
Definition cho_factor n (a : 'M[R]_n) : 'M[R]_n := (chol a)^T.
Definition cho_solve_upper n m (c : 'M[R]_n) (b : 'M[R]_(n, m)) : 'M[R]_(n, m) :=
  invmx (triu c) *m (invmx (triu c)^T *m b).

(* gfs.py:83-97 _gaussian_smoother_shared *)
Definition gaussian_smoother_shared d (DT : 'M[R]_d) (mf : 'cV[R]_d) (vf : 'M[R]_d)
    (mp : 'cV[R]_d) (vp : 'M[R]_d) (ms : 'cV[R]_d) (vs : 'M[R]_d) : 'cV[R]_d * 'M[R]_d :=
  let c := cho_factor vp in
  let G := (cho_solve_upper c DT)^T in
  (mf + G *m (ms - mp), vf + G *m (vs - vp) *m G^T).

(* gfs.py:100-135 _sgp_prediction; the vmapped callback is a map over the points *)
Definition sgp_prediction d (sg : sigma_points R d)
    (state_cond_m_cov : 'cV[R]_d -> R -> 'cV[R]_d * 'M[R]_d) (dt : R)
    (mf : 'cV[R]_d) (vf : 'M[R]_d)
    : 'cV[R]_d * 'M[R]_d * seq 'cV[R]_d * seq 'cV[R]_d :=
  let chol_vf := chol vf in
  let chi := gen_sigma_points sg mf chol_vf in
  let evals_of_m := [seq (state_cond_m_cov x dt).1 | x <- chi] in
  let evals_of_cov := [seq (state_cond_m_cov x dt).2 | x <- chi] in
  let mp := sg_expectation sg evals_of_m in
  let vp := sg_expectation sg [seq p.1 + p.2 | p <- zip (vectorised_outer evals_of_m evals_of_m)
                                                        evals_of_cov]
            - mp *m mp^T in
  (mp, vp, chi, evals_of_m).

(* gfs.py:138-183 _sgp_update *)
Definition sgp_update dx dy (sg : sigma_points R dx)
    (measurement_cond_m_cov : 'cV[R]_dx -> 'cV[R]_dy * 'M[R]_dy)
    (mp : 'cV[R]_dx) (vp : 'M[R]_dx) (y : 'cV[R]_dy) (const_measurement_cov : bool)
    : 'cV[R]_dx * 'M[R]_dx * R :=
  let chol_vp := chol vp in
  let chi := gen_sigma_points sg mp chol_vp in
  let evals_m := [seq (measurement_cond_m_cov x).1 | x <- chi] in
  let evals_Xi := [seq (measurement_cond_m_cov x).2 | x <- chi] in
  let pred := sg_expectation sg evals_m in
  let S :=
    if const_measurement_cov then
      sg_expectation sg (vectorised_outer evals_m evals_m) - pred *m pred^T + nth 0 evals_Xi 0
    else
      sg_expectation sg [seq p.1 + p.2 | p <- zip (vectorised_outer evals_m evals_m) evals_Xi]
      - pred *m pred^T in
  let C := sg_expectation sg (vectorised_outer chi evals_m)
           - mp *m (sg_expectation sg evals_m)^T in
  let L := chol S in
  let K := (cho_solve_lower L C^T)^T in
  (mp + K *m (y - pred), vp - K *m S *m K^T, - log_mvn_pdf y pred L).

(* gfs.py:186-216 _ekf_update *)
Definition ekf_update dx dy (measurement_cond_m_cov : 'cV[R]_dx -> 'cV[R]_dy * 'M[R]_dy)
    (mp : 'cV[R]_dx) (vp : 'M[R]_dx) (y : 'cV[R]_dy) (fwd_jacobian : bool)
    : option ('cV[R]_dx * 'M[R]_dx * R) :=
  let mean_fn := fun x => (measurement_cond_m_cov x).1 in
  let H := if fwd_jacobian then jacfwd mean_fn mp else jacrev mean_fn mp in
  let: (pred_y_m, pred_y_cov) := measurement_cond_m_cov mp in
  linear_update mp vp H pred_y_m pred_y_cov y.

(* gfs.py:219-232 _cd_sgp_shared *)
Definition cd_sgp_shared d dw (sg : sigma_points R d) (drift : 'cV[R]_d -> 'cV[R]_d)
    (dispersion_const : 'M[R]_(d, dw)) (m : 'cV[R]_d) (P : 'M[R]_d) : 'cV[R]_d * 'M[R]_d :=
  let chol_v := chol P in
  let chi := gen_sigma_points sg m chol_v in
  let evals_of_drift := map drift chi in
  let mp := sg_expectation sg evals_of_drift in
  let _vp := sg_expectation sg (vectorised_outer [seq x - m | x <- chi] evals_of_drift) in
  (mp, _vp + _vp^T + dispersion_const *m dispersion_const^T).

(* gfs.py:235-237 _stack_smoothing_results *)
Definition stack_smoothing_results d (mfs : seq 'cV[R]_d) (vfs : seq 'M[R]_d)
    (mss : seq 'cV[R]_d) (vss : seq 'M[R]_d) : seq 'cV[R]_d * seq 'M[R]_d :=
  (rcons mss (last 0 mfs), rcons vss (last 0 vfs)).

(* The common shape of every filter: jax.lax.scan of
     mp, vp = predict(mf, vf); mf, vf, inc = update(mp, vp, y); n_ell += inc
   started from (m0, v0, 0.) *)
Definition filter_body dx dy
    (predict : 'cV[R]_dx -> 'M[R]_dx -> 'cV[R]_dx * 'M[R]_dx)
    (update : 'cV[R]_dx -> 'M[R]_dx -> 'cV[R]_dy -> option ('cV[R]_dx * 'M[R]_dx * R))
    (carry : 'cV[R]_dx * 'M[R]_dx * R) (y : 'cV[R]_dy)
    : option ('cV[R]_dx * 'M[R]_dx * R * ('cV[R]_dx * 'M[R]_dx * R)) :=
  let: (mf, vf, n_ell) := carry in
  let: (mp, vp) := predict mf vf in
  if update mp vp y is Some (mf', vf', n_ell_inc) then
    let n_ell' := n_ell + n_ell_inc in
    Some ((mf', vf', n_ell'), (mf', vf', n_ell'))
  else None.

Definition run_filter dx dy
    (predict : 'cV[R]_dx -> 'M[R]_dx -> 'cV[R]_dx * 'M[R]_dx)
    (update : 'cV[R]_dx -> 'M[R]_dx -> 'cV[R]_dy -> option ('cV[R]_dx * 'M[R]_dx * R))
    (m0 : 'cV[R]_dx) (v0 : 'M[R]_dx) (ys : seq 'cV[R]_dy)
    : option (seq 'cV[R]_dx * seq 'M[R]_dx * seq R) :=
  if oscan (filter_body predict update) (m0, v0, 0) ys is Some (_, outs) then
    Some ([seq o.1.1 | o <- outs], [seq o.1.2 | o <- outs], [seq o.2 | o <- outs])
  else None.

(* The common shape of every smoother: jax.lax.scan(body, (mfs[-1], vfs[-1]),
   (mfs[:-1], vfs[:-1]), reverse=True), then the stacking of the last filtering state *)
Definition run_smoother d
    (body : 'cV[R]_d -> 'M[R]_d -> 'cV[R]_d -> 'M[R]_d -> 'cV[R]_d * 'M[R]_d)
    (mfs : seq 'cV[R]_d) (vfs : seq 'M[R]_d) : seq 'cV[R]_d * seq 'M[R]_d :=
  let scan_body := fun (carry elem : 'cV[R]_d * 'M[R]_d) =>
    let r := body elem.1 elem.2 carry.1 carry.2 in (r, r) in
  let outs := (scan_reverse scan_body (last 0 mfs, last 0 vfs)
                 (zip (take (size mfs).-1 mfs) (take (size vfs).-1 vfs))).2 in
  stack_smoothing_results mfs vfs [seq o.1 | o <- outs] [seq o.2 | o <- outs].

(* gfs.py:240-279 kf *)
Definition kf dx dy (F Sigma : 'M[R]_dx) (H : 'M[R]_(dy, dx)) (Xi : 'M[R]_dy)
    (m0 : 'cV[R]_dx) (v0 : 'M[R]_dx) (ys : seq 'cV[R]_dy) :=
  run_filter (linear_predict F Sigma)
    (fun mp vp y => linear_update mp vp H (H *m mp) Xi y) m0 v0 ys.

(* gfs.py:282-314 rts *)
Definition rts_body d (F Sigma : 'M[R]_d) (mf : 'cV[R]_d) (vf : 'M[R]_d)
    (ms : 'cV[R]_d) (vs : 'M[R]_d) :=
  gaussian_smoother_shared (F *m vf) mf vf (F *m mf) (F *m vf *m F^T + Sigma) ms vs.
Definition rts d (F Sigma : 'M[R]_d) (mfs : seq 'cV[R]_d) (vfs : seq 'M[R]_d) :=
  run_smoother (rts_body F Sigma) mfs vfs.

(* gfs.py:317-362 ekf; lines 352-354 are the prediction *)
Definition ekf_predict d (state_cond_m_cov : 'cV[R]_d -> R -> 'cV[R]_d * 'M[R]_d) (dt : R)
    (mf : 'cV[R]_d) (vf : 'M[R]_d) : 'cV[R]_d * 'M[R]_d :=
  let jac_F := jacfwd (fun u => (state_cond_m_cov u dt).1) mf in
  let: (mp, Sigma) := state_cond_m_cov mf dt in
  (mp, jac_F *m vf *m jac_F^T + Sigma).
Definition ekf dx dy (state_cond_m_cov : 'cV[R]_dx -> R -> 'cV[R]_dx * 'M[R]_dx)
    (measurement_cond_m_cov : 'cV[R]_dx -> 'cV[R]_dy * 'M[R]_dy)
    (m0 : 'cV[R]_dx) (v0 : 'M[R]_dx) (dt : R) (ys : seq 'cV[R]_dy) (fwd_jacobian : bool) :=
  run_filter (ekf_predict state_cond_m_cov dt)
    (fun mp vp y => ekf_update measurement_cond_m_cov mp vp y fwd_jacobian) m0 v0 ys.

(* gfs.py:365-399 eks *)
Definition eks_body d (state_cond_m_cov : 'cV[R]_d -> R -> 'cV[R]_d * 'M[R]_d) (dt : R)
    (mf : 'cV[R]_d) (vf : 'M[R]_d) (ms : 'cV[R]_d) (vs : 'M[R]_d) :=
  let jac_F := jacfwd (fun u => (state_cond_m_cov u dt).1) mf in
  let: (mp, Sigma) := state_cond_m_cov mf dt in
  let vp := jac_F *m vf *m jac_F^T + Sigma in
  gaussian_smoother_shared (jac_F *m vf) mf vf mp vp ms vs.
Definition eks d (state_cond_m_cov : 'cV[R]_d -> R -> 'cV[R]_d * 'M[R]_d)
    (mfs : seq 'cV[R]_d) (vfs : seq 'M[R]_d) (dt : R) :=
  run_smoother (eks_body state_cond_m_cov dt) mfs vfs.

(* gfs.py:402-453 cd_ekf; lines 440-441 are the ODEs *)
Definition cd_ekf_odes d dw (drift : 'cV[R]_d -> 'cV[R]_d)
    (dispersion : 'cV[R]_d -> 'M[R]_(d, dw)) (m : 'cV[R]_d) (v : 'M[R]_d) :=
  (drift m, v *m (jacfwd drift m)^T + jacfwd drift m *m v
            + dispersion m *m (dispersion m)^T).
Definition cd_ekf dx dw dy (drift : 'cV[R]_dx -> 'cV[R]_dx)
    (dispersion : 'cV[R]_dx -> 'M[R]_(dx, dw))
    (measurement_cond_m_cov : 'cV[R]_dx -> 'cV[R]_dy * 'M[R]_dy)
    (m0 : 'cV[R]_dx) (v0 : 'M[R]_dx) (dt : R) (ys : seq 'cV[R]_dy) (fwd_jacobian : bool) :=
  run_filter (fun mf vf => rk4_m_cov (cd_ekf_odes drift dispersion) mf vf dt)
    (fun mp vp y => ekf_update measurement_cond_m_cov mp vp y fwd_jacobian) m0 v0 ys.

(* gfs.py:456-500 cd_eks; lines 484-489 are the ODEs, integrated with step -dt *)
Definition cd_eks_odes d dw (drift : 'cV[R]_d -> 'cV[R]_d)
    (dispersion : 'cV[R]_d -> 'M[R]_(d, dw)) (m : 'cV[R]_d) (v : 'M[R]_d)
    (mf : 'cV[R]_d) (vf : 'M[R]_d) :=
  let gamma := dispersion m *m (dispersion m)^T in
  let c := cho_factor vf in
  let jac_and_gamma_and_chol := jacfwd drift m + (cho_solve_upper c gamma^T)^T in
  (drift m + gamma *m cho_solve_upper c (m - mf),
   jac_and_gamma_and_chol *m v + v *m jac_and_gamma_and_chol^T - gamma).
Definition cd_eks d dw (drift : 'cV[R]_d -> 'cV[R]_d)
    (dispersion : 'cV[R]_d -> 'M[R]_(d, dw)) (mfs : seq 'cV[R]_d) (vfs : seq 'M[R]_d)
    (dt : R) :=
  run_smoother (fun mf vf ms vs =>
    rk4_m_cov_backward (cd_eks_odes drift dispersion) ms vs mf vf (- dt)) mfs vfs.

(* gfs.py:503-551 sgp_filter *)
Definition sgp_filter dx dy (state_cond_m_cov : 'cV[R]_dx -> R -> 'cV[R]_dx * 'M[R]_dx)
    (measurement_cond_m_cov : 'cV[R]_dx -> 'cV[R]_dy * 'M[R]_dy) (sg : sigma_points R dx)
    (m0 : 'cV[R]_dx) (v0 : 'M[R]_dx) (dt : R) (ys : seq 'cV[R]_dy)
    (const_measurement_cov : bool) :=
  run_filter
    (fun mf vf => let: (mp, vp, _, _) := sgp_prediction sg state_cond_m_cov dt mf vf in (mp, vp))
    (fun mp vp y => Some (sgp_update sg measurement_cond_m_cov mp vp y const_measurement_cov))
    m0 v0 ys.

(* gfs.py:554-593 sgp_smoother *)
Definition sgp_smoother_body d (state_cond_m_cov : 'cV[R]_d -> R -> 'cV[R]_d * 'M[R]_d)
    (sg : sigma_points R d) (dt : R) (mf : 'cV[R]_d) (vf : 'M[R]_d)
    (ms : 'cV[R]_d) (vs : 'M[R]_d) :=
  let: (mp, vp, chi, evals_of_m) := sgp_prediction sg state_cond_m_cov dt mf vf in
  let D := sg_expectation sg (vectorised_outer chi evals_of_m) - mf *m mp^T in
  gaussian_smoother_shared D^T mf vf mp vp ms vs.
Definition sgp_smoother d (state_cond_m_cov : 'cV[R]_d -> R -> 'cV[R]_d * 'M[R]_d)
    (sg : sigma_points R d) (mfs : seq 'cV[R]_d) (vfs : seq 'M[R]_d) (dt : R) :=
  run_smoother (sgp_smoother_body state_cond_m_cov sg dt) mfs vfs.

(* gfs.py:596-650 cd_sgp_filter *)
Definition cd_sgp_filter dx dw dy (drift : 'cV[R]_dx -> 'cV[R]_dx)
    (dispersion : 'M[R]_(dx, dw)) (measurement_cond_m_cov : 'cV[R]_dx -> 'cV[R]_dy * 'M[R]_dy)
    (sg : sigma_points R dx) (m0 : 'cV[R]_dx) (v0 : 'M[R]_dx) (dt : R)
    (ys : seq 'cV[R]_dy) (const_measurement_cov : bool) :=
  run_filter (fun mf vf => rk4_m_cov (cd_sgp_shared sg drift dispersion) mf vf dt)
    (fun mp vp y => Some (sgp_update sg measurement_cond_m_cov mp vp y const_measurement_cov))
    m0 v0 ys.

(* gfs.py:653-702 cd_sgp_smoother; lines 685-691 are the ODEs, step -dt *)
Definition cd_sgp_smoother_odes d dw (drift : 'cV[R]_d -> 'cV[R]_d)
    (dispersion : 'M[R]_(d, dw)) (sg : sigma_points R d) (m : 'cV[R]_d) (v : 'M[R]_d)
    (mf : 'cV[R]_d) (vf : 'M[R]_d) :=
  let gamma := dispersion *m dispersion^T in
  let c := cho_factor vf in
  let G := cho_solve_upper c gamma in
  let: (_m, _P) := cd_sgp_shared sg drift dispersion m v in
  (_m + G^T *m (m - mf), _P + G^T *m v + v *m G - 2%:R *: gamma).
Definition cd_sgp_smoother d dw (drift : 'cV[R]_d -> 'cV[R]_d) (dispersion : 'M[R]_(d, dw))
    (sg : sigma_points R d) (mfs : seq 'cV[R]_d) (vfs : seq 'M[R]_d) (dt : R) :=
  run_smoother (fun mf vf ms vs =>
    rk4_m_cov_backward (cd_sgp_smoother_odes drift dispersion sg) ms vs mf vf (- dt)) mfs vfs.
End Gfs.
