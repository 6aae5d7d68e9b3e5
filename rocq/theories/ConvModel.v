(* Model of the scripts dardel/convergence/convergence_mf.py and convergence_pf.py: the
   Ornstein-Uhlenbeck convergence experiment.  The two scripts share the model, the simulation, the
   Kalman filter and the error formulas; line numbers are those of convergence_mf.py unless said.

   The constants dt, ell, sigma, the measurement variance and T are arguments (the script fixes them
   to 0.1, 1, 0.5, 1 and 100). *)
From Coq Require Import String.
From mathcomp Require Import all_ssreflect all_algebra.
From Verif Require Import Prelude LinAlgSpec QuadModel Moments1DModel Filter1DModel SsModel ResampleModel.
Set Implicit Arguments.
Unset Strict Implicit.
Unset Printing Implicit Defensive.
Import Order.TTheory GRing.Theory Num.Theory.
Local Open Scope ring_scope.

Section Conv.
Variable R : rcfType.
(* math.exp / jnp.exp / np.exp, np.log / jnp.log, the constant pi, jnp.linalg.cholesky *)
Variables (exp log : R -> R) (pi : R).
Variable chol : forall n, 'M[R]_n -> 'M[R]_n.
(* lines 32-39 *)
Variables (dt ell sigma noise_var : R).

(* line 34 *)
Definition conv_ts (T : nat) : seq R := linspace dt (dt * T%:R) T.
(* line 39: mean0, var0 *)
Definition conv_mean0 : R := 0.
Definition conv_var0 : R := sigma ^+ 2.
(* lines 42-47 *)
Definition conv_drift (x : R) : R := - 1 / ell * x.
Definition conv_dispersion (_ : R) : R := Num.sqrt 2%:R * sigma / Num.sqrt ell.
(* line 51: F, Sigma *)
Definition conv_F : R := exp (- dt / ell).
Definition conv_Sigma : R := sigma ^+ 2 * (1 - exp (- 2%:R * dt / ell)).

(* lines 54-55: the entry (i, j) of exp(-abs(t1[None, :] - t2[:, None]) / ell) * sigma ** 2 *)
Definition matern12 T (t1 t2 : seq R) : 'M[R]_T :=
  \matrix_(i, j) (exp (- `|nth 0 t1 j - nth 0 t2 i| / ell) * sigma ^+ 2).

(* jax.scipy.stats.norm.logpdf(x, loc, scale) and norm.pdf, its exponential *)
Definition norm_logpdf (x loc scale : R) : R :=
  (log (2%:R * pi * scale ^+ 2) + (x - loc) ^+ 2 / scale ^+ 2) / (- 2%:R).
Definition norm_pdf (x loc scale : R) : R := exp (norm_logpdf x loc scale).

(* lines 58-61 *)
Definition conv_pdf (y x : R) : R := norm_pdf y x (Num.sqrt noise_var).

(* lines 64-80: kf *)
Definition conv_kf_body (carry : R * R * R) (y : R) : (R * R * R) * (R * R) :=
  let '(mf, vf, nell) := carry in
  let mp := conv_F * mf in
  let vp := conv_F * vf * conv_F + conv_Sigma in
  let s := vp + noise_var in
  let k := vp / s in
  let mf := mp + k * (y - mp) in
  let vf := vp - vp * k in
  let nell := nell - norm_logpdf y mp (Num.sqrt s) in
  ((mf, vf, nell), (mf, vf)).
Definition conv_kf (ys : seq R) : seq R * seq R * R :=
  let (carry, out) := scan conv_kf_body (conv_mean0, conv_var0, 0) ys in
  ([seq o.1 | o <- out], [seq o.2 | o <- out], carry.2).

(* lines 86-103: the callbacks of the moment filters; list_of_rms[n] clamps n *)
Definition conv_cond_raw (num_moments : nat) (x : R) (n : nat) : R :=
  jget 0 [seq raw_moment_of_normal (conv_F * x) conv_Sigma p | p <- iota 0 num_moments] n.
Definition conv_cond_central (num_moments : nat) (x : R) (n : nat) (mean : R) : R :=
  jget 0 [seq raw_moment_of_normal (conv_F * x - mean) conv_Sigma p | p <- iota 0 num_moments] n.
(* lines 106-107 *)
Definition conv_cond_mean (x : R) : R := conv_F * x.
(* lines 111-112 *)
Definition conv_rms0 (num_moments : nat) : seq R :=
  [seq raw_moment_of_normal conv_mean0 conv_var0 p | p <- iota 0 num_moments].
Definition conv_cms0 (num_moments : nat) : seq R :=
  [seq central_moment_of_normal conv_var0 p | p <- iota 0 num_moments].

(* lines 147-148: the simulated trajectory and measurements, from the standard normal draws w and v *)
Definition conv_xs T (w : 'cV[R]_T) : 'cV[R]_T :=
  chol (matern12 T (conv_ts T) (conv_ts T)) *m w.
Definition conv_ys T (w v : 'cV[R]_T) : 'cV[R]_T :=
  conv_xs w + Num.sqrt noise_var *: v.

(* lines 162-165 *)
Definition err_mean (m m' : R) : R := `|m - m'|.
Definition err_kl (m v true_m true_v : R) : R :=
  1 / 2%:R * (exp (log v - log true_v) - 1 + (true_m - m) ^+ 2 / true_v + log true_v - log v).

(* ---- convergence_pf.py, lines 81-112 ---- *)
(* lines 84-85 and 90-91: K, m and cov *)
Definition prop_K : R := conv_Sigma / (conv_Sigma + noise_var).
Definition prop_mean (a y : R) : R := conv_F * a + prop_K * (y - conv_F * a).
Definition prop_cov : R := conv_Sigma - prop_K * conv_Sigma.
(* lines 81-86; w is the draw jax.random.normal *)
Definition proposal_sampler (K : Type) (normal : K -> nat -> seq R) (ancestors : seq R) (y : R) (key : K)
  : seq R :=
  [seq prop_mean t.1 y + Num.sqrt prop_cov * t.2 | t <- zip ancestors (normal key (size ancestors))].
(* lines 89-92 *)
Definition proposal_density (xs ancestors : seq R) (y : R) : seq R :=
  [seq norm_pdf t.1 (prop_mean t.2 y) (Num.sqrt prop_cov) | t <- zip xs ancestors].
(* lines 95-96 *)
Definition transition_density (xs ancestors : seq R) : seq R :=
  [seq norm_pdf t.1 (conv_F * t.2) (Num.sqrt conv_Sigma) | t <- zip xs ancestors].
(* lines 56-59 *)
Definition likelihood_density (y : R) (xs : seq R) : seq R := [seq conv_pdf y x | x <- xs].

(* lines 99-100 *)
Definition conv_init_sampler (K : Type) (normal : K -> nat -> seq R) (key : K) (n : nat) : seq R :=
  [seq conv_mean0 + Num.sqrt conv_var0 * w | w <- normal key n].

(* lines 116-132: the bodies of the two jitted functions, with moment_filter_rms and moment_filter_cms
   referring to the library (see mf_globals for what the names do refer to); rmss[:, 2] clamps *)
Definition conv_mf_raw (eigh : forall n, 'M[R]_n -> 'M[R]_n * 'rV[R]_n) (num_moments : nat) (ys : seq R)
  : option (seq R * seq R) :=
  omap (fun o => ([seq jget 0 r 1 | r <- o.1], [seq jget 0 r 2 - jget 0 r 1 ^+ 2 | r <- o.1]))
    (moment_filter_rms chol eigh log (conv_cond_raw num_moments) conv_pdf false (conv_rms0 num_moments) ys).
Definition conv_mf_central (eigh : forall n, 'M[R]_n -> 'M[R]_n * 'rV[R]_n) (num_moments : nat) (ys : seq R)
  : option (seq R * seq R) :=
  omap (fun o => ([seq r.2 | r <- o.1], [seq jget 0 r.1 2 | r <- o.1]))
    (moment_filter_cms chol eigh log (conv_cond_central num_moments) conv_cond_mean conv_pdf false
       (conv_cms0 num_moments) conv_mean0 ys).

(* convergence_pf.py, lines 104-112: the particle filter with the states of shape (n, 1) read as (n,); split1 and
   split_keys are jax.random.split.  The means and variances of the returned samples. *)
Definition conv_pf (K : Type) (split1 : K -> K) (split_keys : K -> nat -> seq K) (normal : K -> nat -> seq R)
    (stratified : seq R -> K -> seq nat) (ys : seq R) (key : K) (nparticles : nat) : seq R * seq R :=
  let samples := particle_filter 0 split1 split_keys (proposal_sampler normal) proposal_density
    transition_density likelihood_density stratified ys (conv_init_sampler normal) key nparticles in
  let mean s := jsum s / (size s)%:R in
  ([seq mean s | s <- samples], [seq mean [seq (x - mean s) ^+ 2 | x <- s] | s <- samples]).
End Conv.

(* ---- The name bindings of convergence_mf.py ----
   Line 14 imports moment_filter_rms and moment_filter_cms, lines 116-122 and 125-132 define jitted
   functions of the same names whose bodies call these names.  Python looks a global name up when the
   call is evaluated, among the bindings made so far: the latest one wins. *)
Inductive pyerror := TypeError | NameError | NotImplementedError | RecursionError.
(* a function: the range of its positional arguments, and a body: the library code, or a call of a
   global name with some number of arguments *)
Inductive pybody := Library | Calls of string & nat.
Record pyfun := PyFun { fun_min : nat; fun_max : nat; fun_body : pybody }.
Definition globals := seq (string * pyfun).
Fixpoint lookup (g : globals) (x : string) : option pyfun :=
  match g with
  | [::] => None
  | (y, f) :: g => if String.eqb x y then Some f else lookup g x
  end.
(* the result of calling a global name with n arguments: the library code that is reached *)
Fixpoint py_call (fuel : nat) (g : globals) (x : string) (n : nat) : string + pyerror :=
  match fuel with
  | 0 => inr RecursionError
  | fuel.+1 =>
    match lookup g x with
    | None => inr NameError
    | Some f =>
      if (fun_min f <= n <= fun_max f)%N then
        match fun_body f with Library => inl x | Calls y k => py_call fuel g y k end
      else inr TypeError
    end
  end.

(* one_dim/filtering.py, lines 32-36 and 92-97: four and six positional arguments, one optional *)
Definition mf_imports : globals :=
  [:: ("moment_filter_rms", PyFun 4 5 Library); ("moment_filter_cms", PyFun 6 7 Library)]%string.
(* lines 116-132, the latest binding first *)
Definition mf_globals : globals :=
  [:: ("moment_filter_cms", PyFun 1 1 (Calls "moment_filter_cms" 6));
      ("moment_filter_rms", PyFun 1 1 (Calls "moment_filter_rms" 4))]%string ++ mf_imports.
(* lines 154-159: the filter run of one Monte Carlo round, with the global names bound by g *)
Definition mf_run_in (g : globals) (fuel : nat) (mode : string) : string + pyerror :=
  if String.eqb mode "raw" then py_call fuel g "moment_filter_rms" 1
  else if String.eqb mode "central" then py_call fuel g "moment_filter_cms" 1
  else inr NotImplementedError.
Definition mf_run : nat -> string -> string + pyerror := mf_run_in mf_globals.
