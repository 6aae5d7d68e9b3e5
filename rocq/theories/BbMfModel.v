(* Model of dardel/benes_bernoulli/mf.py and post_processing_mf.py.

   The measurements drawn by jax.random.bernoulli are booleans.  tme_expectation and tme_mean_and_cov
   stand for tme.expectation and tme.mean_and_cov at the drift, dispersion, step and order of the
   script (squeezed).  The loop over the Monte Carlo runs and the files is left out: the data written
   by one run are read back as they are. *)
From Coq Require Import String.
From mathcomp Require Import all_ssreflect all_algebra.
From mathcomp Require Import complex.
From Verif Require Import Prelude QuadModel Moments1DModel Filter1DModel FourierModel SsModel.
Set Implicit Arguments.
Unset Strict Implicit.
Unset Printing Implicit Defensive.
Import Order.TTheory GRing.Theory Num.Theory.
Local Open Scope ring_scope.
Local Open Scope seq_scope.

Section BbMf.
Variable R : rcfType.
Variables (exp log : R -> R) (cexp : R[i] -> R[i]).
Variable chol : forall n, 'M[R]_n -> 'M[R]_n.
Variable eigh : forall n, 'M[R]_n -> 'M[R]_n * 'rV[R]_n.
Variables (tme_expectation : (R -> R) -> R -> R) (tme_mean_and_cov : R -> R * R).

(* mf.py, lines 36-48: the callbacks for args.normal and without it; state_cond_mean is the same in both *)
Section Callbacks.
Variables (normal : bool) (N : nat).
Definition bb_cond_rms (x : R) (n : nat) : R :=
  if normal then normal_cond_raw tme_mean_and_cov N x n else tme_cond_raw tme_expectation x n.
Definition bb_cond_cms (x : R) (n : nat) (mean : R) : R :=
  if normal then normal_cond_central tme_mean_and_cov N x n mean
  else tme_cond_central tme_expectation x n mean.
Definition bb_cond_scms (x : R) (n : nat) (mean scale : R) : R :=
  if normal then normal_cond_scaled tme_mean_and_cov N x n mean scale
  else tme_cond_scaled tme_expectation x n mean scale.
Definition bb_cond_mean (x : R) : R := tme_cond_mean tme_expectation x.
Definition bb_cond_mean_var (x : R) : R * R := tme_mean_and_cov x.
End Callbacks.

Definition bb_lik (y : bool) (x : R) : R := bb_pmf exp (Posz y) x.

(* the data of one run, lines 84-92 *)
Inductive bb_data :=
  | RawData of seq (seq R) & R
  | CentralData of seq (seq R * R) & R
  | ScaledData of seq (seq R * R * R) & R.
(* QuadError: moment_quadrature fails while tracing *)
Inductive bb_error := QuadError | NotImplementedError.
Definition bb_result := (bb_data + bb_error)%type.
Definition of_option (A : Type) (f : A -> bb_data) (o : option A) : bb_result :=
  if o is Some a then inl (f a) else inr QuadError.

(* lines 51-67 and 84-92; the filters are called with the default stable=False *)
Definition bb_mf (mode : string) (normal : bool) (N : nat) (ys : seq bool) : bb_result :=
  let init := ss_init_cond R N in
  if String.eqb mode "raw" then
    of_option (fun o => RawData o.1 o.2)
      (moment_filter_rms chol eigh log (bb_cond_rms normal N) bb_lik false (gs_rms init) ys)
  else if String.eqb mode "central" then
    of_option (fun o => CentralData o.1 o.2)
      (moment_filter_cms chol eigh log (bb_cond_cms normal N) bb_cond_mean bb_lik false
         (gs_cms init) (gs_mean init) ys)
  else if String.eqb mode "scaled" then
    of_option (fun o => ScaledData o.1 o.2)
      (moment_filter_scms chol eigh log (bb_cond_scms normal N) bb_cond_mean_var bb_lik false
         (gs_scms init) (gs_mean init) (Num.sqrt (gs_variance init)) ys)
  else inr NotImplementedError.

(* post_processing_mf.py, lines 37-39 and 47-60: filtering means and characteristic functions on the grid zs *)
Definition post_mf (zs : seq R) (d : bb_data) : seq R * seq (seq (option R[i])) :=
  let cf z ms mean scale := characteristic_fn chol eigh cexp z ms mean scale in
  match d with
  | RawData rmss _ =>
      ([seq jget 0 r 1 | r <- rmss], [seq [seq cf z r 0 1 | z <- zs] | r <- rmss])
  | CentralData out _ =>
      ([seq o.2 | o <- out], [seq [seq cf z o.1 o.2 1 | z <- zs] | o <- out])
  | ScaledData out _ =>
      ([seq o.1.2 | o <- out], [seq [seq cf z o.1.1 o.1.2 o.2 | z <- zs] | o <- out])
  end.

(* the saved negative log likelihood *)
Definition data_nell (d : bb_data) : R :=
  match d with RawData _ l => l | CentralData _ l => l | ScaledData _ l => l end.

(* mf.py then post_processing_mf.py with the same mode; its ValueError is preceded by mf.py's error *)
Definition bb_mf_post (zs : seq R) (mode : string) (normal : bool) (N : nat) (ys : seq bool)
  : (seq R * seq (seq (option R[i])) * R) + bb_error :=
  match bb_mf mode normal N ys with
  | inl d => inl (post_mf zs d, data_nell d)
  | inr e => inr e
  end.
End BbMf.
