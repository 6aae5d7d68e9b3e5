(* Model of mfs/multi_dims/filtering.py.

   A conditional-moment callback is modelled by its value at one state and one
   multi-index (or index): the arrays passed around by the code are its vectorisation. *)
From mathcomp Require Import all_ssreflect all_algebra.
From Verif Require Import Prelude LinAlgSpec QuadNdModel.
Set Implicit Arguments.
Unset Strict Implicit.
Unset Printing Implicit Defensive.
Import Order.TTheory GRing.Theory Num.Theory.
Local Open Scope ring_scope.

(* Outcome of a call: the explicit ValueError of the code, a failure while tracing the
   quadrature (no axis or an empty basis), or a result. *)
Inductive outcome (T : Type) : Type := ValueError | TraceError | Ok of T.
Arguments ValueError {T}.
Arguments TraceError {T}.

(* The pair (callable, signature): 'multi-index' callables receive the multi-index, all
   others its position in multi_indices. A is R, or a function of mean (and scale). *)
Inductive cond_fn (X A : Type) : Type :=
  | MultiIndexFn of (X -> seq nat -> A)
  | IndexFn of (X -> nat -> A).

Section Filters.
Variable R : rcfType.
Variable chol : forall n, 'M[R]_n -> 'M[R]_n.
Variable eigh : forall n, 'M[R]_n -> 'M[R]_n * 'rV[R]_n.
Variable log : R -> R.
Variable Y : Type.
(* moments_partial_order, line 157 *)
Variables (multi_indices : seq (seq nat)) (inds : seq (seq (seq int))).

(* line 163: multi_indices.shape[-1] *)
Definition dim : nat := size (nth [::] multi_indices 0).

(* lines 164: the rows of the identity matrix *)
Definition mean_multi_index (i : nat) : seq nat := [seq (i == j : nat) | j <- iota 0 dim].

(* lines 166-170 (251-255, 320-324) together with the vectorised call: the value for the
   j-th entry of state_moments_indices *)
Definition cond_at A (F : cond_fn (seq R) A) (x : seq R) (j : nat) : A :=
  match F with
  | MultiIndexFn f => f x (nth [::] multi_indices j)
  | IndexFn f => f x j
  end.

(* weights, nodes = moment_quadrature_nd(...) once tracing has succeeded *)
Definition quad_nd (ms : seq R) (mean scale : option (seq R)) (stable : bool)
  : seq R * seq (seq R) :=
  odflt ([::], [::]) (moment_quadrature_nd chol eigh ms inds mean scale stable).

(* jnp.einsum('ij,i->j', F(nodes), weights), F with num columns *)
Definition columns (wx : seq R * seq (seq R)) (num : nat) (F : seq R -> nat -> R) : seq R :=
  [seq expect_nd wx.1 wx.2 (fun x => F x j) | j <- iota 0 num].

(* lines 172-178: jnp.prod(((x - mean) / scale) ** multi_index) *)
Definition power (mean scale x : seq R) (k : seq nat) : R :=
  jprod [seq ((nth 0 x a - nth 0 mean a) / nth 1 scale a) ^+ nth 0%N k a | a <- iota 0 (size x)].

(* the scalars 0. and 1. broadcast against a state *)
Definition zeros : seq R := nseq dim 0.
Definition ones : seq R := nseq dim 1.

(* The quadrature can be traced: at least one axis and one basis element. *)
Definition traceable : bool := (1 < size inds)%N && (0 < size (nth [::] inds 0))%N.

(* ---- moment_filter_nd_rms, lines 283-344 ---- *)
Section Raw.
Variables (state_cond_raw_moments : cond_fn (seq R) R) (measurement_cond_pdf : Y -> seq R -> R).
Variable stable : bool.

(* lines 331-332 *)
Definition rms_nd_predict (rms : seq R) : seq R :=
  let wx := quad_nd rms None None stable in
  columns wx (size multi_indices) (cond_at state_cond_raw_moments).

(* lines 335-339; jnp.prod(x ** multi_index), line 321 *)
Definition rms_nd_update (y : Y) (rms : seq R) : seq R * R :=
  let wx := quad_nd rms None None stable in
  let pdf_y := expect_nd wx.1 wx.2 (measurement_cond_pdf y) in
  ([seq m / pdf_y | m <- columns wx (size multi_indices) (fun x j =>
      jprod [seq nth 0 x a ^+ nth 0%N (nth [::] multi_indices j) a | a <- iota 0 (size x)]
      * measurement_cond_pdf y x)],
   pdf_y).

(* lines 326-341 *)
Definition rms_nd_body (carry : seq R * R) (y : Y) : (seq R * R) * seq R :=
  let (rms, nell) := carry in
  let (rms', pdf_y) := rms_nd_update y (rms_nd_predict rms) in
  ((rms', nell - log pdf_y), rms').

(* lines 307-308 and 343-344 *)
Definition moment_filter_nd_rms (rms0 : seq R) (ys : seq Y) : outcome (seq (seq R) * R) :=
  if size multi_indices != size rms0 then ValueError
  else if ~~ traceable then TraceError
  else let (carry, rmss) := scan rms_nd_body (rms0, 0) ys in Ok (rmss, carry.2).
End Raw.

(* ---- moment_filter_nd_cms, lines 210-280 ---- *)
Section Central.
Variables (state_cond_central_moments : cond_fn (seq R) (seq R -> R)).
Variables (state_cond_mean : seq R -> seq R) (measurement_cond_pdf : Y -> seq R -> R).
Variable stable : bool.

(* lines 263-266 *)
Definition cms_nd_predict (s : seq R * seq R) : seq R * seq R :=
  let (cms, mean) := s in
  let wx := quad_nd cms (Some mean) None stable in
  let mean' := columns wx dim (fun x j => nth 0 (state_cond_mean x) j) in
  (columns wx (size multi_indices) (fun x j => cond_at state_cond_central_moments x j mean'), mean').

(* lines 269-275; the integrand is jnp.prod((x - mean) ** multi_index), line 256 *)
Definition cms_nd_update (y : Y) (s : seq R * seq R) : (seq R * seq R) * R :=
  let (cms, mean) := s in
  let wx := quad_nd cms (Some mean) None stable in
  let pdf_y := expect_nd wx.1 wx.2 (measurement_cond_pdf y) in
  let integrand c x k :=
    jprod [seq (nth 0 x a - nth 0 c a) ^+ nth 0%N k a | a <- iota 0 (size x)]
    * measurement_cond_pdf y x in
  let mean' := [seq m / pdf_y | m <- columns wx dim (fun x j =>
                  integrand zeros x (mean_multi_index j))] in
  let cms' := [seq m / pdf_y | m <- columns wx (size multi_indices) (fun x j =>
                  integrand mean' x (nth [::] multi_indices j))] in
  ((cms', mean'), pdf_y).

(* lines 258-277 *)
Definition cms_nd_body (carry : (seq R * seq R) * R) (y : Y)
  : ((seq R * seq R) * R) * (seq R * seq R) :=
  let (s, nell) := carry in
  let (s', pdf_y) := cms_nd_update y (cms_nd_predict s) in
  ((s', nell - log pdf_y), s').

(* lines 238-239 and 279-280 *)
Definition moment_filter_nd_cms (cms0 mean0 : seq R) (ys : seq Y)
  : outcome (seq (seq R * seq R) * R) :=
  if size multi_indices != size cms0 then ValueError
  else if ~~ traceable then TraceError
  else let (carry, out) := scan cms_nd_body ((cms0, mean0), 0) ys in Ok (out, carry.2).
End Central.

(* ---- moment_filter_nd_scms, lines 33-207 ---- *)
Section Scaled.
Variables (state_cond_scms : cond_fn (seq R) (seq R -> seq R -> R)).
Variables (state_cond_mean_vars : seq R -> seq R * seq R).
Variables (measurement_cond_pdf : Y -> seq R -> R) (stable : bool).

(* lines 185-190 *)
Definition scms_nd_predict (s : seq R * seq R * seq R) : seq R * seq R * seq R :=
  let '(scms, mean, scale) := s in
  let wx := quad_nd scms (Some mean) (Some scale) stable in
  let mean' := columns wx dim (fun x j => nth 0 (state_cond_mean_vars x).1 j) in
  let scale' := [seq Num.sqrt v | v <- columns wx dim (fun x j =>
                   nth 0 (state_cond_mean_vars x).2 j)] in
  (columns wx (size multi_indices) (fun x j => cond_at state_cond_scms x j mean' scale'),
   mean', scale').

(* lines 193-203 *)
Definition scms_nd_update (y : Y) (s : seq R * seq R * seq R) : (seq R * seq R * seq R) * R :=
  let '(scms, mean, scale) := s in
  let wx := quad_nd scms (Some mean) (Some scale) stable in
  let pdf_y := expect_nd wx.1 wx.2 (measurement_cond_pdf y) in
  let integrand c r x k := power c r x k * measurement_cond_pdf y x in
  let mean' := [seq m / pdf_y | m <- columns wx dim (fun x j =>
                  integrand zeros ones x (mean_multi_index j))] in
  let scale' := [seq Num.sqrt (m / pdf_y) | m <- columns wx dim (fun x j =>
                  integrand mean' ones x [seq (n * 2)%N | n <- mean_multi_index j])] in
  let scms' := [seq m / pdf_y | m <- columns wx (size multi_indices) (fun x j =>
                  integrand mean' scale' x (nth [::] multi_indices j))] in
  ((scms', mean', scale'), pdf_y).

(* lines 180-204 *)
Definition scms_nd_body (carry : (seq R * seq R * seq R) * R) (y : Y)
  : ((seq R * seq R * seq R) * R) * (seq R * seq R * seq R) :=
  let (s, nell) := carry in
  let (s', pdf_y) := scms_nd_update y (scms_nd_predict s) in
  ((s', nell - log pdf_y), s').

(* lines 159-161 and 206-207 *)
Definition moment_filter_nd_scms (scms0 mean0 scale0 : seq R) (ys : seq Y)
  : outcome (seq (seq R * seq R * seq R) * R) :=
  if size multi_indices != size scms0 then ValueError
  else if ~~ traceable then TraceError
  else let (carry, out) := scan scms_nd_body ((scms0, mean0, scale0), 0) ys in Ok (out, carry.2).
End Scaled.
End Filters.
