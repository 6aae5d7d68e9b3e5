(* Model of mfs/one_dim/filtering.py.

   A conditional-moment callback is modelled by its value at one state and one order:
   the arrays state_cond_raw_moments(nodes, orders) and so on are its vectorisation.
   With fewer than two moments moment_quadrature fails while tracing: None. *)
From mathcomp Require Import all_ssreflect all_algebra.
From Verif Require Import Prelude LinAlgSpec QuadModel.
Set Implicit Arguments.
Unset Strict Implicit.
Unset Printing Implicit Defensive.
Import Order.TTheory GRing.Theory Num.Theory.
Local Open Scope ring_scope.

Section Filters.
Variable R : rcfType.
Variable chol : forall n, 'M[R]_n -> 'M[R]_n.
Variable eigh : forall n, 'M[R]_n -> 'M[R]_n * 'rV[R]_n.
Variable log : R -> R.
Variable Y : Type.

(* weights, nodes = moment_quadrature(...) once the size has been accepted *)
Definition quad (ms : seq R) (mean scale : R) (stable : bool) : seq R * seq R :=
  odflt ([::], [::]) (moment_quadrature chol eigh ms mean scale stable).

(* jnp.einsum('ij,i->j', F(nodes, orders), weights) *)
Definition moments_of (wx : seq R * seq R) (F : R -> nat -> R) (num : nat) : seq R :=
  [seq expect wx.1 wx.2 (fun x => F x n) | n <- iota 0 num].

(* ---- moment_filter_rms, lines 32-89 ---- *)
Section Raw.
Variables (state_cond_raw_moments : R -> nat -> R) (measurement_cond_pdf : Y -> R -> R).
Variable stable : bool.

(* lines 76-77 *)
Definition rms_predict (rms : seq R) : seq R :=
  let wx := quad rms 0 1 stable in moments_of wx state_cond_raw_moments (size rms).

(* lines 80-82: updated moments and pdf_y *)
Definition rms_update (y : Y) (rms : seq R) : seq R * R :=
  let wx := quad rms 0 1 stable in
  let pdf_y := expect wx.1 wx.2 (measurement_cond_pdf y) in
  ([seq m / pdf_y | m <- moments_of wx (fun x n => x ^+ n * measurement_cond_pdf y x) (size rms)],
   pdf_y).

(* lines 71-84 *)
Definition rms_body (carry : seq R * R) (y : Y) : (seq R * R) * seq R :=
  let (rms, nell) := carry in
  let (rms', pdf_y) := rms_update y (rms_predict rms) in
  ((rms', nell - log pdf_y), rms').

(* lines 86-87 *)
Definition moment_filter_rms (rms0 : seq R) (ys : seq Y) : option (seq (seq R) * R) :=
  if (size rms0 < 2)%N then None
  else let (carry, rmss) := scan rms_body (rms0, 0) ys in Some (rmss, carry.2).
End Raw.

(* ---- moment_filter_cms, lines 92-161 ---- *)
Section Central.
Variables (state_cond_central_moments : R -> nat -> R -> R) (state_cond_mean : R -> R).
Variables (measurement_cond_pdf : Y -> R -> R) (stable : bool).

(* lines 143-146 *)
Definition cms_predict (s : seq R * R) : seq R * R :=
  let (cms, mean) := s in
  let wx := quad cms mean 1 stable in
  let mean' := expect wx.1 wx.2 state_cond_mean in
  (moments_of wx (fun x n => state_cond_central_moments x n mean') (size cms), mean').

(* lines 149-154 *)
Definition cms_update (y : Y) (s : seq R * R) : (seq R * R) * R :=
  let (cms, mean) := s in
  let wx := quad cms mean 1 stable in
  let pdf_y := expect wx.1 wx.2 (measurement_cond_pdf y) in
  let mean' := expect wx.1 wx.2 (fun x => (x - 0) ^+ 1 * measurement_cond_pdf y x) / pdf_y in
  let cms' := [seq m / pdf_y | m <- moments_of wx
                (fun x n => (x - mean') ^+ n * measurement_cond_pdf y x) (size cms)] in
  ((cms', mean'), pdf_y).

(* lines 138-156 *)
Definition cms_body (carry : (seq R * R) * R) (y : Y) : ((seq R * R) * R) * (seq R * R) :=
  let (s, nell) := carry in
  let (s', pdf_y) := cms_update y (cms_predict s) in
  ((s', nell - log pdf_y), s').

(* lines 158-159 *)
Definition moment_filter_cms (cms0 : seq R) (mean0 : R) (ys : seq Y)
  : option (seq (seq R * R) * R) :=
  if (size cms0 < 2)%N then None
  else let (carry, out) := scan cms_body ((cms0, mean0), 0) ys in Some (out, carry.2).
End Central.

(* ---- moment_filter_scms, lines 164-240 ---- *)
Section Scaled.
Variables (state_cond_scaled_central_moments : R -> nat -> R -> R -> R).
Variables (state_cond_mean_var : R -> R * R).
Variables (measurement_cond_pdf : Y -> R -> R) (stable : bool).

(* lines 219-222 *)
Definition scms_predict (s : seq R * R * R) : seq R * R * R :=
  let '(scms, mean, scale) := s in
  let wx := quad scms mean scale stable in
  let mean' := expect wx.1 wx.2 (fun x => (state_cond_mean_var x).1) in
  let scale' := Num.sqrt (expect wx.1 wx.2 (fun x => (state_cond_mean_var x).2)) in
  (moments_of wx (fun x n => state_cond_scaled_central_moments x n mean' scale') (size scms),
   mean', scale').

(* lines 225-233 *)
Definition scms_update (y : Y) (s : seq R * R * R) : (seq R * R * R) * R :=
  let '(scms, mean, scale) := s in
  let wx := quad scms mean scale stable in
  let pdf_y := expect wx.1 wx.2 (measurement_cond_pdf y) in
  let integrand c r x n := ((x - c) / r) ^+ n * measurement_cond_pdf y x in
  let mean' := expect wx.1 wx.2 (fun x => integrand 0 1 x 1%N) / pdf_y in
  let scale' := Num.sqrt (expect wx.1 wx.2 (fun x => integrand mean' 1 x 2%N) / pdf_y) in
  let scms' := [seq m / pdf_y | m <- moments_of wx (integrand mean' scale') (size scms)] in
  ((scms', mean', scale'), pdf_y).

(* lines 214-235 *)
Definition scms_body (carry : (seq R * R * R) * R) (y : Y)
  : ((seq R * R * R) * R) * (seq R * R * R) :=
  let (s, nell) := carry in
  let (s', pdf_y) := scms_update y (scms_predict s) in
  ((s', nell - log pdf_y), s').

(* lines 237-238 *)
Definition moment_filter_scms (scms0 : seq R) (mean0 scale0 : R) (ys : seq Y)
  : option (seq (seq R * R * R) * R) :=
  if (size scms0 < 2)%N then None
  else let (carry, out) := scan scms_body ((scms0, mean0, scale0), 0) ys in Some (out, carry.2).
End Scaled.
End Filters.
