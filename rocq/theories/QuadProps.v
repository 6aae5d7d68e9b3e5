(* Properties C08 - C12: one-dimensional quadratures. *)
From mathcomp Require Import all_ssreflect all_algebra.
From mathcomp Require Import ring.
From Verif Require Import Prelude LinAlgSpec SpectralProofs LdlProofs SmallMx.
From Verif Require Import QuadModel QuadSpec QuadProofs QuadMain QuadGW.
Set Implicit Arguments.
Unset Strict Implicit.
Unset Printing Implicit Defensive.
Import Order.TTheory GRing.Theory Num.Theory.
Local Open Scope ring_scope.

Section Props.
Variable R : rcfType.
Variable chol : forall n, 'M[R]_n -> 'M[R]_n.
Variable eigh : forall n, 'M[R]_n -> 'M[R]_n * 'rV[R]_n.

(* C08: the rule exists, has n nodes and reproduces all 2n moments. *)
Theorem moment_quadrature_reproduces_moments (ms : seq R) (mean scale : R) (ldl : bool) :
  chol_spec chol -> eigh_spec eigh ->
  (1 < size ms)%N -> scale != 0 -> admissible (nth 0 ms) (size ms)./2 ->
  exists ws, exists2 xs, moment_quadrature chol eigh ms mean scale ldl = Some (ws, xs)
   & [/\ size ws = (size ms)./2, size xs = (size ms)./2
       & forall k, (k < (size ms)./2.*2)%N ->
         expect ws xs (fun x => ((x - mean) / scale) ^+ k) = ms`_k / ms`_0].
Proof. move=> hc he; exact: quadrature_moments_main. Qed.

Theorem moment_quadrature_raw_moments (ms : seq R) (ldl : bool) :
  chol_spec chol -> eigh_spec eigh ->
  (1 < size ms)%N -> admissible (nth 0 ms) (size ms)./2 ->
  exists ws, exists2 xs, moment_quadrature chol eigh ms 0 1 ldl = Some (ws, xs)
   & forall k, (k < (size ms)./2.*2)%N -> expect ws xs (fun x => x ^+ k) = ms`_k / ms`_0.
Proof. move=> hc he; exact: quadrature_raw_main. Qed.

(* C09: probability weights; bounds are kept; polynomials are integrated exactly. *)
Theorem moment_quadrature_weights (ms : seq R) (mean scale : R) (ldl : bool) ws xs :
  chol_spec chol -> eigh_spec eigh -> admissible (nth 0 ms) (size ms)./2 ->
  moment_quadrature chol eigh ms mean scale ldl = Some (ws, xs) ->
  [/\ size ws = size xs, all (fun w => 0 <= w) ws & jsum ws = 1].
Proof. move=> hc he; exact: quadrature_weights. Qed.

Theorem moment_quadrature_bounds (ms : seq R) (mean scale : R) (ldl : bool) ws xs :
  chol_spec chol -> eigh_spec eigh -> admissible (nth 0 ms) (size ms)./2 ->
  moment_quadrature chol eigh ms mean scale ldl = Some (ws, xs) ->
  forall (f : R -> R) a b, (forall x, a <= f x <= b) -> a <= expect ws xs f <= b.
Proof. move=> hc he; exact: quadrature_bounds. Qed.

Theorem moment_quadrature_polynomials (ms : seq R) (mean scale : R) (ldl : bool) ws xs :
  chol_spec chol -> eigh_spec eigh -> scale != 0 ->
  admissible (nth 0 ms) (size ms)./2 ->
  moment_quadrature chol eigh ms mean scale ldl = Some (ws, xs) ->
  forall p : {poly R}, (size p <= (size ms)./2.*2)%N ->
  expect ws xs (fun x => p.[(x - mean) / scale]) = mom_functional (nth 0 ms) p / ms`_0.
Proof. by move=> hc he; exact: quadrature_poly. Qed.

(* C10: raw, central and scaled central moments give the same functional. *)
Theorem moment_quadrature_representation (ms ms' : seq R) (mean scale : R) (ldl ldl' : bool) ws xs ws' xs' :
  chol_spec chol -> eigh_spec eigh -> 0 < scale -> size ms' = size ms ->
  (forall k, (k < (size ms)./2.*2)%N -> ms'`_k = affine_moments (nth 0 ms) mean scale k) ->
  admissible (nth 0 ms) (size ms)./2 ->
  moment_quadrature chol eigh ms 0 1 ldl = Some (ws, xs) ->
  moment_quadrature chol eigh ms' mean scale ldl' = Some (ws', xs') ->
  forall f, expect ws' xs' f = expect ws xs f.
Proof. by move=> hc he; exact: quadrature_repr. Qed.

(* C11 *)
Theorem golub_welsch_exact (sms : seq R) (mean scale : R) :
  chol_spec chol -> eigh_spec eigh -> (3 < size sms)%N -> scale != 0 ->
  admissible (nth 0 sms) (size sms)./2 ->
  exists ws, exists2 xs, gauss_quadrature_golub_welsch chol eigh sms mean scale = Some (ws, xs)
   & [/\ size ws = (size sms)./2.-1, size xs = (size sms)./2.-1
       & forall k, (k < ((size sms)./2.-1).*2)%N ->
         expect ws xs (fun x => ((x - mean) / scale) ^+ k) = sms`_k / sms`_0].
Proof. move=> hc he; exact: golub_welsch_main. Qed.

(* C11: it is the moment quadrature of the first 2n - 2 moments, for every integrand. *)
Theorem golub_welsch_is_moment_quadrature (sms : seq R) (mean scale : R) (ldl : bool) ws xs ws' xs' :
  chol_spec chol -> eigh_spec eigh -> admissible (nth 0 sms) (size sms)./2 ->
  gauss_quadrature_golub_welsch chol eigh sms mean scale = Some (ws, xs) ->
  moment_quadrature chol eigh (take (size sms)./2.-1.*2 sms) mean scale ldl = Some (ws', xs') ->
  forall f, expect ws xs f = expect ws' xs' f.
Proof. by move=> hc he; exact: golub_welsch_eq. Qed.
End Props.

Print Assumptions moment_quadrature_reproduces_moments.
Print Assumptions moment_quadrature_raw_moments.
Print Assumptions moment_quadrature_weights.
Print Assumptions moment_quadrature_bounds.
Print Assumptions moment_quadrature_polynomials.
Print Assumptions moment_quadrature_representation.
Print Assumptions golub_welsch_exact.
Print Assumptions golub_welsch_is_moment_quadrature.

(* The library calls exist, and every discrete measure with at least n atoms of positive
   mass has admissible moments. *)
Example quadrature_hypotheses_ex (R : rcfType) :
  exists chol : forall n, 'M[R]_n -> 'M[R]_n,
  exists eigh : forall n, 'M[R]_n -> 'M[R]_n * 'rV[R]_n,
  [/\ chol_spec chol, eigh_spec eigh & admissible (nth 0 ([:: 1; 1; 2%:R; 4%:R] : seq R)) 2].
Proof.
exists (@chol_ref R), (@eigh_ref R); split; [exact: chol_ref_spec|exact: eigh_ref_spec|].
apply/gram_admissible => //.
have -> : hankel_G ([:: 1; 1; 2%:R; 4%:R] : seq R) 2 = mx2 1 1 1 2%:R.
  apply/matrixP => i j; rewrite hankel_GE // mxE.
  by case: i => [[|[|]]] //= _; case: j => [[|[|]]] //=.
by apply: mx2_posdef; rewrite ?ltr01 // mul1r expr1n subr_gt0 ltr1n.
Qed.

Example admissible_discrete_ex (R : rcfType) (ws xs : seq R) :
  size ws = size xs -> uniq xs -> all (fun w => 0 < w) ws ->
  admissible (discrete_moment ws xs) (size xs).
Proof. exact: discrete_admissible. Qed.

(* C12: for every linear functional E with the given central moments. *)
Theorem taylor_quadrature_exact (R : rcfType) (E : {linear {poly R} -> R^o}) (p : {poly R})
    (derivs : nat -> R -> R) (cms : seq R) (mean : R) (N : nat) :
  (forall r x, derivs r x = p^`(r).[x]) -> (size p <= N.+1)%N -> (N < size cms)%N ->
  (forall r, (r <= N)%N -> E (('X - mean%:P) ^+ r) = cms`_r) -> cms`_0 = 1 ->
  taylor_quadrature derivs cms mean N = E p.
Proof. exact: taylor_exact. Qed.
Print Assumptions taylor_quadrature_exact.

(* A functional with central moments 1, 0, 1 about 3: the two-point law on 2 and 4. *)
Example taylor_quadrature_ex (R : rcfType) :
  exists E : {linear {poly R} -> R^o},
    forall r, (r <= 2)%N -> E (('X - 3%:R%:P) ^+ r) = ([:: 1; 0; 1] : seq R)`_r.
Proof.
have lin : linear ((fun p : {poly R} => (p.[2%:R] + p.[4%:R]) / 2%:R) : {poly R} -> R^o).
  by move=> a p q; rewrite !hornerE /= -[X in _ = X + _]/(a * _); field.
exists (Linear lin) => r hr /=; rewrite !horner_exp !hornerE.
have -> : 2%:R - 3%:R = -1 :> R by ring.
have -> : 4%:R - 3%:R = 1 :> R by ring.
by case: r hr => [|[|[|r]]] //= _; rewrite ?expr0 ?expr1 ?expr2 ?mulr1 ?mulrNN; field.
Qed.
