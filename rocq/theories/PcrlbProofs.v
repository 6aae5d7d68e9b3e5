(* The posterior Cramer--Rao recursion on linear Gaussian models. *)
From mathcomp Require Import all_ssreflect all_algebra.
From mathcomp Require Import zify ring.
From Verif Require Import Prelude LinAlgSpec LinAlgProofs SmcProofs GfsModel GfsSpec GfsProofs GfsKf PcrlbModel.
Set Implicit Arguments.
Unset Strict Implicit.
Unset Printing Implicit Defensive.
Import Order.TTheory GRing.Theory Num.Theory.
Local Open Scope ring_scope.

(* ---- specification ---- *)
(* f is the quadratic c + b1.x + b2.y + x.H11.x / 2 + y.H21.x + y.H22.y / 2 *)
Definition quadratic2 (R : rcfType) p q (f : 'cV[R]_p -> 'cV[R]_q -> R)
    (H11 : 'M[R]_p) (H21 : 'M[R]_(q, p)) (H22 : 'M[R]_q) : Prop :=
  [/\ symmetric H11, symmetric H22 & exists c (b1 : 'cV[R]_p) (b2 : 'cV[R]_q), forall x y,
    f x y = c + (b1^T *m x) 0 0 + (b2^T *m y) 0 0
      + 2%:R^-1 * (x^T *m H11 *m x) 0 0 + (y^T *m H21 *m x) 0 0 + 2%:R^-1 * (y^T *m H22 *m y) 0 0].

(* the derivatives are right on quadratics *)
Definition second_derivatives (R : rcfType)
    (hess0 : forall p q, ('cV[R]_p -> 'cV[R]_q -> R) -> 'cV[R]_p -> 'cV[R]_q -> 'M[R]_p)
    (hess1 : forall p q, ('cV[R]_p -> 'cV[R]_q -> R) -> 'cV[R]_p -> 'cV[R]_q -> 'M[R]_q)
    (jac10 : forall p q, ('cV[R]_p -> 'cV[R]_q -> R) -> 'cV[R]_p -> 'cV[R]_q -> 'M[R]_(q, p)) : Prop :=
  forall p q (f : 'cV[R]_p -> 'cV[R]_q -> R) H11 H21 H22 x y, quadratic2 f H11 H21 H22 ->
    [/\ hess0 p q f x y = H11, hess1 p q f x y = H22 & jac10 p q f x y = H21].

(* log N(x; F y + b, Q) up to a constant *)
Definition gauss_logpdf (R : rcfType) p q (F : 'M[R]_(p, q)) (b : 'cV[R]_p) (Q : 'M[R]_p) (c : R)
    (x : 'cV[R]_p) (y : 'cV[R]_q) : R :=
  c - 2%:R^-1 * qform (invmx Q) (x - F *m y - b).

(* ---- witness: second differences ---- *)
Section Ref.
Variable R : rcfType.
Definition e_ n (i : 'I_n) : 'cV[R]_n := delta_mx i 0.
Definition hess0_ref p q (f : 'cV[R]_p -> 'cV[R]_q -> R) (x : 'cV[R]_p) (y : 'cV[R]_q) : 'M[R]_p :=
  \matrix_(i, j) (f (x + e_ i + e_ j) y - f (x + e_ i) y - f (x + e_ j) y + f x y).
Definition hess1_ref p q (f : 'cV[R]_p -> 'cV[R]_q -> R) (x : 'cV[R]_p) (y : 'cV[R]_q) : 'M[R]_q :=
  \matrix_(i, j) (f x (y + e_ i + e_ j) - f x (y + e_ i) - f x (y + e_ j) + f x y).
Definition jac10_ref p q (f : 'cV[R]_p -> 'cV[R]_q -> R) (x : 'cV[R]_p) (y : 'cV[R]_q) : 'M[R]_(q, p) :=
  \matrix_(i, j) (f (x + e_ j) (y + e_ i) - f x (y + e_ i) - f (x + e_ j) y + f x y).

Definition bil p q (A : 'M[R]_(p, q)) (x : 'cV[R]_p) (y : 'cV[R]_q) : R := (x^T *m A *m y) 0 0.
Lemma bilDl p q (A : 'M[R]_(p, q)) x x' y : bil A (x + x') y = bil A x y + bil A x' y.
Proof. by rewrite /bil linearD /= !mulmxDl mxaddE. Qed.
Lemma bilDr p q (A : 'M[R]_(p, q)) x y y' : bil A x (y + y') = bil A x y + bil A x y'.
Proof. by rewrite /bil mulmxDr mxaddE. Qed.
Lemma bil_sym p (A : 'M[R]_p) x y : symmetric A -> bil A x y = bil A y x.
Proof. by move=> h; rewrite /bil -[LHS]tr00 !trmx_mul trmxK h mulmxA. Qed.
Lemma bil_e p q (A : 'M[R]_(p, q)) i j : bil A (e_ i) (e_ j) = A i j.
Proof. by rewrite /bil trmx_delta -rowE -colE !mxE. Qed.

Lemma refs_spec : second_derivatives hess0_ref hess1_ref jac10_ref.
Proof.
move=> p q f H11 H21 H22 x y [s1 s2 [c [b1 [b2 hf]]]].
have {}hf x' y' : f x' y' = c + (b1^T *m x') 0 0 + (b2^T *m y') 0 0
      + 2%:R^-1 * bil H11 x' x' + bil H21 y' x' + 2%:R^-1 * bil H22 y' y' by exact: hf.
split; apply/matrixP => i j; rewrite mxE !hf ?mulmxDr ?mxaddE ?bilDl ?bilDr -!bil_e.
- rewrite (bil_sym (e_ i) x s1) (bil_sym (e_ j) x s1) (bil_sym (e_ j) (e_ i) s1).
  by field.
- rewrite (bil_sym (e_ i) y s2) (bil_sym (e_ j) y s2) (bil_sym (e_ j) (e_ i) s2).
  by field.
- by field.
Qed.
End Ref.

Section Gauss.
Variable R : rcfType.

Lemma gauss_quadratic p q (F : 'M[R]_(p, q)) b Q c : posdef Q ->
  quadratic2 (gauss_logpdf F b Q c) (- invmx Q) (F^T *m invmx Q) (- (F^T *m invmx Q *m F)).
Proof.
move=> pQ; have sQ : symmetric (invmx Q) by case: (posdef_inv pQ).
split; first by rewrite /symmetric linearN /= sQ.
  by rewrite /symmetric linearN /= !trmx_mul trmxK sQ mulmxA.
exists (c - 2%:R^-1 * bil (invmx Q) b b), (invmx Q *m b), (- (F^T *m invmx Q *m b)) => x y.
rewrite /gauss_logpdf.
have -> : qform (invmx Q) (x - F *m y - b) = bil (invmx Q) x x - 2%:R * bil (invmx Q) (F *m y) x
    - 2%:R * bil (invmx Q) b x + bil (invmx Q) (F *m y) (F *m y) + 2%:R * bil (invmx Q) b (F *m y)
    + bil (invmx Q) b b.
  have bilN p' q' (A : 'M[R]_(p', q')) u w : bil A (- u) w = - bil A u w.
    by rewrite /bil linearN /= !mulNmx mxoppE.
  have bilN' p' q' (A : 'M[R]_(p', q')) u w : bil A u (- w) = - bil A u w.
    by rewrite /bil mulmxN mxoppE.
  rewrite -[qform _ _]/(bil _ _ _) !bilDl !bilDr !bilN !bilN' ?bilN.
  rewrite (bil_sym x (F *m y) sQ) (bil_sym x b sQ) (bil_sym (F *m y) b sQ).
  by ring.
have -> : ((invmx Q *m b)^T *m x) 0 0 = bil (invmx Q) b x by rewrite trmx_mul sQ.
have -> : ((- (F^T *m invmx Q *m b))^T *m y) 0 0 = - bil (invmx Q) b (F *m y).
  by rewrite linearN /= !trmx_mul trmxK sQ mulNmx mxoppE /bil !mulmxA.
have -> : (x^T *m - invmx Q *m x) 0 0 = - bil (invmx Q) x x by rewrite mulmxN mulNmx mxoppE.
have -> : (y^T *m (F^T *m invmx Q) *m x) 0 0 = bil (invmx Q) (F *m y) x.
  by rewrite /bil trmx_mul !mulmxA.
have -> : (y^T *m - (F^T *m invmx Q *m F) *m y) 0 0 = - bil (invmx Q) (F *m y) (F *m y).
  by rewrite /bil mulmxN mulNmx mxoppE trmx_mul !mulmxA.
by field.
Qed.

Lemma mx_mean_const m n (A : 'M[R]_(m, n)) (T : Type) (s : seq T) (f : T -> 'M[R]_(m, n)) :
  (0 < size s)%N -> (forall t, f t = A) -> mx_mean [seq f t | t <- s] = A.
Proof.
move=> hs hf; rewrite /mx_mean size_map.
have -> : foldr (fun x y => x + y) 0 [seq f t | t <- s] = (size s)%:R *: A.
  by elim: s {hs} => [|t s IH] /=; rewrite ?scale0r // IH hf mulrS scalerDl scale1r.
by rewrite scalerA mulVf ?scale1r // pnatr_eq0 -lt0n.
Qed.

Lemma mx_mean_zip m n (A B : 'M[R]_(m, n)) (T U : Type) (s : seq T) (u : seq U)
    (f : T -> 'M[R]_(m, n)) (g : U -> 'M[R]_(m, n)) :
  (0 < size s)%N -> size s = size u -> (forall t, f t = A) -> (forall t, g t = B) ->
  mx_mean [seq q.1 + q.2 | q <- zip [seq f t | t <- s] [seq g t | t <- u]] = A + B.
Proof.
move=> h0 hs hf hg.
have -> : [seq q.1 + q.2 | q <- zip [seq f t | t <- s] [seq g t | t <- u]] = [seq A + B | t <- s].
  elim: s u hs {h0} => [|a s IH] [|e u] //= [hs].
  by rewrite hf hg IH.
exact: mx_mean_const.
Qed.

(* (F P F^T + Q)^-1 in terms of P^-1 *)
Lemma info_predict d (F P Q : 'M[R]_d) : posdef P -> posdef Q ->
  invmx (F *m P *m F^T + Q) =
  invmx Q - invmx Q *m F *m invmx (invmx P + F^T *m invmx Q *m F) *m F^T *m invmx Q.
Proof.
move=> pP pQ; set M := invmx P + _.
have pM : posdef M.
  rewrite /M addrC; apply: semi_pos_add; last exact: posdef_inv.
  by have := semi_congr F^T (posdef_semi (posdef_inv pQ)); rewrite trmxK.
have uS : F *m P *m F^T + Q \in unitmx.
  by apply: posdef_unit; apply: semi_pos_add => //; apply: semi_congr; apply: posdef_semi.
have uP := posdef_unit pP; have uQ := posdef_unit pQ; have uM := posdef_unit pM.
apply: (can_inj (mulKmx uS)); rewrite mulmxV // mulmxBr.
have e : (F *m P *m F^T + Q) *m (invmx Q *m F) = F *m P *m M.
  rewrite mulmxDl mulKVmx // /M mulmxDr mulmxK // addrC; congr (_ + _).
  by rewrite !mulmxA.
have -> : (F *m P *m F^T + Q) *m (invmx Q *m F *m invmx M *m F^T *m invmx Q)
    = F *m P *m F^T *m invmx Q.
  have -> : invmx Q *m F *m invmx M *m F^T *m invmx Q = (invmx Q *m F) *m (invmx M *m (F^T *m invmx Q)).
    by rewrite !mulmxA.
  by rewrite [LHS]mulmxA e -[F *m P *m M *m _]mulmxA mulKVmx // mulmxA.
by rewrite mulmxDl mulmxV // addrC addKr.
Qed.

Section Run.
Variable hess0 : forall p q, ('cV[R]_p -> 'cV[R]_q -> R) -> 'cV[R]_p -> 'cV[R]_q -> 'M[R]_p.
Variable hess1 : forall p q, ('cV[R]_p -> 'cV[R]_q -> R) -> 'cV[R]_p -> 'cV[R]_q -> 'M[R]_q.
Variable jac10 : forall p q, ('cV[R]_p -> 'cV[R]_q -> R) -> 'cV[R]_p -> 'cV[R]_q -> 'M[R]_(q, p).
Hypothesis dP : second_derivatives hess0 hess1 jac10.
Variables (dx dy : nat) (F Q : 'M[R]_dx) (b : 'cV[R]_dx) (cx cy : R).
Variables (H : 'M[R]_(dy, dx)) (c : 'cV[R]_dy) (Xi : 'M[R]_dy).
Hypothesis pQ : posdef Q.
Hypothesis pX : posdef Xi.
Local Notation body := (pcrlb_body hess0 hess1 jac10 (gauss_logpdf F b Q cx) (gauss_logpdf H c Xi cy)).
Local Notation next P := (postcov H (F *m P *m F^T + Q) Xi).

Lemma pred_pos P : posdef P -> posdef (F *m P *m F^T + Q).
Proof. by move=> h; apply: semi_pos_add => //; apply: semi_congr; apply: posdef_semi. Qed.

Lemma next_pos P : posdef P -> posdef (next P).
Proof.
move=> h; have h' := pred_pos h.
by have [] := textbook_bayes H 0 0 0 h' pX.
Qed.

Lemma pcrlb_step P N ymc xt xs : posdef P -> (0 < N)%N -> size ymc = N -> size xt = N -> size xs = N ->
  body (invmx P) (ymc, (xt, xs)) = (invmx (next P), invmx (next P)).
Proof.
move=> pP hN sy sxt sxs; rewrite /pcrlb_body.
have hz : (0 < size (zip xt xs))%N by rewrite size_zip sxt sxs minnn.
have qT := gauss_quadratic F b cx pQ; have qL := gauss_quadratic H c cy pX.
have e1 : mx_mean [seq hess1 (gauss_logpdf F b Q cx) p.1 p.2 | p <- zip xt xs] = - (F^T *m invmx Q *m F).
  by apply: mx_mean_const => // t; have [] := dP t.1 t.2 qT.
have e2 : mx_mean [seq jac10 (gauss_logpdf F b Q cx) p.1 p.2 | p <- zip xt xs] = F^T *m invmx Q.
  by apply: mx_mean_const => // t; have [] := dP t.1 t.2 qT.
have e3 : mx_mean [seq q.1 + q.2 | q <-
    zip [seq hess0 (gauss_logpdf F b Q cx) p.1 p.2 | p <- zip xt xs]
        [seq hess1 (gauss_logpdf H c Xi cy) p.1 p.2 | p <- zip ymc xt]] =
    - (invmx Q + H^T *m invmx Xi *m H).
  rewrite opprD; apply: mx_mean_zip => [||t|t].
  - by [].
  - by rewrite !size_zip sxt sxs sy.
  - by have [] := dP t.1 t.2 qT.
  - by have [] := dP t.1 t.2 qL.
rewrite e1 e2 e3 !opprK.
set j := (X in (X, X)); suff -> : j = invmx (next P) by [].
have pP' := pred_pos pP.
have pS := innov_posdef H pX (posdef_semi pP').
rewrite inv_postcov //; try solve [exact: posdef_unit|exact: posdef_sym].
rewrite info_predict // /j linearN /= mulNmx mulmxN mulmxN opprK trmx_mul trmxK.
by rewrite (posdef_sym (posdef_inv pQ)) addrAC !mulmxA.
Qed.

Lemma pcrlb_run P N xss yss : posdef P -> (0 < N)%N -> size xss = (size yss).+1 ->
  all (fun s => size s == N) xss -> all (fun s => size s == N) yss ->
  posterior_cramer_rao hess0 hess1 jac10 (gauss_logpdf F b Q cx) (gauss_logpdf H c Xi cy) xss yss (invmx P)
  = [seq invmx (iter t.+1 (fun P => next P) P) | t <- iota 0 (size yss)].
Proof.
rewrite /posterior_cramer_rao => pP hN.
have gen : forall yss x0 xss P, posdef P -> size xss = size yss -> size x0 = N ->
    all (fun s => size s == N) xss -> all (fun s => size s == N) yss ->
    (scan body (invmx P) (zip yss (zip xss (take (size xss) (x0 :: xss))))).2 =
    [seq invmx (iter t.+1 (fun P => next P) P) | t <- iota 0 (size yss)].
  elim=> [|ys yss' IH] x0 [|x1 xss'] // P' pP' [hs] h0 /= /andP [/eqP h1 hx] /andP [/eqP hy hys].
  have e := pcrlb_step pP' hN hy h1 h0.
  rewrite -[LHS]/((scan body (invmx P') ((ys, (x1, x0)) :: zip yss' (zip xss' (take (size xss') (x1 :: xss'))))).2).
  have := IH x1 xss' (next P') (next_pos pP') hs h1 hx hys.
  have [P1 hP1] : exists P1, P1 = next P' by exists (next P').
  rewrite -hP1 in e *; move: e; move: (body) => B e; rewrite scan_cons' e => h.
  rewrite -[LHS]/(_ :: _) h; congr (_ :: _); rewrite (iotaDl 1 0) -map_comp; apply: eq_map => t.
  by rewrite hP1 -(iterSr t.+1 (fun P => next P)).
case: xss => [//|x0 xss] [hs] /= /andP [/eqP h0 hx] hy.
exact: gen.
Qed.
End Run.
End Gauss.

Lemma iter_unfold (T U : Type) (h : T -> U) (f : T -> T) (x : T) n :
  [seq h (iter t.+1 f x) | t <- iota 0 n.+1]
  = h (f x) :: [seq h (iter t.+1 f (f x)) | t <- iota 0 n].
Proof.
rewrite [iota _ _]/= map_cons; congr (_ :: _); rewrite (iotaDl 1 0) -map_comp.
by apply: eq_map => t; rewrite /comp -(iterSr t.+1 f).
Qed.

Section Final.
Variable R : rcfType.
Variable hess0 : forall p q, ('cV[R]_p -> 'cV[R]_q -> R) -> 'cV[R]_p -> 'cV[R]_q -> 'M[R]_p.
Variable hess1 : forall p q, ('cV[R]_p -> 'cV[R]_q -> R) -> 'cV[R]_p -> 'cV[R]_q -> 'M[R]_q.
Variable jac10 : forall p q, ('cV[R]_p -> 'cV[R]_q -> R) -> 'cV[R]_p -> 'cV[R]_q -> 'M[R]_(q, p).
Hypothesis dP : second_derivatives hess0 hess1 jac10.

Lemma pcrlb_bayes dx dy (F Q : 'M[R]_dx) (b : 'cV[R]_dx) (cx cy : R)
    (H : 'M[R]_(dy, dx)) (c : 'cV[R]_dy) (Xi : 'M[R]_dy) (j0 : 'M[R]_dx) N xss yss :
  posdef Q -> posdef Xi -> posdef j0 -> (0 < N)%N -> size xss = (size yss).+1 ->
  all (fun s => size s == N) xss -> all (fun s => size s == N) yss ->
  chain_of (fun j (_ : seq 'cV[R]_dy) j' => posdef j' /\
      forall m y, exists m', bayes_rule H c Xi m (F *m invmx j *m F^T + Q) y m' (invmx j'))
    j0 yss
    (posterior_cramer_rao hess0 hess1 jac10 (gauss_logpdf F b Q cx) (gauss_logpdf H c Xi cy) xss yss j0).
Proof.
move=> pQ pX pj hN hs hx hy.
have pP := posdef_inv pj; rewrite -[j0]invmxK (pcrlb_run dP F b cx cy H c pQ pX pP hN hs hx hy).
move: (invmx j0) pP => P pP {hs hx hy pj j0}.
elim: yss P pP => [//|ys yss IH] P pP.
rewrite (iter_unfold (fun M => invmx M) (fun P => postcov H (F *m P *m F^T + Q) Xi)); split.
  have pP' := pred_pos F pQ pP; rewrite !invmxK; split.
    by apply: posdef_inv; apply: next_pos.
  by move=> m y; eexists; apply: textbook_bayes.
exact: IH (next_pos F H pQ pX pP).
Qed.

Lemma pcrlb_kf dx (chol : forall n, 'M[R]_n -> 'M[R]_n) (log : R -> R) (pi : R)
    (F Q : 'M[R]_dx) (b : 'cV[R]_dx) (cx cy : R)
    (H : 'M[R]_(1, dx)) (c : 'cV[R]_1) (Xi : 'M[R]_1) (j0 : 'M[R]_dx) m0 N xss yss ys :
  posdef Q -> posdef Xi -> posdef j0 -> (0 < N)%N -> size xss = (size yss).+1 -> size ys = size yss ->
  all (fun s => size s == N) xss -> all (fun s => size s == N) yss ->
  exists ms vs es, kf chol log pi F Q H Xi m0 (invmx j0) ys = Some (ms, vs, es) /\
  posterior_cramer_rao hess0 hess1 jac10 (gauss_logpdf F b Q cx) (gauss_logpdf H c Xi cy) xss yss j0
  = [seq invmx v | v <- vs].
Proof.
move=> pQ pX pj hN hs hs' hx hy.
have pP := posdef_inv pj.
rewrite kfE //; last exact: posdef_semi; last exact: posdef_semi.
do 3 eexists; split; first reflexivity.
rewrite -{1}[j0]invmxK (pcrlb_run dP F b cx cy H c pQ pX pP hN hs hx hy).
rewrite /outputs /kf_traj -hs'; move: (invmx j0) {1}0 => P e.
elim: ys m0 P e {hs hs' hx hy pP} => [//|y ys IH] m0 P e.
rewrite (iter_unfold (fun M => invmx M) (fun P => postcov H (F *m P *m F^T + Q) Xi)).
by congr (_ :: _); apply: IH.
Qed.
End Final.
