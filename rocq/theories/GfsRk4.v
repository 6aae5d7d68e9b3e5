(* The Runge-Kutta step. *)
From mathcomp Require Import all_ssreflect all_algebra.
From mathcomp Require Import ring.
From Verif Require Import Prelude LinAlgSpec LinAlgProofs GfsModel GfsSpec GfsProofs GfsSgp GfsSgpRun.
Set Implicit Arguments.
Unset Strict Implicit.
Unset Printing Implicit Defensive.
Import Order.TTheory GRing.Theory Num.Theory.
Local Open Scope ring_scope.

Section Affine.
Variable R : numFieldType.
Variable V : lmodType R.

(* The scheme on one vector. *)
Definition rk4_step (f : V -> V) (z : V) (h : R) : V :=
  let k1 := f z in
  let k2 := f (z + 2%:R^-1 *: (h *: k1)) in
  let k3 := f (z + 2%:R^-1 *: (h *: k2)) in
  let k4 := f (z + h *: k3) in
  z + 6%:R^-1 *: (h *: (k1 + 2%:R *: k2 + 2%:R *: k3 + k4)).

Lemma lin_rec (A : {linear V -> V}) (f : V -> V) (c : V) :
  (forall z, f z = A z + c) -> forall z w, f (z + w) = f z + A w.
Proof. by move=> hf z w; rewrite !hf linearD addrAC. Qed.

Lemma comb (u a b d : V) (x1 x2 x3 x4 y1 y2 y3 z1 z2 t : R) :
  x1 *: u + (x2 *: u + y1 *: a) + (x3 *: u + (y2 *: a + z1 *: b))
  + (x4 *: u + (y3 *: a + (z2 *: b + t *: d)))
  = (x1 + x2 + x3 + x4) *: u + (y1 + y2 + y3) *: a + (z1 + z2) *: b + t *: d.
Proof.
by rewrite !scalerDl [LHS](AC ((1*(1*1))*(1*(1*1))*(1*(1*(1*1)))) ((1*2*4*7)*(3*5*8)*(6*9)*10)).
Qed.

Lemma rk4_taylor (A : {linear V -> V}) (c : V) (f : V -> V) z h :
  (forall z, f z = A z + c) ->
  rk4_step f z h = z + \sum_(k < 4) (h ^+ k.+1 / (k.+1)`!%:R) *: iter k A (f z).
Proof.
move=> hf; rewrite /rk4_step; cbv zeta; rewrite !(lin_rec hf) !linearZ !linearD !linearZ /= ?linearD /=.
congr (z + _); rewrite !big_ord_recr big_ord0 /= add0r !linearZ /=.
rewrite !scalerA comb.
have -> : 4`! = 24%N by [].
have -> : 3`! = 6%N by [].
have -> : 2`! = 2%N by [].
have -> : 1`! = 1%N by [].
by congr (_ *: _ + _ *: _ + _ *: _ + _ *: _); field.
Qed.

(* The same for a linear right-hand side: the fourth-order Taylor polynomial of the
   exponential. *)
Lemma rk4_exp (A : {linear V -> V}) z h :
  rk4_step A z h = \sum_(k < 5) (h ^+ k / k`!%:R) *: iter k A z.
Proof.
rewrite (@rk4_taylor A 0) => [|w]; last by rewrite addr0.
rewrite [RHS]big_ord_recl expr0 fact0 divr1 scale1r; congr (_ + _).
by apply: eq_bigr => k _; rewrite -iterSr.
Qed.

Lemma rk4_const (c : V) z h : rk4_step (fun=> c) z h = z + h *: c.
Proof.
rewrite /rk4_step; congr (_ + _); rewrite -[X in X + _ + _ + _]scale1r -[X in _ + _ + _ + X]scale1r.
by rewrite -!scalerDl !scalerA; congr (_ *: _); field.
Qed.
End Affine.

Section Pair.
Variable R : numFieldType.
Variables (p q k l : nat).
Local Notation V := ('M[R]_(p, q) * 'M[R]_(k, l))%type.

Lemma rk4_pair (ode : 'M[R]_(p, q) -> 'M[R]_(k, l) -> V) m v h :
  rk4_m_cov ode m v h = rk4_step (fun z : V => ode z.1 z.2) (m, v) h.
Proof.
rewrite /rk4_m_cov /rk4_step /=; case: (ode m v) => k1m k1v.
case: (ode _ _) => k2m k2v; case: (ode _ _) => k3m k3v; case: (ode _ _) => k4m k4v //=.
Qed.

Lemma rk4_backward ode m v mf vf h :
  rk4_m_cov_backward ode m v mf vf h
  = @rk4_m_cov R p q k l (fun m v => ode m v mf vf) m v h.
Proof. by []. Qed.
End Pair.

Section Sym.
Variable R : numFieldType.
Variables (p q n : nat).
(* Any property of covariances that is kept by sums and scalings and by the vector field
   is kept by the step; here symmetry. *)
Lemma rk4_sym (ode : 'M[R]_(p, q) -> 'M[R]_n -> 'M[R]_(p, q) * 'M[R]_n) m v h :
  (forall m v, v^T = v -> ((ode m v).2)^T = (ode m v).2) -> v^T = v ->
  ((rk4_m_cov ode m v h).2)^T = (rk4_m_cov ode m v h).2.
Proof.
move=> ho hv; rewrite rk4_pair /rk4_step /=.
have trZ a (x : 'M[R]_n) : (a *: x)^T = a *: x^T by apply/matrixP => i j; rewrite !mxE.
have trD (x y : 'M[R]_n) : (x + y)^T = x^T + y^T by apply/matrixP => i j; rewrite !mxE.
have s a b (x y : 'M[R]_n) : x^T = x -> y^T = y -> (x + a *: (b *: y))^T = x + a *: (b *: y).
  by move=> hx hy; rewrite trD !trZ hx hy.
set k1 := ode m v; have h1 : k1.2^T = k1.2 by apply: ho.
set k2 := ode (m + _) (v + _); have h2 : k2.2^T = k2.2 by apply/ho/s.
set k3 := ode (m + _) (v + _); have h3 : k3.2^T = k3.2 by apply/ho/s.
set k4 := ode _ _; have h4 : k4.2^T = k4.2.
  by apply: ho; rewrite trD trZ hv h3.
by rewrite trD !trZ !trD !trZ hv h1 h2 h3 h4.
Qed.

(* Two vector fields that agree on the covariances met by the step give the same step. *)
Lemma rk4_agree (I : 'M[R]_n -> Prop) (ode ode' : 'M[R]_(p, q) -> 'M[R]_n -> 'M[R]_(p, q) * 'M[R]_n) m v h :
  (forall m v, I v -> ode m v = ode' m v) ->
  let k1 := ode' m v in
  let v1 := v + 2%:R^-1 *: (h *: k1.2) in
  let k2 := ode' (m + 2%:R^-1 *: (h *: k1.1)) v1 in
  let v2 := v + 2%:R^-1 *: (h *: k2.2) in
  let k3 := ode' (m + 2%:R^-1 *: (h *: k2.1)) v2 in
  let v3 := v + h *: k3.2 in
  I v -> I v1 -> I v2 -> I v3 ->
  rk4_m_cov ode m v h = rk4_m_cov ode' m v h.
Proof.
move=> e k1 v1 k2 v2 k3 v3 i0 i1 i2 i3; rewrite !rk4_pair /rk4_step /=.
by rewrite (e m v i0) -/k1 (e _ _ i1) -/k2 (e _ _ i2) -/k3 (e _ _ i3).
Qed.
End Sym.

Section Cd.
Variable R : rcfType.
Variables (d dw : nat) (A : 'M[R]_d) (b : 'cV[R]_d) (B : 'M[R]_(d, dw)).

(* The moment equations of the linear stochastic differential equation. *)
Definition lin_ode (m : 'cV[R]_d) (v : 'M[R]_d) : 'cV[R]_d * 'M[R]_d :=
  (A *m m + b, v *m A^T + A *m v + B *m B^T).

Lemma lin_ode_sym m v : v^T = v -> ((lin_ode m v).2)^T = (lin_ode m v).2.
Proof.
move=> hv; rewrite /lin_ode /= !linearD /= !trmx_mul !trmxK hv.
by rewrite [A *m v + _]addrC.
Qed.

Definition lin_part (z : 'cV[R]_d * 'M[R]_d) : 'cV[R]_d * 'M[R]_d :=
  (A *m z.1, z.2 *m A^T + A *m z.2).
Lemma lin_part_linear : linear lin_part.
Proof.
move=> a x y; rewrite /lin_part /=; congr (_, _); first by rewrite linearP.
rewrite /= mulmxDl mulmxDr -scalemxAl -scalemxAr scalerDr -!addrA; congr (_ + _).
by rewrite addrCA.
Qed.

Lemma rk4_lin_ode m v h :
  rk4_m_cov lin_ode m v h
  = (m, v) + \sum_(k < 4) (h ^+ k.+1 / (k.+1)`!%:R) *: iter k lin_part (lin_ode m v).
Proof.
rewrite rk4_pair.
by apply: (@rk4_taylor _ _ (Linear lin_part_linear) (b, B *m B^T) (fun z => lin_ode z.1 z.2)).
Qed.
End Cd.
