(* The Kalman filter and smoother of the Ornstein-Uhlenbeck experiment agree with Gaussian process
   regression under the Matern kernel of the simulation. *)
From Coq Require Import String.
From mathcomp Require Import all_ssreflect all_algebra.
From mathcomp Require Import ring zify.
From Verif Require Import Prelude LinAlgSpec LinAlgProofs GfsModel GfsSpec GfsProofs GfsKf GfsVec GfsProps
  GfsRts LdlProofs Filter1DProofs SsModel SsProofs ConvModel ConvProofs ConvFilter.
Set Implicit Arguments.
Unset Strict Implicit.
Unset Printing Implicit Defensive.
Import Order.TTheory GRing.Theory Num.Theory.
Local Open Scope ring_scope.

(* Gaussian process regression: the posterior mean and covariance of f ~ N(0, K) given y = f + noise of
   variance r. *)
Definition gp_mean (R : rcfType) T (K : 'M[R]_T) (r : R) (y : 'cV[R]_T) : 'cV[R]_T :=
  K *m invmx (K + r%:M) *m y.
Definition gp_cov (R : rcfType) T (K : 'M[R]_T) (r : R) : 'M[R]_T :=
  K - K *m invmx (K + r%:M) *m K.

(* the measurements as a vector *)
Definition vec (R : rcfType) T (ys : seq R) : 'cV[R]_T := \col_i nth 0 ys i.

Section Gp.
Variable R : rcfType.
Variables (n : nat) (L : 'M[R]_n) (r : R) (y : 'cV[R]_n).
Hypotheses (uL : L \in unitmx) (r0 : 0 < r).
Let K := L *m L^T.
Let C := K + r%:M.
Let B := 1%:M + r^-1 *: (L^T *m L).
Let rn : r != 0. Proof. by rewrite gt_eqF. Qed.

Lemma gpB_posdef : posdef B.
Proof.
have p1 : posdef (1%:M : 'M[R]_n) by apply: scalar_posdef; rewrite ?ltr01.
split=> [|u hu].
  by rewrite /symmetric /B linearD /= trmx1 linearZ /= trmx_mul trmxK.
rewrite /B LinAlgProofs.qformD qformZ -[L^T]mulmx1 qform_congr.
case: p1 => _ h; apply: ltr_paddr; last exact: h.
rewrite mulr_ge0 ?invr_ge0 ?(ltW r0) //.
case: (eqVneq (L *m u) 0) => [->|/h /ltW //]; by rewrite /qform mulmx0 mxE.
Qed.
Lemma gpK_posdef : posdef K.
Proof.
have p1 : posdef (1%:M : 'M[R]_n) by apply: scalar_posdef; rewrite ?ltr01.
have := posdef_congr p1 (B := L^T); rewrite trmxK mulmx1 unitmx_tr; exact.
Qed.
Lemma gpC_posdef : posdef C.
Proof.
have [s1 p1] := gpK_posdef; have [s2 p2] : posdef (r%:M : 'M[R]_n) by apply: scalar_posdef; rewrite ?ltr01.
split=> [|u hu]; first by rewrite /symmetric /C linearD /= s1 s2.
by rewrite /C LinAlgProofs.qformD addr_gt0 ?p1 ?p2.
Qed.
Let uB : B \in unitmx := posdef_unit gpB_posdef.
Let uC : C \in unitmx := posdef_unit gpC_posdef.

(* Woodbury *)
Lemma gp_wood : L *m invmx B *m L^T = r *: (K *m invmx C).
Proof.
have e : L^T *m C = r *: (B *m L^T).
  rewrite /C /B mulmxDr mulmxDl mul1mx mul_mx_scalar scalerDr -scalemxAl scalerA divff // scale1r.
  by rewrite addrC; congr (_ + _); rewrite /K !mulmxA.
have e2 : L *m invmx B *m L^T *m C = r *: K.
  by rewrite -mulmxA e -scalemxAr mulmxA -(mulmxA L) mulVmx // mulmx1.
by rewrite scalemxAl -e2 -[RHS]mulmxA mulmxV // mulmx1.
Qed.
Lemma gp_covE : gp_cov K r = L *m invmx B *m L^T.
Proof.
rewrite gp_wood /gp_cov -/C.
have e : K = K *m invmx C *m C by rewrite -mulmxA mulVmx // mulmx1.
rewrite {1}e -mulmxBr /C addrAC subrr add0r mul_mx_scalar; by [].
Qed.

Let W := r^-1 *: (invmx B *m L^T *m y).
Lemma gp_meanE : L *m W = gp_mean K r y.
Proof. by rewrite /W -scalemxAr !mulmxA gp_wood -scalemxAl scalerA mulVf // scale1r. Qed.

Definition gp_cost (w : 'cV[R]_n) : R := qform 1%:M w + r^-1 * qform 1%:M (y - L *m w).
Lemma gp_square w : gp_cost w = qform (invmx C) y + qform B (w - W).
Proof.
have sB : B^T = B by case: gpB_posdef.
pose G := r^-1 *: (invmx B *m L^T).
have := @complete_square_gen R n n L 1%:M B (r^-1)%:M (invmx C) G y w.
have -> : G *m y = W by rewrite /G /W -scalemxAl.
rewrite -(scalemx1 n r^-1) qformZ => h; rewrite /gp_cost addrC; apply: h => //.
- by rewrite linearZ /= trmx1.
- by rewrite /G -scalemxAr mulmxA mulmxV // mul1mx -scalemxAr mulmx1.
- have sBi : (invmx B)^T = invmx B by rewrite trmx_inv sB.
  rewrite /G linearZ /= trmx_mul trmxK sBi -!scalemxAr mulmx1 -scalemxAl gp_wood.
  rewrite !scalerA -mulrA mulVf // mulr1.
  have -> : r^-1 *: (K *m invmx C) + invmx C = r^-1 *: ((K + r%:M) *m invmx C).
    by rewrite mulmxDl mul_scalar_mx scalerDr scalerA mulVf // scale1r.
  by rewrite mulmxV.
by rewrite -scalemxAr mulmx1 -scalemxAl.
Qed.

Lemma gp_squareE : exists W, L *m W = gp_mean K r y /\
  forall w, gp_cost w = qform (invmx C) y + qform B (w - W).
Proof. by exists W; split; [exact: gp_meanE|exact: gp_square]. Qed.

(* marginals *)
Lemma gp_cov_gt0 k : 0 < gp_cov K r k k.
Proof.
have pBi : posdef (invmx B) by apply: posdef_inv; exact: gpB_posdef.
have := posdef_congr pBi (B := L^T); rewrite trmxK unitmx_tr => /(_ uL) [_ h].
have := h (delta_mx k 0); rewrite gp_covE /qform trmx_delta -rowE -colE !mxE; apply.
by apply/eqP => /matrixP /(_ k 0) /eqP; rewrite !mxE !eqxx oner_eq0.
Qed.

Let l k : 'cV[R]_n := (row k L)^T.
Lemma gp_l k (w : 'cV[R]_n) : (L *m w) k 0 = ((l k)^T *m w) 0 0.
Proof. by rewrite /l trmxK -row_mul [RHS]mxE. Qed.
Lemma gp_v k : gp_cov K r k k = ((l k)^T *m invmx B *m l k) 0 0.
Proof. by rewrite gp_covE /l trmxK -row_mul tr_row colE mulmxA -row_mul -colE [RHS]mxE [RHS]mxE. Qed.

Lemma gp_lower k d : ((L *m d) k 0) ^+ 2 / gp_cov K r k k <= qform B d.
Proof.
have vk := gp_cov_gt0 k; set v := gp_cov K r k k in vk *; pose t := (L *m d) k 0 / v.
have sB : B^T = B by case: gpB_posdef.
have sBi : (invmx B)^T = invmx B by rewrite trmx_inv sB.
pose e := d - t *: (invmx B *m l k).
have pe : 0 <= qform B e.
  case: (eqVneq e 0) => [->|]; first by rewrite /qform mulmx0 mxE.
  by move=> he; apply: ltW; case: gpB_posdef => _; exact.
move: pe; rewrite /e qform2 //.
have -> : (d^T *m B *m (t *: (invmx B *m l k))) 0 0 = t * (L *m d) k 0.
  rewrite -scalemxAr mxE; congr (_ * _).
  by rewrite !mulmxA -(mulmxA d^T) mulmxV // mulmx1 gp_l -[RHS]tr00 trmx_mul trmxK.
have -> : qform B (t *: (invmx B *m l k)) = t ^+ 2 * v.
  rewrite /qform -scalemxAr linearZ /= -!scalemxAl scalerA mxE expr2; congr (_ * _).
  by rewrite trmx_mul sBi !mulmxA -(mulmxA _ (invmx B) B) mulVmx // mulmx1 -gp_v.
rewrite /t; set a := (L *m d) k 0 => h; rewrite -subr_ge0; apply: le_trans h _.
by rewrite le_eqVlt; apply/orP; left; apply/eqP; field; rewrite gt_eqF.
Qed.

Lemma gp_attained k (x : R) : exists d, (L *m d) k 0 = x /\ qform B d = x ^+ 2 / gp_cov K r k k.
Proof.
have vk := gp_cov_gt0 k; pose t := x / gp_cov K r k k.
have sB : B^T = B by case: gpB_posdef.
have sBi : (invmx B)^T = invmx B by rewrite trmx_inv sB.
exists (t *: (invmx B *m l k)); split.
  by rewrite gp_l -scalemxAr mxE mulmxA -gp_v /t divfK // gt_eqF.
rewrite /qform -scalemxAr linearZ /= -!scalemxAl scalerA mxE.
rewrite trmx_mul sBi !mulmxA -(mulmxA _ (invmx B) B) mulVmx // mulmx1 -gp_v /t.
by move: (gp_cov K r k k) vk => v v0; field; rewrite gt_eqF.
Qed.
End Gp.

(* a marginal of a Gaussian over trajectories of scalars is unique *)
Lemma marginal_unique (R : rcfType) (J : seq 'cV[R]_1 -> R) T k (m m' : 'cV[R]_1) (v v' : 'M[R]_1) :
  gauss_marginal J T k m v -> gauss_marginal J T k m' v' -> m = m' /\ v = v'.
Proof.
move=> [pv [c [hl ha]]] [pv' [c' [hl' ha']]].
have e x : c + qform (invmx v) (x - m) = c' + qform (invmx v') (x - m').
  apply/eqP; rewrite eq_le; apply/andP; split.
    by have [xs [hs <- <-]] := ha' x; exact: hl.
  by have [xs [hs <- <-]] := ha x; exact: hl'.
have v0 := posdef11 pv; have v0' := posdef11 pv'.
have q a : c + (v 0 0)^-1 * (a - m 0 0) ^+ 2 = c' + (v' 0 0)^-1 * (a - m' 0 0) ^+ 2.
  have := e a%:M; rewrite !qform11 !mxE mulr1n.
  have i (A : 'M[R]_1) : (invmx A) 0 0 = (A 0 0)^-1 by rewrite {1}(mx11_scal A) invmx_scalar mxE mulr1n.
  by rewrite !i.
rewrite (mx11_scal m) (mx11_scal m') (mx11_scal v) (mx11_scal v').
move: (v 0 0) (v' 0 0) (m 0 0) (m' 0 0) v0 v0' q => {e hl ha hl' ha' pv pv'} {}v {}v' {}m {}m' v0 v0' q.
have ev : v^-1 = v'^-1.
  have := congr2 +%R (q 1) (q (-1)); have := q 0 => e0 e1.
  have : 2%:R * v^-1 = 2%:R * v'^-1.
    have -> : 2%:R * v^-1 = (c + v^-1 * (1 - m) ^+ 2 + (c + v^-1 * (-1 - m) ^+ 2)) - 2%:R * (c + v^-1 * (0 - m) ^+ 2).
      by ring.
    by rewrite e1 e0; ring.
  by apply: mulfI; rewrite pnatr_eq0.
have ev' : v = v' by apply: invr_inj.
subst v'; split=> //; congr (_%:M).
have := congr2 (fun x y => x - y) (q 1) (q (-1)) => e1.
have : - 4%:R * v^-1 * m = - 4%:R * v^-1 * m'.
  have -> : - 4%:R * v^-1 * m = c + v^-1 * (1 - m) ^+ 2 - (c + v^-1 * (-1 - m) ^+ 2) by ring.
  by rewrite e1; ring.
by apply: mulfI; rewrite mulf_neq0 ?oppr_eq0 ?pnatr_eq0 // invr_eq0 gt_eqF.
Qed.

Section Conv.
Variable R : rcfType.
Variables (exp log : R -> R) (pi : R).
Variables (dt ell sigma noise_var : R).
Hypotheses (eA : exp_add exp) (eP : exp_spec exp).
Hypotheses (dt0 : 0 < dt) (ell0 : 0 < ell) (s0 : 0 < sigma) (r0 : 0 < noise_var).
Local Notation F := (conv_F exp dt ell).
Local Notation Sg := (conv_Sigma exp dt ell sigma).
Let Sg0 := Sg_gt0 eA eP dt0 ell0 s0.
Let sq0 : 0 < Num.sqrt Sg. Proof. by rewrite sqrtr_gt0. Qed.
Local Notation L := (ou_factor exp dt ell sigma).
Variable n : nat.

Local Notation vec := (vec n.+1).
Definition val1 (x : 'cV[R]_1) : R := x 0 0.
Definition innov (xs : seq 'cV[R]_1) : 'cV[R]_n.+1 :=
  \col_i (if (i : nat) is k.+1
          then (val1 (nth 0 xs k.+1) - F * val1 (nth 0 xs k)) / Num.sqrt Sg
          else val1 (nth 0 xs 0%N) / sigma).

Lemma vec_innov xs : L n.+1 *m innov xs = \col_i val1 (nth 0 xs i).
Proof.
have [h0 hS] := ou_factor_rec exp dt0 ell0 s0 (innov xs).
suff h k (hk : (k < n.+1)%N) : (L n.+1 *m innov xs) (Ordinal hk) 0 = val1 (nth 0 xs k).
  by apply/matrixP => i j; rewrite ord1 [RHS]mxE -(h _ (ltn_ord i)); congr (_ _ 0); apply: val_inj.
elim: k hk => [|k IH] hk.
  have -> : Ordinal hk = 0 by apply: val_inj.
  by rewrite h0 [in LHS]mxE /= mulrC divfK // gt_eqF.
have hk' : (k < n)%N by [].
have -> : Ordinal hk = lift 0 (Ordinal hk') by apply: val_inj.
rewrite hS; have -> : widen_ord (leqnSn n) (Ordinal hk') = Ordinal (leq_trans hk' (leqnSn n)) by apply: val_inj.
rewrite IH [in LHS]mxE /= mulrC [Num.sqrt Sg * _]mulrC divfK ?gt_eqF //; ring.
Qed.

Lemma qform1 m (u : 'cV[R]_m) : qform 1%:M u = \sum_i u i 0 ^+ 2.
Proof. by rewrite /qform mulmx1 mxE; apply: eq_bigr => i _; rewrite mxE expr2. Qed.

Lemma qform_sc (a : R) (u : 'cV[R]_1) : qform (invmx a%:M) u = val1 u ^+ 2 / a.
Proof. by rewrite qform11 invmx_scalar !mxE mulr1n mulrC. Qed.

Lemma traj_costE x ys xs : size xs = size ys ->
  traj_cost (F%:M : 'M_1) Sg%:M (1%:M : 'M_1) noise_var%:M x [seq y%:M | y <- ys] xs =
  \sum_(i < size ys) ((val1 (nth 0 xs i) - F * val1 (nth 0 (x :: xs) i)) ^+ 2 / Sg
                      + (nth 0 ys i - val1 (nth 0 xs i)) ^+ 2 / noise_var).
Proof.
elim: ys x xs => [|y ys IH] x [|x1 xs] //= hs; first by rewrite big_ord0.
rewrite big_ord_recl /= IH; last by case: hs.
rewrite !qform_sc mul_scalar_mx mul1mx /val1 !mxE mulr1n; congr (_ + _).
Qed.

Lemma costE ys xs : size ys = n.+1 -> size xs = n.+1 ->
  posterior_cost (F%:M : 'M_1) Sg%:M (1%:M : 'M_1) noise_var%:M (F%:M *m 0)
    (F%:M *m (sigma ^+ 2)%:M *m F%:M^T + Sg%:M) [seq y%:M | y <- ys] xs =
  gp_cost (L n.+1) noise_var (vec ys) (innov xs).
Proof.
case: ys xs => [//|y ys] [//|x xs] [hys] [hxs].
rewrite -[LHS]/(qform (invmx (F%:M *m (sigma ^+ 2)%:M *m F%:M^T + Sg%:M : 'M[R]_1)) (x - F%:M *m 0)
  + qform (invmx noise_var%:M) (y%:M - 1%:M *m x)
  + traj_cost (F%:M : 'M_1) Sg%:M (1%:M : 'M_1) noise_var%:M x [seq y%:M | y <- ys] xs).
rewrite traj_costE ?hxs ?hys //.
have -> : F%:M *m (sigma ^+ 2)%:M *m F%:M^T + Sg%:M = (sigma ^+ 2)%:M :> 'M[R]_1.
  rewrite tr_scalar_mx -!scalar_mxM -(raddfD (scalar_mx_additive R 1)); congr (_%:M).
  rewrite -[RHS](stationary dt ell sigma eA eP); ring.
rewrite !qform_sc mulmx0 subr0 mul1mx /gp_cost vec_innov !qform1.
rewrite big_distrr /= -big_split /= big_ord_recl /=.
have i0 : innov (x :: xs) 0 0 = val1 x / sigma by rewrite mxE.
have iS (i : 'I_n) : innov (x :: xs) (lift 0 i) 0 = (val1 (nth 0 xs i) - F * val1 (nth 0 (x :: xs) i)) / Num.sqrt Sg.
  by rewrite mxE.
rewrite i0; congr (_ + _).
  congr (_ + _); first by rewrite expr_div_n.
  by rewrite mulrC /val1 !mxE mulr1n.
apply: eq_bigr => i _; rewrite iS [noise_var^-1 * _]mulrC; congr (_ + _).
  by rewrite expr_div_n sqr_sqrtr // ltW.
by rewrite !mxE.
Qed.

Lemma gp_marginal ys k (hk : (k < n.+1)%N) (K := matern12 exp ell sigma n.+1 (conv_ts dt n.+1) (conv_ts dt n.+1)) :
  size ys = n.+1 ->
  gauss_marginal (posterior_cost (F%:M : 'M_1) Sg%:M (1%:M : 'M_1) noise_var%:M (F%:M *m 0)
    (F%:M *m (sigma ^+ 2)%:M *m F%:M^T + Sg%:M) [seq y%:M | y <- ys]) n.+1 k
    (gp_mean K noise_var (vec ys) (Ordinal hk) 0)%:M (gp_cov K noise_var (Ordinal hk) (Ordinal hk))%:M.
Proof.
move=> hs; set o := Ordinal hk.
have hch := ou_factor_chol eA eP dt0 ell0 s0 n.+1.
have uL := chol_unit hch; have eK : L n.+1 *m (L n.+1)^T = K by case: hch.
have v0 := gp_cov_gt0 uL r0 o; rewrite eK in v0.
split; first exact: scalar_posdef.
have [W [WE cE]] := gp_squareE (vec ys) uL r0; rewrite eK in WE cE.
exists (qform (invmx (K + noise_var%:M)) (vec ys)); split=> [xs hx|x].
  rewrite costE // cE ler_add2l qform_sc.
  have := gp_lower uL r0 o (innov xs - W); rewrite mulmxBr vec_innov WE eK.
  have -> : (\col_i val1 (nth 0 xs i) - gp_mean K noise_var (vec ys)) o 0 =
    val1 (nth 0 xs k - (gp_mean K noise_var (vec ys) o 0)%:M) by rewrite /val1 !mxE mulr1n.
  by [].
have [d [dE qE]] := gp_attained uL r0 o (val1 x - gp_mean K noise_var (vec ys) o 0).
pose xs := [seq ((L n.+1 *m (W + d)) i 0)%:M : 'cV[R]_1 | i <- enum 'I_n.+1].
have hx : size xs = n.+1 by rewrite size_map size_enum_ord.
have nx (i : 'I_n.+1) : val1 (nth 0 xs i) = (L n.+1 *m (W + d)) i 0.
  by rewrite /xs (nth_map 0) ?size_enum_ord // nth_ord_enum /val1 mxE mulr1n.
have iE : innov xs = W + d.
  have := congr1 (mulmx (invmx (L n.+1))) (vec_innov xs); rewrite mulmxA mulVmx // mul1mx => ->.
  have -> : \col_i val1 (nth 0 xs i) = L n.+1 *m (W + d).
    by apply/matrixP => i j; rewrite ord1 mxE nx.
  by rewrite mulmxA mulVmx // mul1mx.
exists xs; split=> //.
  rewrite [LHS]mx11_scal -/(val1 _) [RHS]mx11_scal -/(val1 _); congr (_%:M).
  by rewrite (nx o) mulmxDr WE [LHS]mxE dE addrC subrK.
rewrite costE // cE iE addrAC subrr add0r qE eK qform_sc; congr (_ + _ ^+ 2 / _).
by rewrite /val1 !mxE mulr1n.
Qed.

Section Smoother.
Variable chol : forall n, 'M[R]_n -> 'M[R]_n.
Hypothesis hc : chol_spec chol.
Local Notation KF := (conv_kf exp log pi dt ell sigma noise_var).
Lemma conv_smoother_gp ys k (hk : (k < n.+1)%N)
    (K := matern12 exp ell sigma n.+1 (conv_ts dt n.+1) (conv_ts dt n.+1)) :
  size ys = n.+1 ->
  let r := rts chol (F%:M : 'M_1) Sg%:M [seq m%:M | m <- (KF ys).1.1] [seq v%:M | v <- (KF ys).1.2] in
  [/\ size r.1 = n.+1, size r.2 = n.+1,
      nth 0 r.1 k = (gp_mean K noise_var (vec ys) (Ordinal hk) 0)%:M
    & nth 0 r.2 k = (gp_cov K noise_var (Ordinal hk) (Ordinal hk))%:M].
Proof.
move=> hs; have hs' := hs; case: ys hs' hs => [//|y ys] [hs'] hs.
have [es [e1 _]] := conv_kf_kf log pi eA eP dt0 ell0 s0 r0 chol (y :: ys).
have := @kf_rts_posterior R chol log pi 1%N F%:M Sg%:M 1%:M noise_var%:M 0 (sigma ^+ 2)%:M y%:M [seq y%:M | y <- ys] hc.
case; try exact: scalar_posdef.
  by apply: posdef_semi; apply: scalar_posdef; rewrite exprn_gt0.
move=> ms [vs [es' []]]; rewrite -[y%:M :: _]/(map _ (y :: ys)) e1 => -[<- <- _].
lazy zeta; rewrite [map (scalar_mx (n:=1)) (y :: ys)]/= size_map hs' => -[h1 h2 _ h3].
have [->] := marginal_unique (h3 k hk) (gp_marginal hk hs).
by move=> ->.
Qed.
End Smoother.

Local Notation KF := (conv_kf exp log pi dt ell sigma noise_var).
Lemma conv_last_gp ys (K := matern12 exp ell sigma n.+1 (conv_ts dt n.+1) (conv_ts dt n.+1)) :
  size ys = n.+1 ->
  last 0 (KF ys).1.1 = gp_mean K noise_var (vec ys) ord_max 0 /\
  last 0 (KF ys).1.2 = gp_cov K noise_var ord_max ord_max.
Proof.
move=> hs; have hc := @chol_ref_spec R.
have [h1 h2 h3 h4] := conv_smoother_gp hc (ltnSn n) hs.
have -> : ord_max = Ordinal (ltnSn n) :> 'I_n.+1 by apply: val_inj.
have lst (T : Type) (x0 : T) l : size l = n.+1 -> nth x0 l n = last x0 l by move=> h; rewrite -nth_last h.
have l1 (l : seq R) : last 0 [seq x%:M : 'cV[R]_1 | x <- l] = (last 0 l)%:M.
  by rewrite -(last_map (fun x => x%:M : 'cV[R]_1)); congr last; apply/matrixP => i j; rewrite !mxE mul0rn.
have sc (a b : R) : a%:M = b%:M :> 'cV[R]_1 -> a = b by move=> /matrixP /(_ 0 0); rewrite !mxE !mulr1n.
split; apply: sc.
  by rewrite -h3 lst // /rts /run_smoother [X in last _ X]/= last_rcons l1.
by rewrite -h4 lst // /rts /run_smoother [X in last _ X]/= last_rcons l1.
Qed.
End Conv.

(* ---- all steps of the filter, and the likelihood ---- *)
Lemma scan_take (S X O : Type) (body : S -> X -> S * O) s xs k :
  (scan body s (take k xs)).2 = take k (scan body s xs).2.
Proof.
rewrite -[in RHS](cat_take_drop k xs) scan_cat /=.
case: (leqP k (size xs)) => h.
  by rewrite take_size_cat // size_scan size_takel.
by rewrite (take_oversize (ltnW h)) (drop_oversize (ltnW h)) /= cats0 take_oversize // size_scan ltnW.
Qed.

(* the density of a Gaussian vector is that of its first part times the conditional one of the last entry *)
Section Block.
Variable R : rcfType.
Variables (log : R -> R) (pi : R).
Hypothesis lM : GfsSpec.log_spec log.
Hypothesis pi0 : 0 < pi.
Variables (n : nat) (C : 'M[R]_n) (k : 'cV[R]_n) (c : R) (y : 'cV[R]_n) (z : R).
Hypothesis pC : posdef C.
Let uC := posdef_unit pC.
Let a := invmx C *m k.
Let s := c - (k^T *m a) 0 0.
Hypothesis s0 : 0 < s.
Let M : 'M[R]_(n + 1) := block_mx C k k^T c%:M.
Let U : 'M[R]_(n + 1) := block_mx 1%:M 0 (- a^T) 1%:M.

Lemma block_U : U *m M *m U^T = block_mx C 0 0 s%:M.
Proof.
have sC : C^T = C by case: pC.
have sCi : (invmx C)^T = invmx C by rewrite trmx_inv sC.
have aC : a^T *m C = k^T by rewrite /a trmx_mul sCi -mulmxA mulVmx // mulmx1.
have Ca : C *m a = k by rewrite /a mulmxA mulmxV // mul1mx.
rewrite /U /M tr_block_mx !mulmx_block !trmx1 !trmx0 linearN /= trmxK.
rewrite !mul1mx !mulmx1 !mul0mx !mulmx0 !addr0 !mulNmx aC addNr mul0mx add0r.
rewrite mulmxN Ca addNr; congr block_mx.
have -> : a^T *m k = (k^T *m a)^T by rewrite [RHS]trmx_mul trmxK.
apply/matrixP => i j; rewrite !ord1 /s; move: (k^T *m a) => q.
by rewrite !mxE !mulr1n addrC.
Qed.

Lemma det_U : \det U = 1. Proof. by rewrite det_lblock !det1 mulr1. Qed.
Lemma block_det : \det M = \det C * s.
Proof.
have := congr1 determinant block_U; rewrite !det_mulmx det_tr det_U mul1r mulr1 => ->.
by rewrite det_ublock det_mx11 mxE mulr1n.
Qed.
Lemma block_unit : M \in unitmx.
Proof. by rewrite unitmxE block_det unitfE mulf_neq0 ?(gt_eqF s0) // -unitfE -unitmxE. Qed.

Lemma block_qform : qform (invmx M) (col_mx y z%:M) =
  qform (invmx C) y + (z - (k^T *m invmx C *m y) 0 0) ^+ 2 / s.
Proof.
have sC : C^T = C by case: pC.
have sCi : (invmx C)^T = invmx C by rewrite trmx_inv sC.
have uU : U \in unitmx by rewrite unitmxE det_U unitr1.
pose Di : 'M[R]_(n + 1) := block_mx (invmx C) 0 0 (s^-1)%:M.
have DDi : block_mx C 0 0 s%:M *m Di = 1%:M.
  rewrite mulmx_block !mul0mx !mulmx0 !addr0 !add0r mulmxV // -scalar_mxM divff ?(gt_eqF s0) //.
  by rewrite -scalar_mx_block.
have e : invmx M = U^T *m Di *m U.
  apply: (can_inj (mulKmx block_unit)); rewrite mulmxV ?block_unit //.
  have h : U *m (M *m (U^T *m Di *m U)) = U by rewrite !mulmxA block_U DDi mul1mx.
  by rewrite -[RHS](mulKmx uU) h mulVmx.
rewrite e qform_congr.
have -> : U *m col_mx y z%:M = col_mx y (z - (k^T *m invmx C *m y) 0 0)%:M.
  rewrite /U mul_block_col !mul1mx mul0mx addr0 mulNmx; congr col_mx.
  rewrite /a trmx_mul sCi; move: (k^T *m invmx C *m y) => q.
  by apply/matrixP => i j; rewrite !ord1 !mxE !mulr1n addrC.
rewrite /qform tr_col_mx /Di mul_row_block !mulmx0 addr0 add0r mul_row_col [LHS]mxE; congr (_ + _).
by rewrite tr_scalar_mx -!scalar_mxM mxE mulr1n expr2 mulrAC.
Qed.

Lemma log_gauss_block : log_gauss log pi (col_mx y z%:M) 0 M =
  log_gauss log pi y 0 C + log_gauss log pi z%:M (k^T *m invmx C *m y) (s%:M : 'M_1).
Proof.
rewrite /log_gauss !subr0 block_qform block_det qform_sc det_mx11 [in RHS]mxE mulr1n expr1 exprD expr1.
have tp : 0 < 2%:R * pi by rewrite mulr_gt0 // ltr0n.
have dC : 0 < \det C by exact: (posdef_det (@chol_ref_spec R)).
have -> : val1 (z%:M - k^T *m invmx C *m y) = z - (k^T *m invmx C *m y) 0 0.
  by rewrite /val1 !mxE mulr1n.
have -> : (2%:R * pi) ^+ n * (2%:R * pi) * (\det C * s) = ((2%:R * pi) ^+ n * \det C) * (2%:R * pi * s) by ring.
rewrite (lM (mulr_gt0 (exprn_gt0 n tp) dC) (mulr_gt0 tp s0)).
by rewrite -mulrDr; congr (_ * _); rewrite -!addrA; congr (_ + _); rewrite addrCA.
Qed.
End Block.

Section Likelihood.
Variable R : rcfType.
Variables (exp log : R -> R) (pi : R).
Variables (dt ell sigma noise_var : R).
Hypotheses (eA : exp_add exp) (eP : exp_spec exp).
Hypotheses (dt0 : 0 < dt) (ell0 : 0 < ell) (s0 : 0 < sigma) (r0 : 0 < noise_var).
Hypotheses (lM : GfsSpec.log_spec log) (pi0 : 0 < pi).
Local Notation F := (conv_F exp dt ell).
Local Notation Sg := (conv_Sigma exp dt ell sigma).
Local Notation KF := (conv_kf exp log pi dt ell sigma noise_var).
Local Notation K T := (matern12 exp ell sigma T (conv_ts dt T) (conv_ts dt T)).

Lemma size_KF ys : size (KF ys).1.1 = size ys /\ size (KF ys).1.2 = size ys.
Proof.
rewrite /conv_kf; have := size_scan (conv_kf_body exp log pi dt ell sigma noise_var)
  (conv_mean0 R, conv_var0 sigma, 0) ys.
by case: (scan _ _ _) => c' o' /= <-; rewrite !size_map.
Qed.

Lemma conv_steps_gp ys k : (k < size ys)%N ->
  nth 0 (KF ys).1.1 k = gp_mean (K k.+1) noise_var (vec k.+1 ys) ord_max 0 /\
  nth 0 (KF ys).1.2 k = gp_cov (K k.+1) noise_var ord_max ord_max.
Proof.
move=> hk; have hs : size (take k.+1 ys) = k.+1 by rewrite size_takel.
have [] := conv_last_gp log pi eA eP dt0 ell0 s0 r0 hs.
have -> : vec k.+1 (take k.+1 ys) = vec k.+1 ys.
  by apply/matrixP => i j; rewrite !mxE nth_take.
have tk : (KF (take k.+1 ys)).1 = (take k.+1 (KF ys).1.1, take k.+1 (KF ys).1.2).
  rewrite /conv_kf; have := scan_take (conv_kf_body exp log pi dt ell sigma noise_var)
    (conv_mean0 R, conv_var0 sigma, 0) ys k.+1.
  by case: (scan _ _ (take _ _)) => c o; case: (scan _ _ _) => c' o' /= ->; rewrite !map_take.
have [z1 z2] := size_KF ys.
rewrite tk -!nth_last !size_takel ?z1 ?z2 // !nth_take //=.
Qed.

Lemma conv_kf_rcons ys y (m := last (conv_mean0 R) (KF ys).1.1) (v := last (conv_var0 sigma) (KF ys).1.2) :
  (KF (rcons ys y)).2 = (KF ys).2 - norm_logpdf log pi y (F * m) (Num.sqrt (F * v * F + Sg + noise_var)).
Proof.
rewrite /m /v /conv_kf.
set b := conv_kf_body _ _ _ _ _ _ _.
have inv zs : (scan b (conv_mean0 R, conv_var0 sigma, 0) zs).1.1 =
  last (conv_mean0 R, conv_var0 sigma) (scan b (conv_mean0 R, conv_var0 sigma, 0) zs).2.
  elim/last_ind: zs => [//|zs z _]; rewrite scan_rcons /= last_rcons.
  by case: (scan _ _ _).1 => [[m1 v1] c1].
rewrite scan_rcons; have := inv ys; case: (scan _ _ _) => [[[m1 v1] c1] o] /= e.
have -> : last (conv_mean0 R) [seq o0.1 | o0 <- o] = (last (conv_mean0 R, conv_var0 sigma) o).1.
  by rewrite -(last_map fst).
have -> : last (conv_var0 sigma) [seq o0.2 | o0 <- o] = (last (conv_mean0 R, conv_var0 sigma) o).2.
  by rewrite -(last_map snd).
by rewrite -e.
Qed.

Lemma matern_sym T : (K T)^T = K T.
Proof. by case: (matern_posdef eA eP dt0 ell0 s0 T). Qed.
Lemma KR_posdef T : posdef (K T + noise_var%:M).
Proof.
have hch := ou_factor_chol eA eP dt0 ell0 s0 T.
by case: (hch) => _ _ <-; exact: (gpC_posdef (chol_unit hch) r0).
Qed.

Definition cross T : 'cV[R]_T := \col_i (sigma ^+ 2 * F ^+ (T - i)).
Lemma matern_block n :
  K (n + 1) + noise_var%:M = block_mx (K n + noise_var%:M) (cross n) (cross n)^T (sigma ^+ 2 + noise_var)%:M.
Proof.
have e (n1 : nat) (i j : 'I_n1) : (K n1 + noise_var%:M) i j =
    sigma ^+ 2 * F ^+ (maxn i j - minn i j) + noise_var *+ ((i : nat) == j).
  by rewrite [LHS]mxE maternE // [X in _ + X]mxE.
apply/matrixP => i j; rewrite e; case: (split_ordP i) => i1 ->; case: (split_ordP j) => j1 ->.
- by rewrite block_mxEul e.
- rewrite block_mxEur mxE !ord1 /= addn0.
  by rewrite (maxn_idPr (ltnW (ltn_ord i1))) (minn_idPl (ltnW (ltn_ord i1))) ltn_eqF // mulr0n addr0.
- rewrite block_mxEdl [RHS]mxE mxE !ord1 /= addn0.
  by rewrite (maxn_idPl (ltnW (ltn_ord j1))) (minn_idPr (ltnW (ltn_ord j1))) gtn_eqF // mulr0n addr0.
by rewrite block_mxEdr mxE !ord1 /= addn0 maxnn minnn subnn expr0 mulr1 eqxx !mulr1n.
Qed.

Lemma vec_block n (ys : seq R) (y : R) : size ys = n -> vec (n + 1) (rcons ys y) = col_mx (vec n ys) y%:M.
Proof.
move=> hs; apply/matrixP => i j; rewrite ord1 mxE nth_rcons hs; case: (split_ordP i) => i1 ->.
  by rewrite col_mxEu mxE.
by rewrite col_mxEd !ord1 /= addn0 eqxx mxE mulr1n.
Qed.

Lemma cross_last n : cross n.+1 = F *: (K n.+1 *m delta_mx ord_max 0).
Proof.
apply/matrixP => i j; rewrite ord1 -colE mxE [RHS]mxE [X in _ = _ * X]mxE maternE //.
have h : (i <= n)%N by rewrite -ltnS.
by rewrite /= (maxn_idPr h) (minn_idPl h) subSn // [F ^+ _.+1]exprS mulrCA.
Qed.

(* one step of prediction is conditioning *)
Lemma conv_conditional T ys (m := last (conv_mean0 R) (KF ys).1.1)
    (v := last (conv_var0 sigma) (KF ys).1.2) : size ys = T ->
  ((cross T)^T *m invmx (K T + noise_var%:M) *m vec T ys) 0 0 = F * m /\
  sigma ^+ 2 + noise_var - ((cross T)^T *m (invmx (K T + noise_var%:M) *m cross T)) 0 0
  = F * v * F + Sg + noise_var.
Proof.
rewrite /m /v; case: T => [|n] hs.
  rewrite (size0nil hs).
  rewrite ![(cross 0)^T]thinmx0 !mul0mx !mxE /= mulr0 subr0; split=> //.
  by rewrite /conv_var0 -[in LHS](stationary dt ell sigma eA eP); ring.
have hl (x : R) l : size l = n.+1 -> last x l = nth 0 l n.
  by case: l => // y l h; rewrite -nth_last h; apply: set_nth_default; rewrite h.
have [z1 z2] := size_KF ys; rewrite hs in z1 z2.
have hn : (n < size ys)%N by rewrite hs.
have [e1 e2] := conv_steps_gp hn.
rewrite !hl // e1 e2 cross_last linearZ /= trmx_mul matern_sym trmx_delta; split.
  rewrite -!scalemxAl mxE; congr (_ * _).
  by rewrite /gp_mean -!mulmxA -rowE mxE.
rewrite -!scalemxAr -!scalemxAl scalerA mxE /gp_cov.
have -> : ((delta_mx 0 ord_max : 'rV_n.+1) *m K n.+1 *m (invmx (K n.+1 + noise_var%:M) *m
    (K n.+1 *m (delta_mx ord_max 0 : 'cV_n.+1)))) 0 0
  = (K n.+1 *m invmx (K n.+1 + noise_var%:M) *m K n.+1) ord_max ord_max.
  by rewrite !mulmxA -colE mxE -!mulmxA -rowE mxE.
move: (K n.+1 *m invmx (K n.+1 + noise_var%:M) *m K n.+1) => Q.
have -> : (K n.+1 - Q) ord_max ord_max = sigma ^+ 2 - Q ord_max ord_max.
  by rewrite mxE [X in _ + X]mxE maternE // maxnn minnn subnn expr0 mulr1.
move: (Q _ _) => q; rewrite -{1}(stationary dt ell sigma eA eP); ring.
Qed.

Lemma v_gt0 ys : 0 < last (conv_var0 sigma) (KF ys).1.2.
Proof.
have [_] := size_KF ys; case e : (size ys) => [|n].
  by move=> /size0nil ->; rewrite /= exprn_gt0.
case E : ((KF ys).1.2) => [//|v l] h; rewrite /= (last_nth 0); case: h => ->; rewrite -E.
have hn : (n < size ys)%N by rewrite e.
have [_ ->] := conv_steps_gp hn.
have hch := ou_factor_chol eA eP dt0 ell0 s0 n.+1.
by case: (hch) => _ _ <-; exact: (gp_cov_gt0 (chol_unit hch) r0).
Qed.

Lemma conv_nell ys T : size ys = T ->
  (KF ys).2 = - log_gauss log pi (vec T ys) 0 (K T + noise_var%:M).
Proof.
elim/last_ind: ys T => [|ys y IH] T.
  move=> <-; rewrite /= /log_gauss /qform thinmx0 linear0 !mul0mx mxE det_mx00 expr0 mulr1.
  have := lM ltr01 ltr01; rewrite mulr1 => /eqP; rewrite -subr_eq0 opprD addrA subrr add0r oppr_eq0 => /eqP ->.
  by rewrite addr0 mulr0 oppr0.
rewrite size_rcons -addn1 => <-; rewrite conv_kf_rcons (IH _ erefl) matern_block vec_block //.
have [c1 c2] := conv_conditional (erefl (size ys)).
have s1 : 0 < F * last (conv_var0 sigma) (KF ys).1.2 * F + Sg + noise_var.
  apply: addr_gt0 => //; apply: addr_gt0; last exact: Sg_gt0.
  have F0 : 0 < F by exact: F_gt0.
  by rewrite !mulr_gt0 ?v_gt0.
rewrite log_gauss_block //; [|exact: KR_posdef|by rewrite c2].
rewrite opprD; congr (_ - _).
rewrite norm_logpdfE -c1 c2.
have -> : y = (y%:M : 'cV[R]_1) 0 0 by rewrite mxE mulr1n.
set S := (X in log_normal_pdf _ _ _ _ X) in s1 *.
have SE : S = (S%:M : 'M[R]_1) 0 0 by rewrite mxE mulr1n.
by rewrite {1}SE log_normal_pdfE -?SE // -mx11_scal.
Qed.
End Likelihood.
