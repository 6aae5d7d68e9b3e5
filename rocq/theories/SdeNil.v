(* The matrix exponential of nilpotent matrices and the discretisation of nilpotent systems. *)
From mathcomp Require Import all_ssreflect all_algebra.
From mathcomp Require Import ring zify polyrcf.
From Verif Require Import Prelude LinAlgSpec LinAlgProofs SpectralProofs SdeModel SdeSpec SdeLti SdeDeriv.
Set Implicit Arguments.
Unset Strict Implicit.
Unset Printing Implicit Defensive.
Import Order.TTheory GRing.Theory Num.Theory.
Local Open Scope ring_scope.

Section Nil.
Variable R : rcfType.

Definition nilpotent n (M : 'M[R]_n) : Prop := mxpow M n = 0.
Definition expm_nil n (M : 'M[R]_n) : 'M[R]_n := \sum_(k < n) (k`!)%:R^-1 *: mxpow M k.

Lemma mxpowZ n (M : 'M[R]_n) t k : mxpow (t *: M) k = t ^+ k *: mxpow M k.
Proof.
elim: k => [|k IH]; first by rewrite /= expr0 scale1r.
by rewrite !mxpowS IH -scalemxAl -scalemxAr scalerA exprS.
Qed.

Lemma mxpow_trn n (M : 'M[R]_n) k : mxpow M^T k = (mxpow M k)^T.
Proof.
elim: k => [|k IH]; first by rewrite /= trmx1.
by rewrite mxpowS mxpowSr IH trmx_mul.
Qed.

Lemma nil_ge n (M : 'M[R]_n) k : nilpotent M -> (n <= k)%N -> mxpow M k = 0.
Proof. by move=> h /subnKC <-; rewrite mxpowD h mul0mx. Qed.

Lemma expm_nilE n (M : 'M[R]_n) t N : nilpotent M -> (n <= N)%N ->
  expm_nil (t *: M) = \sum_(k < N) (t ^+ k / (k`!)%:R) *: mxpow M k.
Proof.
move=> h /subnKC <-; rewrite big_split_ord /= [X in _ + X]big1 ?addr0; last first.
  by move=> k _; rewrite nil_ge ?leq_addr // scaler0.
by apply: eq_bigr => k _; rewrite mxpowZ scalerA mulrC.
Qed.

Lemma intertwine n m (M : 'M[R]_n) (N : 'M[R]_m) (P : 'M[R]_(n, m)) k :
  M *m P = P *m N -> mxpow M k *m P = P *m mxpow N k.
Proof.
move=> h; elim: k => [|k IH]; first by rewrite mul1mx mulmx1.
by rewrite mxpowS -mulmxA IH mulmxA h -mulmxA.
Qed.

(* Cauchy product *)
Lemma cauchy_nil n (M : 'M[R]_n) (a b c : nat -> R) : nilpotent M ->
  (forall k, c k = \sum_(i < k.+1) a i * b (k - i)%N) ->
  (\sum_(i < n) a i *: mxpow M i) *m (\sum_(i < n) b i *: mxpow M i) = \sum_(k < n) c k *: mxpow M k.
Proof.
move=> h hc.
rewrite mulmx_suml; under eq_bigr do rewrite mulmx_sumr.
transitivity (\sum_(i < n) \sum_(j < n) (a i * b j) *: mxpow M (i + j)).
  by apply: eq_bigr => i _; apply: eq_bigr => j _; rewrite -scalemxAl -scalemxAr scalerA mxpowD.
transitivity (\sum_(i < n) \sum_(k < n | (i <= k)%N) (a i * b (k - i)%N) *: mxpow M k).
  apply: eq_bigr => i _.
  rewrite (bigID (fun j : 'I_n => (i + j < n)%N)) /= [X in _ + X]big1 ?addr0; last first.
    by move=> j; rewrite -leqNgt => hj; rewrite nil_ge // scaler0.
  rewrite -(big_mkord (fun j => (i + j < n)%N) (fun j => (a i * b j) *: mxpow M (i + j))).
  rewrite -(big_mkord (fun k => (i <= k)%N) (fun k => (a i * b (k - i)%N) *: mxpow M k)).
  have hi : (i <= n)%N by apply: ltnW.
  rewrite [RHS](@big_cat_nat _ _ _ i) //= [X in _ = X + _]big1_seq ?add0r; last first.
    by move=> k /andP [hk]; rewrite mem_index_iota; move: hk; clear; lia.
  rewrite (@big_cat_nat _ _ _ (n - i)%N) //= ?leq_subr // [X in _ + X]big1_seq ?addr0; last first.
    by move=> k /andP [hk]; rewrite mem_index_iota; move: hk; clear; lia.
  have shift (G : nat -> 'M[R]_n) (i0 : nat) : \sum_(i0 <= k < n | (i0 <= k)%N) G k
      = \sum_(0 <= j < n - i0 | (i0 <= j + i0)%N) G (j + i0)%N.
    by rewrite -{1}[i0]add0n big_addn.
  rewrite (shift (fun k => (a i * b (k - i)%N) *: mxpow M k)) big_nat_cond [RHS]big_nat_cond.
  apply: eq_big => [j|j /andP [_ _]]; last by rewrite addnK [(j + i)%N]addnC.
  rewrite leq_addl andbT; case: (j < n - i)%N / idP => [hj|//]; move: hj; clear; lia.
rewrite (exchange_big_dep predT) //=; apply: eq_bigr => k _; rewrite hc scaler_suml.
rewrite -(big_mkord (fun i => (i <= k)%N) (fun i => (a i * b (k - i)%N) *: mxpow M k)).
rewrite -(big_mkord predT (fun i => (a i * b (k - i)%N) *: mxpow M k)).
rewrite (@big_cat_nat _ _ _ k.+1) //= [X in _ + X]big1_seq ?addr0; last first.
  by move=> i /andP [hi]; rewrite mem_index_iota; move: hi; clear; lia.
rewrite big_nat_cond [RHS]big_nat_cond; apply: eq_bigl => i.
by rewrite ltnS; case: (i <= k)%N.
Qed.

Lemma expD (s t : R) k : (s + t) ^+ k / (k`!)%:R
  = \sum_(i < k.+1) (s ^+ i / (i`!)%:R) * (t ^+ (k - i)%N / ((k - i)`!)%:R).
Proof.
rewrite addrC exprDn mulr_suml; apply: eq_bigr => i _.
have hi : (i <= k)%N by rewrite -ltnS.
have n0 j : (j`!)%:R != 0 :> R by rewrite pnatr_eq0 -lt0n fact_gt0.
have -> : (k`!)%:R = ('C(k, i))%:R * ((i`!)%:R * ((k - i)`!)%:R) :> R by rewrite -!natrM bin_fact.
have c0 : ('C(k, i))%:R != 0 :> R by rewrite pnatr_eq0 -lt0n bin_gt0.
rewrite -mulr_natr; move: (n0 i) (n0 (k - i)%N) c0; move: (s ^+ _) (t ^+ _) (_%:R) (_%:R) (_%:R).
by move=> a b p q r h1 h2 h3; field; rewrite h1 h2 h3.
Qed.

Lemma expm_nil_group : expm_group nilpotent expm_nil.
Proof.
split.
- move=> n M h; rewrite (expm_nilE 0 h (leqnSn n)) big_ord_recl big1 ?addr0.
    by rewrite expr0 fact0 divr1 scale1r.
  by move=> k _; rewrite expr0n mul0r scale0r.
- move=> n M s t h; rewrite !(@expm_nilE _ _ _ n) //.
  rewrite (@cauchy_nil _ _ (fun i => s ^+ i / (i`!)%:R) (fun i => t ^+ i / (i`!)%:R)
     (fun i => (s + t) ^+ i / (i`!)%:R)) // => k; exact: expD.
- move=> n M t h; rewrite /expm_nil raddf_sum; apply: eq_bigr => k _ /=.
  by rewrite !mxpowZ mxpow_trn !scalerA [RHS]linearZ.
- move=> n m M N P t hM hN h.
  rewrite (@expm_nilE _ _ _ (n + m)) ?leq_addr // (@expm_nilE _ N _ (n + m)) ?leq_addl //.
  rewrite mulmx_suml mulmx_sumr; apply: eq_bigr => k _.
  by rewrite -scalemxAl (intertwine _ h) scalemxAr.
Qed.

Lemma expm_nil_poly n (M : 'M[R]_n) i j t : nilpotent M ->
  expm_nil (t *: M) i j = (\poly_(k < n) (mxpow M k i j / (k`!)%:R)).[t].
Proof.
move=> h; rewrite (expm_nilE t h (leqnn n)) summxE horner_poly; apply: eq_bigr => k _.
by rewrite mxscaleE mulrC [t ^+ k / _]mulrC mulrA.
Qed.

Lemma expm_nil_deriv : expm_deriv nilpotent expm_nil.
Proof.
move=> n M h i j.
apply: (der_ext _ _ (der_poly (\poly_(k < n) (mxpow M k i j / (k`!)%:R)))) => t.
  by rewrite -expm_nil_poly.
rewrite (expm_nilE t h (leqnn n)) mulmx_sumr summxE.
have -> : \sum_(k < n) (M *m (t ^+ k / (k`!)%:R *: mxpow M k)) i j
  = \sum_(k < n) (t ^+ k / (k`!)%:R) * mxpow M k.+1 i j.
  by apply: eq_bigr => k _; rewrite -scalemxAr mxscaleE -mxpowS.
rewrite (@horner_coef_wide _ n) //; first last.
  by apply: leq_trans (size_poly _ _) _; apply: leq_trans (leq_pred _) (size_poly _ _).
apply: eq_bigr => k _; rewrite coef_deriv coef_poly.
case: ltnP => hk; last by rewrite mul0rn mul0r nil_ge // mxE mulr0.
rewrite -mulr_natr factS natrM.
have n0 : (k`!)%:R != 0 :> R by rewrite pnatr_eq0 -lt0n fact_gt0.
have n1 : (k.+1)%:R != 0 :> R by rewrite pnatr_eq0.
move: (mxpow _ _ _ _) (t ^+ k) n0 n1; move: (k`!)%:R (k.+1)%:R => p q a b h1 h2.
by field; rewrite h1 h2.
Qed.

(* nilpotent drift matrices *)
Lemma nil_opp n (M : 'M[R]_n) : nilpotent M -> nilpotent (- M).
Proof. by move=> h; rewrite /nilpotent -scaleN1r mxpowZ h scaler0. Qed.
Lemma nil_tr n (M : 'M[R]_n) : nilpotent M -> nilpotent M^T.
Proof. by move=> h; rewrite /nilpotent mxpow_trn h trmx0. Qed.

Lemma nil_block d (A X D : 'M[R]_d) : nilpotent A -> nilpotent D ->
  nilpotent (block_mx A X 0 D).
Proof.
move=> hA hD.
have h k : exists Y, mxpow (block_mx A X 0 D) k = block_mx (mxpow A k) Y 0 (mxpow D k).
  elim: k => [|k [Y IH]]; first by exists 0; rewrite /= -scalar_mx_block.
  eexists; rewrite mxpowS IH mulmx_block !mul0mx !mulmx0 !add0r !addr0 -!mxpowS.
  by reflexivity.
rewrite /nilpotent mxpowD; have [Y ->] := h d.
by rewrite hA hD mulmx_block !mul0mx !mulmx0 !addr0 block_mx0.
Qed.

Lemma nil_lti d w (A : 'M[R]_d) (B : 'M[R]_(d, w)) : nilpotent A -> lti_class nilpotent A B.
Proof.
move=> h; have hT : nilpotent (- A^T) by apply: nil_opp; apply: nil_tr.
have hp := nil_block (B *m B^T) h hT.
by split=> //; apply: nil_opp; apply: nil_tr.
Qed.

(* ---- positivity ---- *)
Definition polyfun (f : R -> R) : Prop := exists p : {poly R}, forall t, f t = p.[t].

Lemma polyfun_sum (I : Type) (r : seq I) (f : I -> R -> R) : (forall i, polyfun (f i)) ->
  polyfun (fun t => \sum_(i <- r) f i t).
Proof.
move=> h; elim: r => [|i r [p IH]]; first by exists 0 => t; rewrite big_nil horner0.
by have [q hq] := h i; exists (q + p) => t; rewrite big_cons hornerD -hq -IH.
Qed.
Lemma polyfun_mul f g : polyfun f -> polyfun g -> polyfun (fun t => f t * g t).
Proof. by case=> p hp [q hq]; exists (p * q) => t; rewrite hornerM -hp -hq. Qed.
Lemma polyfun_opp f : polyfun f -> polyfun (fun t => f (- t)).
Proof. by case=> p hp; exists (p \Po - 'X) => t; rewrite horner_comp hornerN hornerX hp. Qed.
Lemma polyfun_const c : polyfun (fun=> c).
Proof. by exists c%:P => t; rewrite hornerC. Qed.

Variable expm : forall n, 'M[R]_n -> 'M[R]_n.
Hypothesis expE : forall n (M : 'M[R]_n), nilpotent M -> expm M = expm_nil M.

Lemma nil_scale n (M : 'M[R]_n) t : nilpotent M -> nilpotent (t *: M).
Proof. by move=> h; rewrite /nilpotent mxpowZ h scaler0. Qed.

Lemma expE' n (M : 'M[R]_n) t : nilpotent M -> expm (t *: M) = expm_nil (t *: M).
Proof. by move=> h; apply: expE; apply: nil_scale. Qed.

Lemma nil_group : expm_group nilpotent expm.
Proof.
have [h0 hD hT hI] := expm_nil_group; split.
- by move=> n M h; rewrite expE' // h0.
- by move=> n M s t h; rewrite !expE' // hD.
- by move=> n M t h; rewrite !expE' ?hT //; apply: nil_tr.
- by move=> n m M N P t hM hN h; rewrite !expE' // (hI _ _ _ _ _ _ hM hN h).
Qed.

Lemma nil_deriv : expm_deriv nilpotent expm.
Proof.
move=> n M h; apply: mxder_ext (expm_nil_deriv h) => t; by rewrite expE'.
Qed.

Lemma nil_cov_psd d w (A : 'M[R]_d) (B : 'M[R]_(d, w)) dt : nilpotent A -> 0 <= dt ->
  possemidef (discretise_lti_sde expm A B dt).2.
Proof.
move=> hA t0; have cP := nil_lti B hA; rewrite (ltiE nil_group cP) /=.
split; first exact: (cov_sym nil_group cP).
move=> u.
have hW : Gm expm A B dt *m (Fm expm A dt)^T
  = Fm expm A dt *m (Fm expm A (- dt) *m Gm expm A B dt) *m (Fm expm A dt)^T.
  by rewrite [Fm expm A dt *m (_ *m _)]mulmxA (FV nil_group cP) mul1mx.
rewrite /qform hW -!mulmxA [u^T *m _]mulmxA.
have -> : u^T *m Fm expm A dt = ((Fm expm A dt)^T *m u)^T by rewrite trmx_mul trmxK.
move: ((Fm expm A dt)^T *m u) => v {u hW}.
pose q t := (v^T *m (Fm expm A (- t) *m Gm expm A B t) *m v) 0 0.
have pF : forall i j, polyfun (fun t => Fm expm A t i j).
  by move=> i j; eexists => t; rewrite /Fm expE' // expm_nil_poly.
have pG : forall i j, polyfun (fun t => Gm expm A B t i j).
  move=> i j; eexists => t; rewrite /Gm /Em mxE mxE expE'; last by case: cP.
  by apply: expm_nil_poly; case: cP.
have [p hp] : polyfun q.
  have : polyfun (fun t => \sum_k (\sum_i v^T 0 i * (\sum_l Fm expm A (- t) i l * Gm expm A B t l k)) * v k 0).
    apply: polyfun_sum => k; apply: polyfun_mul (polyfun_const _).
    apply: polyfun_sum => i; apply: polyfun_mul; first exact: polyfun_const.
    by apply: polyfun_sum => l; apply: polyfun_mul; [exact: (polyfun_opp (pF i l))|].
  case=> p hp; exists p => t; rewrite -hp /q mxE; apply: eq_bigr => k _; congr (_ * _).
  by rewrite mxE; apply: eq_bigr => i _; rewrite [(_ *m Gm _ _ _ _) _ _]mxE.
have hd : derivative q (fun t => (v^T *m (Fm expm A (- t) *m B *m (Fm expm A (- t) *m B)^T) *m v) 0 0).
  have hc (m n : nat) (M : 'M[R]_(m, n)) : mx_derivative (fun=> M) (fun=> 0).
    by move=> i j; apply: (der_ext _ _ (der_const (M i j))) => t; rewrite ?mxE.
  have h := mxder_mul (mxder_mul (hc _ _ v^T) (lti_W_deriv nil_group nil_deriv cP)) (hc _ _ v).
  by apply: (der_ext _ _ (h 0 0)) => t //; rewrite mul0mx add0r mulmx0 addr0.
have hq' t : p^`().[t] = (v^T *m (Fm expm A (- t) *m B *m (Fm expm A (- t) *m B)^T) *m v) 0 0.
  have hqp : derivative q (fun t => p^`().[t]) by apply: (der_ext _ _ (der_poly p)) => x.
  exact: (der_unique hqp hd t).
have q0 : q 0 = 0 by rewrite /q (G0 nil_group cP) mulmx0 mulmx0 mul0mx mxE.
rewrite !mulmxA -[v^T *m _ *m _]mulmxA -/(q dt) -q0 !hp.
suff H : {in `]0, dt[, forall x, p^`().[x] >= 0}.
  by apply: (ler_hornerW H) => //; rewrite in_itv /= lexx ?t0.
move=> x _; rewrite hq'; move: (Fm expm A (- x) *m B) => M.
have -> : v^T *m (M *m M^T) *m v = (M^T *m v)^T *m (M^T *m v) by rewrite trmx_mul trmxK !mulmxA.
by rewrite mxE; apply: sumr_ge0 => i _; rewrite mxE -expr2 sqr_ge0.
Qed.
End Nil.
