(* Proofs about the filters of the Ornstein-Uhlenbeck convergence experiment. *)
From Coq Require Import String.
From mathcomp Require Import all_ssreflect all_algebra.
From mathcomp Require Import ring zify.
From Verif Require Import Prelude LinAlgSpec LinAlgProofs QuadModel QuadSpec QuadProofs QuadMain Moments1DModel
  Moments1DSpec Moments1DProofs Moments1DConv Filter1DModel Filter1DProofs Filter1DSim Filter1DRun Filter1DProps
  GfsModel GfsProofs GfsKf GfsProps SsModel SsProofs ConvModel ConvProofs.
From Verif Require GfsSpec.
Set Implicit Arguments.
Unset Strict Implicit.
Unset Printing Implicit Defensive.
Import Order.TTheory GRing.Theory Num.Theory.
Local Open Scope ring_scope.

(* ---- Gaussian transitions applied to Gaussian moments ---- *)
Section Stein.
Variable R : rcfType.

Lemma momD (m : nat -> R) p q : mom_functional m (p + q) = mom_functional m p + mom_functional m q.
Proof.
have e n (r : {poly R}) : (size r <= n)%N -> mom_functional m r = \sum_(k < n) r`_k * m k.
  move=> h; rewrite /mom_functional (big_ord_widen n (fun k => r`_k * m k) h) big_mkcond /=.
  by apply: eq_bigr => k _; case: ltnP => // hk; rewrite nth_default ?mul0r.
pose n := maxn (size p) (size q).
rewrite (e n) ?size_add // (e n p) ?leq_maxl // (e n q) ?leq_maxr // -big_split /=.
by apply: eq_bigr => k _; rewrite coefD mulrDl.
Qed.

Lemma momZ (m : nat -> R) a p : mom_functional m (a *: p) = a * mom_functional m p.
Proof.
case: (eqVneq a 0) => [->|a0].
  by rewrite scale0r mul0r /mom_functional size_poly0 big_ord0.
rewrite /mom_functional poly.size_scale // big_distrr /=.
by apply: eq_bigr => k _; rewrite coefZ mulrA.
Qed.

Lemma momXn (m : nat -> R) n : mom_functional m 'X^n = m n.
Proof.
rewrite /mom_functional size_polyXn (bigD1 ord_max) //= coefXn eqxx mul1r big1 ?addr0 // => k hk.
rewrite coefXn; case: eqP => [e|_]; last by rewrite mul0r.
by move/eqP: hk; case; apply: val_inj; rewrite /= e.
Qed.

(* E[X p(X)] = m E[p(X)] + v E[p'(X)] for X ~ N(m, v) *)
Lemma stein (m v : R) p :
  mom_functional (gauss_moment m v) ('X * p) =
  m * mom_functional (gauss_moment m v) p + v * mom_functional (gauss_moment m v) p^`().
Proof.
set L := mom_functional _.
have H n : L ('X * 'X^n) = m * L 'X^n + v * L ('X^n)^`().
  have [g0 g1 g2] := gauss_momentP m v.
  rewrite -exprS /L !momXn derivXn; case: n => [|n].
    by rewrite mulr0n g0 g1 /mom_functional size_poly0 big_ord0 mulr1 mulr0 addr0.
  by rewrite g2 -scaler_nat momZ momXn mulrA [v * _]mulrC.
rewrite -[p]coefK poly_def.
elim/big_rec: _ => [|k q _ IHq].
  by rewrite mulr0 deriv0 /L /mom_functional size_poly0 !big_ord0 !mulr0 addr0.
rewrite mulrDr derivD /L !momD -/L IHq -scalerAr derivZ /L !momZ -/L H.
by move: (L 'X^k) (L q) (L _^`()) (L _^`()) => *; ring.
Qed.

(* the moments of N(F x + b, q) as polynomials of x *)
Fixpoint trans_pair (F b q : R) (n : nat) : {poly R} * {poly R} :=
  match n with
  | 0%N => (1, F *: 'X + b%:P)
  | n'.+1 => let: (u, w) := trans_pair F b q n' in (w, (F *: 'X + b%:P) * w + (n'.+1%:R * q) *: u)
  end.
Definition trans_poly F b q n := (trans_pair F b q n).1.
Lemma trans_polySS F b q n :
  trans_poly F b q n.+2 = (F *: 'X + b%:P) * trans_poly F b q n.+1 + (n.+1%:R * q) *: trans_poly F b q n.
Proof.
by rewrite /trans_poly /=; case: (trans_pair F b q n) => u w.
Qed.

Lemma trans_poly_eval F b q n x : (trans_poly F b q n).[x] = gauss_moment (F * x + b) q n.
Proof.
have [g0 g1 g2] := gauss_momentP (F * x + b) q.
suff: (trans_poly F b q n).[x] = gauss_moment (F * x + b) q n /\
      (trans_poly F b q n.+1).[x] = gauss_moment (F * x + b) q n.+1 by case.
elim: n => [|n [IH1 IH2]].
  by rewrite /trans_poly /= g0 g1 !hornerE.
by split=> //; rewrite trans_polySS g2 !hornerE IH1 IH2.
Qed.

Lemma trans_poly_size F b q n : (size (trans_poly F b q n) <= n.+1)%N.
Proof.
suff: (size (trans_poly F b q n) <= n.+1)%N /\ (size (trans_poly F b q n.+1) <= n.+2)%N by case.
have hl : (size (F *: 'X + b%:P : {poly R})%R <= 2)%N.
  rewrite (leq_trans (size_add _ _)) // geq_max (leq_trans (size_scale_leq _ _)) ?size_polyX //.
  by rewrite (leq_trans (size_polyC_leq1 _)).
elim: n => [|n [IH1 IH2]]; first by rewrite /trans_poly /= size_poly1 hl.
split=> //; rewrite trans_polySS (leq_trans (size_add _ _)) // geq_max.
rewrite (leq_trans (size_mul_leq _ _)) /=; last first.
  by move: (size _) (size _) hl IH2 => a c; lia.
by rewrite (leq_trans (size_scale_leq _ _)) // ltnW // ltnW.
Qed.

Lemma trans_poly_deriv F b q n :
  (trans_poly F b q n.+1)^`() = (n.+1%:R * F) *: trans_poly F b q n.
Proof.
suff: (trans_poly F b q n.+1)^`() = (n.+1%:R * F) *: trans_poly F b q n /\
      (trans_poly F b q n.+2)^`() = (n.+2%:R * F) *: trans_poly F b q n.+1 by case.
have dl : (F *: 'X + b%:P)^`() = F%:P by rewrite derivD derivZ derivX derivC addr0 alg_polyC.
elim: n => [|n [IH1 IH2]].
  rewrite trans_polySS /trans_poly /= dl mul1r alg_polyC; split=> //.
  rewrite derivD derivM dl derivZ derivC scaler0 addr0 [F%:P * _]mul_polyC [_ * F%:P]mulrC mul_polyC.
  by rewrite -scalerDl; congr (_ *: _); ring.
split=> //; rewrite trans_polySS derivD derivM dl derivZ IH2 IH1 -mul_polyC.
have e2 : n.+2%:R = n.+1%:R + 1 :> R by rewrite -(addn1 n.+1) natrD.
have e3 : n.+3%:R = n.+1%:R + 2%:R :> R by rewrite -(addn2 n.+1) natrD.
rewrite trans_polySS -!mul_polyC e2 e3; move: (trans_poly F b q n) (trans_poly F b q n.+1) n.+1%:R => u w a.
have -> : a + 2%:R = a + 1 + 1 by ring.
rewrite !polyCM !polyCD polyC1; ring.
Qed.

Lemma trans_gauss (F b q m v : R) n :
  mom_functional (gauss_moment m v) (trans_poly F b q n) = gauss_moment (F * m + b) (F ^+ 2 * v + q) n.
Proof.
set L := mom_functional _.
have C c p : L (c%:P * p) = c * L p by rewrite mul_polyC /L momZ.
suff: gaussian_recursion (fun n => L (trans_poly F b q n)) (F * m + b) (F ^+ 2 * v + q).
  by move/gaussian_unique => ->.
split.
- by rewrite /trans_poly /= -(expr0 'X) /L momXn; case: (gauss_momentP m v).
- rewrite /trans_poly /= /L momD momZ -/L -[b%:P]mulr1 C -(expr0 'X) -{1}(expr1 'X) /L !momXn.
  by case: (gauss_momentP m v) => -> -> _; rewrite mulr1.
move=> p; rewrite trans_polySS [(_ + _) * trans_poly _ _ _ _]mulrDl -scalerAl /L !momD !momZ stein -/L C trans_poly_deriv /L momZ -/L.
move: (L _) (L _) => u w; ring.
Qed.

(* a quadrature rule that integrates the Gaussian moments integrates the transition moments *)
Section Quad.
Variables (chol : forall n, 'M[R]_n -> 'M[R]_n) (eigh : forall n, 'M[R]_n -> 'M[R]_n * 'rV[R]_n).
Hypotheses (hc : chol_spec chol) (he : eigh_spec eigh).

Lemma quad_trans ms mean st (m v F b q : R) N n : (0 < N)%N -> 0 < v -> size ms = (2 * N)%N ->
  (forall k, (k < 2 * N)%N -> ms`_k = gauss_moment (m - mean) v k) -> (n < 2 * N)%N ->
  ex (quad chol eigh ms mean 1 st) (fun x => gauss_moment (F * x + b) q n) =
  gauss_moment (F * m + b) (F ^+ 2 * v + q) n.
Proof.
move=> N0 v0 hs hm hn.
have h2 : ((size ms)./2 = N)%N by rewrite hs mul2n doubleK.
have h1 : (1 < size ms)%N by rewrite hs; lia.
have ha : admissible (nth 0 ms) (size ms)./2.
  rewrite h2; apply: (adm_ext _ (gauss_admissible (m - mean) v0)) => k hk; rewrite hm //; lia.
have := quadP chol eigh mean 1 st h1; case: (quad _ _ _ _ _ _) => ws xs hq.
have hp := quadrature_poly hc he (oner_neq0 R) ha hq (p := trans_poly F (F * mean + b) q n).
rewrite /ex /=; transitivity (expect ws xs (fun x => (trans_poly F (F * mean + b) q n).[(x - mean) / 1])).
  apply: expect_ext => x; rewrite trans_poly_eval; congr gauss_moment; rewrite divr1; ring.
rewrite hp; last by rewrite h2 -mul2n (leq_trans (trans_poly_size _ _ _ _)).
rewrite (hm 0%N); last by lia.
have [-> _ _] := gauss_momentP (m - mean) v; rewrite divr1.
rewrite (@mom_eq _ _ (gauss_moment (m - mean) v)); last first.
  by move=> k hk; apply: hm; apply: leq_trans hk (leq_trans (trans_poly_size _ _ _ _) hn).
rewrite trans_gauss; congr gauss_moment; ring.
Qed.
End Quad.
End Stein.

Section Conv.
Variable R : rcfType.
Variables (exp log : R -> R) (pi : R).
Variables (dt ell sigma noise_var : R).
Hypotheses (eA : exp_add exp) (eP : exp_spec exp).
Hypotheses (dt0 : 0 < dt) (ell0 : 0 < ell) (s0 : 0 < sigma) (r0 : 0 < noise_var).
Local Notation F := (conv_F exp dt ell).
Local Notation Sg := (conv_Sigma exp dt ell sigma).
Let Sg0 := Sg_gt0 eA eP dt0 ell0 s0.

(* ---- the moment callbacks ---- *)
Lemma normalE (m v : R) p : 0 <= v -> raw_moment_of_normal m v p = gauss_moment m v p.
Proof. by move=> h; rewrite (gaussian_unique (raw_normal_gauss m h)). Qed.

Lemma conv_rawE num x n : (n < num)%N -> conv_cond_raw exp dt ell sigma num x n = gauss_moment (F * x) Sg n.
Proof.
by move=> h; rewrite /conv_cond_raw jget_nth ?size_map ?size_iota // nth_iota_map // normalE // ltW.
Qed.
Lemma conv_centralE num x n c : (n < num)%N ->
  conv_cond_central exp dt ell sigma num x n c = gauss_moment (F * x - c) Sg n.
Proof.
by move=> h; rewrite /conv_cond_central jget_nth ?size_map ?size_iota // nth_iota_map // normalE // ltW.
Qed.
Lemma conv_central_raw num x n c : (n < num)%N ->
  conv_cond_central exp dt ell sigma num x n c = central_moment (gauss_moment (F * x) Sg) c n.
Proof. by move=> h; rewrite conv_centralE // -normalE ?(ltW Sg0) // normal_central // ltW. Qed.
Lemma conv_rms0E num n : (n < num)%N -> (conv_rms0 sigma num)`_n = gauss_moment 0 (sigma ^+ 2) n.
Proof. by move=> h; rewrite nth_iota_map // normalE // ?sqr_ge0. Qed.
Lemma conv_cms0E num n : (n < num)%N -> (conv_cms0 sigma num)`_n = gauss_moment 0 (sigma ^+ 2) n.
Proof. by move=> h; rewrite nth_iota_map // central_normalE normalE ?sqr_ge0. Qed.
Lemma size_rms0 num : size (conv_rms0 sigma num) = num. Proof. by rewrite size_map size_iota. Qed.
Lemma size_cms0 num : size (conv_cms0 sigma num) = num. Proof. by rewrite size_map size_iota. Qed.

Lemma conv_pdf_gt0 y x : 0 < conv_pdf exp log pi noise_var y x.
Proof. by case: eP => h _ _; exact: h. Qed.

Section Mf.
Variables (chol : forall n, 'M[R]_n -> 'M[R]_n) (eigh : forall n, 'M[R]_n -> 'M[R]_n * 'rV[R]_n).
Hypotheses (hc : chol_spec chol) (he : eigh_spec eigh).
Variable N : nat.

Lemma conv_predict_raw rms st (m v : R) : (0 < N)%N -> 0 < v ->
  rms = [seq gauss_moment m v k | k <- iota 0 (2 * N)] ->
  rms_predict chol eigh (conv_cond_raw exp dt ell sigma (2 * N)) st rms =
  [seq gauss_moment (F * m) (F ^+ 2 * v + Sg) k | k <- iota 0 (2 * N)].
Proof.
move=> N0 v0 ->; rewrite /rms_predict size_map size_iota /moments_of.
apply: (@eq_from_nth _ 0) => [|i]; rewrite !size_map ?size_iota // => hi.
rewrite !nth_iota_map //.
rewrite (@expect_ext _ _ _ _ (fun x => gauss_moment (F * x + 0) Sg i)); last first.
  by move=> x; rewrite conv_rawE // addr0.
have hz k : (k < 2 * N)%N -> [seq gauss_moment m v k | k <- iota 0 (2 * N)]`_k = gauss_moment (m - 0) v k.
  by move=> hk; rewrite subr0 nth_iota_map.
have hsz : size [seq gauss_moment m v k | k <- iota 0 (2 * N)] = (2 * N)%N by rewrite size_map size_iota.
by have := @quad_trans R chol eigh hc he _ 0 st m v F 0 Sg N i N0 v0 hsz hz hi; rewrite /ex => ->; rewrite addr0.
Qed.

Lemma conv_predict_central cms st (m v : R) : (0 < N)%N -> 0 < v ->
  cms = [seq gauss_moment 0 v k | k <- iota 0 (2 * N)] ->
  cms_predict chol eigh (conv_cond_central exp dt ell sigma (2 * N)) (conv_cond_mean exp dt ell) st (cms, m) =
  ([seq gauss_moment 0 (F ^+ 2 * v + Sg) k | k <- iota 0 (2 * N)], F * m).
Proof.
move=> N0 v0 ->; rewrite /cms_predict size_map size_iota.
have hq b n : (n < 2 * N)%N -> ex (quad chol eigh [seq gauss_moment 0 v k | k <- iota 0 (2 * N)] m 1 st)
    (fun x => gauss_moment (F * x + b) Sg n) = gauss_moment (F * m + b) (F ^+ 2 * v + Sg) n.
  move=> hn; apply: (@quad_trans R chol eigh hc he _ m st m v F b Sg N n N0 v0) => //.
    by rewrite size_map size_iota.
  by move=> k hk; rewrite subrr nth_iota_map.
have e : expect (quad chol eigh [seq gauss_moment 0 v k | k <- iota 0 (2 * N)] m 1 st).1
    (quad chol eigh [seq gauss_moment 0 v k | k <- iota 0 (2 * N)] m 1 st).2 (conv_cond_mean exp dt ell) = F * m.
  have h1 : (1 < 2 * N)%N by lia.
  have := hq 0 1%N h1; have [_ -> _] := gauss_momentP (F * m + 0) (F ^+ 2 * v + Sg).
  rewrite addr0 => <-; apply: expect_ext => x.
  by have [_ -> _] := gauss_momentP (F * x + 0) Sg; rewrite addr0.
rewrite e /moments_of; congr pair.
apply: (@eq_from_nth _ 0) => [|i]; rewrite !size_map ?size_iota // => hi.
rewrite !nth_iota_map // (@expect_ext _ _ _ _ (fun x => gauss_moment (F * x - F * m) Sg i)); last first.
  by move=> x; rewrite conv_centralE.
by have := hq (- (F * m)) i hi; rewrite /ex => ->; rewrite subrr.
Qed.

Lemma conv_modes ys : (1 < N)%N ->
  conv_mf_raw exp log pi chol dt ell sigma noise_var eigh (2 * N) ys =
  conv_mf_central exp log pi chol dt ell sigma noise_var eigh (2 * N) ys.
Proof.
move=> hN; have h2 : (2 < 2 * N)%N by lia.
have v0 : 0 < sigma ^+ 2 by rewrite exprn_gt0.
rewrite /conv_mf_raw /conv_mf_central.
have ec : conv_cms0 sigma (2 * N) = raw_to_central (conv_rms0 sigma (2 * N)).
  apply: (@eq_from_nth _ 0) => [|i]; rewrite ?size_raw_to_central ?size_rms0 size_cms0 // => hi.
  rewrite conv_cms0E // raw_to_centralE ?size_rms0 // conv_rms0E ?(ltn_trans _ h2) //.
  have [_ -> _] := gauss_momentP 0 (sigma ^+ 2).
  rewrite (@central_ext _ _ (gauss_moment 0 (sigma ^+ 2))) -?normal_central ?(ltW v0) ?normalE ?(ltW v0) ?subr0 //.
  by move=> k hk; rewrite conv_rms0E // (leq_ltn_trans hk).
have em : conv_mean0 R = (conv_rms0 sigma (2 * N))`_1.
  by rewrite conv_rms0E ?(ltn_trans _ h2) //; have [_ -> _] := gauss_momentP 0 (sigma ^+ 2).
have hN2 : ((size (conv_rms0 sigma (2 * N)))./2 = N)%N by rewrite size_rms0 mul2n doubleK.
have h1 : admissible (nth 0 (conv_rms0 sigma (2 * N))) (size (conv_rms0 sigma (2 * N)))./2.
  by rewrite hN2; apply: (adm_ext _ (gauss_admissible 0 v0)) => k hk; rewrite conv_rms0E // mul2n.
have h3 x : admissible (conv_cond_raw exp dt ell sigma (2 * N) x) (size (conv_rms0 sigma (2 * N)))./2.
  by rewrite hN2; apply: (adm_ext _ (gauss_admissible (F * x) Sg0)) => k hk; rewrite conv_rawE // mul2n.
rewrite ec em (raw_central_filters_agree (cond := conv_cond_raw exp dt ell sigma (2 * N)) _ false) //.
- have := raw_filter_invariant (log := log) (st := false) (ys := ys) hc he conv_pdf_gt0 h1 h3.
  case: (moment_filter_rms _ _ _ _ _ _ _ _) => [[out nell]|] //= /(_ _ _ erefl) [_ hinv].
  congr Some; congr pair; rewrite -map_comp; apply/eq_in_map => r /hinv [sr r00 _] /=.
    by rewrite jget_nth // sr size_rms0 (ltn_trans _ h2).
  rewrite !jget_nth ?size_raw_to_central ?sr ?size_rms0 ?h2 ?(ltn_trans _ h2) //.
  by rewrite raw_to_centralE ?sr ?size_rms0 // central2 r00; move: (r`_2) (r`_1) => a b; ring.
- exact: conv_pdf_gt0.
- move=> x n c; rewrite size_rms0 => hn; rewrite conv_central_raw //; apply: central_ext => k hk.
  by rewrite conv_rawE // (leq_ltn_trans hk).
- by move=> x; rewrite conv_rawE ?(ltn_trans _ h2) //; have [_ -> _] := gauss_momentP (F * x) Sg.
Qed.
End Mf.

(* ---- the reference Kalman filter ---- *)
Lemma oscan_some (S X O : Type) (body : S -> X -> option (S * O)) s x xs s1 o : body s x = Some (s1, o) ->
  oscan body s (x :: xs) = if oscan body s1 xs is Some (s2, os) then Some (s2, o :: os) else None.
Proof. by move=> /= ->. Qed.
Lemma norm_logpdfE y m (s : R) : norm_logpdf log pi y m (Num.sqrt s) = log_normal_pdf log pi y m s.
Proof. by []. Qed.

Definition kfb (chol : forall n, 'M[R]_n -> 'M[R]_n) := filter_body (linear_predict (F%:M : 'M_1) Sg%:M)
    (fun mp vp (y : 'cV_1) => linear_update chol log pi mp vp (1%:M : 'M_1) (1%:M *m mp) noise_var%:M y).
Arguments kfb : simpl never.
Lemma conv_kf_step (chol : forall n, 'M[R]_n -> 'M[R]_n) m v c y :
  let s := (conv_kf_body exp log pi dt ell sigma noise_var (m, v, c) y).1 in
  let s' := (s.1.1%:M : 'cV[R]_1, s.1.2%:M : 'M[R]_1, s.2) in
  0 <= v ->
  kfb chol
    (m%:M, v%:M, c) y%:M = Some (s', s').
Proof.
move=> s s' v0; rewrite /s' /s /kfb /filter_body /= /linear_update_scalar.
have sD (a b : R) : a%:M + b%:M = (a + b)%:M :> 'M[R]_1 by rewrite -(raddfD (scalar_mx_additive R 1)).
have sB (a b : R) : a%:M - b%:M = (a - b)%:M :> 'M[R]_1 by rewrite -(raddfB (scalar_mx_additive R 1)).
have sM (a b : R) : a%:M *m b%:M = (a * b)%:M :> 'M[R]_1 by rewrite scalar_mxM.
rewrite !mul1mx !trmx1 !mulmx1 tr_scalar_mx !sM !sD.
set mp := F * m; set vp := F * v * F + Sg; set q := vp + noise_var.
have vp0 : 0 < vp by rewrite /vp ltr_paddl // mulrAC mulr_ge0 // -expr2 sqr_ge0.
have q0 : q != 0 by rewrite gt_eqF // addr_gt0.
have eK : \matrix_(i, j) ((vp%:M : 'M[R]_1) i j / (q%:M : 'M[R]_1) 0 0) = (vp / q)%:M.
  by apply/matrixP => i j; rewrite !mxE !ord1 !eqxx !mulr1n.
rewrite eK tr_scalar_mx.
have e1 : vp%:M - (vp / q)%:M *m q%:M *m (vp / q)%:M = (vp - vp * (vp / q))%:M :> 'M[R]_1.
  by rewrite !sM sB; congr (_%:M); field.
rewrite e1 sB sM sD.
by rewrite !mxE !eqxx !mulr1n norm_logpdfE.
Qed.

Lemma conv_kf_scan (chol : forall n, 'M[R]_n -> 'M[R]_n) m v c ys : 0 <= v ->
  let S := scan (conv_kf_body exp log pi dt ell sigma noise_var) (m, v, c) ys in
  exists es,
  [/\ oscan (kfb chol)
    (m%:M, v%:M, c) [seq y%:M | y <- ys] =
    Some ((S.1.1.1%:M, S.1.1.2%:M, S.1.2), [seq (o.1.1%:M, o.1.2%:M, o.2) | o <- zip S.2 es]),
    size es = size S.2 & last c es = S.1.2].
Proof.
elim: ys m v c => [|y ys IH] m v c v0 S; first by exists [::].
have st := conv_kf_step chol m c y v0.
move: st; rewrite /S [scan _ _ _]/=; set m' := F * m + _; set v' := _ - _ * _; set c' := c - _ => st.
have {}st : kfb chol (m%:M, v%:M, c) y%:M = Some ((m'%:M, v'%:M, c'), (m'%:M, v'%:M, c')) := st.
have {st} oc : oscan (kfb chol) (m%:M, v%:M, c) [seq y0%:M | y0 <- y :: ys] =
    if oscan (kfb chol) (m'%:M, v'%:M, c') [seq y0%:M | y0 <- ys] is Some (s2, os)
    then Some (s2, (m'%:M, v'%:M, c') :: os) else None := oscan_some _ st.
rewrite {}oc.
have v0' : 0 <= v'.
  rewrite /v'; set vp := F * v * F + Sg.
  have vp0 : 0 < vp by rewrite /vp ltr_paddl // mulrAC mulr_ge0 // -expr2 sqr_ge0.
  have -> : vp - vp * (vp / (vp + noise_var)) = vp * noise_var / (vp + noise_var).
    by field; rewrite gt_eqF // addr_gt0.
  by apply: ltW; apply: divr_gt0; [exact: mulr_gt0|exact: addr_gt0].
have [es [e1 e2 e3]] := IH m' v' c' v0'.
move: e1 e2 e3; case: (scan _ _ _) => [[[m1 v1] c1] out] /= e1 e2 e3.
exists (c' :: es); split; last by rewrite /= e3.
  by rewrite e1.
by rewrite /= e2.
Qed.

Lemma conv_kf_kf (chol : forall n, 'M[R]_n -> 'M[R]_n) ys :
  exists es,
    kf chol log pi (F%:M : 'M_1) Sg%:M (1%:M : 'M_1) noise_var%:M 0 (sigma ^+ 2)%:M [seq y%:M | y <- ys]
    = Some ([seq m%:M | m <- (conv_kf exp log pi dt ell sigma noise_var ys).1.1],
            [seq v%:M | v <- (conv_kf exp log pi dt ell sigma noise_var ys).1.2], es)
    /\ last 0 es = (conv_kf exp log pi dt ell sigma noise_var ys).2.
Proof.
have [es [e1 e2 e3]] := conv_kf_scan chol 0 0 ys (sqr_ge0 sigma).
exists es; rewrite /kf /run_filter -/(kfb chol) -[in LHS](scale0r 1%:M) scalemx1 e1 /conv_kf /conv_mean0 /conv_var0.
move: e2 e3; case: (scan _ _ _) => [[[m1 v1] c1] out] /= e2 e3; split=> //.
congr Some; congr (_, _, _); rewrite -!map_comp.
- by rewrite -[in RHS](unzip1_zip (s := out) (t := es)) ?e2 // /unzip1 -!map_comp.
- by rewrite -[in RHS](unzip1_zip (s := out) (t := es)) ?e2 // /unzip1 -!map_comp.
by rewrite -[RHS](unzip2_zip (s := out) (t := es)) ?e2.
Qed.

(* ---- the optimal proposal ---- *)
Hypothesis lM : GfsSpec.log_spec log.
Hypothesis pi0 : 0 < pi.
Local Notation K := (prop_K exp dt ell sigma noise_var).
Local Notation cov := (prop_cov exp dt ell sigma noise_var).

Lemma prop_covE : cov = Sg * noise_var / (Sg + noise_var).
Proof. by rewrite /prop_cov /prop_K; field; rewrite gt_eqF // addr_gt0. Qed.
Lemma prop_cov_gt0 : 0 < cov.
Proof. by rewrite prop_covE; apply: divr_gt0; [exact: mulr_gt0|exact: addr_gt0]. Qed.

Lemma exp_opp x : exp (- x) = (exp x)^-1.
Proof.
have [h _ _] := eP; have e := eA x (- x); rewrite subrr (exp0 eA eP) in e.
by apply: (mulfI (x := exp x)); [rewrite gt_eqF|rewrite -e divff // gt_eqF].
Qed.

Lemma optimal_factor y x a :
  conv_pdf exp log pi noise_var y x * norm_pdf exp log pi x (F * a) (Num.sqrt Sg) =
  norm_pdf exp log pi y (F * a) (Num.sqrt (Sg + noise_var)) *
  norm_pdf exp log pi x (prop_mean exp dt ell sigma noise_var a y) (Num.sqrt cov).
Proof.
rewrite /conv_pdf /norm_pdf -!eA; congr exp; rewrite /norm_logpdf.
rewrite !sqr_sqrtr ?(ltW Sg0) ?(ltW r0) ?(ltW prop_cov_gt0) ?addr_ge0 ?(ltW Sg0) ?(ltW r0) //.
have tp : 0 < 2%:R * pi by rewrite mulr_gt0 ?ltr0n.
have el : log (2%:R * pi * noise_var) + log (2%:R * pi * Sg) =
          log (2%:R * pi * (Sg + noise_var)) + log (2%:R * pi * cov).
  have h z : 0 < z -> 0 < 2%:R * pi * z by move=> z0; apply: mulr_gt0.
  rewrite -lM ?h // -lM ?h ?prop_cov_gt0 //; last exact: addr_gt0.
  congr log.
  by rewrite prop_covE; field; rewrite gt_eqF // addr_gt0.
have eq : (y - x) ^+ 2 / noise_var + (x - F * a) ^+ 2 / Sg =
  (y - F * a) ^+ 2 / (Sg + noise_var) + (x - prop_mean exp dt ell sigma noise_var a y) ^+ 2 / cov.
  rewrite /prop_mean /prop_K prop_covE; field.
  by rewrite !gt_eqF // ?addr_gt0.
rewrite -!mulrDl; congr (_ / _); rewrite addrACA el eq.
by rewrite addrACA.
Qed.

Lemma optimal_weight y x a :
  conv_pdf exp log pi noise_var y x * norm_pdf exp log pi x (F * a) (Num.sqrt Sg)
  / norm_pdf exp log pi x (prop_mean exp dt ell sigma noise_var a y) (Num.sqrt cov) =
  norm_pdf exp log pi y (F * a) (Num.sqrt (Sg + noise_var)).
Proof. by rewrite optimal_factor mulfK //; case: eP => h _ _; rewrite gt_eqF // h. Qed.

(* ---- the Kullback-Leibler error ---- *)
Hypothesis lP : SsProofs.log_spec exp log.
Hypothesis lL : forall u, 0 < u -> u != 1 -> log u < u - 1.

Lemma log_div u v : 0 < u -> 0 < v -> log (u / v) = log u - log v.
Proof. by move=> u0 v0; rewrite -[X in _ = log X - _](divfK (lt0r_neq0 v0) u) (lM (divr_gt0 u0 v0) v0) addrK. Qed.
Lemma log1 : log 1 = 0.
Proof. by have := lM ltr01 ltr01; rewrite mulr1 => /eqP; rewrite -subr_eq0 opprD addrA subrr add0r oppr_eq0 => /eqP. Qed.

Lemma err_klE m v m' v' : 0 < v -> 0 < v' ->
  err_kl exp log m v m' v' = 1 / 2%:R * (v / v' - 1 - log (v / v') + (m' - m) ^+ 2 / v').
Proof.
move=> v0 v'0; rewrite /err_kl log_div //.
have -> : exp (log v - log v') = v / v'.
  by rewrite -log_div //; case: lP => _ h; rewrite h // divr_gt0.
by congr (_ * _); move: (log v) (log v') => l1 l2; field; rewrite gt_eqF.
Qed.

Lemma err_kl_ge0 m v m' v' : 0 < v -> 0 < v' ->
  0 <= err_kl exp log m v m' v' /\ (err_kl exp log m v m' v' = 0 <-> m = m' /\ v = v').
Proof.
move=> v0 v'0; rewrite err_klE //; set u := v / v'; set q := (m' - m) ^+ 2 / v'.
have u0 : 0 < u by rewrite divr_gt0.
have q0 : 0 <= q by rewrite divr_ge0 ?sqr_ge0 ?ltW.
have g0 : 0 <= u - 1 - log u.
  case: (eqVneq u 1) => [->|h]; first by rewrite log1 subrr subr0.
  by rewrite subr_ge0 ltW // lL.
have hp : 0 < 1 / 2%:R :> R by rewrite divr_gt0 ?ltr01 ?ltr0n.
split; first by apply: mulr_ge0; [exact: ltW|exact: addr_ge0].
split=> [/eqP|[em ev]]; last first.
  by rewrite /u /q em ev divff ?gt_eqF // log1 !subrr expr0n mul0r addr0 mulr0.
rewrite mulf_eq0 (gt_eqF hp) /= paddr_eq0 // => /andP [h1 h2].
have eu : u = 1.
  by apply/eqP/negPn/negP => hn; have := lL u0 hn; rewrite -subr_gt0 (eqP h1) ltxx.
move: h2; rewrite mulf_eq0 invr_eq0 (gt_eqF v'0) orbF sqrf_eq0 subr_eq0 => /eqP ->.
by split=> //; rewrite -[v](divfK (lt0r_neq0 v'0)) -/u eu mul1r.
Qed.

(* the difference of the two log densities is a quadratic whose N(m, v)-expectation is the error *)
Lemma err_kl_divergence m v m' v' : 0 < v -> 0 < v' ->
  exists a b c, (forall x, norm_logpdf log pi x m (Num.sqrt v) - norm_logpdf log pi x m' (Num.sqrt v') =
      a + b * x + c * x ^+ 2) /\
    err_kl exp log m v m' v' = a + b * m + c * (v + m ^+ 2).
Proof.
move=> v0 v'0; have tp : 0 < 2%:R * pi by rewrite mulr_gt0 ?ltr0n.
exists ((log v' - log v - m ^+ 2 / v + m' ^+ 2 / v') / 2%:R), (m / v - m' / v'), ((v'^-1 - v^-1) / 2%:R).
split=> [x|].
  rewrite /norm_logpdf !sqr_sqrtr ?(ltW v0) ?(ltW v'0) // (lM tp v0) (lM tp v'0).
  by move: (log _) (log v) (log v') => l1 l2 l3; field; rewrite ?gt_eqF.
rewrite err_klE // log_div //; move: (log v) (log v') => l2 l3; field; rewrite ?gt_eqF //.
Qed.
End Conv.
