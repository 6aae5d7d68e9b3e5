(* discretise_lti_sde with the matrix exponential of the real numbers. *)
From Coq Require Import Reals Lra.
From mathcomp Require Import all_ssreflect all_algebra ring.
From Verif Require Import Prelude LinAlgSpec LinAlgProofs SdeModel SdeSpec SpectralProofs SdeLti SdeDeriv RealField RealSeries RealExpm.
Set Implicit Arguments.
Unset Strict Implicit.
Unset Printing Implicit Defensive.
Import Order.TTheory GRing.Theory Num.Theory.
Local Open Scope ring_scope.

(* a function whose derivative is nonnegative does not decrease *)
Definition mono (F : rcfType) : Prop := forall (q q' : F -> F) t,
  derivative q q' -> (forall x, 0 <= q' x) -> 0 <= t -> q 0 <= q t.

Section Gen.
Variable F : rcfType.
Variable C : forall n, 'M[F]_n -> Prop.
Arguments C : clear implicits.
Variable expm : forall n, 'M[F]_n -> 'M[F]_n.
Hypothesis eP : expm_group C expm.
Hypothesis dP : expm_deriv C expm.
Hypothesis hm : mono F.
Variables (d w : nat) (A : 'M[F]_d) (B : 'M[F]_(d, w)).
Hypothesis cP : lti_class C A B.

Lemma mxder_const (m n : nat) (M : 'M[F]_(m, n)) : mx_derivative (fun=> M) (fun=> 0).
Proof. by move=> i j; apply: (der_ext _ _ (der_const (M i j))) => t; rewrite ?mxE. Qed.

Lemma gen_cov_psd dt : 0 <= dt -> possemidef (discretise_lti_sde expm A B dt).2.
Proof.
move=> t0; rewrite (ltiE eP cP) /=.
split; first exact: (cov_sym eP cP).
move=> u.
have hW : Gm expm A B dt *m (Fm expm A dt)^T
  = Fm expm A dt *m (Fm expm A (- dt) *m Gm expm A B dt) *m (Fm expm A dt)^T.
  by rewrite [Fm expm A dt *m (_ *m _)]mulmxA (FV eP cP) mul1mx.
rewrite /qform hW -!mulmxA [u^T *m _]mulmxA.
have -> : u^T *m Fm expm A dt = ((Fm expm A dt)^T *m u)^T by rewrite trmx_mul trmxK.
move: ((Fm expm A dt)^T *m u) => v {u hW}.
pose q t := (v^T *m (Fm expm A (- t) *m Gm expm A B t) *m v) 0 0.
have hd : derivative q (fun t => (v^T *m (Fm expm A (- t) *m B *m (Fm expm A (- t) *m B)^T) *m v) 0 0).
  have h := mxder_mul (mxder_mul (mxder_const v^T) (lti_W_deriv eP dP cP)) (mxder_const v).
  by apply: (der_ext _ _ (h 0 0)) => t //; rewrite mul0mx add0r mulmx0 addr0.
have q0 : q 0 = 0 by rewrite /q (G0 eP cP) mulmx0 mulmx0 mul0mx mxE.
rewrite !mulmxA -[v^T *m _ *m _]mulmxA -/(q dt) -q0.
apply: (hm hd _ t0) => x; move: (Fm expm A (- x) *m B) => M.
have -> : v^T *m (M *m M^T) *m v = (M^T *m v)^T *m (M^T *m v) by rewrite trmx_mul trmxK !mulmxA.
by rewrite mxE; apply: sumr_ge0 => i _; rewrite mxE -expr2 sqr_ge0.
Qed.

Lemma der_oppf (f g : F -> F) : derivative f g -> derivative (fun t => - f t) (fun t => - g t).
Proof.
by move=> h; apply: (der_ext _ _ (der_scale (-1) h)) => t; rewrite mulN1r.
Qed.

(* zero derivative: constant, also backwards in time *)
Lemma der0_const (q : F -> F) t : derivative q (fun=> 0) -> q t = q 0.
Proof.
have H (p : F -> F) s : 0 <= s -> derivative p (fun=> 0) -> p s = p 0.
  move=> hs hp; apply/eqP; rewrite eq_le (hm hp _ hs) ?andbT //.
  have hp' : derivative (fun t => - p t) (fun=> 0) by apply: (der_ext _ _ (der_oppf hp)) => x; rewrite ?oppr0.
  by have := hm hp' (fun=> lexx 0) hs; rewrite ler_opp2.
move=> hq; case: (lerP 0 t) => ht; first exact: H.
have hq' : derivative (fun t => q (- t)) (fun=> 0) by apply: (der_ext _ _ (der_opp hq)) => x; rewrite ?oppr0.
by have := H _ (- t) _ hq'; rewrite opprK oppr0 oppr_ge0 => -> //; apply: ltW.
Qed.

Lemma mxder_add m n (f f' g g' : F -> 'M[F]_(m, n)) : mx_derivative f f' -> mx_derivative g g' ->
  mx_derivative (fun t => f t + g t) (fun t => f' t + g' t).
Proof. by move=> h1 h2 i j; apply: (der_ext _ _ (der_add (h1 i j) (h2 i j))) => t; rewrite !mxE. Qed.
Lemma mxder_oppf m n (f f' : F -> 'M[F]_(m, n)) : mx_derivative f f' ->
  mx_derivative (fun t => - f t) (fun t => - f' t).
Proof. by move=> h1 i j; apply: (der_ext _ _ (der_oppf (h1 i j))) => t; rewrite !mxE. Qed.

(* the commutation of A with its exponential *)
Lemma A_comm t : Fm expm A t *m A = A *m Fm expm A t.
Proof. by case: eP => _ _ _ h; apply: h => //; case: cP. Qed.

Lemma Finv_deriv : mx_derivative (fun t => Fm expm A (- t)) (fun t => - (A *m Fm expm A (- t))).
Proof. exact: (mxder_opp (@dP _ A (CA cP))). Qed.

Lemma mean_unique m (X : F -> 'M[F]_(d, m)) t :
  mx_derivative X (fun t => A *m X t) -> X t = (discretise_lti_sde expm A B t).1 *m X 0.
Proof.
move=> hX; rewrite (ltiE eP cP) /=.
have hZ : mx_derivative (fun t => Fm expm A (- t) *m X t) (fun=> 0).
  apply: (mxder_ext _ _ (mxder_mul Finv_deriv hX)) => x //.
  by rewrite mulNmx mulmxA A_comm addrC subrr.
have e : Fm expm A (- t) *m X t = X 0.
  apply/matrixP => i j.
  have hz : derivative (fun t => (Fm expm A (- t) *m X t) i j) (fun=> 0) by apply: (der_ext _ _ (hZ i j)) => x; rewrite ?mxE.
  by rewrite (der0_const t hz) oppr0 (F0 eP cP) mul1mx.
by rewrite -e mulmxA (FV eP cP) mul1mx.
Qed.

Lemma cov_unique (P : F -> 'M[F]_d) t :
  mx_derivative P (fun t => A *m P t + P t *m A^T + B *m B^T) ->
  P t = (discretise_lti_sde expm A B t).1 *m P 0 *m ((discretise_lti_sde expm A B t).1)^T
        + (discretise_lti_sde expm A B t).2.
Proof.
move=> hP.
pose D s := P s - (discretise_lti_sde expm A B s).2.
have hD : mx_derivative D (fun s => A *m D s + D s *m A^T).
  apply: (mxder_ext _ _ (mxder_add hP (mxder_oppf (lti_lyapunov eP dP cP)))) => s //.
  rewrite /D mulmxBr mulmxBl !opprD !addrA.
  set a := A *m P s; set b := P s *m _; set c := A *m _; set e := _ *m A^T; set f := B *m _.
  have -> : a + b + f - c - e - f = a + b - c - e.
    by rewrite [a + b + f - c]addrAC [a + b - c + f - e]addrAC addrK.
  by rewrite [a - c + b]addrAC.
pose Fi s := Fm expm A (- s).
have hFT : mx_derivative (fun s => (Fi s)^T) (fun s => - ((Fi s)^T *m A^T)).
  apply: (mxder_ext _ _ (mxder_tr Finv_deriv)) => s //.
  by rewrite linearN /= trmx_mul.
have hZ : mx_derivative (fun s => Fi s *m D s *m (Fi s)^T) (fun=> 0).
  apply: (mxder_ext _ _ (mxder_mul (mxder_mul Finv_deriv hD) hFT)) => s //.
  rewrite -/(Fi s) mulNmx mulmxDr !mulmxA A_comm addrA addNr add0r mulmxN.
  have -> : (Fi s)^T *m A^T = A^T *m (Fi s)^T by rewrite -!trmx_mul A_comm.
  by rewrite !mulmxA subrr.
have e : Fi t *m D t *m (Fi t)^T = P 0.
  apply/matrixP => i j.
  have hz : derivative (fun s => (Fi s *m D s *m (Fi s)^T) i j) (fun=> 0).
    by apply: (der_ext _ _ (hZ i j)) => x; rewrite ?mxE.
  rewrite (der0_const t hz) /Fi oppr0 (F0 eP cP) mul1mx trmx1 mulmx1 /D (ltiE eP cP) /= (G0 eP cP).
  by rewrite mul0mx subr0.
have e2 : Fm expm A t *m P 0 *m (Fm expm A t)^T = D t.
  by rewrite -e !mulmxA (FV eP cP) mul1mx -mulmxA -trmx_mul (FV eP cP) trmx1 mulmx1.
by rewrite [(discretise_lti_sde _ _ _ _).1](_ : _ = Fm expm A t) ?(ltiE eP cP) //= e2 /D (ltiE eP cP) /= subrK.
Qed.

(* ---- strict positivity for controllable pairs ---- *)
Lemma der_shift (q q' : F -> F) s : derivative q q' -> derivative (fun x => q (s + x)) (fun x => q' (s + x)).
Proof.
move=> h t e e0; have [dl d0 hd] := h (s + t) e e0; exists dl => // x hx.
by rewrite addrA; exact: hd.
Qed.

Lemma mono_le (q q' : F -> F) s t : derivative q q' -> (forall x, 0 <= q' x) -> s <= t -> q s <= q t.
Proof.
move=> hq h hst; have := hm (der_shift s hq) (fun x => h (s + x)) (_ : 0 <= t - s).
by rewrite addr0 addrCA subrr addr0 subr_ge0; apply.
Qed.

Lemma der_local (f g : F -> F) a b : derivative f g -> (forall x, a < x < b -> f x = 0) ->
  forall x, a < x < b -> g x = 0.
Proof.
move=> h h0 x /andP [ha hb]; apply/eqP; rewrite -normr_eq0; apply: contraT => n0.
have p0 : 0 < `|g x| by rewrite lt_def n0 normr_ge0.
have [dl d0 hd] := h x (`|g x| / 2%:R) (divr_gt0 p0 (ltr0Sn _ _)).
pose y := Num.min (dl / 2%:R) ((b - x) / 2%:R).
have y0 : 0 < y by rewrite lt_minr !divr_gt0 ?ltr0n // subr_gt0.
have half (u : F) : 0 < u -> u / 2%:R < u.
  by move=> u0; rewrite ltr_pdivr_mulr ?ltr0n // mulr_natr mulr2n ltr_addl.
have yd : y < dl by apply: le_lt_trans (half _ d0); rewrite le_minl lexx.
have yb : y < b - x by apply: le_lt_trans (half _ _); rewrite ?subr_gt0 // le_minl lexx orbT.
have := hd y; rewrite gtr0_norm // => /(_ yd).
rewrite !h0 ?ha ?hb ?ltr_paddr ?(ltW y0) //=; last by rewrite addrC -ltr_subr_addr.
rewrite subrr sub0r normrN normrM gtr0_norm // mulrC ler_pmul2r // => hle.
by have := half _ p0; rewrite ltNge hle.
Qed.

(* the controllability (Kalman rank) condition, in the form: no direction is invisible to the noise *)
Definition controllable : Prop := forall u : 'cV[F]_d,
  (forall k, B^T *m (mxpow A^T k *m u) = 0) -> u = 0.

Lemma FT_deriv (u : 'cV[F]_d) : mx_derivative (fun t => (Fm expm A (- t))^T *m u)
  (fun t => - (A^T *m ((Fm expm A (- t))^T *m u))).
Proof.
apply: (mxder_ext _ _ (mxder_mul (mxder_tr Finv_deriv) (mxder_const u))) => t //.
by rewrite mulmx0 addr0 linearN /= mulNmx -A_comm trmx_mul mulmxA.
Qed.

Lemma sq_col0 m (v : 'cV[F]_m) : (v^T *m v) 0 0 = 0 -> v = 0.
Proof.
rewrite mxE => /eqP; rewrite psumr_eq0 => [|i _]; last by rewrite mxE -expr2 sqr_ge0.
move=> /allP h; apply/colP => i; have := h i (mem_index_enum _).
by rewrite !mxE -expr2 sqrf_eq0 => /eqP.
Qed.

Lemma gen_cov_pd dt : controllable -> 0 < dt -> posdef (discretise_lti_sde expm A B dt).2.
Proof.
move=> hctr t0; have [hs hge] := gen_cov_psd (ltW t0); split=> // u u0.
rewrite lt_def hge andbT; apply: contraNneq u0 => hq0.
move: hq0; rewrite (ltiE eP cP) /=.
have hW : Gm expm A B dt *m (Fm expm A dt)^T
  = Fm expm A dt *m (Fm expm A (- dt) *m Gm expm A B dt) *m (Fm expm A dt)^T.
  by rewrite [Fm expm A dt *m (_ *m _)]mulmxA (FV eP cP) mul1mx.
rewrite /qform hW -!mulmxA [u^T *m _]mulmxA.
have -> : u^T *m Fm expm A dt = ((Fm expm A dt)^T *m u)^T by rewrite trmx_mul trmxK.
set v := ((Fm expm A dt)^T *m u).
suff hv : (v^T *m (Fm expm A (- dt) *m (Gm expm A B dt *m v))) 0 0 = 0 -> v = 0.
  move=> /hv v0; have -> : u = (Fm expm A (- dt))^T *m v.
    by rewrite /v mulmxA -trmx_mul (FV eP cP) trmx1 mul1mx.
  by rewrite v0 mulmx0.
move: v => v {u hW} hq.
pose q t := (v^T *m (Fm expm A (- t) *m Gm expm A B t) *m v) 0 0.
pose q' t := (v^T *m (Fm expm A (- t) *m B *m (Fm expm A (- t) *m B)^T) *m v) 0 0.
have q'E t : q' t = ((B^T *m ((Fm expm A (- t))^T *m v))^T *m (B^T *m ((Fm expm A (- t))^T *m v))) 0 0.
  by rewrite /q' !trmx_mul !trmxK !mulmxA.
have q'0 t : 0 <= q' t.
  by rewrite q'E mxE; apply: sumr_ge0 => i _; rewrite mxE -expr2 sqr_ge0.
have hd : derivative q q'.
  have h := mxder_mul (mxder_mul (mxder_const v^T) (lti_W_deriv eP dP cP)) (mxder_const v).
  by apply: (der_ext _ _ (h 0 0)) => t //; rewrite mul0mx add0r mulmx0 addr0.
have q0 : q 0 = 0 by rewrite /q (G0 eP cP) mulmx0 mulmx0 mul0mx mxE.
have qt : q dt = 0 by move: hq; rewrite /q !mulmxA.
have qz x : 0 < x < dt -> q x = 0.
  move=> /andP [h1 h2]; apply: le_anti.
  have := mono_le hd q'0 (ltW h1); have := mono_le hd q'0 (ltW h2).
  by rewrite q0 qt => -> ->.
have hz0 x : 0 < x < dt -> B^T *m ((Fm expm A (- x))^T *m v) = 0.
  by move=> hx; apply: sq_col0; rewrite -q'E; exact: (der_local hd qz hx).
have hzk k x : 0 < x < dt -> B^T *m (mxpow A^T k *m ((Fm expm A (- x))^T *m v)) = 0.
  elim: k x => [|k IH] x hx; first by rewrite /= mul1mx hz0.
  have hf := mxder_mul (mxder_const (B^T *m mxpow A^T k)) (FT_deriv v).
  apply/matrixP => i j.
  have hfz y : 0 < y < dt -> (B^T *m mxpow A^T k *m ((Fm expm A (- y))^T *m v)) i j = 0.
    by move=> hy; rewrite -mulmxA IH // mxE.
  have := der_local (hf i j) hfz hx.
  rewrite mul0mx add0r mulmxN mxE => /eqP; rewrite oppr_eq0 => /eqP.
  have -> : (0 : 'M[F]_(w, 1)) i j = 0 by rewrite mxE.
  by rewrite mxpowSr !mulmxA.
have hh : 0 < dt / 2%:R < dt.
  by rewrite divr_gt0 ?ltr0n //= ltr_pdivr_mulr ?ltr0n // mulr_natr mulr2n ltr_addl.
have := hctr _ (fun k => hzk k _ hh) => h.
have -> : v = (Fm expm A (dt / 2%:R))^T *m ((Fm expm A (- (dt / 2%:R)))^T *m v).
  by rewrite mulmxA -trmx_mul -(FD eP cP) addNr (F0 eP cP) trmx1 mul1mx.
by rewrite h mulmx0.
Qed.
End Gen.

(* the mean value theorem *)
Lemma quotient_lt (F : rcfType) (u g x e : F) : 0 < e -> x != 0 ->
  `|u - x * g| <= e / 2%:R * `|x| -> `|u / x - g| < e.
Proof.
move=> e0 x0 hh; have -> : u / x - g = (u - x * g) / x by field.
rewrite normrM normfV ltr_pdivr_mulr ?normr_gt0 //; apply: le_lt_trans hh _.
rewrite ltr_pmul2r ?normr_gt0 // ltr_pdivr_mulr ?ltr0n // mulr_natr mulr2n ltr_addl //.
Qed.

Lemma term_zero (F : rcfType) n w m (M : 'M[F]_n) (C : 'M[F]_(w, n)) (u : 'M[F]_(n, m)) (t : F) i j k :
  C *m (mxpow M k *m u) = 0 -> 0 = \sum_l C i l * (\sum_p u p j * term M t l p k).
Proof.
move=> h; transitivity ((C *m (mxpow M k *m u)) i j * ((k`!)%:R^-1 * t ^+ k)).
  by rewrite h mxE mul0r.
rewrite mxE mulr_suml; apply: eq_bigr => l _; rewrite -mulrA mxE mulr_suml; congr (_ * _).
apply: eq_bigr => p _; rewrite /term; move: (mxpow M k l p) (u p j) (_%:R^-1) (t ^+ k) => a' x b c; ring.
Qed.

Lemma mulmx2 (F : rcfType) n w m (C : 'M[F]_(w, n)) (E : 'M[F]_n) (u : 'M[F]_(n, m)) i j :
  (C *m (E *m u)) i j = \sum_l C i l * (\sum_p u p j * E l p).
Proof.
rewrite mxE; apply: eq_bigr => l _; rewrite mxE; congr (_ * _); apply: eq_bigr => p _; exact: mulrC.
Qed.

Local Notation K := R_rcfType.
Lemma real_derivative (f g : K -> K) t : derivative f g -> derivable_pt_lim f t (g t).
Proof.
move=> h e e0; have e0' : (0 < (e : K))%R by apply/RltE.
have e20 : ((0 : K) < (e : K) / 2%:R)%R by rewrite divr_gt0 ?ltr0n.
have [dl /RltE dl0 hd] := h t _ e20; exists (mkposreal dl dl0) => x x0 /= hx.
have x0' : x != 0%R :> K by apply/eqP.
have := hd x; move/RltE: hx; rewrite RabsE => hx /(_ hx) hh.
apply/RltE; rewrite /Rdiv RinvE // !RplusE !RminusE RmultE RabsE.
exact: (@quotient_lt K).
Qed.

Lemma reals_mono : mono K.
Proof.
move=> q q' t hq hp t0; apply/RleE.
have pr : derivable q by move=> x; exists (q' x); exact: real_derivative.
have h : forall x, Rle 0 (derive_pt q x (pr x)).
  move=> x; have -> : derive_pt q x (pr x) = q' x; last by apply/RleE.
  by apply: derive_pt_eq_0; exact: real_derivative.
by apply: (nonneg_derivative_1 q pr h); apply/RleE.
Qed.

Section Real.
Variables (d w : nat) (A : 'M[K]_d) (B : 'M[K]_(d, w)).

Lemma real_class : lti_class (fun n (_ : 'M[K]_n) => True) A B.
Proof. by []. Qed.

(* a direction invisible to the noise stays invisible *)
Lemma invisible (u : 'cV[K]_d) t : (forall k, B^T *m (mxpow A^T k *m u) = 0) ->
  B^T *m ((Fm real_expm A t)^T *m u) = 0.
Proof.
move=> h; have [_ _ hT _] := real_expm_group; rewrite /Fm -(hT _ A t I).
apply/matrixP => i j; rewrite [RHS]mxE.
have hs := series_big (fun l => series_scal (B^T i l) _ _
   (series_big (fun p => series_scal (u p j) _ _ (expmP A^T t l p)))).
have h0 : infinite_sum (fun k => \sum_l Rmult (B^T i l) (\sum_p Rmult (u p j) (term A^T t l p k))) 0%R.
  have e k : R0 = \sum_l Rmult (B^T i l) (\sum_p Rmult (u p j) (term A^T t l p k)).
    exact: (@term_zero K _ _ _ _ _ _ t i j k (h k)).
  exact: series_ext e series_0.
have := uniqueness_sum _ _ _ hs h0 => e.
rewrite -[RHS]e; exact: (@mulmx2 K).
Qed.

Lemma real_cov_pd t : 0 < t ->
  posdef (discretise_lti_sde real_expm A B t).2 <-> controllable A B.
Proof.
move=> t0; split=> [[_ hp] u hu|h]; last first.
  exact: (gen_cov_pd real_expm_group real_expm_deriv reals_mono real_class h t0).
apply/eqP; apply: contraT => u0; have := hp u u0.
have eP := real_expm_group; have dP := real_expm_deriv; have cP := real_class.
suff -> : qform (discretise_lti_sde real_expm A B t).2 u = 0 by rewrite ltxx.
rewrite (ltiE eP cP) /=.
have hW : Gm real_expm A B t *m (Fm real_expm A t)^T
  = Fm real_expm A t *m (Fm real_expm A (- t) *m Gm real_expm A B t) *m (Fm real_expm A t)^T.
  by rewrite [Fm real_expm A t *m (_ *m _)]mulmxA (FV eP cP) mul1mx.
rewrite /qform hW -!mulmxA [u^T *m _]mulmxA.
have -> : u^T *m Fm real_expm A t = ((Fm real_expm A t)^T *m u)^T by rewrite trmx_mul trmxK.
pose v := (Fm real_expm A t)^T *m u; rewrite -/v.
pose q s := (v^T *m (Fm real_expm A (- s) *m Gm real_expm A B s) *m v) 0 0.
have q0 : q 0 = 0 by rewrite /q (G0 eP cP) mulmx0 mulmx0 mul0mx mxE.
have hd : derivative q (fun=> 0).
  have h := mxder_mul (mxder_mul (mxder_const v^T) (lti_W_deriv eP dP cP)) (mxder_const v).
  apply: (der_ext _ _ (h 0 0)) => s //; rewrite mul0mx add0r mulmx0 addr0.
  rewrite !trmx_mul -!mulmxA.
  have -> : B^T *m ((Fm real_expm A (- s))^T *m v) = 0; last by rewrite !mulmx0 mxE.
  rewrite /v [(Fm _ _ (- s))^T *m _]mulmxA -trmx_mul -(FD eP cP); exact: invisible.
have := der0_const reals_mono t hd; rewrite q0 /q !mulmxA; exact.
Qed.
End Real.
