(* Spectral theorem for symmetric matrices over a real closed field and uniqueness of
   the functional calculus. *)
From mathcomp Require Import all_ssreflect all_algebra.
From mathcomp Require Import complex.
From mathcomp Require Import ring zify.
From Verif Require Import LinAlgSpec LinAlgProofs.
Set Implicit Arguments.
Unset Strict Implicit.
Unset Printing Implicit Defensive.
Import Order.TTheory GRing.Theory Num.Theory.
Local Open Scope ring_scope.

Section Spectral.
Variable R : rcfType.

Lemma rv_norm_ge0 n (v : 'rV[R]_n) : 0 <= (v *m v^T) 0 0.
Proof. by have := dot_ge0 v^T; rewrite trmxK. Qed.

Lemma rv_norm_eq0 n (v : 'rV[R]_n) : ((v *m v^T) 0 0 == 0) = (v == 0).
Proof. by have := dot_eq0 v^T; rewrite trmxK trmx_eq0. Qed.

Local Notation re := (@complex.Re R).
Local Notation im := (@complex.Im R).

(* A symmetric matrix has a real eigenvalue. *)
Lemma sym_eigen n (K : 'M[R]_n.+1) : symmetric K ->
  exists x, exists2 v : 'rV[R]_n.+1, v != 0 & v *m K = x *: v.
Proof.
move=> sK.
pose toC := real_complex R.
pose KC := map_mx toC K.
have [z hz] : exists z : R[i], root (char_poly KC) z.
  have : size (char_poly KC) != 1%N by rewrite size_char_poly.
  by move/closed_rootP => [z hz]; exists z.
have /eigenvalueP [w hw wn0] : eigenvalue KC z by rewrite eigenvalue_root_char.
pose a : 'rV[R]_n.+1 := \row_i re (w 0 i).
pose b : 'rV[R]_n.+1 := \row_i im (w 0 i).
have eRe j : (a *m K) 0 j = re z * a 0 j - im z * b 0 j.
  have := congr1 (fun v : 'rV_n.+1 => re (v 0 j)) hw.
  rewrite !mxE raddf_sum /=.
  have -> : re (z * w 0 j) = re z * re (w 0 j) - im z * im (w 0 j) by case: z {hz hw} => ? ?; case: (w 0 j).
  move=> <-; apply: eq_bigr => i _; rewrite !mxE.
  by case: (w 0 i) => p q /=; rewrite /= mulr0 subr0.
have eIm j : (b *m K) 0 j = im z * a 0 j + re z * b 0 j.
  have := congr1 (fun v : 'rV_n.+1 => im (v 0 j)) hw.
  rewrite !mxE raddf_sum /=.
  have -> : im (z * w 0 j) = im z * re (w 0 j) + re z * im (w 0 j).
    by case: z {hz hw eRe} => ? ?; case: (w 0 j) => ? ? /=; ring.
  move=> <-; apply: eq_bigr => i _; rewrite !mxE.
  by case: (w 0 i) => p q /=; rewrite /= mulr0 add0r.
have hA : a *m K = re z *: a - im z *: b by apply/rowP => j; rewrite eRe !mxE.
have hB : b *m K = im z *: a + re z *: b by apply/rowP => j; rewrite eIm !mxE.
have hsym : (a *m K *m b^T) 0 0 = (b *m K *m a^T) 0 0.
  have -> : a *m K *m b^T = (b *m K *m a^T)^T by rewrite !trmx_mul trmxK sK mulmxA.
  by rewrite mxE.
have hab : (a *m b^T) 0 0 = (b *m a^T) 0 0.
  by rewrite -[a *m b^T]trmxK trmx_mul trmxK mxE.
have y0 : im z * ((a *m a^T) 0 0 + (b *m b^T) 0 0) = 0.
  have e1 : (a *m K *m b^T) 0 0 = re z * (a *m b^T) 0 0 - im z * (b *m b^T) 0 0.
    by rewrite hA mulmxBl -!scalemxAl !mxlin.
  have e2 : (b *m K *m a^T) 0 0 = im z * (a *m a^T) 0 0 + re z * (b *m a^T) 0 0.
    by rewrite hB mulmxDl -!scalemxAl !mxlin.
  move: hsym; rewrite e1 e2 hab; set p := re z * _; set q := im z * _; set r := im z * _ => h.
  have -> : im z * ((a *m a^T) 0 0 + (b *m b^T) 0 0) = (r + p) - (p - q) by rewrite /r /q; ring.
  by rewrite h subrr.
have yz : im z = 0.
  apply/eqP; move/eqP: y0; rewrite mulf_eq0 => /orP [//|].
  rewrite paddr_eq0 ?rv_norm_ge0 // !rv_norm_eq0 => /andP [/eqP a0 /eqP b0].
  case/eqP: wn0; apply/rowP => j; rewrite mxE.
  have := congr1 (fun v : 'rV_n.+1 => v 0 j) a0; have := congr1 (fun v : 'rV_n.+1 => v 0 j) b0.
  by rewrite !mxE; case: (w 0 j) => p q /= -> ->.
exists (re z); case: (eqVneq a 0) => [a0|an0]; last first.
  by exists a => //; rewrite hA yz scale0r subr0.
exists b; last by rewrite hB yz scale0r add0r.
apply: contraNneq wn0 => b0; apply/eqP/rowP => j; rewrite mxE.
have := congr1 (fun v : 'rV_n.+1 => v 0 j) a0; have := congr1 (fun v : 'rV_n.+1 => v 0 j) b0.
by rewrite !mxE; case: (w 0 j) => p q /= -> ->.
Qed.

(* Extension of a unit vector to an orthogonal matrix (Householder reflection). *)
Lemma householder n (v : 'rV[R]_n.+1) : (v *m v^T) 0 0 = 1 ->
  exists2 Q : 'M[R]_n.+1, Q *m Q^T = 1%:M & row 0 Q = v.
Proof.
move=> hv; pose e : 'rV[R]_n.+1 := delta_mx 0 0.
have rowE (Q : 'M[R]_n.+1) : row 0 Q = e *m Q by rewrite rowE.
have ee : (e *m e^T) 0 0 = 1 by rewrite trmx_delta mul_delta_mx mxE !eqxx.
case: (eqVneq v e) => [->|ve].
  by exists 1%:M; [rewrite trmx1 mulmx1 | rewrite rowE mulmx1].
pose u := v - e; pose s := (u *m u^T) 0 0.
have us : u *m u^T = s%:M by rewrite [LHS]mx11_scal.
have sn0 : s != 0 by rewrite rv_norm_eq0 subr_eq0.
have cve : (v *m e^T) 0 0 = (e *m v^T) 0 0.
  by rewrite -[v *m e^T]trmxK trmx_mul trmxK mxE.
have sE : s = - (2%:R * (e *m u^T) 0 0).
  rewrite /s /u linearB /= mulmxBl !mulmxBr !mxlin hv ee cve; ring.
have {}sE : (e *m u^T) 0 0 = - (s / 2%:R).
  by rewrite sE mulNr opprK mulrC mulKf // pnatr_eq0.
pose Q : 'M[R]_n.+1 := 1%:M - (2%:R / s) *: (u^T *m u).
have QT : Q^T = Q by rewrite /Q linearB linearZ /= trmx1 trmx_mul trmxK.
exists Q.
  pose A := u^T *m u; pose c := 2%:R / s.
  have AA : A *m A = s *: A.
    by rewrite /A -mulmxA [u *m (u^T *m u)]mulmxA us mul_scalar_mx -scalemxAr.
  rewrite QT /Q -/A -/c mulmxBl mul1mx !mulmxBr mulmx1 -!scalemxAl -!scalemxAr AA !scalerA.
  have -> : c * c * s = c + c by rewrite -mulrA {2}/c divfK // mulr_natr mulr2n.
  by rewrite scalerDl opprB addrK subrK.
rewrite rowE /Q mulmxBr mulmx1 -scalemxAr mulmxA [e *m u^T]mx11_scal sE mul_scalar_mx scalerA.
have -> : 2%:R / s * - (s / 2%:R) = -1 by field; rewrite sn0.
by rewrite scaleN1r opprK /u addrC subrK.
Qed.

Lemma is_eigh_exists n (K : 'M[R]_n) : symmetric K ->
  exists V, exists lam, is_eigh K V lam.
Proof.
elim: n K => [|n IH] K sK.
  by exists 1%:M, 0; split; apply/matrixP => -[].
have [x [v vn0 hv]] := sym_eigen sK.
pose s := Num.sqrt ((v *m v^T) 0 0).
have vv : 0 < (v *m v^T) 0 0 by rewrite lt_def rv_norm_eq0 vn0 rv_norm_ge0.
have sn0 : s != 0 by rewrite sqrtr_eq0 -ltNge.
have [Q QQ rQ] : exists2 Q : 'M[R]_n.+1, Q *m Q^T = 1%:M & row 0 Q = s^-1 *: v.
  apply: householder; rewrite linearZ /= -scalemxAl -scalemxAr !mxlin.
  by rewrite mulrA -invfM -expr2 sqr_sqrtr ?ltW // mulVf ?gt_eqF.
have QtQ : Q^T *m Q = 1%:M by apply: mulmx1C.
pose B : 'M[R]_(1 + n) := Q *m K *m Q^T.
have sB : B^T = B by rewrite /B !trmx_mul trmxK sK mulmxA.
have rB : row 0 B = x *: delta_mx 0 0.
  rewrite /B row_mul row_mul rQ -scalemxAl hv scalerA mulrC -scalerA -rQ -scalemxAl.
  by rewrite -row_mul QQ row1.
have KE : K = Q^T *m B *m Q.
  by rewrite /B !mulmxA QtQ mul1mx -mulmxA QtQ mulmx1.
have rB' j : B 0 j = x *+ (j == 0).
  have := congr1 (fun w : 'rV[R]_n.+1 => w 0 j) rB.
  by rewrite /= mxlin mxE => ->; rewrite mxE /= mulr_natr.
have cB' i : B i 0 = x *+ (i == 0) by rewrite -sB mxE.
clearbody B.
pose K' := drsubmx B.
have BE : B = block_mx x%:M 0 0 K'.
  have l0 : lshift n (0 : 'I_1) = 0 :> 'I_n.+1 by apply: val_inj.
  rewrite -[B]submxK; congr block_mx; apply/matrixP => i j; rewrite !ord1 !mxE.
  - by rewrite l0 rB'.
  - by rewrite l0 rB'.
  - by rewrite l0 cB'.
have sK' : symmetric K' by rewrite /symmetric /K' trmx_drsub sB.
have [V' [lam' [oV' eK']]] := IH K' sK'.
pose W : 'M[R]_(1 + n) := block_mx 1%:M 0 0 V'.
pose l : 'rV[R]_(1 + n) := row_mx x%:M lam'.
have oW : W^T *m W = 1%:M.
  by rewrite /W tr_block_mx mulmx_block !trmx0 trmx1 !(mulmx0, mul0mx, addr0, add0r) mulmx1 oV' -scalar_mx_block.
have dW : W *m diag_mx l *m W^T = B.
  rewrite BE /W /l diag_mx_row tr_block_mx !mulmx_block !trmx0 trmx1 !(mulmx0, mul0mx, addr0, add0r) !mulmx1 !mul1mx.
  by rewrite -eK'; congr block_mx; apply/matrixP => i j; rewrite !ord1 !mxE.
exists (Q^T *m W), l; split.
  by rewrite trmx_mul trmxK -mulmxA [Q *m (_ *m _)]mulmxA QQ mul1mx.
by rewrite trmx_mul trmxK [LHS]KE -dW !mulmxA.
Qed.

(* ---------- Functional calculus ---------- *)

Definition fcalc n (V : 'M[R]_n) (lam : 'rV[R]_n) (f : R -> R) : 'M[R]_n :=
  V *m diag_mx (\row_i f (lam 0 i)) *m V^T.

Lemma fcalc_unique n (A V W : 'M[R]_n) lam mu (f : R -> R) :
  is_eigh A V lam -> is_eigh A W mu -> fcalc V lam f = fcalc W mu f.
Proof.
move=> [oV eV] [oW eW].
have oV' : V *m V^T = 1%:M by apply: mulmx1C.
have oW' : W *m W^T = 1%:M by apply: mulmx1C.
pose U := V^T *m W.
have h : diag_mx lam *m U = U *m diag_mx mu.
  have := congr1 (fun X => V^T *m X *m W) (etrans (esym eV) eW).
  rewrite !mulmxA oV mul1mx -!mulmxA oW mulmx1.
  by rewrite /U !mulmxA.
have hf : diag_mx (\row_i f (lam 0 i)) *m U = U *m diag_mx (\row_i f (mu 0 i)).
  apply/matrixP => i j.
  have := congr1 (fun X : 'M_n => X i j) h.
  rewrite !diag_mulE !mul_diagE ![(\row__ _) _ _]mxE.
  case: (eqVneq (U i j) 0) => [-> _|un0]; first by rewrite mulr0 mul0r.
  by rewrite mulrC => /(mulfI un0) ->; rewrite mulrC.
rewrite /fcalc.
have -> : V *m diag_mx (\row_i f (lam 0 i)) *m V^T =
          V *m (diag_mx (\row_i f (lam 0 i)) *m U) *m W^T.
  by rewrite /U -!mulmxA oW' mulmx1.
by rewrite hf /U !mulmxA oV' mul1mx.
Qed.

Lemma is_eigh_affine n (A V : 'M[R]_n) lam a b : is_eigh A V lam ->
  is_eigh (a *: A + b%:M) V (\row_i (a * lam 0 i + b)).
Proof.
move=> [oV eV]; split=> //.
have oV' : V *m V^T = 1%:M by apply: mulmx1C.
have -> : diag_mx (\row_i (a * lam 0 i + b)) = a *: diag_mx lam + b%:M.
  by apply/matrixP => i j; rewrite !mxE; case: eqP => [->|_]; rewrite ?mulr1n // !mulr0n mulr0 addr0.
rewrite mulmxDr mulmxDl -scalemxAr -scalemxAl -eV; congr (_ + _).
by rewrite mul_mx_scalar -scalemxAl oV' scalemx1.
Qed.

Lemma fcalc_comp n (V : 'M[R]_n) (lam : 'rV[R]_n) (f g : R -> R) :
  fcalc V (\row_i g (lam 0 i)) f = fcalc V lam (fun x => f (g x)).
Proof. by congr (V *m diag_mx _ *m V^T); apply/rowP => i; rewrite !mxE. Qed.

Lemma fcalc_mul n (V : 'M[R]_n) lam (f g : R -> R) : V^T *m V = 1%:M ->
  fcalc V lam (fun x => f x * g x) = fcalc V lam f *m fcalc V lam g.
Proof.
move=> oV; rewrite /fcalc.
set D := diag_mx (\row_i f _); set E := diag_mx (\row_i g _).
have -> : V *m D *m V^T *m (V *m E *m V^T) = V *m (D *m E) *m V^T.
  by rewrite !mulmxA -[V *m D *m V^T *m V]mulmxA oV mulmx1.
congr (V *m _ *m _); apply/matrixP => i j.
by rewrite /D diag_mulE /E !mxE mulrnAr.
Qed.

Lemma fcalc1 n (V : 'M[R]_n) lam : V^T *m V = 1%:M -> fcalc V lam (fun=> 1) = 1%:M.
Proof.
move=> oV; rewrite /fcalc (_ : diag_mx _ = 1%:M) ?mulmx1; first exact: mulmx1C.
by apply/matrixP => i j; rewrite !mxE.
Qed.

Definition mxpow n (A : 'M[R]_n) (k : nat) : 'M[R]_n := iter k (mulmx A) 1%:M.

Lemma mxpowD n (A : 'M[R]_n) k l : mxpow A (k + l) = mxpow A k *m mxpow A l.
Proof. by elim: k => [|k IH]; rewrite ?mul1mx // addSn /= -/(mxpow _ _) IH mulmxA. Qed.

Lemma mxpowS n (A : 'M[R]_n) k : mxpow A k.+1 = A *m mxpow A k.
Proof. by []. Qed.

Lemma mxpowSr n (A : 'M[R]_n) k : mxpow A k.+1 = mxpow A k *m A.
Proof. by rewrite -addn1 mxpowD /= mulmx1. Qed.

Lemma mxpow_tr n (A : 'M[R]_n) k : symmetric A -> (mxpow A k)^T = mxpow A k.
Proof.
move=> sA; elim: k => [|k IH]; first by rewrite /= trmx1.
by rewrite {1}mxpowSr trmx_mul sA IH.
Qed.

Lemma fcalc_pow n (A V : 'M[R]_n) lam k : is_eigh A V lam ->
  fcalc V lam (fun x => x ^+ k) = mxpow A k.
Proof.
move=> [oV eV]; elim: k => [|k IH].
  exact: fcalc1.
rewrite /= -/(mxpow A k) -IH {1}eV.
have -> : V *m diag_mx lam *m V^T = fcalc V lam id.
  by congr (_ *m diag_mx _ *m _); apply/rowP => i; rewrite mxE.
by rewrite -fcalc_mul //; congr (_ *m diag_mx _ *m _); apply/rowP => i; rewrite !mxE exprS.
Qed.

Lemma fcalc_entry n (V : 'M[R]_n) lam f i j :
  fcalc V lam f i j = \sum_k V i k * f (lam 0 k) * V j k.
Proof.
rewrite /fcalc mxE; apply: eq_bigr => k _.
by rewrite mul_mx_diag !mxE.
Qed.

(* ---------- A library eigh exists ---------- *)

Definition is_eighb n (A : 'M[R]_n) (p : 'M[R]_n * 'rV[R]_n) : bool :=
  (p.1^T *m p.1 == 1%:M) && (A == p.1 *m diag_mx p.2 *m p.1^T).

Lemma eigh_ref_ex n (A : 'M[R]_n) : A^T = A -> exists p, is_eighb A p.
Proof.
move=> /is_eigh_exists [V [lam [oV eV]]].
by exists (V, lam); rewrite /is_eighb /= oV -eV !eqxx.
Qed.

Definition eigh_ref n (A : 'M[R]_n) : 'M[R]_n * 'rV[R]_n :=
  match decP (A^T =P A) with
  | left e => xchoose (eigh_ref_ex e)
  | right _ => (1%:M, 0)
  end.

Lemma eigh_ref_spec : eigh_spec eigh_ref.
Proof.
move=> n A sA; rewrite /eigh_ref; case: decP => [e|/(_ sA)] //.
by have /andP [/eqP h1 /eqP h2] := xchooseP (eigh_ref_ex e).
Qed.
End Spectral.
