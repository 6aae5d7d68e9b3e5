(* The rule of a discrete law carried by exactly as many points as there are basis
   monomials, on which polynomials of degree < N are determined, is that law. *)
From mathcomp Require Import all_ssreflect all_algebra.
From mathcomp Require Import zify ring.
From Verif Require Import Prelude MultiIndexModel MultiIndexSpec MultiIndexProofs MultiIndexGramProofs MultiIndexMain.
From Verif Require Import NdIndexModel NdIndexProofs LinAlgSpec LinAlgProofs SpectralProofs LdlModel LdlProofs.
From Verif Require Import QuadModel QuadSpec QuadProofs QuadMain QuadNdModel QuadNdSpec QuadNdProofs QuadNdGram.
From Verif Require Import QuadNdAffine QuadNdMain QuadNdFinal.
Set Implicit Arguments.
Unset Strict Implicit.
Unset Printing Implicit Defensive.
Import Order.TTheory GRing.Theory Num.Theory.
Local Open Scope ring_scope.

Section SameBasis.
Variables (R : rcfType) (n : nat).

Lemma chainS (e : 'M[R]_n.+1 * 'rV[R]_n.+1) es v f : chain (e :: es) v f =
  \sum_(i < n.+1) dotp v (col i e.1) * chain es (col i e.1) (fun xs => f (e.2 0 i :: xs)).
Proof. by []. Qed.

Lemma dot_cols (V : 'M[R]_n.+1) i j : V^T *m V = 1%:M -> dotp (col i V) (col j V) = (i == j)%:R.
Proof.
move=> hV; have := congr1 (fun A : 'M_n.+1 => A i j) hV; rewrite !mxE => <-.
by apply: eq_bigr => k _; rewrite !mxE.
Qed.

(* a chain whose bases all coincide collapses to a weighted sum *)
Lemma chain_same (V : 'M[R]_n.+1) (z : nat -> 'rV[R]_n.+1) a (l : seq nat) v f :
  V^T *m V = 1%:M ->
  chain [seq (V, z b) | b <- a :: l] v f =
  \sum_(i < n.+1) dotp v (col i V) * V 0 i * f [seq z b 0 i | b <- a :: l].
Proof.
move=> hV; elim: l a v f => [|b l IH] a v f.
  by rewrite /=; apply: eq_bigr => i _; rewrite mxE mulrA.
rewrite map_cons chainS; apply: eq_bigr => i _.
rewrite IH (bigD1 i) //= big1 ?addr0 => [|j hj]; last first.
  by rewrite (dot_cols _ _ hV) eq_sym (negbTE hj) !mul0r.
by rewrite (dot_cols _ _ hV) eqxx mul1r mulrA.
Qed.
End SameBasis.

Section Exact.
Variables (R : rcfType).
Variable chol : forall n, 'M[R]_n -> 'M[R]_n.
Variable eigh : forall n, 'M[R]_n -> 'M[R]_n * 'rV[R]_n.
Hypothesis cholP : chol_spec chol.
Hypothesis eighP : eigh_spec eigh.
Variables (d N n : nat).
Hypothesis hd : (0 < d)%N.
Hypothesis hN : (0 < N)%N.
Local Notation basis := (blocks d 0 N).
Hypothesis hn : size basis = n.+1.
Variables (ws : seq R) (zs : seq (seq R)).
Hypothesis sw : size ws = n.+1.
Hypothesis sz : size zs = n.+1.
Hypothesis hw : all (fun w => 0 < w) ws.
Hypothesis hz : all (fun z => size z == d) zs.
Hypothesis hu : unisolvent d N zs.
Local Notation M := (discrete_nd ws zs).

Lemma adm : admissible_nd d N M.
Proof. by apply: discrete_nd_admissible; rewrite ?sw ?sz. Qed.

Lemma disc_sum k : M k = \sum_(i < n.+1) nth 0 ws i * mono (nth [::] zs i) k.
Proof.
rewrite /discrete_nd (big_nth (0, [::])) size_zip sw sz minnn big_mkord.
by apply: eq_bigr => i _; rewrite nth_zip ?sw ?sz.
Qed.

Lemma zsize (i : 'I_n.+1) : size (nth [::] zs i) = d.
Proof. by apply/eqP; apply: (allP hz); apply: mem_nth; rewrite sz. Qed.

Lemma wpos (i : 'I_n.+1) : 0 < nth 0 ws i.
Proof. by apply: (allP hw); apply: mem_nth; rewrite sw. Qed.

Definition BB : 'M[R]_n.+1 := \matrix_(i, j) mono (nth [::] zs i) (bas d N j).
Definition sW : 'rV[R]_n.+1 := \row_i Num.sqrt (nth 0 ws i).
Definition WB := diag_mx sW *m BB.
Definition ZZ a : 'rV[R]_n.+1 := \row_i nth 0 (nth [::] zs i) a.

Lemma sW2 i : sW 0 i * sW 0 i = nth 0 ws i.
Proof. by rewrite mxE -expr2 sqr_sqrtr // ltW // wpos. Qed.

Lemma WBE i j : WB i j = sW 0 i * BB i j.
Proof. by rewrite /WB diag_mulE. Qed.

Lemma gram_WB : gramM d N n M = WB^T *m WB.
Proof.
apply/matrixP => i j; rewrite mxE disc_sum mxE; apply: eq_bigr => k _.
rewrite [WB^T i k]mxE !WBE mulrACA sW2; congr (_ * _).
by rewrite ![BB _ _]mxE mono_madd ?zsize ?(bas_size hn).
Qed.

Lemma mono_unit a (z : seq R) : size z = d -> (a < d)%N -> mono z (munit d a) = nth 0 z a.
Proof.
move=> hs ha; rewrite /mono (big_nth (0, 0%N)) size_zip size_munit hs minnn big_mkord.
rewrite (bigD1 (Ordinal ha)) //= nth_zip ?size_munit ?hs //= nth_munit // eqxx expr1 big1 ?mulr1 // => i hi.
by rewrite nth_zip ?size_munit ?hs //= nth_munit // -[_ == a]/(i == Ordinal ha) (negbTE hi) expr0.
Qed.

Lemma hank_WB a : (a < d)%N -> hankM d N n M a = WB^T *m diag_mx (ZZ a) *m WB.
Proof.
move=> ha; apply/matrixP => i j; rewrite mxE disc_sum -mulmxA mxE; apply: eq_bigr => k _.
rewrite diag_mulE [WB^T i k]mxE !WBE ![BB _ _]mxE [ZZ a 0 k]mxE.
rewrite mono_madd ?zsize ?size_munit ?mono_madd ?zsize ?(bas_size hn) // ?mono_unit ?zsize //; last first.
  by rewrite -maddE size_mi_add ?(bas_size hn).
rewrite -sW2; move: (sW 0 k) (mono _ _) (mono _ _) (nth 0 _ a) => p q r s; ring.
Qed.

Section Fac.
Variable L : 'M[R]_n.+1.
Hypothesis cL : is_chol L (gramM d N n M).

Lemma K_eigh a : (a < d)%N -> is_eigh (KK d N M L a) (invmx L *m WB^T) (ZZ a).
Proof.
move=> ha; have uL := chol_unit cL; have [_ _ eL] := cL.
have uLT : L^T \in unitmx by rewrite unitmx_tr.
split; last first.
  by rewrite /KK (mult_matrixE _ cL) hank_WB // [(invmx L *m _)^T]trmx_mul trmxK trmx_inv !mulmxA.
have h : (invmx L *m WB^T) *m (invmx L *m WB^T)^T = 1%:M.
  rewrite [(invmx L *m _)^T]trmx_mul trmxK trmx_inv mulmxA -(mulmxA _ WB^T) -gram_WB -eL mulmxA mulVmx // mul1mx.
  by rewrite mulmxV.
exact: mulmx1C.
Qed.

Lemma Q0 i : (invmx L *m WB^T) 0 i = sW 0 i / L 0 0.
Proof.
have uL := chol_unit cL; have [tL pL _] := cL.
have L0 : L 0 0 != 0 by exact: L00_neq0 cL.
have e : L *m (invmx L *m WB^T) = WB^T by rewrite mulmxA mulmxV // mul1mx.
have := congr1 (fun A : 'M_n.+1 => A 0 i) e; rewrite mxE (bigD1 0) //= big1 ?addr0 => [|j hj]; last first.
  move/is_trig_mxP: tL => tL; rewrite tL ?mul0r // lt0n.
  by apply: contraNneq hj => h; apply/eqP/val_inj.
move=> h; apply: (mulfI L0); rewrite h mxE WBE mxE [X in _ * X]mxE (bas0 hd hN) mono0 mulr1.
by rewrite mulrCA divff // mulr1.
Qed.
End Fac.

Lemma disc0 : M (nseq d 0%N) = jsum ws.
Proof.
rewrite disc_sum jsumE [RHS](big_nth 0) sw big_mkord; apply: eq_bigr => i _.
by rewrite mono0 mulr1.
Qed.

Lemma quad_exact ldl qw qx f :
  moment_quadrature_nd chol eigh (mvec d N M) (tabs d N) None None ldl = Some (qw, qx) ->
  expect_nd qw qx f = expect_nd ws zs f / jsum ws.
Proof.
move=> hq; rewrite (expect_quad hd hn _ hq).
have cL := Lf_chol cholP hN hn adm ldl; set L := Lf _ _ _ _ _ _ in cL.
have -> : chain [seq ef chol eigh d N n M ldl a | a <- iota 0 d] (e0 R n) (fun x => f (place_nodes None None x))
  = chain [seq (invmx L *m WB^T, ZZ a) | a <- iota 0 d] (e0 R n) f.
  pose es' a := (invmx L *m WB^T, ZZ a).
  have := @chain_affine R n (ef chol eigh d N n M ldl) es' (nseq d 0) (nseq d 1) (iota 0 d) (e0 R n) f.
  rewrite /es' => <-.
    apply: chain_ext => x; rewrite size_map size_iota => hx; congr f.
    have -> : [seq nth 0 (nseq d 0) a | a <- iota 0 d] = nseq d (0 : R).
      by rewrite -[RHS](mkseq_nth 0) size_nseq.
    have -> : [seq nth 1 (nseq d 1) a | a <- iota 0 d] = nseq d (1 : R).
      by rewrite -[RHS](mkseq_nth 1) size_nseq.
    by rewrite -place_nodesE ?size_nseq // -hx -(place_nodes_raw None).
  move=> a; rewrite mem_iota add0n => /andP [_ ha]; rewrite !nth_nseq ha oner_eq0; split=> //.
  exists (KK d N M L a); first exact: (ef_eigh cholP eighP hN hn adm).
  by rewrite invr1 scale1r raddf0 subr0; exact: K_eigh.
have [d' ed] : exists d', d = d'.+1 by exists d.-1; rewrite prednK.
have [hQ _] := K_eigh cL hd.
rewrite [in LHS]ed (_ : iota 0 d'.+1 = 0%N :: iota 1 d') // chain_same // -[_ :: _]/(iota 0 d'.+1) expect_ndE (big_nth (0, [::])) size_zip sw sz minnn big_mkord mulr_suml.
apply: eq_bigr => i _; rewrite nth_zip ?sw ?sz // dotp_e0 mxE (Q0 cL).
have -> : [seq ZZ b 0 i | b <- iota 0 d'.+1] = nth [::] zs i.
  rewrite -[RHS](mkseq_nth 0) zsize ed; apply: eq_map => b; by rewrite mxE.
rewrite -disc0 -(L00 hd hN cL) -[in RHS](sW2 i); have := L00_neq0 cL => /=.
by move: (L 0 0) (sW 0 i) (f _) => l s y h; field.
Qed.
End Exact.
