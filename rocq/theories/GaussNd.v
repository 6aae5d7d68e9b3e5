(* Expectations of polynomials under N(m, P) by finite rules: affine images, exactness of
   the Gauss--Hermite rule, positivity of the Gaussian moment matrices. *)
From mathcomp Require Import all_ssreflect all_algebra.
From mathcomp Require Import zify ring.
From Verif Require Import Prelude QuadSpec QuadProofs Moments1DSpec Moments1DProofs SigmaSpec.
From Verif Require Import MomentsNdModel MomentsNdSpec MomentsNdKan MomentsNdMvn MomentsNdMain.
Set Implicit Arguments.
Unset Strict Implicit.
Unset Printing Implicit Defensive.
Import Order.TTheory GRing.Theory Num.Theory.
Local Open Scope ring_scope.

Section Diag.
Variables (R : rcfType) (d : nat).

Lemma mvn_diag (m : 'cV[R]_d) (v : 'I_d -> R) : mvn_moments m (\matrix_(i, j) ((i == j)%:R * v i))
  (fun n => \prod_(i < d) gauss_moment (m i 0) (v i) (nth 0%N n i)).
Proof.
split.
  by rewrite big1 // => i _; rewrite nth_nseq ltn_ord; have [-> _ _] := gauss_momentP (m i 0) (v i).
have gr mu w p : gauss_moment mu w p.+1 = mu * gauss_moment mu w p + w * p%:R * gauss_moment mu w p.-1 :> R.
  have [g0 g1 g2] := gauss_momentP mu w; case: p => [|p]; last by rewrite g2 /= [w * _]mulrC.
  by rewrite g0 g1 mulr0 mul0r addr0 mulr1.
move=> k i hk; pose F k' := \prod_(j < d | j != i) gauss_moment (m j 0) (v j) (nth 0%N k' j).
have sp k' : \prod_(j < d) gauss_moment (m j 0) (v j) (nth 0%N k' j)
    = gauss_moment (m i 0) (v i) (nth 0%N k' i) * F k' by rewrite (bigD1 i).
have -> : \sum_(j < d) (\matrix_(i, j) ((i == j)%:R * v i)) i j * (nth 0%N k j)%:R *
     \prod_(l < d) gauss_moment (m l 0) (v l) (nth 0%N (mdec k j) l)
  = v i * (nth 0%N k i)%:R * (gauss_moment (m i 0) (v i) (nth 0%N (mdec k i) i) * F (mdec k i)).
  rewrite -sp (bigD1 i) //= [X in _ + X = _]big1 => [|j hj]; last by rewrite mxE eq_sym (negbTE hj) !mul0r.
  by rewrite mxE eqxx mul1r addr0.
rewrite !sp nth_minc nth_mdec eqxx addn1 subn1 gr.
have e1 : \prod_(j < d | j != i) gauss_moment (m j 0) (v j) (nth 0%N (minc k i) j)
        = \prod_(j < d | j != i) gauss_moment (m j 0) (v j) (nth 0%N k j).
  by apply: eq_bigr => j hj; rewrite nth_minc; have -> : (j == i :> nat) = false by [apply/negbTE]; rewrite addn0.
have e2 : \prod_(j < d | j != i) gauss_moment (m j 0) (v j) (nth 0%N (mdec k i) j)
        = \prod_(j < d | j != i) gauss_moment (m j 0) (v j) (nth 0%N k j).
  by apply: eq_bigr => j hj; rewrite nth_mdec; have -> : (j == i :> nat) = false by [apply/negbTE]; rewrite subn0.
by rewrite /F e1 e2 mulrDl !mulrA.
Qed.

Lemma mvn_point (m : 'cV[R]_d) : mvn_moments m 0 (fun n => \prod_(i < d) m i 0 ^+ nth 0%N n i).
Proof.
have [h0 h] := mvn_diag m (fun=> 0).
have e n : \prod_(i < d) gauss_moment (m i 0) 0 (nth 0%N n i) = \prod_(i < d) m i 0 ^+ nth 0%N n i.
  apply: eq_bigr => i _; elim: {n}(nth 0%N n i) => [|k IH]; first by rewrite expr0.
  have [g0 g1 g2] := gauss_momentP (m i 0) 0.
  by case: k IH => [|k] IH; rewrite ?g1 ?expr1 // g2 IH mulr0 mul0r addr0 -exprS.
split=> [|n i hn]; first by rewrite -e.
rewrite -!e h //; congr (_ + _); apply: eq_bigr => j _.
by rewrite -e !mxE mulr0.
Qed.
End Diag.

Section Mi.
Variable d : nat.
Implicit Types (k n : seq nat).

Lemma mdecC k (i j : 'I_d) : size k = d -> mdec (mdec k i) j = mdec (mdec k j) i.
Proof.
move=> hk; apply: (@eq_from_nth _ 0%N) => [|l _]; first by rewrite !size_mdec.
by rewrite !nth_mdec; lia.
Qed.

Lemma minc_mdecC k (i j : 'I_d) : size k = d -> (0 < nth 0%N k j)%N ->
  mdec (minc k i) j = minc (mdec k j) i.
Proof.
move=> hk hj; apply: (@eq_from_nth _ 0%N) => [|l _]; first by rewrite !(size_mdec, size_minc).
rewrite nth_mdec !nth_minc nth_mdec.
by case: (eqVneq l (j : nat)) => [->|]; lia.
Qed.

Lemma mdec_minc k (i : 'I_d) : size k = d -> mdec (minc k i) i = k.
Proof.
move=> hk; apply: (@eq_from_nth _ 0%N) => [|l _]; first by rewrite !(size_mdec, size_minc).
by rewrite nth_mdec !nth_minc; lia.
Qed.

Lemma minc_mdec k (i : 'I_d) : size k = d -> (0 < nth 0%N k i)%N -> minc (mdec k i) i = k.
Proof. by move=> hk hi; rewrite -minc_mdecC // mdec_minc. Qed.
End Mi.

(* the moments of N(F x + u, Q) as polynomials in x *)
Section Affine.
Variables (R : rcfType) (d p : nat) (F : 'M[R]_(p, d)) (u : 'cV[R]_p) (Q : 'M[R]_p).
Hypothesis hQ : Q^T = Q.
Local Notation G k := (fun x : 'cV[R]_d => raw_moments_mvn_kan (F *m x + u) Q k).

Lemma G_rec n (i : 'I_p) (x : 'cV[R]_d) : size n = p ->
  G (minc n i) x = (\sum_j F i j * x j 0) * G n x + u i 0 * G n x
                   + \sum_j Q i j * (nth 0%N n j)%:R * G (mdec n j) x.
Proof.
by move=> hn; have [_ ->] := kan_moments (F *m x + u) hQ; rewrite ?hn // mxE mulrDl mxE.
Qed.

Definition dG k (j : 'I_d) (x : 'cV[R]_d) : R :=
  \sum_(i < p) F i j * (nth 0%N k i)%:R * G (mdec k i) x.

Lemma G_pol k : size k = p -> pol (sumn k) (G k) (dG k).
Proof.
elim: {k}(sumn k) {-2}k (leqnn (sumn k)) => [|s IH] k hs hk.
  have -> : k = nseq p 0%N.
    apply: (@eq_from_nth _ 0%N) => [|i hi]; first by rewrite size_nseq.
    rewrite nth_nseq -hk hi; apply/eqP; rewrite -leqn0; apply: leq_trans hs.
    by rewrite sumnE (big_nth 0%N) big_mkord (bigD1 (Ordinal hi)) //= leq_addr.
  apply: pol_ext (pol_one _ _ _) => [x|j x].
    by have [-> _] := kan_moments (F *m x + u) hQ.
  by rewrite /dG big1 // => i _; rewrite nth_nseq if_same mulr0 mul0r.
case: (posnP (sumn k)) => [h0|hpos]; first by apply: IH => //; rewrite h0.
have [i hi] : exists i : 'I_p, (0 < nth 0%N k i)%N.
  case e: [exists i : 'I_p, (0 < nth 0 k i)%N]; first by case/existsP: e => i hi; exists i.
  move/negbT: e; rewrite negb_exists => /forallP h; move: hpos.
  rewrite sumnE (big_nth 0%N) big_mkord big1 // => i _.
  by have := h (cast_ord hk i); rewrite -leqNgt leqn0 => /eqP.
have hn : size (mdec k i) = p by exact: size_mdec.
have hs1 : sumn k = (sumn (mdec k i)).+1 by rewrite -{1}(minc_mdec hk hi) sumn_minc.
have ek : k = minc (mdec k i) i by rewrite minc_mdec.
move: (mdec k i) hn hs1 ek => n hn hs1 ek; rewrite hs1 ek {ek}.
have hns : (sumn n <= s)%N by rewrite -ltnS -hs1.
have pn := IH n hns hn.
have pn' (j : 'I_p) : pol (sumn n) (G (mdec n j)) (dG (mdec n j)).
  have hj := @size_mdec p n j hn.
  have le : (sumn (mdec n j) <= sumn n)%N.
    rewrite !sumnE (big_nth 0%N) [X in (_ <= X)%N](big_nth 0%N) hj hn !big_mkord; apply: leq_sum => l _.
    by rewrite nth_mdec leq_subr.
  by apply: pol_weaken le (IH _ (leq_trans le hns) hj).
have P1 := pol_lin (\col_j F i j) pn.
have P2 := pol_weaken (leqnSn _) (pol_scale (u i 0) pn).
have P3 := pol_weaken (leqnSn _) (pol_sum (index_enum _) (fun j => pol_scale (Q i j * (nth 0%N n j)%:R) (pn' j))).
apply: pol_ext (pol_add (pol_add P1 P2) P3) => [x|j x]; rewrite /=.
  by rewrite G_rec //; congr (_ * _ + _ + _); apply: eq_bigr => j _; rewrite mxE.
under [X in X * dG _ _ _]eq_bigr do rewrite mxE.
rewrite mxE.
(* the target *)
have et : dG (minc n i) j x = F i j * G n x + \sum_r F r j * (nth 0%N n r)%:R * G (minc (mdec n r) i) x.
  rewrite /dG (eq_bigr (fun r : 'I_p => (r == i)%:R * (F i j * G n x)
      + F r j * (nth 0%N n r)%:R * G (minc (mdec n r) i) x)); last first.
    move=> r _; rewrite nth_minc natrD; case: (posnP (nth 0%N n r)) => [h0|hr].
      rewrite h0 add0r mulr0 mul0r addr0; case: (eqVneq r i) => [->|hri].
        by rewrite eqxx mulr1 mul1r mdec_minc.
      by have -> : (r == i :> nat) = false by [apply/negbTE]; rewrite mulr0 !mul0r.
    case: (eqVneq r i) hr => [->|hri] hr.
      by rewrite eqxx mdec_minc // minc_mdec // mulrDr mulrDl mulr1 mul1r addrC.
    have -> : (r == i :> nat) = false by apply/negbTE.
    by rewrite mul0r add0r addr0 minc_mdecC.
  rewrite big_split /=; congr (_ + _); rewrite (bigD1 i) //= eqxx mul1r big1 ?addr0 // => r /negbTE ->.
  by rewrite mul0r.
rewrite et -!addrA; congr (_ + _).
rewrite addrA -mulrDl.
have -> : \sum_r F r j * (nth 0%N n r)%:R * G (minc (mdec n r) i) x
  = \sum_r F r j * (nth 0%N n r)%:R * (((\sum_l F i l * x l 0) + u i 0) * G (mdec n r) x)
    + \sum_r \sum_l F r j * (nth 0%N n r)%:R * (Q i l * (nth 0%N (mdec n r) l)%:R * G (mdec (mdec n r) l) x).
  rewrite -big_split /=; apply: eq_bigr => r _.
  by rewrite G_rec ?size_mdec // -mulrDl mulrDr mulr_sumr.
congr (_ + _).
  by rewrite /dG mulr_sumr; apply: eq_bigr => r _; rewrite mulrCA.
rewrite exchange_big /=; apply: eq_bigr => l _.
rewrite /dG mulr_sumr; apply: eq_bigr => r _.
rewrite (mdecC r l hn) !nth_mdec.
have e : (nth 0%N n l)%:R * (nth 0%N n r - (r == l :> nat))%N%:R
       = (nth 0%N n r)%:R * (nth 0%N n l - (l == r :> nat))%N%:R :> R.
  rewrite -!natrM; congr (_%:R); case: (eqVneq l r) => [->|h]; rewrite ?eqxx //.
  have -> : (r == l :> nat) = false by apply/negbTE; rewrite eq_sym.
  have -> : (l == r :> nat) = false by apply/negbTE.
  by rewrite !subn0 mulnC.
move: e; move: ((nth 0%N n r - (r == l :> nat))%N%:R : R) ((nth 0%N n l - (l == r :> nat))%N%:R : R) => a' b'.
move: (raw_moments_mvn_kan _ _ _) ((nth 0%N n l)%:R : R) ((nth 0%N n r)%:R : R) => z a b e.
transitivity (F r j * Q i l * (a * a') * z); first by ring.
by rewrite e; ring.
Qed.

(* a finite rule with the moments of N(m, P) up to total order D *)
Variables (m : 'cV[R]_d) (P : 'M[R]_d) (M : seq nat -> R) (nodes : seq (R * 'cV[R]_d)) (D : nat).
Hypothesis hP : P^T = P.
Hypothesis hM : mvn_moments m P M.
Hypothesis hE : forall k, size k = d -> (sumn k <= D)%N ->
  \sum_(q <- nodes) q.1 * \prod_(i < d) q.2 i 0 ^+ nth 0%N k i = M k.
Local Notation E f := (\sum_(q <- nodes) q.1 * f q.2).

Definition mlist (e : 'I_d -> nat) : seq nat := [seq e i | i <- enum 'I_d].
Lemma size_mlist e : size (mlist e) = d. Proof. by rewrite size_map size_enum_ord. Qed.
Lemma nth_mlist e (i : 'I_d) : nth 0%N (mlist e) i = e i.
Proof. by rewrite (nth_map i) ?size_enum_ord // (nth_ord_enum i i). Qed.
Lemma sumn_mlist e : sumn (mlist e) = (\sum_i e i)%N.
Proof. by rewrite sumnE big_map big_enum. Qed.

Lemma E_poly ts : tdeg D ts -> E (mpoly_eval ts) = \sum_(t <- ts) t.1 * M (mlist t.2).
Proof.
elim: ts => [|t ts IH] /=.
  by rewrite big_nil big1 // => q _; rewrite /mpoly_eval big_nil mulr0.
case/andP=> ht /IH {}IH; rewrite big_cons -IH -hE ?size_mlist ?sumn_mlist // mulr_sumr -big_split /=.
apply: eq_bigr => q _; rewrite /mpoly_eval big_cons mulrDr /term_eval mulrCA; congr (_ * (_ * _) + _).
by apply: eq_bigr => i _; rewrite nth_mlist.
Qed.

Lemma E_stein s (f : 'cV[R]_d -> R) df (j : 'I_d) : pol s f df -> (s < D)%N ->
  E (fun x : 'cV[R]_d => x j 0 * f x) = m j 0 * E f + \sum_l P j l * E (df l).
Proof.
case=> ts [h1 h2 h3] hs.
have e1 : E (fun x : 'cV[R]_d => x j 0 * f x) = E (mpoly_eval (tmulx j ts)).
  by apply: eq_bigr => q _; rewrite eval_mulx h2.
have e2 : E f = E (mpoly_eval ts) by apply: eq_bigr => q _; rewrite h2.
have e3 l : E (df l) = E (mpoly_eval (tder l ts)) by apply: eq_bigr => q _; rewrite h3.
rewrite e1 e2; under [X in _ = _ + X]eq_bigr do rewrite e3.
rewrite E_poly; last first.
  by rewrite /tdeg all_map; apply: sub_all h1 => t ht /=; rewrite sum_inc (leq_ltn_trans ht).
rewrite E_poly; last by apply: sub_all h1 => t ht; apply: leq_trans ht (ltnW hs).
have e4 l : E (mpoly_eval (tder l ts)) = \sum_(t <- tder l ts) t.1 * M (mlist t.2).
  apply: E_poly; rewrite /tdeg all_map; apply: sub_all h1 => t ht /=.
  apply: leq_trans (ltnW hs); apply: leq_trans ht; apply: leq_sum => i _; exact: leq_subr.
under [X in _ = _ + X]eq_bigr do rewrite e4 big_map mulr_sumr.
rewrite exchange_big mulr_sumr -big_split big_map; apply: eq_bigr => t _ /=.
have -> : mlist (fun i => (t.2 i + (i == j))%N) = minc (mlist t.2) j.
  apply: (@eq_from_nth _ 0%N) => [|l]; first by rewrite size_minc ?size_mlist.
  by rewrite size_mlist => hl; rewrite nth_minc -[l]/(val (Ordinal hl)) !nth_mlist.
have [_ ->] := hM; rewrite ?size_mlist // mulrDr mulrCA; congr (_ + _).
rewrite mulr_sumr; apply: eq_bigr => l _; rewrite nth_mlist.
have -> : mlist (fun i => (t.2 i - (i == l))%N) = mdec (mlist t.2) l.
  apply: (@eq_from_nth _ 0%N) => [|i]; first by rewrite size_mdec ?size_mlist.
  by rewrite size_mlist => hi; rewrite nth_mdec -[i]/(val (Ordinal hi)) !nth_mlist.
by move: (M _) (t.1) (t.2 l)%:R => a b c; ring.
Qed.

Lemma affine_rule k : size k = p -> (sumn k <= D)%N ->
  E (G k) = raw_moments_mvn_kan (F *m m + u) (F *m P *m F^T + Q) k.
Proof.
move=> hk hD.
have hsym : (F *m P *m F^T + Q)^T = F *m P *m F^T + Q.
  by rewrite linearD /= hQ !trmx_mul trmxK hP mulmxA.
have [k0 kr] := kan_moments (F *m m + u) hsym.
apply: (@mvn_unique_upto R p (F *m m + u) (F *m P *m F^T + Q) (fun k => E (G k)) _ D) => //.
  have h1 x : G (nseq p 0%N) x = 1 by have [-> _] := kan_moments (F *m x + u) hQ.
  under eq_bigr do rewrite h1 mulr1.
  have := hE (size_nseq d 0%N); have [-> _] := hM => <-; last by rewrite sumn_nseq.
  by apply: eq_bigr => q _; rewrite big1 ?mulr1 // => i _; rewrite nth_nseq if_same expr0.
  move=> n i hn hs _ /=.
  under eq_bigr do rewrite G_rec // !mulrDr.
  rewrite !big_split /=.
  have -> : \sum_(q <- nodes) q.1 * ((\sum_j F i j * q.2 j 0) * G n q.2)
          = \sum_j F i j * E (fun x : 'cV[R]_d => x j 0 * G n x).
    under [RHS]eq_bigr do rewrite mulr_sumr.
    rewrite exchange_big; apply: eq_bigr => q _; rewrite mulr_suml mulr_sumr; apply: eq_bigr => j _.
    by rewrite -!mulrA mulrCA.
  have -> : \sum_(q <- nodes) q.1 * (u i 0 * G n q.2) = u i 0 * E (G n).
    by rewrite mulr_sumr; apply: eq_bigr => q _; rewrite mulrCA.
  have -> : \sum_(q <- nodes) q.1 * (\sum_j Q i j * (nth 0%N n j)%:R * G (mdec n j) q.2)
          = \sum_j Q i j * (nth 0%N n j)%:R * E (G (mdec n j)).
    under [RHS]eq_bigr do rewrite mulr_sumr.
    rewrite exchange_big; apply: eq_bigr => q _; rewrite mulr_sumr; apply: eq_bigr => j _.
    by rewrite mulrCA.
  have eS j := E_stein j (G_pol hn) hs.
  under eq_bigr do rewrite eS mulrDr mulrA.
  rewrite big_split /= -mulr_suml.
  have edG l : E (dG n l) = \sum_r F r l * (nth 0%N n r)%:R * E (G (mdec n r)).
    under [RHS]eq_bigr do rewrite mulr_sumr.
    rewrite exchange_big; apply: eq_bigr => q _; rewrite /dG mulr_sumr; apply: eq_bigr => r _.
    by rewrite mulrCA.
  rewrite [(F *m m + u) i 0]mxE [(F *m m) i 0]mxE mulrDl.
  have r4 (a b c e : R) : a + b + c + e = a + c + (b + e) by ring.
  rewrite r4; congr (_ + _).
  under [RHS]eq_bigr do rewrite [(_ + Q) i _]mxE !mulrDl.
  rewrite [RHS]big_split /=; congr (_ + _).
  under eq_bigr do rewrite mulr_sumr.
  under [RHS]eq_bigr do rewrite mxE !mulr_suml.
  rewrite exchange_big [RHS]exchange_big /=; apply: eq_bigr => l _.
  rewrite edG; under eq_bigr do rewrite mulr_sumr mulr_sumr.
  rewrite exchange_big; apply: eq_bigr => r _ /=.
  rewrite !mxE; set a := E (G (mdec n r)).
  rewrite !mulr_suml; apply: eq_bigr => j _.
  by rewrite -/a; move: (F i j) (P j l) (F r l) (_%:R) a => *; ring.
by move=> n i hn _ _; exact: kr.
Qed.
End Affine.
