(* The Kan--Magnus sums compute the moments of the multivariate normal distribution. *)
From mathcomp Require Import all_ssreflect all_algebra.
From mathcomp Require Import zify ring.
From Verif Require Import Prelude NdIndexModel SigmaSpec MomentsNdModel MomentsNdSpec.
Set Implicit Arguments.
Unset Strict Implicit.
Unset Printing Implicit Defensive.
Import Order.TTheory GRing.Theory Num.Theory.
Local Open Scope ring_scope.

(* Alternating binomial sums of powers. *)
Section Diff.
Variable R : rcfType.
Definition sdiff (n k : nat) (a : R) : R := \sum_(v < n.+1) (-1) ^+ v * ('C(n, v))%:R * (a - v%:R) ^+ k.

Lemma sdiff0 n a : sdiff n 0 a = (n == 0%N)%:R.
Proof.
rewrite /sdiff; have := exprBn_comm n (mulrC (1 : R) 1); rewrite subrr expr0n => ->.
by apply: eq_bigr => v _; rewrite !expr1n expr0 !mulr1 -[RHS]mulr_natr.
Qed.

Lemma sdiffS n k a : sdiff n.+1 k.+1 a = a * sdiff n.+1 k a + n.+1%:R * sdiff n k (a - 1).
Proof.
rewrite /sdiff [X in _ = a * X + _]big_ord_recl [LHS]big_ord_recl /=.
rewrite !mulr_sumr mulrDr mulr_sumr -addrA; congr (_ + _).
  by rewrite expr0 bin0 !mul1r subr0 exprS.
rewrite -big_split; apply: eq_bigr => v _ /=.
rewrite /bump /= !add1n exprS.
have hb : n.+1%:R * ('C(n, v))%:R = v.+1%:R * ('C(n.+1, v.+1))%:R :> R.
  by rewrite -!natrM mul_bin_diag.
have e : a - 1 - v%:R = a - v.+1%:R by rewrite -[v.+1]add1n natrD opprD addrA.
rewrite e exprS.
transitivity (a * (-1 * (-1) ^+ v * 'C(n.+1, v.+1)%:R * (a - v.+1%:R) ^+ k)
   + (-1) ^+ v * (a - v.+1%:R) ^+ k * (n.+1%:R * 'C(n, v)%:R)).
  rewrite hb; move: ((-1) ^+ v) (('C(n.+1, v.+1))%:R) ((a - v.+1%:R) ^+ k) (v.+1%:R) => x y z w.
  ring.
by congr (_ + _); move: ((-1) ^+ v) (n.+1%:R) ('C(n, v)%:R) ((a - v.+1%:R) ^+ k) => x y z w; ring.
Qed.

Lemma sdiffP k n a : (k <= n)%N -> sdiff n k a = if k == n then (n`!)%:R else 0.
Proof.
elim: k n a => [|k IH] n a; first by rewrite sdiff0; case: n.
case: n => // n; rewrite ltnS eqSS => hk.
rewrite sdiffS (IH _ _ hk) IH; last exact: leqW.
have -> : (k == n.+1) = false by apply/eqP; lia.
rewrite mulr0 add0r; case: (k == n); last by rewrite mulr0.
by rewrite -natrM -factS.
Qed.
End Diff.

(* Sums over products of ranges. *)
Section Product.
Variable R : rcfType.

Lemma product_size (rs : seq (seq nat)) v : v \in itertools_product rs -> size v = size rs.
Proof.
elim: rs v => [|r rs IH] v /=; first by rewrite inE => /eqP ->.
by case/flattenP => l /mapP [x _ ->] /mapP [t ht ->] /=; rewrite (IH _ ht).
Qed.

Lemma product_sum d (rs : seq (seq nat)) (g : nat -> nat -> R) : size rs = d ->
  \sum_(v <- itertools_product rs) \prod_(i < d) g i (nth 0%N v i)
  = \prod_(i < d) \sum_(x <- nth [::] rs i) g i x.
Proof.
elim: rs d g => [|r rs IH] [|d] g //= hs; first by rewrite big_seq1 !big_ord0.
rewrite [RHS]big_ord_recl /= big_flatten big_map /= mulr_suml; apply: eq_bigr => x _.
rewrite big_map; under eq_bigr do rewrite big_ord_recl /=.
by rewrite -mulr_sumr -(IH _ (fun i => g i.+1)) //; apply: succn_inj.
Qed.

Lemma product_rcons (rs : seq (seq nat)) (l : seq nat) (F : seq nat -> R) :
  \sum_(vr <- itertools_product (rs ++ [:: l])) F vr
  = \sum_(v <- itertools_product rs) \sum_(r <- l) F (rcons v r).
Proof.
elim: rs F => [|r rs IH] F /=.
  rewrite big_seq1 big_flatten big_map /=.
  by apply: eq_bigr => x _; rewrite big_seq1.
rewrite !big_flatten !big_map; apply: eq_bigr => x _ /=.
by rewrite !big_map (IH (fun t => F (x :: t))).
Qed.
End Product.

(* Lists of terms: multiplication by a coordinate, differentiation, scaling. *)
Section Terms.
Variables (R : rcfType) (d : nat).
Implicit Types (ts : seq (R * ('I_d -> nat))) (x : 'cV[R]_d) (i j : 'I_d).

Definition tmulx i ts : seq (R * ('I_d -> nat)) := [seq (t.1, fun j => (t.2 j + (j == i))%N) | t <- ts].
Definition tder i ts : seq (R * ('I_d -> nat)) :=
  [seq (t.1 * (t.2 i)%:R, fun j => (t.2 j - (j == i))%N) | t <- ts].
Definition tscale (c : R) ts : seq (R * ('I_d -> nat)) := [seq (c * t.1, t.2) | t <- ts].
Definition tdeg s ts := all (fun t => \sum_i t.2 i <= s)%N ts.

Lemma prod_inc x i (e : 'I_d -> nat) :
  \prod_j x j 0 ^+ (e j + (j == i)) = x i 0 * \prod_j x j 0 ^+ e j.
Proof.
rewrite (bigD1 i) //= [X in _ = _ * X](bigD1 i) //= eqxx addn1 exprS mulrA; congr (_ * _).
by apply: eq_bigr => j /negbTE ->; rewrite addn0.
Qed.

Lemma prod_dec x i (e : 'I_d -> nat) : (0 < e i)%N ->
  x i 0 * \prod_j x j 0 ^+ (e j - (j == i)) = \prod_j x j 0 ^+ e j.
Proof.
move=> h; rewrite -prod_inc; apply: eq_bigr => j _; congr (_ ^+ _).
by case: eqP => [->|_]; rewrite ?subn0 ?addn0 // subn1 addn1 prednK.
Qed.

Lemma eval_mulx i ts x : mpoly_eval (tmulx i ts) x = x i 0 * mpoly_eval ts x.
Proof.
rewrite /mpoly_eval big_map mulr_sumr; apply: eq_bigr => t _.
by rewrite /term_eval /= prod_inc mulrCA.
Qed.

Lemma eval_scale c ts x : mpoly_eval (tscale c ts) x = c * mpoly_eval ts x.
Proof.
rewrite /mpoly_eval big_map mulr_sumr; apply: eq_bigr => t _.
by rewrite /term_eval /= mulrA.
Qed.

Lemma eval_cat ts us x : mpoly_eval (ts ++ us) x = mpoly_eval ts x + mpoly_eval us x.
Proof. by rewrite /mpoly_eval big_cat. Qed.

Lemma eval_der_mulx i j ts x :
  mpoly_eval (tder j (tmulx i ts)) x = (i == j)%:R * mpoly_eval ts x + x i 0 * mpoly_eval (tder j ts) x.
Proof.
rewrite /mpoly_eval !big_map !mulr_sumr -big_split; apply: eq_bigr => t _ /=.
rewrite /term_eval /=; move: t.1 t.2 => c e; rewrite natrD.
have [<-|hij] := eqVneq i j.
  rewrite mul1r; have -> : \prod_k x k 0 ^+ (e k + (k == i) - (k == i)) = \prod_k x k 0 ^+ e k.
    by apply: eq_bigr => k _; rewrite addnK.
  case: (posnP (e i)) => [->|h]; first by rewrite /= add0r mulr1 mulr0 mul0r mulr0 addr0.
  rewrite mulrCA (prod_dec _ h) /=.
  by move: (\prod_k _) => p; ring.
rewrite mul0r add0r addr0.
case: (posnP (e j)) => [->|h]; first by rewrite !mulr0 !mul0r mulr0.
rewrite mulrCA -prod_inc; congr (_ * _); apply: eq_bigr => k _; congr (_ ^+ _).
have [ek|_] := eqVneq k j; last by rewrite !subn0.
by rewrite ek eq_sym (negbTE hij) !addn0.
Qed.

Lemma eval_der_scale c j ts x : mpoly_eval (tder j (tscale c ts)) x = c * mpoly_eval (tder j ts) x.
Proof.
rewrite /mpoly_eval !big_map mulr_sumr; apply: eq_bigr => t _.
by rewrite /term_eval /= !mulrA.
Qed.

Lemma eval_der_cat j ts us x :
  mpoly_eval (tder j (ts ++ us)) x = mpoly_eval (tder j ts) x + mpoly_eval (tder j us) x.
Proof. by rewrite /tder map_cat eval_cat. Qed.

Lemma sum_inc (e : 'I_d -> nat) i : (\sum_j (e j + (j == i)) = (\sum_j e j).+1)%N.
Proof.
rewrite big_split /= -[RHS]addn1; congr (_ + _)%N.
by rewrite (bigD1 i) //= eqxx big1 // => j /negbTE ->.
Qed.

(* f is a polynomial function of degree at most s with partial derivatives df. *)
Definition pol s (f : 'cV[R]_d -> R) (df : 'I_d -> 'cV[R]_d -> R) : Prop :=
  exists ts, [/\ tdeg s ts, f =1 mpoly_eval ts & forall i, df i =1 mpoly_eval (tder i ts)].

Lemma pol_ext s f f' df df' : f =1 f' -> (forall i, df i =1 df' i) -> pol s f df -> pol s f' df'.
Proof.
move=> h h' [ts [h1 h2 h3]]; exists ts; split=> // [x|i x]; first by rewrite -h h2.
by rewrite -h' h3.
Qed.

Lemma pol_weaken s s' f df : (s <= s')%N -> pol s f df -> pol s' f df.
Proof.
move=> h [ts [h1 h2 h3]]; exists ts; split=> //; apply: sub_all h1 => t ht; exact: leq_trans h.
Qed.

Lemma pol_zero s : pol s (fun=> 0) (fun _ _ => 0).
Proof. by exists [::]; split=> // [x|i x]; rewrite /mpoly_eval big_nil. Qed.

Lemma pol_one s : pol s (fun=> 1) (fun _ _ => 0).
Proof.
exists [:: (1, fun=> 0%N)]; split=> [|x|i x].
- by rewrite /tdeg /= sum_nat_const muln0.
- by rewrite /mpoly_eval big_seq1 /term_eval /= big1 ?mulr1 // => i _; rewrite expr0.
- by rewrite /mpoly_eval big_seq1 /term_eval /= mulr0 mul0r.
Qed.

Lemma pol_add s f g df dg : pol s f df -> pol s g dg ->
  pol s (fun x => f x + g x) (fun i x => df i x + dg i x).
Proof.
move=> [ts [h1 h2 h3]] [us [h4 h5 h6]]; exists (ts ++ us); split=> [|x|i x].
- by rewrite /tdeg all_cat; apply/andP.
- by rewrite eval_cat h2 h5.
- by rewrite eval_der_cat h3 h6.
Qed.

Lemma pol_scale s c f df : pol s f df -> pol s (fun x => c * f x) (fun i x => c * df i x).
Proof.
move=> [ts [h1 h2 h3]]; exists (tscale c ts); split=> [|x|i x].
- by rewrite /tdeg all_map; apply: sub_all h1.
- by rewrite eval_scale h2.
- by rewrite eval_der_scale h3.
Qed.

Lemma pol_mulx s i f df : pol s f df ->
  pol s.+1 (fun x => x i 0 * f x) (fun j x => (i == j)%:R * f x + x i 0 * df j x).
Proof.
move=> [ts [h1 h2 h3]]; exists (tmulx i ts); split=> [|x|j x].
- by rewrite /tdeg all_map; apply: sub_all h1 => t ht /=; rewrite sum_inc ltnS.
- by rewrite eval_mulx h2.
- by rewrite eval_der_mulx h2 h3.
Qed.

Lemma pol_sum s (I : Type) (r : seq I) (F : I -> 'cV[R]_d -> R) dF : (forall k, pol s (F k) (dF k)) ->
  pol s (fun x => \sum_(k <- r) F k x) (fun i x => \sum_(k <- r) dF k i x).
Proof.
move=> h; elim: r => [|k r IH].
  by apply: pol_ext (pol_zero s) => [x|i x]; rewrite big_nil.
by apply: pol_ext (pol_add (h k) IH) => [x|i x]; rewrite big_cons.
Qed.

Lemma pol_lin s (a : 'cV[R]_d) f df : pol s f df ->
  pol s.+1 (fun x => (\sum_i a i 0 * x i 0) * f x)
           (fun j x => a j 0 * f x + (\sum_i a i 0 * x i 0) * df j x).
Proof.
move=> h; have h1 i := pol_scale (a i 0) (pol_mulx i h).
apply: pol_ext (pol_sum (index_enum _) h1) => [x|j x] /=.
  by rewrite mulr_suml; apply: eq_bigr => i _; rewrite mulrA.
under eq_bigr do rewrite mulrDr !mulrA.
rewrite big_split /= -!mulr_suml; congr (_ * _ + _).
rewrite (bigD1 j) //= eqxx mulr1 big1 ?addr0 // => i /negbTE ->; exact: mulr0.
Qed.

Lemma pol_quad s (P : 'M[R]_d) f df : P^T = P -> pol s f df ->
  pol s.+2 (fun x => (\sum_i \sum_j P i j * x i 0 * x j 0) / 2%:R * f x)
           (fun k x => (\sum_j P k j * x j 0) * f x
                       + (\sum_i \sum_j P i j * x i 0 * x j 0) / 2%:R * df k x).
Proof.
move=> hP h; have h1 i := pol_mulx i (pol_lin (\col_j P i j) h).
have h2 := pol_scale (2%:R^-1) (pol_sum (index_enum _) h1).
have e (x : 'cV[R]_d) : \sum_i \sum_j P i j * x i 0 * x j 0 = \sum_i x i 0 * \sum_j P i j * x j 0 :> R.
  by apply: eq_bigr => i _; rewrite mulr_sumr; apply: eq_bigr => j _; rewrite -mulrA mulrCA.
have e' (x : 'cV[R]_d) i : \sum_j (\col_j0 P i j0) j 0 * x j 0 = \sum_j P i j * x j 0 :> R.
  by apply: eq_bigr => j _; rewrite mxE.
apply: pol_ext h2 => [x|k x] /=.
  rewrite e; under eq_bigr do rewrite e' mulrA.
  by rewrite -mulr_suml mulrCA mulrA mulrAC.
under eq_bigr do rewrite !e' mulrDr addrA mulrA [X in _ + X]mulrA.
rewrite e.
rewrite big_split /= -mulr_suml big_split /=.
have -> : \sum_i (i == k)%:R * (\sum_j P i j * x j 0) * f x = (\sum_j P k j * x j 0) * f x.
  by rewrite (bigD1 k) //= eqxx mul1r [X in _ + X]big1 ?addr0 // => i /negbTE ->; rewrite !mul0r.
have -> : \sum_i x i 0 * ((\col_j P i j) k 0 * f x) = (\sum_j P k j * x j 0) * f x.
  rewrite mulr_suml; apply: eq_bigr => i _; rewrite mxE -[in RHS]hP mxE mulrA.
  by rewrite [x i 0 * _]mulrC.
move: (\sum_i x i 0 * _) (\sum_j P k j * x j 0) (f x) (df k x) => a b u v.
by field.
Qed.
End Terms.
