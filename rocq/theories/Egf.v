(* Sequences under binomial convolution (exponential generating functions). *)
From mathcomp Require Import all_ssreflect all_algebra.
From mathcomp Require Import ring zify.
Set Implicit Arguments.
Unset Strict Implicit.
Unset Printing Implicit Defensive.
Import Order.TTheory GRing.Theory Num.Theory.
Local Open Scope ring_scope.

Section Egf.
Variable F : numFieldType.
Implicit Types a b c : nat -> F.

Definition conv a b (n : nat) : F := \sum_(k < n.+1) 'C(n, k)%:R * a k * b (n - k)%N.
Definition del (n : nat) : F := (n == 0%N)%:R.
Definition shift a (n : nat) : F := a n.+1.
Definition egf a N : {poly F} := \poly_(i < N) (a i / (i`!)%:R).

Lemma fact_neq0 n : (n`!)%:R != 0 :> F.
Proof. by rewrite pnatr_eq0 -lt0n fact_gt0. Qed.

Lemma bin_frac n k : (k <= n)%N -> 'C(n, k)%:R = (n`!)%:R / ((k`!)%:R * ((n - k)`!)%:R) :> F.
Proof.
move=> h; rewrite -natrM -(bin_fact h) natrM mulfK // natrM mulf_neq0 //; exact: fact_neq0.
Qed.

Lemma egfM a b N n : (n < N)%N -> (egf a N * egf b N)`_n = conv a b n / (n`!)%:R.
Proof.
move=> h; rewrite coefM /conv mulr_suml; apply: eq_bigr => k _.
have hk : (k <= n)%N by rewrite -ltnS.
rewrite !coef_poly (leq_ltn_trans hk h) (leq_ltn_trans (leq_subr _ _) h) bin_frac //.
have := fact_neq0 n; have := fact_neq0 k; have := fact_neq0 (n - k)%N => h1 h2 h3.
rewrite [_ * _ * b _]mulrAC -!mulrA; field; by rewrite h1 h2 h3.
Qed.

Lemma eq_conv a a' b b' n : (forall k, (k <= n)%N -> a k = a' k) ->
  (forall k, (k <= n)%N -> b k = b' k) -> conv a b n = conv a' b' n.
Proof.
by move=> ha hb; apply: eq_bigr => k _; rewrite ha -1?ltnS // hb // leq_subr.
Qed.

Lemma convC a b n : conv a b n = conv b a n.
Proof.
apply: (mulIf (invr_neq0 (fact_neq0 n))).
by rewrite -!(@egfM _ _ n.+1) // mulrC.
Qed.

Lemma egf_conv a b N n : (n < N)%N -> (egf (conv a b) N)`_n = (egf a N * egf b N)`_n.
Proof. by move=> h; rewrite egfM // coef_poly h. Qed.

Lemma coefM_eq (p p' q q' : {poly F}) n : (forall k, (k <= n)%N -> p`_k = p'`_k) ->
  (forall k, (k <= n)%N -> q`_k = q'`_k) -> (p * q)`_n = (p' * q')`_n.
Proof.
move=> hp hq; rewrite !coefM; apply: eq_bigr => k _.
by rewrite hp -1?ltnS // hq // leq_subr.
Qed.

Lemma convA a b c n : conv a (conv b c) n = conv (conv a b) c n.
Proof.
apply: (mulIf (invr_neq0 (fact_neq0 n))); rewrite -!(@egfM _ _ n.+1) //.
transitivity ((egf a n.+1 * (egf b n.+1 * egf c n.+1))`_n).
  by apply: coefM_eq => // k hk; rewrite egf_conv.
by rewrite mulrA; apply: coefM_eq => // k hk; rewrite egf_conv.
Qed.

Lemma conv1l a n : conv del a n = a n.
Proof.
rewrite /conv big_ord_recl /= /del eqxx bin0 !mul1r subn0 big1 ?addr0 // => i _.
by rewrite mulr0 mul0r.
Qed.

Lemma conv1r a n : conv a del n = a n.
Proof. by rewrite convC conv1l. Qed.

Lemma convDl a b c n : conv (fun k => a k + b k) c n = conv a c n + conv b c n.
Proof. by rewrite /conv -big_split; apply: eq_bigr => k _ /=; rewrite mulrDr mulrDl. Qed.

Lemma convZl x b c n : conv (fun k => x * b k) c n = x * conv b c n.
Proof. by rewrite /conv mulr_sumr; apply: eq_bigr => k _ /=; ring. Qed.

Lemma convDr a b c n : conv a (fun k => b k + c k) n = conv a b n + conv a c n.
Proof. by rewrite convC convDl !(convC _ a). Qed.

Lemma convZr x a c n : conv a (fun k => x * c k) n = x * conv a c n.
Proof. by rewrite convC convZl (convC _ a). Qed.

Lemma conv_suml (I : Type) (r : seq I) (f : I -> nat -> F) b n :
  conv (fun k => \sum_(i <- r) f i k) b n = \sum_(i <- r) conv (f i) b n.
Proof.
elim: r => [|i r IH].
  rewrite big_nil /conv big1 // => k _; by rewrite big_nil mulr0 mul0r.
rewrite big_cons -IH -convDl; apply: eq_bigr => k _; by rewrite big_cons.
Qed.

(* differentiation *)
Lemma shift_conv a b n : shift (conv a b) n = conv (shift a) b n + conv a (shift b) n.
Proof.
rewrite /shift /conv big_ord_recl bin0 subn0 mul1r.
under eq_bigr do rewrite lift0 binS natrD mulrDl mulrDl subSS.
rewrite big_split /= addrA [RHS]addrC; congr (_ + _).
rewrite big_ord_recr /= bin_small // mul0r mul0r addr0.
rewrite [RHS]big_ord_recl bin0 mul1r subn0; congr (_ + _).
by apply: eq_bigr => i _; rewrite lift0 subnSK.
Qed.

(* powers *)
Fixpoint cpow a (k : nat) : nat -> F :=
  match k with 0%N => del | k'.+1 => conv (cpow a k') a end.

Lemma egf_cpow a k N n : (n < N)%N -> cpow a k n = (n`!)%:R * ((egf a N) ^+ k)`_n.
Proof.
elim: k n => [|k IH] n h /=.
  by rewrite expr0 coef1 /del; case: n h => [|n] _; rewrite ?fact0 ?mulr1 ?mulr0.
have h0 := fact_neq0 n.
have -> : (egf a N ^+ k.+1)`_n = (egf (cpow a k) N * egf a N)`_n.
  rewrite exprSr; apply: coefM_eq => // i hi.
  have hi' := leq_ltn_trans hi h.
  by rewrite coef_poly hi' IH // mulrC mulKf // fact_neq0.
by rewrite egfM // mulrC divfK.
Qed.

Lemma cpow_small a k n : a 0%N = 0 -> (n < k)%N -> cpow a k n = 0.
Proof.
move=> a0; elim: k n => [|k IH] n //= h.
rewrite /conv big1 // => i _; have [hi|hi] := ltnP i k; first by rewrite IH ?mulr0 ?mul0r.
have -> : (n - i = 0)%N by have := ltn_ord i; lia.
by rewrite a0 mulr0.
Qed.

Lemma shift_cpow a k n : shift (cpow a k.+1) n = k.+1%:R * conv (cpow a k) (shift a) n.
Proof.
elim: k n => [|k IH] n.
  by rewrite mul1r {1}/shift /= !conv1l.
have -> : shift (cpow a k.+2) n = shift (conv (cpow a k.+1) a) n by [].
rewrite shift_conv (eq_conv (a' := fun i => k.+1%:R * conv (cpow a k) (shift a) i) (b' := a)) //.
rewrite convZl -convA (eq_conv (b' := conv a (shift a)) (a' := cpow a k)) //; last first.
  by move=> i _; rewrite convC.
by rewrite convA -/(cpow a k.+1) -[X in _ + X]mul1r -mulrDl -[in RHS]addn1 natrD.
Qed.

(* exp(mu t) *)
Definition cexp (mu : F) (n : nat) : F := mu ^+ n.
Lemma shift_cexp mu n : shift (cexp mu) n = mu * cexp mu n.
Proof. by rewrite /shift /cexp exprS. Qed.

Lemma cexpD mu nu n : conv (cexp mu) (cexp nu) n = cexp (mu + nu) n.
Proof.
rewrite /conv /cexp addrC exprDn; apply: eq_bigr => k _.
by rewrite -mulrA mulr_natl mulrC.
Qed.
Lemma cexp0 n : cexp 0 n = del n.
Proof. by rewrite /cexp expr0n. Qed.

Lemma conv_homog s a b n : conv (fun k => s ^+ k * a k) (fun k => s ^+ k * b k) n = s ^+ n * conv a b n.
Proof.
rewrite /conv mulr_sumr; apply: eq_bigr => k _.
have -> : s ^+ n = s ^+ k * s ^+ (n - k) by rewrite -exprD subnKC // -ltnS.
ring.
Qed.
End Egf.
