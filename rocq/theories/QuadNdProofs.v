(* The multi-dimensional moment quadrature: the chained sum and its invariance. *)
From mathcomp Require Import all_ssreflect all_algebra.
From mathcomp Require Import zify.
From Verif Require Import Prelude MultiIndexModel MultiIndexSpec MultiIndexProofs MultiIndexGramProofs.
From Verif Require Import NdIndexModel NdIndexProofs LinAlgSpec LinAlgProofs SpectralProofs LdlModel LdlProofs.
From Verif Require Import QuadModel QuadSpec QuadProofs QuadMain QuadNdModel QuadNdSpec.
Set Implicit Arguments.
Unset Strict Implicit.
Unset Printing Implicit Defensive.
Import Order.TTheory GRing.Theory Num.Theory.
Local Open Scope ring_scope.

Lemma iota1 m : iota 1 m = [seq k.+1 | k <- iota 0 m].
Proof. by rewrite -[1%N]addn0 iotaDl; apply: eq_map. Qed.

Lemma product_nseqS (T : Type) m (r : seq T) : itertools_product (nseq m.+1 r) =
  flatten [seq [seq x :: t | t <- itertools_product (nseq m r)] | x <- r].
Proof. by []. Qed.

Lemma sum_iota (R : ringType) m (F : nat -> R) : \sum_(i <- iota 0 m) F i = \sum_(i < m) F i.
Proof. by rewrite -{1}[m]subn0 -/(index_iota 0 m) big_mkord. Qed.

Section Chain.
Variables (R : rcfType) (n : nat).
Local Notation eig := ('M[R]_n.+1 * 'rV[R]_n.+1)%type.
Implicit Types (es : seq eig) (v c : 'cV[R]_n.+1) (f : seq R -> R).

Definition dotp v c : R := \sum_(l < n.+1) v l 0 * c l 0.

Fixpoint chain es v f : R :=
  match es with
  | [::] => v 0 0 * f [::]
  | e :: es' => \sum_(i < n.+1) dotp v (col i e.1) * chain es' (col i e.1) (fun xs => f (e.2 0 i :: xs))
  end.

Fixpoint cw v (cv : seq 'cV[R]_n.+1) : R :=
  match cv with
  | [::] => v 0 0
  | c :: cv' => dotp v c * cw c cv'
  end.

Lemma dotp_e0 c : dotp (e0 R n) c = c 0 0.
Proof.
rewrite /dotp (bigD1 0) //= mxE mul1r big1 ?addr0 // => i hi.
by rewrite mxE (negbTE hi) mul0r.
Qed.

Lemma chained_cw c cs : chained_weight (c :: cs) = cw (e0 R n) (c :: cs).
Proof.
rewrite /chained_weight /= dotp_e0 -mulrA mulrCA; congr (_ * _).
elim: cs c => [|c' cs IH] c /=; first by rewrite mul1r.
rewrite -mulrA -IH; congr (_ * (jprod _ * _)).
by rewrite iota1 -map_comp; apply: eq_map => k.
Qed.

(* one index tuple *)
Definition tcols es (t : seq nat) : seq 'cV[R]_n.+1 :=
  [seq jget 0 (nth [::] [seq [seq col i (VL : eig).1 | i <- enum 'I_n.+1] | VL <- es] a) (nth 0%N t a)
  | a <- iota 0 (size [seq [seq col i (VL : eig).1 | i <- enum 'I_n.+1] | VL <- es])].
Definition tvals es (t : seq nat) : seq R :=
  [seq jget 0 (nth [::] [seq [seq (VL : eig).2 0 i | i <- enum 'I_n.+1] | VL <- es] a) (nth 0%N t a)
  | a <- iota 0 (size [seq [seq (VL : eig).2 0 i | i <- enum 'I_n.+1] | VL <- es])].

Lemma jget_enum (T : Type) (x0 : T) (g : 'I_n.+1 -> T) (i : 'I_n.+1) :
  jget x0 [seq g j | j <- enum 'I_n.+1] i = g i.
Proof.
rewrite jget_nth ?size_map -?enumT ?size_enum_ord //.
by rewrite (nth_map ord0) ?size_enum_ord // nth_ord_enum.
Qed.

Lemma tcols_cons e es (i : 'I_n.+1) t : tcols (e :: es) (nat_of_ord i :: t) = col i e.1 :: tcols es t.
Proof.
rewrite /tcols /= jget_enum; congr (_ :: _).
by rewrite iota1 -map_comp; apply: eq_map => k.
Qed.

Lemma tvals_cons e es (i : 'I_n.+1) t : tvals (e :: es) (nat_of_ord i :: t) = e.2 0 i :: tvals es t.
Proof.
rewrite /tvals /= jget_enum; congr (_ :: _).
by rewrite iota1 -map_comp; apply: eq_map => k.
Qed.

Lemma chain_sum es v f : chain es v f =
  \sum_(t <- nd_cartesian_prod_indices (size es) n.+1) cw v (tcols es t) * f (tvals es t).
Proof.
rewrite /nd_cartesian_prod_indices.
elim: es v f => [|e es IH] v f; first by rewrite /= big_seq1.
rewrite [size _]/= product_nseqS big_flatten big_map.
rewrite (@sum_iota _ n.+1) [chain _ _ _]/=.
apply: eq_bigr => i _; rewrite big_map IH mulr_sumr; apply: eq_bigr => t _.
by rewrite tcols_cons tvals_cons /= mulrA.
Qed.

Lemma expect_chain es f : (0 < size es)%N ->
  let combs := nd_cartesian_prod_indices (size es) n.+1 in
  expect_nd [seq chained_weight cv | cv <- combs_eigvectors es combs] (combs_eigvals es combs) f =
  chain es (e0 R n) f.
Proof.
move=> hs /=; rewrite chain_sum /expect_nd /combs_eigvectors /combs_eigvals /nd_cartesian_prod.
rewrite -map_comp zip_map -map_comp jsumE big_map; apply: eq_bigr => t _ /=.
congr (_ * _); rewrite -/(tcols es t).
by case E: (tcols es t) => [|c cs]; [move: E; case: (es) hs | rewrite chained_cw].
Qed.

(* ---- extensionality and linearity ---- *)
Lemma chain_ext es v f g : (forall xs, size xs = size es -> f xs = g xs) ->
  chain es v f = chain es v g.
Proof.
elim: es v f g => [|e es IH] v f g h /=; first by rewrite h.
by apply: eq_bigr => i _; congr (_ * _); apply: IH => xs hx; apply: h; rewrite /= hx.
Qed.

Lemma dotp_mxE v c : dotp v c = (v^T *m c) 0 0.
Proof. by rewrite dotE. Qed.

Lemma chain_lin es v f : chain es v f = \sum_(l < n.+1) v l 0 * chain es (delta_mx l 0) f.
Proof.
case: es => [|e es] /=.
  rewrite (bigD1 0) //= mxE eqxx mul1r big1 ?addr0 // => l hl.
  by rewrite mxE eq_sym (negbTE hl) mul0r mulr0.
under [RHS]eq_bigr do rewrite mulr_sumr.
rewrite exchange_big /=; apply: eq_bigr => i _.
rewrite /dotp mulr_suml; apply: eq_bigr => l _; rewrite mulrA; congr (_ * _ * _).
rewrite (bigD1 l) //= !mxE eqxx mul1r big1 ?addr0 // => l' hl.
by rewrite mxE (negbTE hl) mul0r.
Qed.

Lemma chain_cons e es v f : chain (e :: es) v f =
  \sum_(l < n.+1) (fcalc e.1 e.2 (fun x => chain es (delta_mx l 0) (fun xs => f (x :: xs))) *m v) l 0.
Proof.
rewrite /=; under eq_bigr do rewrite chain_lin mulr_sumr.
rewrite exchange_big /=; apply: eq_bigr => l _.
rewrite mxE; under [RHS]eq_bigr do rewrite fcalc_entry mulr_suml.
rewrite exchange_big /=; apply: eq_bigr => i _.
rewrite /dotp mulr_suml; apply: eq_bigr => j _; rewrite !mxE.
move: (chain _ _ _) (v j 0) (e.1 j i) (e.1 l i) => a b c d.
by rewrite [b * c]mulrC [_ * (d * a)]mulrC mulrA -!mulrA; do 2!congr (_ * _); rewrite mulrCA mulrA.
Qed.
End Chain.
