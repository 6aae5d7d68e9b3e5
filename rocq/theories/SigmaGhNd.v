(* Gauss-Hermite: the coefficients, the roll table and the tensor rule. *)
From mathcomp Require Import all_ssreflect all_algebra.
From mathcomp Require Import ring zify.
From Verif Require Import Prelude LinAlgSpec QuadModel QuadSpec QuadProofs QuadMain.
From Verif Require Import Moments1DModel Moments1DSpec Moments1DProofs HermiteProofs PdfModel.
From Verif Require Import GfsModel GfsSgp SigmaModel SigmaSpec SigmaGh.
Set Implicit Arguments.
Unset Strict Implicit.
Unset Printing Implicit Defensive.
Import Order.TTheory GRing.Theory Num.Theory.
Local Open Scope ring_scope.

Section Coeff.
Variable R : rcfType.
Local Notation s2 := (Num.sqrt 2%:R : R).
Local Notation he n x := (hermite_probabilist n (x : R)).
Local Notation coeffs := (gen_hermite_poly_coeff R).

Lemma s2_sqr : s2 ^+ 2 = 2%:R. Proof. by rewrite sqr_sqrtr // ler0n. Qed.
Lemma s2_neq0 : s2 != 0. Proof. by rewrite gt_eqF // sqrtr_gt0 ltr0n. Qed.

Lemma polyval_rcons (c : seq R) a x : polyval (rcons c a) x = polyval c x * x + a.
Proof. by rewrite /polyval -cats1 foldl_cat. Qed.
Lemma polyval_scale (c : seq R) a x : polyval [seq a * y | y <- c] x = a * polyval c x.
Proof.
elim/last_ind: c => [|c y IH]; first by rewrite /polyval /= mulr0.
by rewrite map_rcons !polyval_rcons IH mulrDr mulrA.
Qed.
Lemma polyval_sub (a b : seq R) x : size a = size b ->
  polyval (np_sub a b) x = polyval a x - polyval b x.
Proof.
elim/last_ind: a b => [|a u IH] b; first by case: b => //= _; rewrite subr0.
case/lastP: b => [|b v]; rewrite ?size_rcons //= => -[e].
rewrite /np_sub zip_rcons // map_rcons !polyval_rcons -/(np_sub a b) IH //=.
by move: (polyval a x) (polyval b x) => *; ring.
Qed.
Lemma polyval_pad (c : seq R) x : polyval (0 :: 0 :: c) x = polyval c x.
Proof. by rewrite /polyval /=; do 2 rewrite mul0r add0r. Qed.
Lemma polyvalE (c : seq R) x : (Poly (rev c)).[x] = polyval c x.
Proof.
rewrite horner_Poly; elim/last_ind: c => [|c a IH] //.
by rewrite rev_rcons polyval_rcons -IH.
Qed.

Definition coeff_ok (k : nat) (c : seq R) :=
  [/\ size c = k.+1, head 0 c != 0 & forall x, polyval c x = s2 ^+ k * he k (s2 * x)].

Lemma coeffs_inv j : let H := coeffs j.+1 in
  size H = j.+2 /\ forall k, (k < j.+2)%N -> coeff_ok k (nth [::] H k).
Proof.
rewrite /gen_hermite_poly_coeff subn1 /=; elim: j => [|j [sz IH]].
  split=> //; case=> [|[|k]] //= _; split=> //=; rewrite ?oner_neq0 ?pnatr_eq0 //.
    by move=> x; rewrite /polyval /= mul0r add0r mulr1.
  by move=> x; rewrite /polyval /= mul0r add0r addr0 expr1 mulrA -expr2 s2_sqr.
have ->: iota 2 j.+1 = iota 2 j ++ [:: (2 + j)%N] by rewrite -(addn1 j) iotaD.
rewrite foldl_cat /=; set H := foldl _ _ _ in sz IH *.
rewrite {1}/hermite_next size_rcons sz; split=> // k; rewrite ltnS leq_eqVlt => /orP[/eqP->|hk]; last first.
  by rewrite /hermite_next nth_rcons sz hk; apply: IH.
rewrite /hermite_next nth_rcons sz ltnn eqxx.
have -> : (2 + j - 1 = j.+1)%N by lia.
have -> : (2 + j - 2 = j)%N by lia.
have [z1 h1 p1] := IH j.+1 (ltnSn _); have [z0 h0 p0] := IH j (ltnW (ltnSn _)).
have es : size [seq 2%:R * x | x <- rcons (nth [::] H j.+1) 0]
   = size [seq 2%:R * j.+1%:R * x | x <- 0 :: 0 :: nth [::] H j].
  by rewrite !size_map size_rcons z1 /= z0.
split.
- by rewrite /np_sub size_map size_zip -es minnn size_map size_rcons z1.
- case e1: (nth [::] H j.+1) h1 => [|a c] /=; first by rewrite eqxx.
  by rewrite mulr0 subr0 => a0; rewrite mulf_neq0 // pnatr_eq0.
move=> x; rewrite polyval_sub // !polyval_scale polyval_rcons polyval_pad p1 p0 addr0.
rewrite hermite_rec !exprS.
move: (he j.+1 _) (he j _) (s2 ^+ j) => a b u.
by have := s2_sqr; move: s2 (j.+1%:R) => t m <-; ring.
Qed.

Lemma coeffs_last n : (0 < n)%N -> last [::] (coeffs n) = nth [::] (coeffs n) n.
Proof. by case: n => // n _; have [sz _] := coeffs_inv n; rewrite -nth_last sz. Qed.

Lemma coeffs_ok n k : (0 < n)%N -> (k <= n)%N -> coeff_ok k (nth [::] (coeffs n) k).
Proof. by case: n => // n _ hk; have [_] := coeffs_inv n; apply. Qed.

Variable roots : seq R -> seq R.
Variable pi : R.
Hypothesis hroots : roots_spec roots.
Hypothesis pi0 : 0 < pi.

Definition gh_roots n := rev (roots (last [::] (coeffs n))).
Definition gh_nodes n : seq R := [seq s2 * r | r <- gh_roots n].

Lemma gh_nodes_rule n : (0 < n)%N ->
  [/\ size (gh_nodes n) = n, uniq (gh_nodes n),
      forall x, (x \in gh_nodes n) = (he n x == 0)
    & forall p : {poly R}, (size p <= n.*2)%N ->
      \sum_(x <- gh_nodes n) gh_lambda n x * p.[x] = mom_functional (gauss_moment 0 1) p].
Proof.
move=> n0; have [xs [sx ux rx] ex] := gh_rule R n0.
have [sc hc pc] := coeffs_ok n0 (leqnn n).
have pr : perm_eq (gh_nodes n) xs.
  rewrite /gh_nodes /gh_roots coeffs_last // map_rev perm_rev.
  rewrite (_ : xs = [seq s2 * r | r <- [seq x / s2 | x <- xs]]).
    apply: perm_map; apply: hroots => //.
    - by rewrite map_inj_uniq // => x y /(mulIf (invr_neq0 s2_neq0)).
    - by rewrite size_map sx sc.
    apply/allP => _ /mapP[x hx ->]; rewrite polyvalE pc [s2 * _]mulrC divfK ?s2_neq0 //.
    by rewrite rx in hx; rewrite (eqP hx) mulr0.
  by rewrite -map_comp map_id_in // => x _ /=; rewrite mulrC divfK ?s2_neq0.
split.
- by rewrite (perm_size pr).
- by rewrite (perm_uniq pr).
- by move=> x; rewrite (perm_mem pr).
by move=> p hp; rewrite (perm_big _ pr) ex.
Qed.

Lemma gh_weight_1d n i : (0 < n)%N -> (i < n)%N ->
  nth 0 (gh_weights_1d pi n (coeffs n) (gh_roots n)) i
  = Num.sqrt pi * gh_lambda n (gh_nodes n)`_i.
Proof.
move=> n0 hi; have [sz _ _ _] := gh_nodes_rule n0; rewrite size_map in sz.
rewrite /gh_weights_1d (nth_map 0%N) ?size_iota // nth_iota // add0n.
have [_ _ ->] := coeffs_ok n0 (leq_subr 1 n).
rewrite (nth_map 0) ?sz // /gh_lambda subn1 exprMn -exprM mulnC exprM s2_sqr.
have f0 : 2%:R ^+ n.-1 != 0 :> R by rewrite expf_neq0 // pnatr_eq0.
have n0' : n%:R != 0 :> R by rewrite pnatr_eq0 -lt0n.
move: (he _ _) (n`!)%:R (2%:R ^+ _) f0 (n%:R) n0' (Num.sqrt pi) => u f t t0 m m0 q.
have [->|u0] := eqVneq u 0; first by rewrite !expr0n /= !mulr0 !invr0 !mulr0.
by field; rewrite t0 m0 u0.
Qed.
End Coeff.

(* The roll table. *)
Section Table.
Lemma nth_flatten_nseq L n q : (q < n * L)%N ->
  nth 0%N (flatten [seq nseq L j | j <- iota 0 n]) q = (q %/ L)%N.
Proof.
have gen a : forall q, (q < n * L)%N ->
    nth 0%N (flatten [seq nseq L j | j <- iota a n]) q = (a + q %/ L)%N.
  elim: n a => [|n IH] a p; first by rewrite mul0n.
  rewrite mulSn => hp /=; rewrite nth_cat size_nseq; case: (ltnP p L) => h.
    by rewrite nth_nseq h divn_small ?addn0.
  have L0 : (0 < L)%N by case: L h hp {IH} => // h; rewrite muln0.
  rewrite IH; last by rewrite ltn_subLR.
  by rewrite -{2}(subnK h) divnDr ?divnn ?L0 ?dvdnn //; lia.
by move=> hq; rewrite gen // add0n.
Qed.

Lemma nth_flatten_tile (base : seq nat) k c : (c < k * size base)%N ->
  nth 0%N (flatten (nseq k base)) c = nth 0%N base (c %% size base).
Proof.
elim: k c => [|k IH] c; first by rewrite mul0n.
rewrite mulSn => hc /=; rewrite nth_cat; case: (ltnP c (size base)) => h; first by rewrite modn_small.
rewrite IH; last by rewrite ltn_subLR.
by rewrite -{2}(subnK h) modnDr.
Qed.

Lemma size_gh_base d n i : size (gh_base d n i) = (n * n ^ (d - i - 1))%N.
Proof.
have gen L a : size (flatten [seq nseq L j | j <- iota a n]) = (n * L)%N.
  by elim: n a => [|n IH] a //=; rewrite size_cat size_nseq IH.
exact: gen.
Qed.

Lemma table_digit d n r c : (r < d)%N -> (c < n ^ d)%N ->
  nth 0%N (gh_table_row d n r) c = ((c %/ n ^ r) %% n)%N.
Proof.
move=> hr hc; rewrite /gh_table_row; set i := (d - r - 1)%N.
have e : (d - i - 1 = r)%N by rewrite /i; lia.
have sb : size (gh_base d n i) = (n ^ r.+1)%N by rewrite size_gh_base e expnS.
have hd : (n ^ d = n ^ i * n ^ r.+1)%N by rewrite -expnD; congr expn; rewrite /i; lia.
have n0 : (0 < n ^ r.+1)%N.
  by rewrite lt0n; apply/eqP => h; move: hc; rewrite hd h muln0.
rewrite nth_flatten_tile sb; last by rewrite -hd.
rewrite /gh_base e nth_flatten_nseq; last by rewrite -expnS ltn_mod.
by rewrite modn_divl -expnS.
Qed.
End Table.

(* The digits of c in base n give a bijection of 'I_(n^d) with the index tuples. *)
Lemma digits_inj d n c c' : (c < n ^ d)%N -> (c' < n ^ d)%N ->
  (forall r, (r < d)%N -> (c %/ n ^ r) %% n = (c' %/ n ^ r) %% n)%N -> c = c'.
Proof.
elim: d c c' => [|d IH] c c'; first by rewrite expn0 !ltnS !leqn0 => /eqP-> /eqP->.
move=> hc hc' h.
have n0 : (0 < n)%N by case: n hc {h hc' IH} => //; rewrite exp0n.
rewrite (divn_eq c n) (divn_eq c' n); have := h 0%N isT; rewrite expn0 !divn1 => ->.
congr (_ * _ + _)%N; apply: IH.
- by rewrite ltn_divLR // -expnSr.
- by rewrite ltn_divLR // -expnSr.
by move=> r hr; rewrite -!divnMA -!expnS; apply: h.
Qed.

Section Grid.
Variables (d n : nat).
Definition digits (c : 'I_(n ^ d)) : {ffun 'I_d -> 'I_n.-1.+1} :=
  [ffun r : 'I_d => inord ((c %/ n ^ r) %% n)].
Lemma grid_perm (n0 : (0 < n)%N) (T : eqType) (F : {ffun 'I_d -> 'I_n.-1.+1} -> T) :
  perm_eq [seq F (digits c) | c <- enum 'I_(n ^ d)]
          [seq F f | f <- enum {ffun 'I_d -> 'I_n.-1.+1}].
Proof.
rewrite (map_comp F digits); apply: perm_map.
have u : uniq [seq digits c | c <- enum 'I_(n ^ d)].
  rewrite map_inj_uniq ?enum_uniq // => c c' /ffunP e; apply/val_inj.
  apply: (@digits_inj d n); rewrite ?ltn_ord // => r hr.
  by have := congr1 val (e (Ordinal hr)); rewrite !ffunE /= !inordK // prednK // ltn_mod.
apply: uniq_perm => //; first exact: enum_uniq.
apply: (uniq_min_size u _ _).2; first by move=> f _; rewrite mem_enum.
by rewrite [X in (_ <= X)%N]size_map -!cardE card_ffun !card_ord prednK.
Qed.
End Grid.

Section Main.
Variable R : rcfType.
Variable roots : seq R -> seq R.
Variable pi : R.
Hypothesis hroots : roots_spec roots.
Hypothesis pi0 : 0 < pi.
Variables (d n : nat).
Hypothesis n0 : (0 < n)%N.
Local Notation x1 i := ((gh_nodes roots n)`_i).
Local Notation sg := (gauss_hermite roots pi d n).

Definition grid_point (f : {ffun 'I_d -> 'I_n.-1.+1}) : R * 'cV[R]_d :=
  (\prod_r gh_lambda n (x1 (f r)), \col_r x1 (f r)).

Lemma gh_zipE : zip (sg_w sg) (sg_xi sg)
  = [seq grid_point (digits c) | c <- enum 'I_(n ^ d)].
Proof.
rewrite /gauss_hermite /= zip_map -[iota 0 (n ^ d)]val_enum_ord -map_comp; apply: eq_map => c /=.
have [sz _ _ _] := gh_nodes_rule hroots n0; rewrite size_map in sz.
have hd r : (nth 0%N (gh_table_row d n (r : 'I_d)) c < n)%N.
  by rewrite table_digit // ltn_mod.
have e r : nth 0%N (gh_table_row d n (r : 'I_d)) c = digits c r.
  by rewrite table_digit // ffunE inordK // prednK // ltn_mod.
rewrite /grid_point; congr (_, _).
  rewrite (eq_bigr (fun r => Num.sqrt pi * gh_lambda n (x1 (digits c r)))); last first.
    by move=> r _; rewrite -e -gh_weight_1d.
  have q0 : Num.sqrt pi != 0 by rewrite gt_eqF // sqrtr_gt0.
  by rewrite big_split prodr_const card_ord /= mul1r mulrA mulVf ?mul1r // expf_neq0.
by apply/matrixP => r j; rewrite !mxE -e (nth_map 0) // sz.
Qed.

Lemma gh_grid : perm_eq (zip (sg_w sg) (sg_xi sg))
  [seq grid_point f | f <- enum {ffun 'I_d -> 'I_n.-1.+1}].
Proof. by rewrite gh_zipE; apply: grid_perm. Qed.

Lemma gh_sum_prod (g : 'I_d -> R -> R) :
  \sum_(p <- zip (sg_w sg) (sg_xi sg)) p.1 * \prod_r g r (p.2 r 0)
  = \prod_r \sum_(x <- gh_nodes roots n) gh_lambda n x * g r x.
Proof.
have [sz _ _ _] := gh_nodes_rule hroots n0.
rewrite (perm_big _ gh_grid) big_map big_enum /=.
rewrite [RHS](eq_bigr (fun r => \sum_(i < n.-1.+1) gh_lambda n (x1 i) * g r (x1 i))); last first.
  by move=> r _; rewrite (big_nth 0) big_mkord sz prednK.
rewrite bigA_distr_bigA; apply: eq_bigr => f _ /=; rewrite -big_split /=.
by apply: eq_bigr => r _; rewrite mxE.
Qed.

Lemma gh_mpoly (ts : seq (R * ('I_d -> nat))) :
  all (fun t => [forall i, (t.2 i < n.*2)%N]) ts ->
  \sum_(p <- zip (sg_w sg) (sg_xi sg)) p.1 * mpoly_eval ts p.2 = mpoly_gauss ts.
Proof.
rewrite /mpoly_eval /mpoly_gauss; elim: ts => [|t ts IH] /=.
  by move=> _; rewrite big_nil big1 // => p _; rewrite big_nil mulr0.
case/andP=> /forallP ht /IH {}IH; rewrite big_cons -IH.
under eq_bigr do rewrite big_cons mulrDr.
rewrite big_split; congr (_ + _) => /=.
rewrite /term_eval; under eq_bigr do rewrite mulrCA.
rewrite -mulr_sumr (gh_sum_prod (fun r x => x ^+ t.2 r)); congr (_ * _); apply: eq_bigr => r _.
have [_ _ _ ex] := gh_nodes_rule hroots n0.
have := ex 'X^(t.2 r); rewrite size_polyXn momXn => <- //.
by apply: eq_bigr => x _; rewrite hornerXn.
Qed.
End Main.

