(* The multi-dimensional moment quadrature: main lemmas. *)
From mathcomp Require Import all_ssreflect all_algebra.
From mathcomp Require Import zify ring.
From Verif Require Import Prelude MultiIndexModel MultiIndexSpec MultiIndexProofs MultiIndexGramProofs MultiIndexMain.
From Verif Require Import NdIndexModel NdIndexProofs LinAlgSpec LinAlgProofs SpectralProofs LdlModel LdlProofs.
From Verif Require Import QuadModel QuadSpec QuadProofs QuadMain QuadNdModel QuadNdSpec QuadNdProofs QuadNdGram.
From Verif Require Import QuadNdAffine.
Set Implicit Arguments.
Unset Strict Implicit.
Unset Printing Implicit Defensive.
Import Order.TTheory GRing.Theory Num.Theory.
Local Open Scope ring_scope.

Section Expect.
Variable R : rcfType.
Implicit Types (ws : seq R) (xs : seq (seq R)) (f g : seq R -> R).

Lemma expect_ndE ws xs f : expect_nd ws xs f = \sum_(p <- zip ws xs) p.1 * f p.2.
Proof. by rewrite /expect_nd jsumE big_map. Qed.

Lemma expect_nd_map ws xs (h : seq R -> seq R) f :
  expect_nd ws [seq h x | x <- xs] f = expect_nd ws xs (fun x => f (h x)).
Proof.
rewrite !expect_ndE; elim: ws xs => [|w ws IH] [|x xs] //=; rewrite ?big_nil //.
by rewrite !big_cons IH.
Qed.

Lemma expect_nd_ext ws xs f g : (forall x, f x = g x) -> expect_nd ws xs f = expect_nd ws xs g.
Proof. by move=> h; rewrite !expect_ndE; apply: eq_bigr => p _; rewrite h. Qed.

Lemma expect_nd1 ws xs : size ws = size xs -> expect_nd ws xs (fun=> 1) = jsum ws.
Proof.
rewrite expect_ndE jsumE; elim: ws xs => [|w ws IH] [|x xs] //= hs; first by rewrite !big_nil.
by rewrite !big_cons mulr1 IH //; exact: succn_inj.
Qed.

Lemma mono0 m (x : seq R) : mono x (nseq m 0%N) = 1.
Proof.
rewrite /mono; elim: m x => [|m IH] [|y x] /=; rewrite ?big_nil //.
by rewrite big_cons IH mulr1.
Qed.

Lemma expect_nd_mul ws xs (a : R) f : expect_nd ws xs (fun x => a * f x) = a * expect_nd ws xs f.
Proof. by rewrite !expect_ndE mulr_sumr; apply: eq_bigr => p _; rewrite mulrCA. Qed.

Lemma expect_nd_sum ws xs I (r : seq I) (F : I -> seq R -> R) :
  expect_nd ws xs (fun x => \sum_(i <- r) F i x) = \sum_(i <- r) expect_nd ws xs (F i).
Proof.
rewrite expect_ndE; under [RHS]eq_bigr do rewrite expect_ndE.
by rewrite exchange_big /=; apply: eq_bigr => p _; rewrite mulr_sumr.
Qed.

Lemma size_place mean scale (x : seq R) : size (place_nodes mean scale x) = size x.
Proof. by case: mean => [m|] //; case: scale => [s|] /=; rewrite size_map size_iota. Qed.

Lemma pfun_pow k x : size k = size x -> pfun [seq (fun y : R => y ^+ j) | j <- k] x = mono x k.
Proof.
rewrite /pfun /mono; elim: k x => [|j k IH] [|y x] //= hs; first by rewrite !big_nil.
by rewrite !big_cons IH //; apply: succn_inj.
Qed.

(* place_nodes, coordinate by coordinate *)
Fixpoint place (ms ss x : seq R) : seq R :=
  match ms, ss, x with
  | m :: ms', s :: ss', y :: x' => (s * y + m) :: place ms' ss' x'
  | _, _, _ => [::]
  end.

Lemma place_nodesE (m s x : seq R) : size m = size x -> size s = size x ->
  place_nodes (Some m) (Some s) x = place m s x.
Proof.
rewrite /=; elim: x m s => [|y x IH] [|m ms] [|s ss] //= hm hs.
rewrite mulrC; congr (_ :: _); rewrite iota1 -map_comp -IH; [|exact: succn_inj|exact: succn_inj].
by apply: eq_map.
Qed.

Lemma place_nodes_None (m x : seq R) : size m = size x ->
  place_nodes (Some m) None x = place_nodes (Some m) (Some (nseq (size x) 1)) x.
Proof.
move=> hm /=; apply/eq_in_map => a; rewrite mem_iota => /andP [_ ha].
by rewrite nth_nseq ha mulr1.
Qed.

Lemma place_nodes_raw sc (x : seq R) :
  place_nodes None sc x = place_nodes (Some (nseq (size x) 0)) (Some (nseq (size x) 1)) x.
Proof.
rewrite /=; apply: (@eq_from_nth _ 0); rewrite ?size_map ?size_iota // => a ha.
by rewrite (nth_map 0%N) ?size_iota // nth_iota // add0n !nth_nseq ha mulr1 addr0.
Qed.
End Expect.

(* ---- invariance of the chained sum ---- *)
Section Invariance.
Variables (R : rcfType) (n : nat).
Local Notation eig := ('M[R]_n.+1 * 'rV[R]_n.+1)%type.

Lemma chain_affine (es es' : nat -> eig) (mean scale : seq R) (l : seq nat) v f :
  (forall a, a \in l -> nth 1 scale a != 0 /\ exists2 K, is_eigh K (es a).1 (es a).2 &
     is_eigh ((nth 1 scale a)^-1 *: (K - (nth 0 mean a)%:M)) (es' a).1 (es' a).2) ->
  chain [seq es' a | a <- l] v
    (fun x => f (place [seq nth 0 mean a | a <- l] [seq nth 1 scale a | a <- l] x)) =
  chain [seq es a | a <- l] v f.
Proof.
elim: l v f => [|a l IH] v f h //.
have [sn0 [K eK eK']] := h a (mem_head _ _).
have {}h b : b \in l -> nth 1 scale b != 0 /\ exists2 K, is_eigh K (es b).1 (es b).2 &
     is_eigh ((nth 1 scale b)^-1 *: (K - (nth 0 mean b)%:M)) (es' b).1 (es' b).2.
  by move=> hb; apply: h; rewrite inE hb orbT.
rewrite !map_cons !chain_cons; apply: eq_bigr => i _; congr ((_ *m _) _ _).
rewrite -(mx_affine_fcalc _ sn0 eK eK'); congr (_ *m diag_mx _ *m _).
apply/rowP => j; rewrite !mxE -IH //.
Qed.
End Invariance.

Section Main.
Variables (R : rcfType).
Variable chol : forall n, 'M[R]_n -> 'M[R]_n.
Variable eigh : forall n, 'M[R]_n -> 'M[R]_n * 'rV[R]_n.
Hypothesis cholP : chol_spec chol.
Hypothesis eighP : eigh_spec eigh.
Variables (d N : nat).
Hypothesis hd : (0 < d)%N.
Hypothesis hN : (0 < N)%N.
Local Notation basis := (blocks d 0 N).
Definition tabs := [seq table N d k | k <- iota 0 d.+1].

Lemma basis_pos : exists n, size basis = n.+1.
Proof.
case: (d) hd => [//|d' _]; case: (N) hN => [//|N' _].
exists (size (blocks d'.+1 0 N'.+1)).-1; rewrite prednK // size_blocks bin_gt0 leq_addl.
by [].
Qed.

Lemma basis_enum : enumerates d 0 N.-1 basis.
Proof. by have := blocks_enumerates d 0 N.-1; rewrite subn0 prednK. Qed.

Lemma gram_posdef n (M : seq nat -> R) : size basis = n.+1 -> admissible_nd d N M -> posdef (gramM d N n M).
Proof.
move=> hn ha; split; first exact: gramM_sym.
move=> u un0; rewrite qform_sum.
pose c x := u (inord (index x basis)) 0.
have hc (i : 'I_n.+1) : c (bas d N i) = u i 0.
  by rewrite /c /bas index_uniq ?hn ?uniq_blocks // inord_val.
have := ha basis basis_enum c.
have -> : \sum_(x <- basis) \sum_(y <- basis) c x * c y * M (madd x y) =
          \sum_i \sum_j u i 0 * gramM d N n M i j * u j 0.
  rewrite (big_nth [::]) big_mkord.
  rewrite (eq_bigr (fun i : 'I_(size basis) => \sum_(j < size basis) c (bas d N i) * c (bas d N j) * M (madd (bas d N i) (bas d N j)))).
    rewrite hn; apply: eq_bigr => i _; apply: eq_bigr => j _.
    by rewrite !hc mxE mulrAC.
  by move=> i _; rewrite (big_nth [::]) big_mkord.
apply; move: un0; case: (pickP (fun i => u i 0 != 0)) => [i hi _|h un0].
  by exists (bas d N i); [apply: mem_nth; rewrite hn | rewrite hc].
exfalso; move: un0 => /eqP; apply; apply/colP => i; rewrite mxE; apply/eqP.
by have := h i => /negbFE.
Qed.

Section Fixed.
Variables (n : nat) (M : seq nat -> R).
Hypothesis hn : size basis = n.+1.
Hypothesis ha : admissible_nd d N M.

Definition Lf ldl := factor chol (gramM d N n M) ldl.
Definition ef ldl a := eigh (KK d N M (Lf ldl) a).

Lemma Lf_chol ldl : is_chol (Lf ldl) (gramM d N n M).
Proof. by apply: factorP => //; exact: gram_posdef. Qed.

Lemma ef_eigh ldl a : is_eigh (KK d N M (Lf ldl) a) (ef ldl a).1 (ef ldl a).2.
Proof. by apply: eighP; apply: KK_sym; exact: Lf_chol. Qed.

Lemma quad_ndE mean scale ldl :
  moment_quadrature_nd chol eigh (mvec d N M) tabs mean scale ldl =
  let es := [seq ef ldl a | a <- iota 0 d] in
  let combs := nd_cartesian_prod_indices (size es) n.+1 in
  Some ([seq chained_weight cv | cv <- combs_eigvectors es combs],
        [seq place_nodes mean scale x | x <- combs_eigvals es combs]).
Proof.
rewrite /moment_quadrature_nd /tabs size_map size_iota [_.+1.-1]/=.
have -> : nth [::] [seq table N d k | k <- iota 0 d.+1] 0 = table N d 0 by [].
rewrite size_table hn table_gram // -/(factor chol (gramM d N n M) ldl) -/(Lf ldl).
have -> : behead [seq table N d k | k <- iota 0 d.+1] = [seq table N d a.+1 | a <- iota 0 d].
  by rewrite /= iota1 -map_comp.
have -> : [seq eigh (mult_matrix (Lf ldl) (table_mx (mvec d N M) t n.+1)) | t <- [seq table N d a.+1 | a <- iota 0 d]]
    = [seq ef ldl a | a <- iota 0 d].
  rewrite -map_comp; apply/eq_in_map => a; rewrite mem_iota add0n => /andP [_ had] /=.
  by rewrite table_hank.
rewrite [size _]size_map size_iota.
by case: (d) hd.
Qed.

Lemma expect_quad mean scale ldl ws xs f :
  moment_quadrature_nd chol eigh (mvec d N M) tabs mean scale ldl = Some (ws, xs) ->
  expect_nd ws xs f = chain [seq ef ldl a | a <- iota 0 d] (e0 R n) (fun x => f (place_nodes mean scale x)).
Proof.
rewrite quad_ndE /= => -[<- <-]; rewrite expect_nd_map expect_chain //.
by rewrite size_map size_iota.
Qed.

Lemma quad_nd_size mean scale ldl ws xs :
  moment_quadrature_nd chol eigh (mvec d N M) tabs mean scale ldl = Some (ws, xs) ->
  [/\ size ws = (n.+1 ^ d)%N, size xs = (n.+1 ^ d)%N & all (fun x => size x == d) xs].
Proof.
rewrite quad_ndE /= => -[<- <-].
rewrite !size_map !size_cartesian size_iota; split=> //.
apply/allP => x /mapP [y /mapP [t _ ->] ->].
by rewrite size_place size_map size_iota !size_map size_iota.
Qed.

Lemma quad_nd_moments mean scale ldl ws xs (g : seq R -> seq R) k :
  moment_quadrature_nd chol eigh (mvec d N M) tabs mean scale ldl = Some (ws, xs) ->
  (forall x, size x = d -> g (place_nodes mean scale x) = x) ->
  size k = d -> (sumn k < 2 * N)%N ->
  expect_nd ws xs (fun x => mono (g x) k) = M k / M (nseq d 0%N).
Proof.
move=> hq hg hk hs; rewrite (expect_quad _ hq).
have szd : size [seq ef ldl a | a <- iota 0 d] = d by rewrite size_map size_iota.
rewrite (@chain_ext _ _ _ _ _ (fun x => 1 * pfun [seq (fun y : R => y ^+ j) | j <- k] x)); last first.
  by move=> x; rewrite szd => hx; rewrite hg // mul1r pfun_pow // hx.
rewrite chain_pfun ?size_map ?size_iota // mul1r dotp_mxE.
have -> : [seq (fun y : R => y ^+ j) | j <- k] = [seq (fun y => y ^+ nth 0%N k a) | a <- iota 0 d].
  by rewrite -[X in map _ X](mkseq_nth 0%N) hk /mkseq -map_comp.
rewrite (@fword_mxword _ _ (KK d N M (Lf ldl))); last by move=> a _; exact: ef_eigh.
rewrite mulmxA e0_entry -/(mword d k) (KK_entry hd hN hn (Lf_chol ldl)) ?mword_lt ?size_mword //.
by rewrite wcount_mword.
Qed.

Lemma quad_nd_weights mean scale ldl ws xs :
  moment_quadrature_nd chol eigh (mvec d N M) tabs mean scale ldl = Some (ws, xs) -> jsum ws = 1.
Proof.
move=> hq; have [h1 h2 h3] := quad_nd_size hq.
rewrite -(@expect_nd1 _ ws xs) ?h1 ?h2 //.
rewrite (expect_quad _ hq).
have -> : chain [seq ef ldl a | a <- iota 0 d] (e0 R n) (fun=> 1) =
          chain [seq ef ldl a | a <- iota 0 d] (e0 R n) (fun x => mono x (nseq d 0%N)).
  by apply: chain_ext => x _; rewrite mono0.
have hq' := quad_ndE None None ldl.
have := @quad_nd_moments None None ldl _ _ id (nseq d 0%N) hq' (fun _ _ => erefl).
rewrite size_nseq sumn_nseq0 muln_gt0 hN => /(_ erefl erefl).
rewrite (expect_quad _ hq') => ->; rewrite divff // -(L00 hd hN (Lf_chol ldl)).
by rewrite expf_neq0 // (L00_neq0 (Lf_chol ldl)).
Qed.
End Fixed.

Lemma posdef_adm n (M : seq nat -> R) : size basis = n.+1 -> posdef (gramM d N n M) -> admissible_nd d N M.
Proof.
move=> hn [_ hG] b hb c [x hx cx]; pose u : 'cV[R]_n.+1 := \col_i c (bas d N i).
have hperm : perm_eq b basis.
  have [ub eb] := hb; have [_ eb'] := basis_enum.
  by apply: uniq_perm; rewrite ?uniq_blocks // => y; rewrite eb eb'.
have : 0 < qform (gramM d N n M) u.
  apply: hG; apply/eqP => u0.
  have hx' : x \in basis by rewrite -(perm_mem hperm).
  have hi : (index x basis < n.+1)%N by rewrite -hn index_mem.
  have := congr1 (fun v : 'cV_n.+1 => v (Ordinal hi) 0) u0; rewrite !mxE /bas nth_index //.
  by move/eqP; rewrite (negbTE cx).
rewrite qform_sum; congr (_ < _).
rewrite (perm_big _ hperm) /= (big_nth [::]) big_mkord.
rewrite [RHS](eq_bigr (fun i : 'I_(size basis) => \sum_(j < size basis) c (bas d N i) * c (bas d N j) * M (madd (bas d N i) (bas d N j)))).
  rewrite hn; apply: eq_bigr => i _; apply: eq_bigr => j _.
  by rewrite !mxE mulrAC.
by move=> i _; rewrite (perm_big _ hperm) /= (big_nth [::]) big_mkord.
Qed.

Lemma affine_adm (M : seq nat -> R) (mean scale : seq R) :
  (forall a, (a < d)%N -> 0 < nth 1 scale a) ->
  admissible_nd d N M -> admissible_nd d N (affine_nd M mean scale).
Proof.
move=> hpos ha; have [n hn] := basis_pos; have pG := gram_posdef hn ha.
apply: (posdef_adm hn); rewrite (congr_gram M mean hd hN hn hpos).
have := posdef_congr pG (B := (Tmx d N n mean scale)^T); rewrite trmxK; apply.
rewrite unitmx_tr; apply: trig_unit; first exact: Tmx_trig.
exact: Tmx_diag.
Qed.

(* Representation independence *)
Lemma quad_nd_repr (M : seq nat -> R) (mean scale : seq R) ldl ldl' ws xs ws' xs' f :
  size mean = d -> size scale = d -> (forall a, (a < d)%N -> 0 < nth 1 scale a) ->
  admissible_nd d N M ->
  moment_quadrature_nd chol eigh (mvec d N M) tabs None None ldl = Some (ws, xs) ->
  moment_quadrature_nd chol eigh (mvec d N (affine_nd M mean scale)) tabs (Some mean) (Some scale) ldl' = Some (ws', xs') ->
  expect_nd ws' xs' f = expect_nd ws xs f.
Proof.
have [n hn] := basis_pos.
move=> hm hsc hpos ha hq hq'.
have ha' := affine_adm mean hpos ha.
rewrite (expect_quad hn _ hq) (expect_quad hn _ hq').
pose P x := f (place [seq nth 0 mean a | a <- iota 0 d] [seq nth 1 scale a | a <- iota 0 d] x).
rewrite [LHS](@chain_ext _ _ _ _ _ P); last first.
  move=> x; rewrite size_map size_iota => hx; rewrite place_nodesE ?hx // /P.
  have -> : [seq nth 0 mean a | a <- iota 0 d] = mean by rewrite -hm -/(mkseq _ _) mkseq_nth.
  by have -> : [seq nth 1 scale a | a <- iota 0 d] = scale by rewrite -hsc -/(mkseq _ _) mkseq_nth.
rewrite /P; apply: chain_affine => a; rewrite mem_iota add0n => /andP [_ had].
split; first by rewrite gt_eqF // hpos.
exists (KK d N M (Lf n M ldl) a); first exact: ef_eigh.
rewrite -(mult_matrix_congr (Lf_chol hn ha ldl) (Tmx_trig mean hn hpos) (Tmx_diag mean hn hpos)
   (congr_gram M mean hd hN hn hpos) (congr_hank M mean hd hN hn hpos had) (Lf_chol hn ha' ldl')).
exact: ef_eigh.
Qed.
End Main.
