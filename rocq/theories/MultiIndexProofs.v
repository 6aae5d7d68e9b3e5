(* Lemmas about the multi-index model. *)
From mathcomp Require Import all_ssreflect all_algebra.
From mathcomp Require Import zify.
From Verif Require Import MultiIndexModel MultiIndexSpec.
Set Implicit Arguments.
Unset Strict Implicit.
Unset Printing Implicit Defensive.
Import GRing.Theory Num.Theory.

(* ---------- Reference enumeration (proof device only) ---------- *)

Fixpoint comps (d s : nat) : seq (seq nat) :=
  if d is d'.+1 then
    flatten [seq [seq k :: x | x <- comps d' (s - k)] | k <- iota 0 s.+1]
  else if s == 0 then [:: [::]] else [::].

Definition blocks (d l n : nat) : seq (seq nat) :=
  flatten [seq comps d s | s <- iota l n].

Arguments comps : simpl never.

Lemma compsS d s :
  comps d.+1 s = flatten [seq [seq k :: x | x <- comps d (s - k)] | k <- iota 0 s.+1].
Proof. by []. Qed.

Lemma mem_comps d s x : (x \in comps d s) = (size x == d) && (sumn x == s).
Proof.
elim: d s x => [|d IH] s x.
  by case: s => [|s]; case: x => [|a x].
rewrite compsS; apply/flatten_mapP/idP => [[k]|].
  rewrite mem_iota => hk /mapP [y]; rewrite IH => /andP [/eqP <- /eqP hs] -> /=.
  by rewrite eqxx hs /=; lia.
case: x => [|a x] //= /andP []; rewrite eqSS => hd /eqP hs.
exists a; first by rewrite (_ : 0 :: iota 1 s = iota 0 s.+1) // mem_iota; lia.
by apply/mapP; exists x => //; rewrite IH hd /=; apply/eqP; lia.
Qed.

Lemma mem_blocks d l n x :
  (x \in blocks d l n) = (size x == d) && (l <= sumn x < l + n).
Proof.
apply/flatten_mapP/idP => [[s]|].
  by rewrite mem_iota mem_comps => hs /andP [-> /eqP ->].
case/andP => hd hs; exists (sumn x); first by rewrite mem_iota.
by rewrite mem_comps hd eqxx.
Qed.

Lemma size_comps0 s : size (comps 0 s) = (s == 0).
Proof. by case: s. Qed.

Lemma size_compsS_sum d s : size (comps d.+1 s) = \sum_(j < s.+1) size (comps d j).
Proof.
rewrite compsS size_flatten /shape -!map_comp sumnE big_map.
rewrite (_ : iota 0 s.+1 = index_iota 0 s.+1) //.
rewrite big_mkord [in RHS](reindex_inj rev_ord_inj) /=.
by apply: eq_bigr => i _; rewrite /= size_map subSS.
Qed.

Lemma size_compsS d s : size (comps d.+1 s) = 'C(s + d, d).
Proof.
elim: d s => [|d IH] s.
  rewrite bin0 size_compsS_sum big_ord_recl big1 //.
rewrite size_compsS_sum; under eq_bigr do rewrite IH.
elim: s => [|s IHs]; first by rewrite big_ord1 !add0n !binn.
by rewrite big_ord_recr /= IHs addSn !addnS binS addSn.
Qed.

Lemma size_blocks_cat d l n m :
  size (blocks d l (n + m)) = size (blocks d l n) + size (blocks d (l + n) m).
Proof. by rewrite /blocks iotaD map_cat flatten_cat size_cat. Qed.

Lemma blocks1 d l : blocks d l 1 = comps d l.
Proof. by rewrite /blocks [iota _ _]/= [map _ _]/= [flatten _]/= cats0. Qed.

Lemma size_blocks d n : size (blocks d.+1 0 n.+1) = 'C(n + d.+1, d.+1).
Proof.
elim: n => [|n IH]; first by rewrite blocks1 size_compsS !binn.
by rewrite -[n.+2]addn1 size_blocks_cat IH blocks1 size_compsS add0n addSn addSn addnS binS.
Qed.

(* sizeof_multi_indices counts the reference enumeration. *)
Lemma sizeofE d u l : (0 < d) || (0 < l) ->
  sizeof_multi_indices (Posz d) (Posz u) (Posz l) =
  Some (Posz (size (blocks d l (u.+1 - l)))).
Proof.
move=> hdl; rewrite /sizeof_multi_indices eqz_nat ltz_nat.
case: eqP => [-> | hul].
  rewrite subSnn blocks1.
  case: d hdl => [|d] hdl.
    case: l hdl => [//|l] _.
    by rewrite size_comps0 (_ : (l.+1%:Z + Posz 0 - 1)%R = Posz l) /= ?bin_small //; lia.
  rewrite (_ : (l%:Z + d.+1%:Z - 1)%R = Posz (l + d)); last lia.
  by rewrite /= size_compsS -[in RHS]bin_sub ?leq_addl // addnK.
case: ltnP => hlt.
  by rewrite (_ : u.+1 - l = 0) //; lia.
have hs n : 0 < d -> size (blocks d 0 n.+1) = 'C(n + d, n).
  case: d {hdl} => // d _; rewrite size_blocks -[LHS]bin_sub ?leq_addl //.
  by rewrite addnK.
rewrite eqz_nat; case: l hdl hul hlt => [|l] hdl hul hlt.
  by rewrite /= -hs; [|lia].
rewrite [(_ == _)%N]/= (_ : (l.+1%:Z - 1)%R = Posz l); last lia.
have hc := size_blocks_cat d 0 l.+1 (u - l).
rewrite (_ : l.+1 + (u - l) = u.+1) in hc; last lia.
rewrite subSS /= add0n in hc *.
case: d {hdl} hs hc => [|d] hs hc.
  rewrite !addn0 !binn subrr /blocks.
  rewrite (_ : flatten _ = [::]) //.
  have : forall n k, flatten [seq comps 0 s | s <- iota k.+1 n] = [::].
    by elim=> [|n IH] k //=; rewrite IH.
  by move->.
by congr Some; rewrite -!hs // hc; lia.
Qed.

Lemma sizeof_neg d : sizeof_multi_indices d (Posz 0 - 1)%R 0 = Some 0%R.
Proof. by []. Qed.

(* ---------- Order ---------- *)

Fixpoint lexb (x y : seq nat) : bool :=
  match x, y with
  | a :: x', b :: y' => (a < b) || ((a == b) && lexb x' y')
  | _, _ => false
  end.

Definition glexb (x y : seq nat) : bool :=
  (sumn x < sumn y) || ((sumn x == sumn y) && lexb x y).

Lemma lexb_lt x y : lexb x y -> lex_lt x y.
Proof.
elim: x y => [|a x IH] [|b y] //= /orP [ltab|/andP [/eqP -> /IH [i hi hj]]].
  by exists 0.
by exists i.+1 => // -[|j] //=; exact: hj.
Qed.

Lemma glexb_lt x y : glexb x y -> glex_lt x y.
Proof.
case/orP=> [|/andP [/eqP h1 /lexb_lt h2]]; first by left.
by right.
Qed.

Lemma lexb_irr : irreflexive lexb.
Proof. by elim=> [|a x /= ->] //=; rewrite ltnn eqxx. Qed.

Lemma glexb_irr : irreflexive glexb.
Proof. by move=> x; rewrite /glexb ltnn eqxx lexb_irr. Qed.

Lemma pairwise_flatten_iota (T : eqType) (r : rel T) (f : nat -> seq T) a n :
  (forall k, a <= k < a + n -> pairwise r (f k)) ->
  (forall k l x y, a <= k -> k < l -> l < a + n -> x \in f k -> y \in f l -> r x y) ->
  pairwise r (flatten [seq f k | k <- iota a n]).
Proof.
elim: n a => [|n IH] a h1 h2 //.
rewrite [iota _ _]/= [map _ _]/= [flatten _]/= pairwise_cat; apply/and3P; split.
- apply/allrelP => x y hx /flatten_mapP [l]; rewrite mem_iota => hl hy.
  by apply: (h2 a l) => //; lia.
- by apply: h1; lia.
- by apply: IH => [k hk|k l x y h3 h4 h5]; [apply: h1; lia | apply: h2; lia].
Qed.

Lemma comps_lexb d s : pairwise lexb (comps d s).
Proof.
elim: d s => [|d IH] s; first by case: s.
rewrite compsS; apply: pairwise_flatten_iota => [k _|k l x y _ hkl _].
  by rewrite pairwise_map; apply: sub_pairwise (IH _) => x y /= ->; rewrite eqxx orbT.
by case/mapP=> x' _ -> /mapP [y' _ ->] /=; rewrite hkl.
Qed.

Lemma blocks_glexb d l n : pairwise glexb (blocks d l n).
Proof.
apply: pairwise_flatten_iota => [k _|k m x y _ hkm _].
  have := comps_lexb d k.
  apply: (@sub_in_pairwise _ (fun x => x \in comps d k)).
    move=> x y; rewrite -!topredE /= !mem_comps => /andP [_ /eqP hx] /andP [_ /eqP hy] hxy.
    by rewrite /glexb hx hy eqxx hxy orbT.
  by apply/allP.
rewrite !mem_comps => /andP [_ /eqP hx] /andP [_ /eqP hy].
by rewrite /glexb hx hy hkm.
Qed.

Lemma uniq_blocks d l n : uniq (blocks d l n).
Proof. by apply: pairwise_uniq (blocks_glexb d l n); exact: glexb_irr. Qed.

Lemma uniq_comps d s : uniq (comps d s).
Proof. by rewrite -blocks1 uniq_blocks. Qed.

Lemma blocks_enumerates d l u :
  enumerates d l u (blocks d l (u.+1 - l)).
Proof.
split; first exact: uniq_blocks.
by move=> x; rewrite mem_blocks /in_range; congr (_ && _); lia.
Qed.

Lemma enumerates_size d l u s1 s2 :
  enumerates d l u s1 -> enumerates d l u s2 -> size s1 = size s2.
Proof.
move=> [u1 h1] [u2 h2]; apply/perm_size/uniq_perm => // x.
by rewrite h1 h2.
Qed.

Lemma blocks_glex_sorted d l n : glex_sorted (blocks d l n).
Proof.
move=> i j hij hj; apply: glexb_lt.
have := blocks_glexb d l n; move/(pairwiseP [::]); apply => //.
by rewrite inE (ltn_trans hij hj).
Qed.

(* ---------- Successor ---------- *)

Notation nz := (fun v : nat => v != 0).

Lemma hasNnz x : ~~ has nz x -> x = nseq (size x) 0.
Proof. by elim: x => [|a x IH] //=; rewrite negb_or negbK => /andP [/eqP -> /IH <-]. Qed.

Lemma has_nz_nseq m : has nz (nseq m 0) = false.
Proof. by rewrite has_nseq andbF. Qed.

Lemma sumn_nseq0 m : sumn (nseq m 0) = 0.
Proof. by rewrite sumn_nseq mul0n. Qed.

Lemma last_nonzero_cons k x : has nz x ->
  last_nonzero_ind (k :: x) = (last_nonzero_ind x).+1.
Proof.
move=> hx; rewrite /last_nonzero_ind rev_cons -cats1 find_cat has_rev hx /=.
have := hx; rewrite -has_rev has_find size_rev; lia.
Qed.

Lemma last_nonzero_nz k x : ~~ has nz x -> k != 0 -> last_nonzero_ind (k :: x) = 0.
Proof.
move=> hx hk; rewrite /last_nonzero_ind rev_cons -cats1 find_cat has_rev (negPf hx) /=.
by rewrite hk size_rev; lia.
Qed.

Lemma next_cons k x : has nz (behead x) ->
  next_graded_lexico_multi_index (k :: x) = k :: next_graded_lexico_multi_index x.
Proof.
case: x => [|b c] // hc; rewrite [behead _]/= in hc.
have hx : has nz (b :: c) by rewrite /= hc orbT.
rewrite /next_graded_lexico_multi_index [behead (k :: _)]/= hx [behead _]/= hc.
rewrite [~~ true]/= (last_nonzero_cons k hx) (last_nonzero_cons b hc).
have hsz : 0 < size c by case: (c) hc.
rewrite [size (k :: _)]/= [size (b :: _)]/= [_.+2.-1]/= [_.+1.-1]/= [_.+1.-1]/=.
rewrite -[size c in RHS](prednK hsz) eqSS [_.+1.-2]/= [_.+2.-2]/=.
case: (size c) hsz => [//|m] _ /=.
by case: ifP.
Qed.

Lemma next_top k m :
  next_graded_lexico_multi_index (k :: nseq m 0) = rcons (nseq m 0) k.+1.
Proof.
rewrite /next_graded_lexico_multi_index [behead _]/= has_nz_nseq /=.
rewrite sumn_nseq0 addn0 size_nseq.
by elim: m => [|m IH] //=; rewrite -IH.
Qed.

Lemma set_nth_last (m v : nat) : set_nth 0 (nseq m.+1 0) m v = rcons (nseq m 0) v.
Proof. by elim: m => [|m IH] //=; rewrite -IH. Qed.

Lemma next_spill k t m :
  next_graded_lexico_multi_index (k :: t.+1 :: nseq m 0) = k.+1 :: rcons (nseq m 0) t.
Proof.
rewrite /next_graded_lexico_multi_index [behead _]/=.
rewrite (_ : has nz (t.+1 :: nseq m 0) = true) // [~~ true]/=.
rewrite last_nonzero_cons // last_nonzero_nz ?has_nz_nseq //.
rewrite /= size_nseq; case: m => [|m] //=.
by rewrite -[0 :: nseq m 0]/(nseq m.+1 0) nth_nseq if_same add0n set_nth_last.
Qed.


Lemma comps1 s : comps 1 s = [:: [:: s]].
Proof.
rewrite compsS -addn1 iotaD map_cat flatten_cat [iota (0 + s) 1]/= /= subnn /=.
suff -> : flatten [seq [seq k :: x | x <- comps 0 (s - k)] | k <- iota 0 s] = [::] by [].
have : forall n, n <= s -> flatten [seq [seq k :: x | x <- comps 0 (s - k)] | k <- iota 0 n] = [::].
  elim=> [|n IH] hn //; rewrite -addn1 iotaD map_cat flatten_cat IH ?(ltnW hn) //=.
  by rewrite add0n; case: (s - n) (subn_gt0 n s) => [|r] //=; rewrite hn.
by apply.
Qed.

Lemma comps_nil d s : comps d.+1 s <> [::].
Proof. by move/(congr1 size); rewrite size_compsS /=; have := bin_gt0 (s + d) d; lia. Qed.

Lemma comps_head d s : head [::] (comps d.+1 s) = rcons (nseq d 0) s.
Proof.
elim: d => [|d IH]; first by rewrite comps1.
rewrite compsS [iota _ _]/= [map _ _]/= [flatten _]/= subn0.
move: IH; case: (comps d.+1 s) (@comps_nil d s) => [|y r] // _.
by rewrite [head _ _]/= => ->.
Qed.

Lemma comps_last d s : last [::] (comps d.+1 s) = s :: nseq d 0.
Proof.
elim: d s => [|d IH] s; first by rewrite comps1.
rewrite compsS -[s.+1]addn1 iotaD map_cat flatten_cat [iota (0 + s) 1]/= [map _ [:: _]]/=.
rewrite [flatten [:: _]]/= cats0 last_cat subnn.
have := IH 0; case: (comps d.+1 0) (@comps_nil d 0) => [|y r] // _.
by rewrite map_cons !last_cons (last_map (cons (0 + s))) => ->.
Qed.

Lemma sorted_flatten (T : eqType) (e : rel T) x0 (f : nat -> seq T) a n :
  (forall k, a <= k < a + n -> f k <> [::]) ->
  (forall k, a <= k < a + n -> sorted e (f k)) ->
  (forall k, a <= k -> k.+1 < a + n -> e (last x0 (f k)) (head x0 (f k.+1))) ->
  sorted e (flatten [seq f k | k <- iota a n]).
Proof.
elim: n a => [|n IH] a h1 h2 h3 //.
have {}IH : sorted e (flatten [seq f k | k <- iota a.+1 n]).
  by apply: IH => k hk *; [apply: h1|apply: h2|apply: h3]; lia.
rewrite [iota _ _]/= [map _ _]/= [flatten _]/=.
have := h1 a; have := h2 a; have := h3 a; case: (f a) => [|y s] h3' h2' h1'.
  by case: h1' => //; lia.
rewrite /= cat_path; apply/andP; split; first by apply: h2'; lia.
case: n IH h1 h2 h3 h1' h2' h3' => [|n] // IH h1 h2 h3 h1' h2' h3'.
have hn := h1 a.+1; move: (h3' ltac:(lia) ltac:(lia)).
rewrite [iota _ _]/= [map _ _]/= [flatten _]/= in IH *.
case: (f a.+1) IH hn => [|z t] IH hn; first by case: hn => //; lia.
by move: IH; rewrite /= => -> ->.
Qed.

Definition succ_in (x y : seq nat) : bool :=
  (next_graded_lexico_multi_index x == y) && (sumn x == sumn y).

Lemma comps_succ d s : sorted succ_in (comps d.+1 s).
Proof.
elim: d s => [|d IH] s; first by rewrite comps1.
rewrite compsS; apply: (@sorted_flatten _ _ [::]) => [k _|k _|k _ hk].
- by case: (comps d.+1 (s - k)) (@comps_nil d (s - k)).
- rewrite sorted_map; apply: sub_sorted (IH (s - k)) => x y /andP [/eqP hn /eqP hs].
  rewrite /relpre /succ_in /= hs eqxx andbT.
  case h : (has nz (behead x)); first by rewrite next_cons // hn.
  exfalso; move/negbT: h; case: x hn hs => [|a x] hn hs; last first.
    rewrite [behead _]/= => /hasNnz hx.
    move: hn hs; rewrite hx next_top => <-.
    by rewrite /= sumn_rcons !sumn_nseq0; lia.
  by move: hn hs; rewrite /next_graded_lexico_multi_index /= => <-.
- rewrite -!nth0 -nth_last !size_map.
  rewrite (nth_map [::]) ?prednK ?lt0n ?size_eq0; last first.
  + by apply/eqP/comps_nil.
  + by [].
  rewrite (nth_map [::]) ?lt0n ?size_eq0; last by apply/eqP/comps_nil.
  rewrite nth_last comps_last nth0 comps_head.
  have -> : s - k = (s - k.+1).+1 by lia.
  rewrite /succ_in next_spill eqxx /= sumn_rcons !sumn_nseq0; lia.
Qed.

Lemma blocks_succ d l n : sorted (frel next_graded_lexico_multi_index) (blocks d.+1 l n).
Proof.
apply: (@sorted_flatten _ _ [::]) => [k _|k _|k _ _].
- exact: comps_nil.
- by apply: sub_sorted (comps_succ d k) => x y /andP [].
- by rewrite /= comps_last comps_head next_top.
Qed.

Lemma blocks_head d l n : head [::] (blocks d.+1 l n.+1) = rcons (nseq d 0) l.
Proof.
rewrite -comps_head /blocks [iota _ _]/= [map _ _]/= [flatten _]/=.
by case: (comps d.+1 l) (@comps_nil d l).
Qed.

Lemma generateE d u l : l <= u ->
  generate_graded_lexico_multi_indices d.+1 u l = Some (blocks d.+1 l (u.+1 - l)).
Proof.
move=> hlu; rewrite /generate_graded_lexico_multi_indices eqSS.
case: d => [|d]; rewrite [_ == _]/=.
  rewrite ifT; last lia.
  congr Some; rewrite /blocks.
  have : forall n a, [seq [:: k] | k <- iota a n] = flatten [seq comps 1 s | s <- iota a n].
    elim=> [|n IH] a //.
    by rewrite [iota _ _]/= [map _ _]/= IH [in RHS]map_cons [RHS]/= -/(comps 1 a) comps1.
  by apply.
rewrite sizeofE // [obind _ _]/=.
have hn : u.+1 - l = (u - l).+1 by lia.
have hb := blocks_succ d.+1 l (u.+1 - l).
have hh := blocks_head d.+1 l (u - l); rewrite -hn in hh.
have hz : size (blocks d.+2 l (u.+1 - l)) <> 0.
  move/size0nil => h; move: hh; rewrite h.
  by move/(congr1 size); rewrite size_rcons.
have hz' : (Posz (size (blocks d.+2 l (u.+1 - l))) == 0%R) = false.
  by rewrite eqz_nat; apply/eqP.
move: hz'; case: (_ == _) => // _; congr Some.
rewrite -[0 :: nseq d 0]/(nseq d.+1 0) set_nth_last -[0 :: rcons _ _]/(rcons (nseq d.+1 0) l) -hh.
case: (blocks _ _ _) hb hz => [//|y s] /= /fpathP [k ->] _.
by rewrite size_traject.
Qed.

(* ---------- Rank ---------- *)

Lemma index_flatten_iota (T : eqType) (f : nat -> seq T) a m n x :
  a <= n < a + m -> x \in f n -> (forall k, a <= k < n -> x \notin f k) ->
  index x (flatten [seq f k | k <- iota a m]) =
  size (flatten [seq f k | k <- iota a (n - a)]) + index x (f n).
Proof.
move=> hn hx hk.
have -> : m = (n - a) + (a + m - n.+1).+1 by lia.
rewrite iotaD map_cat flatten_cat index_cat.
have -> : a + (n - a) = n by lia.
rewrite ifF; last first.
  apply/negbTE/flatten_mapP => -[k]; rewrite mem_iota => h1 h2.
  have := hk k; rewrite h2 => /(_ _); apply/implyP; lia.
congr (_ + _).
by rewrite [iota _ _]/= [map _ _]/= [flatten _]/= index_cat hx.
Qed.

Lemma index_comps_cons d s k x : (size x = d) -> (k + sumn x = s) ->
  index (k :: x) (comps d.+1 s) =
  size (blocks d (s - k).+1 k) + index x (comps d (s - k)).
Proof.
move=> hd hs; rewrite compsS.
rewrite (@index_flatten_iota _ _ 0 s.+1 k); first last.
- move=> j hj; apply/mapP => -[y _ [h _]]; lia.
- apply/mapP; exists x => //; rewrite mem_comps hd eqxx; apply/eqP; lia.
- lia.
congr (_ + _); last first.
  by rewrite index_map // => y z [].
rewrite subn0 size_flatten /shape -map_comp /blocks size_flatten /shape -map_comp.
rewrite !sumnE !big_map.
rewrite (_ : iota 0 k = index_iota 0 k); last by rewrite /index_iota subn0.
rewrite (_ : iota (s - k).+1 k = index_iota (0 + (s - k).+1) (k + (s - k).+1)); last first.
  by rewrite /index_iota add0n addnK.
rewrite big_addn addnK !big_mkord [RHS](reindex_inj rev_ord_inj) /=.
apply: eq_bigr => i _; rewrite size_map; congr (size (comps d _)).
have := ltn_ord i; lia.
Qed.

Lemma indexof_loopE x (pos : int) :
  indexof_loop x (Posz (sumn x)) pos =
  Some (pos + Posz (index x (comps (size x) (sumn x))))%R.
Proof.
elim: x pos => [|k x IH] pos.
  by rewrite /= addr0.
rewrite [indexof_loop _ _ _]/=.
have -> : (Posz (k + sumn x) - Posz k)%R = Posz (sumn x) by lia.
rewrite (index_comps_cons (d := size x) (s := k + sumn x)) //.
have -> : k + sumn x - k = sumn x by lia.
case: k => [|k].
  rewrite ltnn [obind _ _]/= IH.
  by rewrite [blocks _ _ _]/= add0n.
rewrite ltn0Sn.
have -> : (Posz (sumn x) + 1)%R = Posz (sumn x).+1 by lia.
rewrite sizeofE ?orbT //=.
have -> : (k.+1 + sumn x).+1 - (sumn x).+1 = k.+1 by lia.
by rewrite IH PoszD addrA.
Qed.

Lemma indexof_blocks x :
  find_index x =
  Some (Posz (size (blocks (size x) 0 (sumn x)) + index x (comps (size x) (sumn x)))).
Proof.
rewrite /find_index /graded_lexico_indexof_multi_index.
case hs: (sumn x) => [|s].
  rewrite sizeof_neg [obind _ _]/= -hs indexof_loopE hs.
  by rewrite [obind _ _]/= add0r.
rewrite (_ : (Posz s.+1 - 1)%R = Posz s); last lia.
rewrite sizeofE; last by case: (x) hs.
by rewrite [obind _ _]/= -hs indexof_loopE hs /= subn0 -PoszD.
Qed.

Lemma index_blocks x n : sumn x < n ->
  index x (blocks (size x) 0 n) =
  size (blocks (size x) 0 (sumn x)) + index x (comps (size x) (sumn x)).
Proof.
move=> hn; rewrite /blocks (@index_flatten_iota _ _ 0 n (sumn x)) ?subn0 //.
  by rewrite mem_comps !eqxx.
move=> k hk; rewrite mem_comps eqxx /=; lia.
Qed.

Lemma indexofE x n : sumn x < n ->
  find_index x = Some (Posz (index x (blocks (size x) 0 n))).
Proof. by move=> hn; rewrite indexof_blocks index_blocks. Qed.

Lemma indexof_lowerE x l n : l <= sumn x -> sumn x < l + n -> 0 < size x ->
  graded_lexico_indexof_multi_index x (Posz l) =
  Some (Posz (index x (blocks (size x) l n))).
Proof.
move=> hl hn hx.
have h0 : index x (blocks (size x) 0 (l + n)) =
          size (blocks (size x) 0 l) + index x (blocks (size x) l n).
  rewrite /blocks iotaD map_cat flatten_cat index_cat ifF //.
  by apply/negbTE; rewrite -/(blocks _ _ _) mem_blocks; lia.
have := indexofE hn; rewrite h0 /find_index /graded_lexico_indexof_multi_index.
case: (sizeof_multi_indices _ (Posz (sumn x) - 1)%R _) => [a|] //=.
case: (indexof_loop _ _ _) => [b|] //= -[->].
case: l {hl hn} h0 => [|l] h0; first by rewrite eqxx.
rewrite (_ : (Posz l.+1 - 1)%R = Posz l); last lia.
by rewrite sizeofE ?hx // subn0 /=; congr Some; lia.
Qed.
