(* Polynomial majorants of step functions (the Markov-Stieltjes polynomials): for nodes
   lo < c < hi there is a polynomial of degree at most 2 (|lo| + |hi|) that is at least the
   indicator of x <= c everywhere and equals it at the nodes. *)
From mathcomp Require Import all_ssreflect all_algebra.
From mathcomp Require Import polyorder polyrcf.
From mathcomp Require Import ring zify.
From Verif Require Import Prelude LinAlgSpec QuadModel QuadSpec QuadProofs QuadMain QuadStrict.
Set Implicit Arguments.
Unset Strict Implicit.
Unset Printing Implicit Defensive.
Import Order.TTheory GRing.Theory Num.Theory.
Local Open Scope ring_scope.

Section Stieltjes.
Variable R : rcfType.
Implicit Types (p q : {poly R}) (s t zs : seq R) (a b c x y z : R).

Definition mults s p := forall b, (count_mem b s <= \mu_b p)%N.

Lemma mults_factor s p : p != 0 -> mults s p -> exists q, p = rootpoly s * q.
Proof.
elim: s p => [|a s IH] p p0 h; first by exists p; rewrite /rootpoly big_nil mul1r.
have ra : root p a by rewrite -mu_gt0 //; apply: leq_trans (h a); rewrite /= eqxx.
have /dvdpP [p' ep] : 'X - a%:P %| p by rewrite dvdp_XsubCl.
have n0 : p' * ('X - a%:P) != 0 by rewrite -ep.
have p'0 : p' != 0 by apply: contraNneq n0 => ->; rewrite mul0r.
have [|q eq] := IH p' p'0.
  move=> b; have := h b; rewrite ep mu_mul // /=.
  case: (eqVneq a b) => [->|ab] /=; first by rewrite mu_XsubC addnC leq_add2r.
  by rewrite add0n (@muNroot _ ('X - a%:P)) ?addn0 // root_XsubC eq_sym.
by exists q; rewrite ep eq /rootpoly big_cons mulrC mulrA.
Qed.

Lemma mu_rootpoly s b : \mu_b (rootpoly s) = count_mem b s.
Proof.
elim: s => [|a s IH]; first by rewrite /rootpoly big_nil -[1]/(1%:P) mu_polyC.
rewrite /rootpoly big_cons -/(rootpoly s) mu_mul; last first.
  by rewrite mulf_neq0 ?rootpoly_neq0 // polyXsubC_eq0.
rewrite IH /=; congr (_ + _)%N.
case: (eqVneq a b) => [->|ab] /=; first exact: mu_XsubC.
by rewrite muNroot // root_XsubC eq_sym.
Qed.

Lemma factor_mults s q : rootpoly s * q != 0 -> mults s (rootpoly s * q).
Proof. by move=> h b; rewrite mu_mul // mu_rootpoly leq_addr. Qed.

Lemma mults_size s p : p != 0 -> mults s p -> (size s < size p)%N.
Proof.
move=> p0 /(mults_factor p0) [q e].
have q0 : q != 0 by apply: contraNneq p0 => q0; rewrite e q0 mulr0.
rewrite e size_mul ?rootpoly_neq0 // rootpoly_size addSn /= -addn1.
by rewrite leq_add2l lt0n size_poly_eq0.
Qed.

(* Rolle's theorem for roots with multiplicity *)
Lemma rolle_list a s p : path <=%R a s -> (forall b, b \in a :: s -> root p b) ->
  exists t, [/\ size t = size s,
    forall b, b \in a :: s -> (count_mem b t < count_mem b (a :: s))%N,
    forall b, b \in t -> b \notin a :: s -> (count_mem b t <= 1)%N /\ root p^`() b
  & forall b, b \in t -> a <= b <= last a s].
Proof.
elim: s a => [|b s IH] a /=.
  by move=> _ _; exists [::]; split=> // b; rewrite inE => /eqP ->; rewrite eqxx.
case/andP=> ab hs hr.
have hr' x : x \in b :: s -> root p x by move=> hx; apply: hr; rewrite inE hx orbT.
have [t [st h1 h2 h3]] := IH b hs hr'.
have hlast : b <= last b s.
  have := mem_last b s; rewrite inE => /orP [/eqP -> //|hm].
  by have := order_path_min (@le_trans _ R) hs => /allP /(_ _ hm).
move: ab; rewrite le_eqVlt => /orP [/eqP eab|ab].
  exists (a :: t); split=> /=; first by rewrite st.
  - move=> x hx; have {hx} hx : x \in b :: s by move: hx; rewrite eab !inE orbA orbb.
    by rewrite eab ltn_add2l; have := h1 x hx; rewrite /=.
  - move=> x; rewrite inE => /orP [/eqP -> |hx]; first by rewrite inE eqxx.
    rewrite inE negb_or => /andP [xa hx'].
    by rewrite eq_sym (negPf xa) add0n; apply: h2.
  - move=> x; rewrite inE => /orP [/eqP ->|/h3]; first by rewrite lexx eab.
    by rewrite eab.
have eqab : p.[a] = p.[b].
  by rewrite (rootP (hr a _)) ?(rootP (hr' b _)) // inE eqxx.
have [c hc pc] := rolle ab eqab.
have [ac cb] : a < c /\ c < b by rewrite !(itvP hc).
have ct : c \notin t by apply/negP => /h3; rewrite leNgt cb.
have bs x : x \in b :: s -> b <= x.
  rewrite inE => /orP [/eqP -> //|hm].
  by have := order_path_min (@le_trans _ R) hs => /allP /(_ _ hm).
have cs : c \notin b :: s by apply/negP => /bs; rewrite leNgt cb.
have ans : a \notin b :: s by apply/negP => /bs; rewrite leNgt ab.
have ant : a \notin t by apply/negP => /h3; rewrite leNgt ab.
exists (c :: t); split=> /=; first by rewrite st.
- move=> x; rewrite inE => /orP [/eqP ->|hx].
    by rewrite (gt_eqF ac) add0n (count_memPn ant) eqxx.
  have -> : (c == x) = false by apply/negbTE; apply: contraNneq cs => ->.
  have -> : (a == x) = false by apply/negbTE; apply: contraNneq ans => ->.
  by rewrite !add0n; have := h1 x hx.
- move=> x; rewrite inE => /orP [/eqP -> _|hx].
    by rewrite eqxx (count_memPn ct) addn0; split=> //; apply/rootP.
  rewrite inE negb_or => /andP [_ hx'].
  have -> : (c == x) = false by apply/negbTE; apply: contraNneq ct => ->.
  by rewrite add0n; apply: h2.
- move=> x; rewrite inE => /orP [/eqP ->|/h3 /andP [u v]].
    by rewrite (ltW ac) (le_trans (ltW cb)).
  by rewrite (le_trans (ltW ab)).
Qed.

Lemma mults_deriv s p : p^`() != 0 -> s != [::] -> mults s p ->
  exists t, [/\ (size t).+1 = size s, mults t p^`() &
    forall b, b \in t -> exists x y, [/\ x \in s, y \in s & x <= b <= y]].
Proof.
move=> d0; have p0 : p != 0 by apply: contraNneq d0 => ->; rewrite derivC.
case E: (sort <=%R s) => [|a s'] sn hm.
  by case/negP: sn; rewrite -size_eq0 -(size_sort <=%R _) E.
have hs : path <=%R a s' by have := sort_le_sorted s; rewrite E.
have mem x : (x \in a :: s') = (x \in s) by rewrite -E mem_sort.
have cnt x : count_mem x (a :: s') = count_mem x s.
  by rewrite -E; apply/permP; rewrite perm_sort.
have hr b : b \in a :: s' -> root p b.
  move=> hb; rewrite -mu_gt0 //; apply: leq_trans (hm b); rewrite -has_count has_pred1 -mem //.
have [t [st h1 h2 h3]] := rolle_list hs hr.
exists t; split.
- by rewrite st -(size_sort <=%R s) E.
- move=> b; case: (boolP (b \in a :: s')) => hb.
    by rewrite mu_deriv ?hr // leq_subRL ?add1n; [rewrite (leq_trans (h1 b hb)) // cnt hm|
      apply: leq_trans (hm b); rewrite -cnt; apply: leq_trans (h1 b hb)].
  case: (boolP (b \in t)) => hb'; last by rewrite (count_memPn hb').
  have [c1 rb] := h2 b hb' hb; apply: (leq_trans c1); by rewrite mu_gt0.
- move=> b hb; exists a, (last a s'); split; last exact: h3.
  + by rewrite -mem inE eqxx.
  + by rewrite -mem mem_last.
Qed.

Lemma mults_cat s t q : (forall b, b \in s -> b \notin t) -> mults s q -> mults t q -> mults (s ++ t) q.
Proof.
move=> h hs ht b; rewrite count_cat; case: (boolP (b \in s)) => hb.
  by rewrite (count_memPn (h b hb)) addn0.
by rewrite (count_memPn hb) add0n.
Qed.

(* a polynomial with level sets s0 (value 0) to the right of s1 (value 1) *)
Lemma level_bound p s0 s1 : p^`() != 0 -> s0 != [::] -> s1 != [::] ->
  mults s0 p -> mults s1 (p - 1) -> (forall x y, x \in s1 -> y \in s0 -> x < y) ->
  (size s0 + size s1 <= size p)%N.
Proof.
move=> d0 n0 n1 m0 m1 hlt.
have d1 : (p - 1)^`() = p^`() by rewrite derivB -[1]/(1%:P) derivC subr0.
have [t0 [e0 u0 b0]] := mults_deriv d0 n0 m0.
have [|t1 [e1 u1 b1]] := mults_deriv _ n1 m1; first by rewrite d1.
rewrite d1 in u1.
have /(mults_size d0) : mults (t0 ++ t1) p^`().
  apply: mults_cat => // b /b0 [x [y [hx hy /andP [xb _]]]].
  apply/negP => /b1 [x' [y' [hx' hy' /andP [_ by']]]].
  by have := hlt _ _ hy' hx; rewrite ltNge (le_trans xb by').
have := size_poly (size p).-1 (fun i => p`_i.+1 *+ i.+1); rewrite -/(deriv p).
rewrite size_cat -e0 -e1; have := polySpred; move: (size p^`()) (size p) => u v _.
lia.
Qed.

Lemma rootpoly_cat s t : rootpoly (s ++ t) = rootpoly s * rootpoly t.
Proof. by rewrite /rootpoly big_cat. Qed.
Lemma rootpoly_cons a s : rootpoly (a :: s) = ('X - a%:P) * rootpoly s.
Proof. by rewrite /rootpoly big_cons. Qed.

(* Hermite interpolation with vanishing derivatives *)
Lemma hermite zs (v : R -> R) : uniq zs ->
  exists2 p : {poly R}, (size p <= (size zs).*2)%N & forall z, z \in zs -> p.[z] = v z /\ p^`().[z] = 0.
Proof.
elim: zs => [|z zs IH] /=; first by exists 0; rewrite ?size_poly0.
case/andP=> hz /IH [p sp hp].
pose M := rootpoly zs; have h0 : M.[z] != 0 by rewrite rootpoly_root.
pose al := (v z - p.[z]) / M.[z] ^+ 2.
pose p1 := p + al *: (M * M).
pose be := - p1^`().[z] / M.[z] ^+ 2.
have sM : size (M * M) = (size zs).*2.+1.
  by rewrite size_mul ?rootpoly_neq0 // rootpoly_size addnS /= addSn addnn.
have s1 : (size p1 <= (size zs).*2.+1)%N.
  apply: (leq_trans (size_add _ _)); rewrite geq_max (leq_trans sp) //=.
  by apply: (leq_trans (size_scale_leq _ _)); rewrite sM.
exists (p1 + be *: (('X - z%:P) * (M * M))).
  apply: (leq_trans (size_add _ _)); rewrite geq_max doubleS (leq_trans s1) ?leqnSn //=.
  apply: (leq_trans (size_scale_leq _ _)); apply: (leq_trans (size_mul_leq _ _)).
  by rewrite size_XsubC sM.
move=> x; rewrite inE => /orP [/eqP ->|hx].
  rewrite hornerD hornerZ hornerM hornerXsubC subrr mul0r mulr0 addr0.
  split; first by rewrite /p1 hornerD hornerZ hornerM -expr2 /al divfK ?expf_neq0 // addrC subrK.
  have e : (be *: (('X - z%:P) * (M * M)))^`().[z] = be * M.[z] ^+ 2.
    by rewrite derivZ derivM derivXsubC mul1r hornerZ hornerD !hornerM hornerXsubC subrr mul0r addr0 expr2.
  by rewrite linearD hornerD [X in _ + X]e /be divfK ?expf_neq0 // subrr.
have Mx : M.[x] = 0 by apply/eqP; rewrite rootpoly_root.
have [e1 e2] := hp x hx.
rewrite /p1 !derivD !derivZ !derivM !(hornerD, hornerZ, hornerM) Mx e1 e2.
by rewrite !(mul0r, mulr0, addr0).
Qed.

Lemma mults_double zs p : uniq zs -> p != 0 ->
  (forall z, z \in zs -> p.[z] = 0 /\ p^`().[z] = 0) -> mults (zs ++ zs) p.
Proof.
move=> uz p0 h b; rewrite count_cat; case: (boolP (b \in zs)) => hb; last by rewrite (count_memPn hb).
rewrite count_uniq_mem // hb.
have [e1 e2] := h b hb.
have r1 : root p b by apply/rootP.
have m1 : (0 < \mu_b p)%N by rewrite mu_gt0.
rewrite addn1 ltn_neqAle m1 andbT; apply/negP => /eqP e.
have d0 : p^`() != 0.
  apply: contraTneq r1 => d0; have sp : (size p <= 1)%N.
    rewrite leqNgt; apply/negP => sp; move/polyP: d0 => /(_ (size p).-2); rewrite coef_deriv coef0.
    have -> : ((size p).-2.+1 = (size p).-1)%N by lia.
    move/eqP; rewrite mulrn_eq0 -/(lead_coef p) lead_coef_eq0 (negPf p0) orbF; lia.
  by move: p0; rewrite (size1_polyC sp) polyC_eq0 rootC.
have : (0 < \mu_b p^`())%N by rewrite mu_gt0 //; apply/rootP.
by rewrite mu_deriv // -e.
Qed.

Lemma mults_consr s p a q : p = rootpoly s * q -> p != 0 -> root q a -> mults (a :: s) p.
Proof.
move=> e p0 ra; have /dvdpP [q' eq] : 'X - a%:P %| q by rewrite dvdp_XsubCl.
have e' : p = rootpoly (a :: s) * q' by rewrite e eq rootpoly_cons; ring.
by rewrite e'; apply: factor_mults; rewrite -e'.
Qed.

Lemma count_conflict (l h u : nat) : (u <= ((l + h).*2).+1)%N -> ((h + h).+1 + (l + l).+1 <= u)%N -> False.
Proof. lia. Qed.
Lemma count_conflict2 (l h u : nat) : (u <= ((l + h).*2).+1)%N -> ((h + h) + (l + l).+2 <= u)%N -> False.
Proof. lia. Qed.

Lemma stieltjes_poly lo c hi : uniq lo -> uniq hi -> hi != [::] ->
  (forall x, x \in lo -> x < c) -> (forall x, x \in hi -> c < x) ->
  exists p : {poly R}, [/\ (size p <= ((size lo + size hi).*2).+1)%N,
    (forall x, x \in lo -> p.[x] = 1), p.[c] = 1, (forall x, x \in hi -> p.[x] = 0)
  & forall x, ((x <= c)%R)%:R <= p.[x]].
Proof.
move=> ul uh nh hlo hhi.
have uz : uniq (lo ++ hi).
  rewrite cat_uniq ul uh andbT /=; apply/hasPn => x /hhi cx; apply/negP => /hlo xc.
  by have := lt_trans cx xc; rewrite ltxx.
have [p0 s0 h0] := hermite (fun x => ((x <= c)%R)%:R) uz.
have cn : c \notin lo ++ hi.
  by rewrite mem_cat; apply/negP => /orP [/hlo|/hhi]; rewrite ltxx.
pose M := rootpoly (lo ++ hi); have Mc : M.[c] != 0 by rewrite rootpoly_root.
pose al := (1 - p0.[c]) / M.[c] ^+ 2.
pose p := p0 + al *: (M * M).
have sp : (size p <= ((size lo + size hi).*2).+1)%N.
  apply: (leq_trans (size_add _ _)); rewrite geq_max.
  move: s0; rewrite size_cat => /leq_trans -> //=.
  apply: (leq_trans (size_scale_leq _ _)); rewrite size_mul ?rootpoly_neq0 // rootpoly_size size_cat.
  lia.
have hp x : x \in lo ++ hi -> p.[x] = ((x <= c)%R)%:R /\ p^`().[x] = 0.
  move=> hx; have [e1 e2] := h0 x hx.
  have Mx : M.[x] = 0 by apply/eqP; rewrite rootpoly_root.
  rewrite /p derivD derivZ derivM !(hornerD, hornerZ, hornerM) Mx e1 e2.
  by rewrite !(mul0r, mulr0, addr0).
have pc : p.[c] = 1 by rewrite /p hornerD hornerZ hornerM -expr2 /al divfK ?expf_neq0 // addrC subrK.
have plo x : x \in lo -> p.[x] = 1 /\ p^`().[x] = 0.
  by move=> hx; have := hp x; rewrite mem_cat hx (ltW (hlo x hx)); apply.
have phi x : x \in hi -> p.[x] = 0 /\ p^`().[x] = 0.
  by move=> hx; have := hp x; rewrite mem_cat hx orbT leNgt (hhi x hx); apply.
have [h hh hmin] : exists2 h, h \in hi & forall x, x \in hi -> h <= x.
  case E: (sort <=%R hi) => [|h s'].
    by case/negP: nh; rewrite -size_eq0 -(size_sort <=%R _) E.
  exists h; first by rewrite -(mem_sort <=%R) E inE eqxx.
  have hs : path <=%R h s' by have := sort_le_sorted hi; rewrite E.
  move=> x; rewrite -(mem_sort <=%R) E inE => /orP [/eqP -> //|hm].
  by have := order_path_min (@le_trans _ R) hs => /allP /(_ _ hm).
have ch := hhi h hh.
have d0 : p^`() != 0.
  have e : p.[c] != p.[h] by rewrite pc (phi h hh).1 oner_neq0.
  apply: contraNneq e => d0.
  have [x _] := mvt p ch; rewrite d0 horner0 mul0r => /eqP; rewrite subr_eq0 => /eqP ->.
  by [].
have pn : p != 0 by apply: contraNneq d0 => ->; rewrite derivC.
have qn : p - 1 != 0.
  by apply: contraNneq d0 => /eqP; rewrite subr_eq0 => /eqP ->; rewrite -[1]/(1%:P) derivC.
have m0 : mults (hi ++ hi) p by apply: mults_double.
have m1l : mults (lo ++ lo) (p - 1).
  apply: mults_double => // z /plo [e1 e2].
  by rewrite derivB -[1]/(1%:P) derivC subr0 hornerD hornerN hornerC e1 subrr.
have m1 : mults (c :: lo ++ lo) (p - 1).
  move=> b; rewrite [count_mem _ _]/=; case: (eqVneq c b) => [<-|_]; last by rewrite add0n.
  have -> : count_mem c (lo ++ lo) = 0%N.
    apply/count_memPn; rewrite mem_cat orbb; apply/negP => /hlo; by rewrite ltxx.
  by rewrite mu_gt0 // rootE hornerD hornerN hornerC pc subrr.
have nlt s' : (0 < size (s' : seq R))%N -> s' != [::] by case: s'.
exists p; split=> //; [by move=> x /plo []|by move=> x /phi []|].
have key x : c < x -> 0 <= p.[x].
  move=> cx; rewrite leNgt; apply/negP => px.
  have [A eA] := mults_factor pn m0.
  have sq y : (rootpoly (hi ++ hi)).[y] = (rootpoly hi).[y] ^+ 2 by rewrite rootpoly_cat hornerM expr2.
  have Ax : A.[x] < 0.
    move: px; rewrite eA hornerM sq => px; rewrite ltNge; apply/negP => Ax.
    by move: px; rewrite ltNge mulr_ge0 // sqr_ge0.
  have Ac : 0 < A.[c].
    have : 0 < p.[c] by rewrite pc ltr01.
    rewrite eA hornerM sq => hgt; rewrite ltNge; apply/negP => Ac.
    by move: hgt; rewrite ltNge mulr_ge0_le0 // sqr_ge0.
  have [|z hz rz] := @polyrcf.poly_ivt R (- A) c x (ltW cx).
    by rewrite in_itv /= !hornerN oppr_le0 oppr_ge0 (ltW Ac) (ltW Ax).
  rewrite rootN in rz.
  have cz : c < z.
    rewrite lt_def (itvP hz) andbT; apply: contraTneq rz => ->.
    by rewrite rootE gt_eqF.
  have := @level_bound p (z :: hi ++ hi) (c :: lo ++ lo) d0 isT isT (mults_consr eA pn rz) m1.
  have hsep x0 y : x0 \in c :: lo ++ lo -> y \in z :: hi ++ hi -> x0 < y.
    move=> hx0 hy; apply: (@le_lt_trans _ _ c).
      by move: hx0; rewrite inE mem_cat orbb => /orP [/eqP ->|/hlo /ltW].
    by move: hy; rewrite inE mem_cat orbb => /orP [/eqP ->|/hhi].
  by move=> /(_ hsep); rewrite [size (z :: _)]/= [size (c :: _)]/= !size_cat; exact: (count_conflict sp).
move=> x; case: (ltrgtP x c) => [xc|/key //|->]; last by rewrite pc.
rewrite leNgt; apply/negP => px.
have [B eB] := mults_factor qn m1.
have val y : p.[y] - 1 = (y - c) * (rootpoly lo).[y] ^+ 2 * B.[y].
  have := congr1 (fun q => q.[y]) eB.
  by rewrite hornerD hornerN hornerC rootpoly_cons rootpoly_cat !hornerM hornerXsubC expr2.
have Bx : 0 < B.[x].
  have := val x; have : p.[x] - 1 < 0 by rewrite subr_lt0.
  move=> hlt e; rewrite ltNge; apply/negP => Bx; move: hlt; rewrite e ltNge.
  by rewrite mulr_le0 // mulr_le0_ge0 ?sqr_ge0 // subr_le0 ltW.
have Bh : B.[h] < 0.
  have := val h; rewrite (phi h hh).1 sub0r => e; rewrite ltNge; apply/negP => Bh.
  have : 0 <= (-1 : R) by rewrite e mulr_ge0 // mulr_ge0 ?sqr_ge0 // subr_ge0 ltW.
  by rewrite oppr_ge0 ler10.
have [|z hz rz] := @polyrcf.poly_ivt R (- B) x h (ltW (lt_trans xc ch)).
  by rewrite in_itv /= !hornerN oppr_le0 oppr_ge0 (ltW Bx) (ltW Bh).
rewrite rootN in rz.
have zh : z < h.
  rewrite lt_def (itvP hz) andbT eq_sym; apply: contraTneq rz => ->.
  by rewrite rootE lt_eqF.
have := @level_bound p (hi ++ hi) (z :: c :: lo ++ lo) d0 _ isT m0 (mults_consr eB qn rz).
have hn : hi ++ hi != [::] by apply: nlt; rewrite size_cat; case: (hi) nh.
have hsep x0 y : x0 \in z :: c :: lo ++ lo -> y \in hi ++ hi -> x0 < y.
  rewrite mem_cat orbb => hx0 /hmin hy; apply: lt_le_trans hy.
  move: hx0; rewrite !inE mem_cat orbb => /or3P [/eqP ->|/eqP ->|/hlo xl] //.
  exact: lt_trans ch.
by move=> /(_ hn hsep); rewrite [size (z :: _)]/= !size_cat; exact: (count_conflict2 sp).
Qed.
End Stieltjes.
