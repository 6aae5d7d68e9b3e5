(* Proofs about the run numbers and the simulation loops of ScriptsModel. *)
From mathcomp Require Import all_ssreflect all_algebra.
From Verif Require Import ScriptsModel.
Set Implicit Arguments.
Unset Strict Implicit.
Unset Printing Implicit Defensive.
Import Order.TTheory GRing.Theory Num.Theory.

(* ---- run numbers ---- *)
Lemma iota_blocks (p s : nat) :
  flatten [seq [seq (i * p + j)%N | j <- iota 0 p] | i <- iota 0 s] = iota 0 (p * s).
Proof.
elim: s => [|s IH]; first by rewrite muln0.
rewrite -addn1 iotaD map_cat flatten_cat IH /= cats0 add0n addn1 mulnS addnC iotaD add0n.
by congr (_ ++ _); rewrite mulnC -[in RHS](addn0 (p * s)%N) iotaDl.
Qed.

Lemma batch_ids_iota (p s : nat) : batch_ids p s = iota 0 (batch_maxmc p s).
Proof. exact: iota_blocks. Qed.

Lemma task_idsE (runs t : nat) : (0 < runs)%N ->
  task_ids runs t = [seq (t * runs + j)%N | j <- iota 0 runs].
Proof.
move=> r0; rewrite /task_ids /py_range /ed_mc /st_mc subnK ?addKn; last first.
  by rewrite (leq_trans r0) // leq_addl.
by rewrite -[in LHS](addn0 (t * runs)%N) iotaDl.
Qed.

Lemma array_ids_iota (runs last : nat) : (0 < runs)%N ->
  array_ids runs last = iota 0 (runs * last.+1).
Proof.
move=> r0; rewrite /array_ids -iota_blocks; congr flatten.
by apply: eq_map => t; rewrite task_idsE.
Qed.

Lemma pf_array_ids_iota (p last : nat) : pf_array_ids p last = iota 0 (p * last.+1).
Proof. exact: iota_blocks. Qed.

Lemma read_ids_iota (n : nat) : read_ids n = iota 0 n.
Proof. by rewrite /read_ids /py_range subn0. Qed.

(* ---- NumPy indexing ---- *)
Lemma ohead_drop (T : Type) (x0 : T) (s : seq T) k : (k < size s)%N -> ohead (drop k s) = Some (nth x0 s k).
Proof. by move=> h; rewrite (drop_nth x0 h). Qed.

Lemma np_get_pos (T : Type) (x0 : T) (s : seq T) k :
  np_get s (Posz k) = if (k < size s)%N then Some (nth x0 s k) else None.
Proof. by rewrite /np_get /=; case: ifP => // h; exact: ohead_drop. Qed.

Lemma np_get_last (T : Type) (x0 : T) (s : seq T) : s <> [::] -> np_get s (Negz 0) = Some (last x0 s).
Proof.
move=> h; have s0 : (0 < size s)%N by case: s h.
by rewrite /np_get /= s0 subn1 (@ohead_drop _ x0) ?nth_last // prednK.
Qed.

(* ---- the loop of the prey-predator scripts ---- *)
Section PP.
Variables (R : rcfType) (K Y : Type) (split1 : K -> K) (simulate : K -> seq (seq (option R)) * Y).
Local Notation sim := (pp_simulate split1 simulate).

(* the least number of splits after which the simulation has no NaN *)
Definition first_good (key : K) (j : nat) : Prop :=
  ~~ any_nan2 (simulate (iter j split1 key)).1 /\
  forall i, (i < j)%N -> any_nan2 (simulate (iter i split1 key)).1.

Lemma first_good_uniq key j j' : first_good key j -> first_good key j' -> j = j'.
Proof.
move=> [g b] [g' b']; case: (ltngtP j j') => // h.
- by rewrite b' in g.
- by rewrite b in g'.
Qed.

Lemma pp_simulateP fuel key d :
  sim fuel key = Ret d <->
  exists j, [/\ (j <= fuel)%N, first_good key j & d = (iter j split1 key, simulate (iter j split1 key))].
Proof.
elim: fuel key d => [|f IH] key d /=.
- split.
  + case: ifP => // g [<-]; exists 0; split=> //; split=> //=; by rewrite g.
  + move=> [j [jf [g b] ->]]; move: jf g b; rewrite leqn0 => /eqP-> /= g _.
    by rewrite (negbTE g).
case: ifP => g; split.
- move=> /IH [j [jf [g1 b1] ->]]; exists j.+1; rewrite iterSr; split=> //.
  split; first by rewrite iterSr.
  by move=> [|i] // ij; rewrite iterSr; apply: b1.
- move=> [[|j] [jf [g1 b1] ->]]; first by rewrite /= g in g1.
  apply/IH; exists j; rewrite iterSr; split=> //; split.
    by rewrite -iterSr.
  by move=> i ij; rewrite -iterSr; apply: b1.
- move=> [<-]; exists 0; split=> //; split=> //=; by rewrite g.
- move=> [[|j] [jf [g1 b1] ->]] //.
  by move: (b1 0 isT); rewrite /= g.
Qed.

Lemma pp_simulate_stuck key :
  (forall fuel, sim fuel key = Running) <-> forall j, any_nan2 (simulate (iter j split1 key)).1.
Proof.
split=> h.
- move=> j; apply/negP => /negP g.
  have [j0 [g0 m0]] : exists j0, ~~ any_nan2 (simulate (iter j0 split1 key)).1 /\
      forall i, (i < j0)%N -> any_nan2 (simulate (iter i split1 key)).1.
    have ex : exists j, ~~ any_nan2 (simulate (iter j split1 key)).1 by exists j.
    exists (ex_minn ex); case: ex_minnP => m gm mm; split=> // i im.
    by apply/negP => /negP gi; move: (mm i gi); rewrite leqNgt im.
  have := h j0; have /pp_simulateP -> // : exists j, [/\ (j <= j0)%N, first_good key j &
    (iter j0 split1 key, simulate (iter j0 split1 key)) = (iter j split1 key, simulate (iter j split1 key))].
  by exists j0; split.
- move=> fuel; elim: fuel key h => [|f IH] key h /=; first by rewrite (h 0).
  rewrite (h 0); apply: IH => j; by rewrite -iterSr.
Qed.

Variables (keys : seq K) (key0 : K).

(* the data of run k *)
Definition run_data (k : nat) (key : K) (xs : seq (seq (option R))) (ys : Y) : Prop :=
  exists j, [/\ first_good (nth key0 keys k) j, key = iter j split1 (nth key0 keys k)
              & (xs, ys) = simulate key].

Lemma run_data_uniq k key xs ys key' xs' ys' :
  run_data k key xs ys -> run_data k key' xs' ys' -> [/\ key = key', xs = xs' & ys = ys'].
Proof.
move=> [j [g -> e]] [j' [g' -> e']]; have jj := first_good_uniq g g'.
by move: e'; rewrite -jj -e => -[-> ->].
Qed.

Lemma run_data_nan k key xs ys : run_data k key xs ys -> ~~ any_nan2 xs.
Proof. by move=> [j [[g _] -> e]]; have := congr1 fst e => /= ->. Qed.

Lemma pp_runP (T : Type) (errs : K -> seq (seq (option R)) -> Y -> T) fuel k e :
  pp_run split1 simulate keys errs fuel k = Ret e ->
  (k < size keys)%N /\ exists key xs ys, run_data k key xs ys /\ e = errs key xs ys.
Proof.
rewrite /pp_run (np_get_pos key0); case: ifP => // ks.
case E : (pp_simulate _ _ _ _) => [[key [xs ys]]||] // [<-]; split=> //.
exists key, xs, ys; split=> //; move/pp_simulateP: E => [j [_ g [-> e1]]].
by exists j.
Qed.

Lemma pp_run_total (T : Type) (errs : K -> seq (seq (option R)) -> Y -> T) k j :
  (k < size keys)%N -> first_good (nth key0 keys k) j ->
  forall fuel, (j <= fuel)%N ->
  pp_run split1 simulate keys errs fuel k =
    Ret (errs (iter j split1 (nth key0 keys k)) (simulate (iter j split1 (nth key0 keys k))).1
                (simulate (iter j split1 (nth key0 keys k))).2).
Proof.
move=> ks g fuel jf; rewrite /pp_run (np_get_pos key0) ks.
have /pp_simulateP -> // : exists i, [/\ (i <= fuel)%N, first_good (nth key0 keys k) i &
  (iter j split1 (nth key0 keys k), simulate (iter j split1 (nth key0 keys k))) =
  (iter i split1 (nth key0 keys k), simulate (iter i split1 (nth key0 keys k)))].
by exists j; split.
Qed.
End PP.

(* ---- NaN in the errors ---- *)
Section NanErrs.
Variable R : rcfType.
Implicit Types a b : seq (seq (option R)).

(* same shape *)
Definition same_shape a b : Prop := map size a = map size b.

Lemma any_nan_zip (r s : seq (option R)) : size r = size s ->
  any_nan [seq nan_abs_sub t.1 t.2 | t <- zip r s] = any_nan r || any_nan s.
Proof.
elim: r s => [|x r IH] [|y s] //= [h]; rewrite IH //.
by case: x => [x|]; case: y => [y|]; rewrite /= ?orbT.
Qed.

Lemma nan_errs_row a b k : same_shape a b ->
  any_nan (nth [::] (nan_errs a b) k) = any_nan (nth [::] a k) || any_nan (nth [::] b k).
Proof.
elim: a b k => [|r a IH] [|s b] [|k] //= [h hs]; last exact: IH.
exact: any_nan_zip.
Qed.

Lemma any_nan2_errs a b : same_shape a b -> any_nan2 (nan_errs a b) = any_nan2 a || any_nan2 b.
Proof.
elim: a b => [|r a IH] [|s b] //= [h hs]; rewrite (IH _ hs) any_nan_zip //.
by case: (any_nan r); case: (any_nan s); rewrite /= ?orbT.
Qed.
End NanErrs.

(* ---- time_profile ---- *)
Section TP.
Variables (K Y : Type) (split1 : K -> K) (simulator : K -> Y) (nan_result : Y -> bool) (keys : seq K) (key0 : K).
Local Notation sp i key := (iter i split1 key).

Lemma tp_whileP fuel kn ys kn' ys' :
  tp_while split1 simulator nan_result fuel kn ys = Ret (kn', ys') ->
  ~~ nan_result ys' /\
  ((~~ nan_result ys /\ kn' = kn /\ ys' = ys) \/
   (nan_result ys /\ exists j, [/\ (0 < j)%N, kn' = sp j kn, ys' = simulator kn' &
      forall i, (0 < i < j)%N -> nan_result (simulator (sp i kn))])).
Proof.
elim: fuel kn ys => [|f IH] kn ys /=; case: ifP => // g.
- by move=> [<- <-]; rewrite g; split=> //; left.
- move=> /IH [g' h]; split=> //; right; split=> //.
  case: h => [[g1 [-> ->]]|[g1 [j [j0 -> -> hj]]]].
    by exists 1; split=> // i; rewrite ltnS => /andP[i0]; rewrite leqn0 => /eqP i00; rewrite i00 in i0.
  exists j.+1; rewrite iterSr; split=> // i /andP[i0 ij].
  case: i i0 ij => [|[|i]] // _ ij.
  by rewrite iterSr; apply: hj.
- by move=> [<- <-]; rewrite g; split=> //; left.
Qed.

Lemma tp_while_total kn ys j : nan_result ys -> (0 < j)%N ->
  ~~ nan_result (simulator (sp j kn)) -> (forall i, (0 < i < j)%N -> nan_result (simulator (sp i kn))) ->
  forall fuel, (j <= fuel)%N ->
  tp_while split1 simulator nan_result fuel kn ys = Ret (sp j kn, simulator (sp j kn)).
Proof.
elim: j kn ys => [|j IH] kn ys // g _ gj hj [|fuel] // jf.
rewrite /= g; case: j IH gj hj jf => [|j] IH gj hj jf.
  by case: fuel jf => [|fuel] _; rewrite /= (negbTE gj).
rewrite [in RHS]iterSr; apply: IH => //.
- exact: (hj 1).
- by rewrite -iterSr.
- by move=> i /andP[i0 ij]; rewrite -iterSr; apply: hj; apply/andP; split.
Qed.

(* what the script times in run k, when c and c' of the spare data sets were drawn before and
   after it *)
Definition timed (kn : K) (k c c' : nat) (ys : Y) : Prop :=
  ~~ nan_result ys /\
  let own := simulator (nth key0 keys k) in
  if nan_result own then
    [/\ (c < c')%N, ys = simulator (sp c' kn) & forall i, (c < i < c')%N -> nan_result (simulator (sp i kn))]
  else c' = c /\ ys = own.

Lemma foldl_bad fuel (s : outcome (K * seq (option Y))) r :
  (if s is Ret _ then false else true) -> foldl (tp_mf_step split1 simulator nan_result keys fuel) s r = s.
Proof. by move=> h; elim: r => //= x r IH; case: s h IH. Qed.

Lemma set_nth_nseq (T : Type) (s : seq (option T)) n x : 
  set_nth None (s ++ nseq n.+1 None) (size s) x = (s ++ [:: x]) ++ nseq n None.
Proof. by elim: s => //= y s ->. Qed.

Lemma tp_loopP fuel kn0 n c0 (pre : seq Y) kn times : 
  foldl (tp_mf_step split1 simulator nan_result keys fuel)
     (Ret (sp c0 kn0, map Some pre ++ nseq n None)) [seq Posz k | k <- iota (size pre) n] = Ret (kn, times) ->
  exists (c : nat -> nat) (ys : seq Y),
    [/\ c 0%N = c0, size ys = n, times = map Some (pre ++ ys), kn = sp (c n) kn0 &
    forall i y0, (i < n)%N -> timed kn0 (size pre + i) (c i) (c i.+1) (nth y0 ys i)
       /\ (size pre + i < size keys)%N].
Proof.
elim: n c0 pre => [|n IH] c0 pre.
  by move=> [<- <-]; exists (fun=> c0), [::]; rewrite !cats0; split.
rewrite [LHS]/= (np_get_pos key0); case: ifP => ks; last by rewrite foldl_bad.
case W : (tp_while _ _ _ _ _ _) => [[kn1 y1]||]; last 2 first.
- by rewrite foldl_bad.
- by rewrite foldl_bad.
have [g h] := tp_whileP W.
have e : set_nth None (map Some pre ++ nseq n.+1 None) (size pre) (Some y1) =
    map Some (rcons pre y1) ++ nseq n None.
  by rewrite -[size pre](size_map Some) set_nth_nseq map_rcons cats1.
have [c1 [c01 ek t1]] : exists c1, [/\ (c0 <= c1)%N, kn1 = sp c1 kn0 & timed kn0 (size pre) c0 c1 y1].
  case: h => [[g1 [-> ->]]|[g1 [j [j0 ek ey hj]]]].
    by exists c0; split=> //; split=> //=; rewrite (negbTE g1).
  exists (j + c0)%N; rewrite iterD; split=> //; first exact: leq_addl.
  split; first exact: g.
  rewrite /= g1; split; first by rewrite -[X in (X < _)%N]add0n ltn_add2r.
    by rewrite iterD -ek.
  move=> i /andP[ci ij]; rewrite -(subnK (ltnW ci)) iterD; apply: hj.
  by rewrite subn_gt0 ci ltn_subLR ?(ltnW ci) // addnC.
rewrite e ek -[X in iota X](size_rcons pre y1) => /IH [c [ys [cE sz -> -> H]]].
exists (fun i => if i is i'.+1 then c i' else c0), (y1 :: ys); split=> //.
- by rewrite /= sz.
- by rewrite cat_rcons.
move=> [|i] y0 il /=; first by rewrite addn0 cE.
by have := H i y0 il; rewrite size_rcons addSnnS.
Qed.

Lemma least_after (P : pred nat) c : (exists j, (c < j)%N && P j) ->
  exists j, [/\ (c < j)%N, P j & forall i, (c < i < j)%N -> ~~ P i].
Proof.
move=> ex; exists (ex_minn ex); case: ex_minnP => m /andP[cm pm] mm; split=> // i /andP[ci im].
by apply/negP => pi; move: (mm i); rewrite ci pi => /(_ isT); rewrite leqNgt im.
Qed.

Lemma tp_loop_total kn0 n c0 (pre : seq Y) :
  (size pre + n <= size keys)%N ->
  (forall i, exists j, (i < j)%N && ~~ nan_result (simulator (sp j kn0))) ->
  exists fuel0, forall fuel, (fuel0 <= fuel)%N -> exists kn times,
  foldl (tp_mf_step split1 simulator nan_result keys fuel)
     (Ret (sp c0 kn0, map Some pre ++ nseq n None)) [seq Posz k | k <- iota (size pre) n] = Ret (kn, times).
Proof.
move=> + spare; elim: n c0 pre => [|n IH] c0 pre.
  by move=> _; exists 0 => fuel _; eexists; eexists.
rewrite addnS => hs.
have e y1 : set_nth None (map Some pre ++ nseq n.+1 None) (size pre) (Some y1) =
    map Some (rcons pre y1) ++ nseq n None.
  by rewrite -[size pre](size_map Some) set_nth_nseq map_rcons cats1.
have ks : (size pre < size keys)%N by apply: leq_trans hs; rewrite ltnS leq_addr.
have hr y1 : (size (rcons pre y1) + n <= size keys)%N by rewrite size_rcons addSn.
case own : (nan_result (simulator (nth key0 keys (size pre)))).
- have [j [cj gj bj]] := least_after (spare c0).
  have [f1 H1] := IH j (rcons pre (simulator (sp j kn0))) (hr _).
  exists (maxn (j - c0) f1) => fuel; rewrite geq_max => /andP[fj ff].
  have [kn [times H]] := H1 fuel ff; exists kn, times; rewrite -H.
  rewrite [LHS]/= (np_get_pos key0) ks.
  have W := @tp_while_total (sp c0 kn0) _ (j - c0) own _ _ _ fuel fj.
  rewrite W ?subn_gt0 //; first by rewrite e -iterD subnK ?(ltnW cj) // size_rcons.
    by rewrite -iterD subnK // ltnW.
  move=> i /andP[i0 ij]; rewrite -iterD; apply/negPn/bj.
  by rewrite -[X in (X < _)%N]add0n ltn_add2r i0 addnC -ltn_subRL ij.
- have [f1 H1] := IH c0 (rcons pre (simulator (nth key0 keys (size pre)))) (hr _).
  exists f1 => fuel ff; have [kn [times H]] := H1 fuel ff; exists kn, times; rewrite -H.
  rewrite [LHS]/= (np_get_pos key0) ks.
  have -> : tp_while split1 simulator nan_result fuel (sp c0 kn0) (simulator (nth key0 keys (size pre))) =
     Ret (sp c0 kn0, simulator (nth key0 keys (size pre))) by case: fuel {ff H} => [|fuel]; rewrite /= own.
  by rewrite e size_rcons.
Qed.

Lemma tp_mfP fuel maxmc kn times :
  tp_mf split1 simulator nan_result keys fuel maxmc = Ret (kn, times) ->
  keys <> [::] /\ exists (c : nat -> nat) (ys : seq Y),
    [/\ c 0%N = 0, size ys = maxmc, times = map Some ys, (maxmc <= size keys)%N &
    forall i y0, (i < maxmc)%N -> timed (last key0 keys) i (c i) (c i.+1) (nth y0 ys i)].
Proof.
rewrite /tp_mf; case E : keys => [|a l]; first by [].
have kn0 : keys <> [::] by rewrite E.
rewrite -E (np_get_last key0 kn0) [foldl _ _ _]/= (np_get_last key0 kn0).
move=> /(@tp_loopP fuel (last key0 keys) maxmc 0 [::]) [c [ys [c0 sz -> _ H]]].
split; first by rewrite E.
exists c, ys; split=> //.
- case: maxmc sz H => // m sz H.
  have [] // := H m (simulator key0) (ltnSn m).
- by move=> i y0 im; have [] := H i y0 im.
Qed.

Lemma tp_mf_total maxmc : keys <> [::] -> (maxmc <= size keys)%N ->
  (forall i, exists j, (i < j)%N && ~~ nan_result (simulator (sp j (last key0 keys)))) ->
  exists fuel0, forall fuel, (fuel0 <= fuel)%N ->
  exists kn times, tp_mf split1 simulator nan_result keys fuel maxmc = Ret (kn, times).
Proof.
move=> k0 ks spare; have [f H] := @tp_loop_total (last key0 keys) maxmc 0 [::] ks spare.
exists f => fuel ff; have [kn [times h]] := H fuel ff; exists kn, times; rewrite -h.
by rewrite /tp_mf (np_get_last key0 k0) [foldl _ _ _]/= (np_get_last key0 k0).
Qed.

Lemma tp_plain_loop n (pre : seq Y) : (size pre + n <= size keys)%N ->
  foldl (tp_plain_step simulator keys) (Ret (map Some pre ++ nseq n None)) [seq Posz k | k <- iota (size pre) n]
  = Ret (map Some (pre ++ [seq simulator (nth key0 keys k) | k <- iota (size pre) n])).
Proof.
elim: n pre => [|n IH] pre hs; first by rewrite !cats0.
have ks : (size pre < size keys)%N by apply: leq_trans hs; rewrite -addSnnS leq_addr.
rewrite [LHS]/= (np_get_pos key0) ks.
have -> y1 : set_nth None (map Some pre ++ None :: nseq n None) (size pre) (Some y1) =
    map Some (rcons pre y1) ++ nseq n None.
  by rewrite -[size pre](size_map Some) (set_nth_nseq _ n) map_rcons cats1.
have := IH (rcons pre (simulator (nth key0 keys (size pre)))); rewrite size_rcons => -> //.
  by rewrite cat_rcons.
by rewrite addSnnS.
Qed.

Lemma tp_plainE maxmc : keys <> [::] -> (maxmc <= size keys)%N ->
  tp_plain simulator keys maxmc = Ret [seq Some (simulator (nth key0 keys k)) | k <- iota 0 maxmc].
Proof.
move=> k0 ks; rewrite /tp_plain [foldl _ _ _]/= (np_get_last key0 k0).
by rewrite (@tp_plain_loop maxmc [::]) //= -map_comp.
Qed.
End TP.
