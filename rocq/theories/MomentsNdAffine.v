(* Moments of affinely transformed normal vectors. *)
From mathcomp Require Import all_ssreflect all_algebra.
From mathcomp Require Import zify ring.
From Verif Require Import Prelude NdIndexModel QuadSpec QuadProofs QuadNdSpec QuadNdAffine.
From Verif Require Import SigmaSpec MomentsNdModel MomentsNdSpec MomentsNdKan MomentsNdMvn.
Set Implicit Arguments.
Unset Strict Implicit.
Unset Printing Implicit Defensive.
Import Order.TTheory GRing.Theory Num.Theory.
Local Open Scope ring_scope.

(* Apply a function at one position. *)
Section Mapat.
Variable T : Type.
Fixpoint mapat (i : nat) (F : T -> T) (ps : seq T) : seq T :=
  match ps, i with
  | [::], _ => [::]
  | p :: ps', 0%N => F p :: ps'
  | p :: ps', i'.+1 => p :: mapat i' F ps'
  end.

Lemma size_mapat i F ps : size (mapat i F ps) = size ps.
Proof. by elim: ps i => [|p ps IH] [|i] //=; rewrite IH. Qed.

Lemma nth_mapat x0 i F ps j : (j < size ps)%N ->
  nth x0 (mapat i F ps) j = if j == i then F (nth x0 ps j) else nth x0 ps j.
Proof. by elim: ps i j => [|p ps IH] [|i] [|j] //= h; rewrite IH. Qed.

Lemma mapat_lt i F ps1 p ps2 : (i < size ps1)%N -> mapat i F (ps1 ++ p :: ps2) = mapat i F ps1 ++ p :: ps2.
Proof. by elim: ps1 i => [|q ps1 IH] [|i] //= h; rewrite IH. Qed.

Lemma mapat_eq F ps1 p ps2 : mapat (size ps1) F (ps1 ++ p :: ps2) = ps1 ++ F p :: ps2.
Proof. by elim: ps1 => [|q ps1 IH] //=; rewrite IH. Qed.

Lemma mapat_gt i F ps1 p ps2 : (size ps1 < i)%N ->
  mapat i F (ps1 ++ p :: ps2) = ps1 ++ p :: mapat (i - (size ps1).+1) F ps2.
Proof. by elim: ps1 i => [|q ps1 IH] [|i] //= h; rewrite ?subn1 // IH. Qed.

Lemma mapat_split x0 i F ps : (i < size ps)%N ->
  mapat i F ps = take i ps ++ F (nth x0 ps i) :: drop i.+1 ps.
Proof. by elim: ps i => [|p ps IH] [|i] //= h; rewrite ?drop0 // IH. Qed.
End Mapat.

Section Multilinear.
Variables (R : rcfType) (M : seq nat -> R).
Local Notation T := (tens_functional M).
Implicit Types (A B : seq {poly R} -> R) (ps : seq {poly R}).

Definition slot_linear d A := forall ps1 ps2 a b p q, (size ps1 + (size ps2).+1)%N = d ->
  A (ps1 ++ (a *: p + b *: q) :: ps2) = a * A (ps1 ++ p :: ps2) + b * A (ps1 ++ q :: ps2).

Lemma slot_sum d A ps1 ps2 n (c : 'I_n -> R) (F : 'I_n -> {poly R}) : slot_linear d A ->
  (size ps1 + (size ps2).+1)%N = d ->
  A (ps1 ++ (\sum_j c j *: F j) :: ps2) = \sum_j c j * A (ps1 ++ F j :: ps2).
Proof.
move=> hA hd; elim: (index_enum _) => [|j r IH].
  by rewrite !big_nil; have := hA ps1 ps2 0 0 0 0 hd; rewrite !scale0r addr0 !mul0r addr0.
by rewrite !big_cons -[X in _ + X]scale1r hA // mul1r IH.
Qed.

Lemma slot_agree A B d : slot_linear d A -> slot_linear d B ->
  (forall k, size k = d -> A [seq 'X^j | j <- k] = B [seq 'X^j | j <- k]) ->
  forall ps, size ps = d -> A ps = B ps.
Proof.
move=> hA hB h ps hps.
suff hh us k : (size k + size us)%N = d -> A ([seq 'X^j | j <- k] ++ us) = B ([seq 'X^j | j <- k] ++ us).
  exact: (hh ps [::]).
elim: us k => [|p us IH] k hk; first by rewrite cats0; apply: h; rewrite -hk addn0.
rewrite [p](poly_widen (leqnn _)) !(slot_sum (d := d)) ?size_map //; apply: eq_bigr => j _; congr (_ * _).
have := IH (rcons k j); rewrite map_rcons cat_rcons => -> //.
by rewrite size_rcons addSnnS.
Qed.

Lemma slot_mapat d i (F : {poly R} -> {poly R}) :
  (forall a b p q, F (a *: p + b *: q) = a *: F p + b *: F q) ->
  slot_linear d (fun ps => T (mapat i F ps)).
Proof.
move=> hF ps1 ps2 a b p q _; case: (ltngtP i (size ps1)) => h.
- by rewrite !mapat_lt // tens_slot.
- by rewrite !mapat_gt // tens_slot.
- by rewrite h !mapat_eq hF tens_slot.
Qed.

Lemma slot_T d : slot_linear d T.
Proof. by move=> *; exact: tens_slot. Qed.

Lemma slot_lin d A c : slot_linear d A -> slot_linear d (fun ps => c * A ps).
Proof. by move=> h ps1 ps2 a b p q hd; rewrite h // mulrDr !(mulrCA c). Qed.

Lemma slot_add d A B : slot_linear d A -> slot_linear d B -> slot_linear d (fun ps => A ps + B ps).
Proof.
by move=> hA hB ps1 ps2 a b p q hd; rewrite hA // hB // !mulrDr addrACA.
Qed.

Lemma slot_big d n (A : 'I_n -> seq {poly R} -> R) : (forall j, slot_linear d (A j)) ->
  slot_linear d (fun ps => \sum_j A j ps).
Proof.
move=> h ps1 ps2 a b p q hd; rewrite !mulr_sumr -big_split; apply: eq_bigr => j _.
exact: h.
Qed.

Lemma mapat_lin i a b (F G : {poly R} -> {poly R}) ps : (i < size ps)%N ->
  T (mapat i (fun p => a *: F p + b *: G p) ps) = a * T (mapat i F ps) + b * T (mapat i G ps).
Proof. by move=> h; rewrite !(mapat_split 0 _ h) tens_slot. Qed.

Lemma mapat_id i ps : mapat i id ps = ps.
Proof. by elim: ps i => [|p ps IH] [|i] //=; rewrite IH. Qed.
End Multilinear.

Section Stein.
Variables (R : rcfType) (d : nat) (m : 'cV[R]_d) (P : 'M[R]_d) (M : seq nat -> R).
Hypothesis hM : mvn_moments m P M.
Local Notation T := (tens_functional M).

Lemma stein (i : 'I_d) (ps : seq {poly R}) : size ps = d ->
  T (mapat i (fun p => 'X * p) ps) = m i 0 * T ps + \sum_j P i j * T (mapat j (@deriv R) ps).
Proof.
pose A ps := T (mapat i (fun p => 'X * p) ps).
pose B ps := m i 0 * T ps + \sum_j P i j * T (mapat (j : 'I_d) (@deriv R) ps).
apply: (@slot_agree R A B d).
- by apply: slot_mapat => a b p q; rewrite mulrDr !scalerAr.
- apply: slot_add; first by apply: slot_lin; exact: slot_T.
  apply: slot_big => j; apply: slot_lin; apply: slot_mapat => a b p q.
  by rewrite derivD !derivZ.
move=> k hk; rewrite /A /B.
have -> : mapat i (fun p => 'X * p) [seq 'X^j | j <- k] = [seq 'X^j | j <- minc k i] :> seq {poly R}.
  apply: (@eq_from_nth _ 0) => [|j]; first by rewrite size_mapat !size_map size_minc.
  rewrite size_mapat size_map => hj.
  rewrite nth_mapat ?size_map // !(nth_map 0%N) ?size_minc -?hk // nth_minc.
  by case: eqP => _; rewrite ?addn1 ?addn0 // exprS.
rewrite !tens_mono; have [_ ->] := hM; last by [].
congr (_ + _); apply: eq_bigr => j _; rewrite -mulrA; congr (_ * _).
have hj : (j < size k)%N by rewrite hk.
rewrite (mapat_split 0) ?size_map // (nth_map 0%N) // derivXn.
rewrite -scaler_nat -[X in _ ++ X :: _]addr0 -[X in _ + X](scale0r 0) tens_slot mul0r addr0.
congr (_ * _); rewrite -[LHS]tens_mono; congr (T _); symmetry.
apply: (@eq_from_nth _ 0) => [|l].
  by rewrite size_cat /= size_take size_drop !size_map size_mdec // hj hk; have := ltn_ord j; lia.
rewrite size_cat /= size_take size_drop size_map hj => hl.
have hl' : (l < size k)%N by move: hl hj; lia.
rewrite (nth_map 0%N) ?size_mdec -?hk // nth_mdec nth_cat size_take size_map hj.
case: ltnP => hlj; first by rewrite nth_take // (nth_map 0%N) // ltn_eqF // subn0.
case: (posnP (l - j)) => e.
  have -> : l = j by lia.
  by rewrite subnn eqxx subn1.
rewrite -(prednK e) /= nth_drop.
have -> : (j.+1 + (l - j).-1 = l)%N by lia.
by rewrite (nth_map 0%N) // gtn_eqF ?subn0 //; lia.
Qed.

(* The standardised vector (X - c) / s is normal. *)
Variables (c s : seq R).
Hypothesis hs : forall a, (a < d)%N -> nth 1 s a != 0.

Let af a : {poly R} := (nth 1 s a)^-1 *: ('X - (nth 0 c a)%:P).
Let aps (k : seq nat) : seq {poly R} := [seq af a ^+ nth 0%N k a | a <- iota 0 d].

Let affE k : size k = d -> affine_nd M c s k = T (aps k).
Proof. by move=> hk; rewrite /affine_nd hk. Qed.
Let size_aps k : size (aps k) = d. Proof. by rewrite size_map size_iota. Qed.
Let nth_aps k j : (j < d)%N -> nth 0 (aps k) j = af j ^+ nth 0%N k j.
Proof. by move=> h; rewrite (nth_map 0%N) ?size_iota // nth_iota. Qed.

Lemma affine_mvn :
  mvn_moments (\col_i ((m i 0 - nth 0 c i) / nth 1 s i)) (\matrix_(i, j) (P i j / (nth 1 s i * nth 1 s j)))
    (affine_nd M c s).
Proof.
split.
  rewrite affE ?size_nseq // -[RHS]hM.1 -[RHS]tens_mono; congr (T _).
  apply: (@eq_from_nth _ 0) => [|j]; first by rewrite size_aps size_map size_nseq.
  rewrite size_aps => hj; rewrite nth_aps // (nth_map 0%N) ?size_nseq // !nth_nseq hj !expr0 //.
move=> n i hn; rewrite !affE ?size_minc // mxE.
have -> : aps (minc n i) = mapat i (fun p => (nth 1 s i)^-1 *: ('X * p) + (- (nth 0 c i / nth 1 s i)) *: id p) (aps n).
  apply: (@eq_from_nth _ 0) => [|j]; first by rewrite size_mapat !size_aps.
  rewrite size_aps => hj; rewrite nth_mapat ?size_aps // !nth_aps // nth_minc.
  case: eqP => [->|_]; last by rewrite addn0.
  rewrite addn1 exprS {1}/af -scalerAl mulrBl scalerBr scaleNr; congr (_ - _).
  by rewrite mul_polyC scalerA mulrC.
rewrite (@mapat_lin R M i _ _ (fun p => 'X * p) id) ?size_aps // mapat_id stein ?size_aps //.
have -> : \sum_(j < d) (\matrix_(i0, j0) (P i0 j0 / (nth 1 s i0 * nth 1 s j0))) i j * (nth 0%N n j)%:R
    * affine_nd M c s (mdec n j) = (nth 1 s i)^-1 * \sum_j P i j * T (mapat j (@deriv R) (aps n)).
  rewrite mulr_sumr; apply: eq_bigr => j _; rewrite mxE affE ?size_mdec //.
  have hsi := hs (ltn_ord i); have hsj := hs (ltn_ord j).
  have -> : T (mapat j (@deriv R) (aps n)) = (nth 0%N n j)%:R / nth 1 s j * T (aps (mdec n j)).
    rewrite (mapat_split 0) ?size_aps // nth_aps //.
    have -> : (af j ^+ nth 0%N n j)^`() = ((nth 0%N n j)%:R / nth 1 s j) *: af j ^+ nth 0%N (mdec n j) j + 0 *: 0.
      rewrite scale0r addr0 deriv_exp nth_mdec eqxx subn1 /af derivZ derivB derivX derivC subr0.
      by rewrite -scalerAl mul1r -scaler_nat scalerA.
    rewrite tens_slot mul0r addr0; congr (_ * T _).
    apply: (@eq_from_nth _ 0) => [|l].
      by rewrite size_cat /= size_take size_drop !size_aps ltn_ord; have := ltn_ord j; lia.
    rewrite size_cat /= size_take size_drop !size_aps ltn_ord => hl.
    have hl' : (l < d)%N by move: hl (ltn_ord j); lia.
    rewrite nth_aps // !nth_mdec nth_cat size_take size_aps ltn_ord.
    case: ltnP => hlj; first by rewrite nth_take // nth_aps // ltn_eqF // subn0.
    case: (posnP (l - j)) => e.
      have -> : l = j by lia.
      by rewrite subnn eqxx subn1.
    rewrite -(prednK e) /= nth_drop.
    have -> : (j.+1 + (l - j).-1 = l)%N by lia.
    by rewrite nth_aps // gtn_eqF ?subn0 //; lia.
  move: (P i j) (nth 1 s i) (nth 1 s j) (nth 0%N n j)%:R (T _) hsi hsj => p x y z t hx hy.
  by field; rewrite hx hy.
move: (\sum_j _) (T _) (nth 1 s i) (nth 0 c i) (m i 0) (hs (ltn_ord i)) => S t x y z hx.
by field; rewrite hx.
Qed.
End Stein.
