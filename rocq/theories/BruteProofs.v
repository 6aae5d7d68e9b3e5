(* Specifications and proofs for the grid filter. *)
From Coq Require Import String Ascii.
From mathcomp Require Import all_ssreflect all_algebra.
From mathcomp Require Import zify ring.
From Verif Require Import Prelude SmcProofs BruteModel.
Set Implicit Arguments.
Unset Strict Implicit.
Unset Printing Implicit Defensive.
Import Order.TTheory GRing.Theory Num.Theory.
Local Open Scope ring_scope.

(* The trapezoidal rule on the grid xs. *)
Definition trapezoid (R : rcfType) (xs : seq R) (f : nat -> R) : R :=
  \sum_(0 <= i < (size xs).-1) (nth 0 xs i.+1 - nth 0 xs i) * (f i + f i.+1) / 2%:R.

(* grad differentiates the polynomial function p *)
Definition grad_at (R : rcfType) (grad : (R -> R) -> R -> R) (p : {poly R}) : Prop :=
  forall f, (forall x, f x = p.[x]) -> forall x, grad f x = (p^`()).[x].

Section Trapz.
Variable R : rcfType.
Implicit Types (xs ys : seq R).

Lemma trapzE xs ys : size ys = size xs -> trapz ys xs = trapezoid xs (nth 0 ys).
Proof.
rewrite /trapezoid; elim: xs ys => [|x xs IH] [|y ys] //=; first by move=> _; rewrite big_geq.
move=> [h]; case: xs ys h IH => [|x' xs] [|y' ys] //; first by move=> _ _; rewrite big_geq.
by move=> h /(_ _ h) IH; rewrite [size _]/= big_nat_recl // IH.
Qed.

Lemma trapz_scale (c : R) ys xs : trapz [seq c * v | v <- ys] xs = c * trapz ys xs.
Proof.
elim: ys xs => [|a l IH] xs; first by rewrite mulr0.
case: l IH => [|b l] IH; first by case: xs => *; rewrite mulr0.
case: xs => [|x [|x' s]]; rewrite ?mulr0 //.
have := IH (x' :: s); rewrite /= => ->.
by set z := (X in _ + c * X = _); rewrite [RHS]mulrDr; congr (_ + _); clear; field.
Qed.

Lemma trapezoid_ext xs f g : (forall i, (i < size xs)%N -> f i = g i) -> trapezoid xs f = trapezoid xs g.
Proof.
move=> h; apply: eq_big_nat => i /andP [_ hi].
by rewrite !h //; move: hi; clear; lia.
Qed.

Lemma trapezoid_scale xs c f : trapezoid xs (fun i => c * f i) = c * trapezoid xs f.
Proof. by rewrite /trapezoid mulr_sumr; apply: eq_bigr => i _; rewrite -mulrDr !mulrA (mulrC _ c). Qed.

Lemma trapezoid_div xs c f : trapezoid xs (fun i => f i / c) = trapezoid xs f / c.
Proof.
by rewrite [RHS]mulrC -trapezoid_scale; apply: trapezoid_ext => i _; rewrite mulrC.
Qed.

Lemma trapezoid_ge0 xs f : sorted <=%R xs -> (forall i, (i < size xs)%N -> 0 <= f i) -> 0 <= trapezoid xs f.
Proof.
move=> hs hf; rewrite /trapezoid big_nat_cond; apply: sumr_ge0 => i /andP [/andP [_ hi] _].
have hi' : (i.+1 < size xs)%N by move: hi; clear; lia.
apply: divr_ge0; last exact: ler0n.
apply: mulr_ge0; last by rewrite addr_ge0 ?hf ?(ltnW hi').
rewrite subr_ge0.
by case: (xs) hs hi' => [//|x s] hs hi'; exact: (pathP 0 hs i hi').
Qed.
End Trapz.

Section Update.
Variables (R : rcfType) (Y : Type) (pdf : Y -> seq R -> seq R) (xs : seq R).
Hypothesis pdf_size : forall y s, size (pdf y s) = size s.
Local Notation n := (size xs).

Lemma bf_update_size y ps : size ps = n -> size (bf_update pdf xs y ps) = n.
Proof. by move=> h; rewrite !size_map size_zip pdf_size h minnn. Qed.

Lemma nth_lik y ps i : size ps = n -> (i < n)%N ->
  nth 0 [seq p.1 * p.2 | p <- zip (pdf y xs) ps] i = nth 0 (pdf y xs) i * nth 0 ps i.
Proof.
move=> h hi; rewrite (nth_map (0, 0)) ?size_zip ?pdf_size ?h ?minnn //.
by rewrite nth_zip // pdf_size h.
Qed.

Lemma bf_updateE y ps i : size ps = n -> (i < n)%N ->
  nth 0 (bf_update pdf xs y ps) i =
  nth 0 (pdf y xs) i * nth 0 ps i / trapezoid xs (fun j => nth 0 (pdf y xs) j * nth 0 ps j).
Proof.
move=> h hi; have hl : size [seq p.1 * p.2 | p <- zip (pdf y xs) ps] = n.
  by rewrite size_map size_zip pdf_size h minnn.
rewrite (nth_map 0) ?hl // nth_lik // trapzE //.
by congr (_ / _); apply: trapezoid_ext => j hj; rewrite nth_lik.
Qed.

Lemma bf_update_normal y ps : size ps = n ->
  trapezoid xs (fun j => nth 0 (pdf y xs) j * nth 0 ps j) != 0 ->
  trapezoid xs (nth 0 (bf_update pdf xs y ps)) = 1.
Proof.
move=> h h0; rewrite -(divff h0) -[RHS]trapezoid_div; apply: trapezoid_ext => i hi.
by rewrite bf_updateE.
Qed.
End Update.

Section Run.
Variables (R : rcfType) (Y : Type) (pdf : Y -> seq R -> seq R) (xs : seq R) (y0 : Y).
Hypothesis pdf_size : forall y s, size (pdf y s) = size s.
Local Notation n := (size xs).
Variable pred : seq R -> seq R.
Hypothesis pred_size : forall ps, size ps = n -> size (pred ps) = n.
Local Notation run := (bf_run pdf xs pred).

Lemma bf_run_cons ps y ys : run ps (y :: ys) =
  bf_update pdf xs y (pred ps) :: run (bf_update pdf xs y (pred ps)) ys.
Proof. by rewrite /bf_run scan_cons'. Qed.

Lemma bf_run_steps init ys (sol := run init ys)
  (prev := fun t => if t is t'.+1 then nth [::] sol t' else init) :
  size sol = size ys /\
  forall t, (t < size ys)%N -> nth [::] sol t = bf_update pdf xs (nth y0 ys t) (pred (prev t)).
Proof.
rewrite {}/prev {}/sol; elim: ys init => [|y ys IH] init; first by [].
rewrite bf_run_cons /=; set s1 := bf_update _ _ _ _.
have [h1 h2] := IH s1; rewrite h1; split=> //.
case=> [_ //|t]; rewrite ltnS => ht; rewrite /= h2 //.
by case: t ht.
Qed.

Lemma bf_run_size init ys (sol := run init ys)
  (prev := fun t => if t is t'.+1 then nth [::] sol t' else init) :
  size init = n -> forall t, (t <= size ys)%N -> size (prev t) = n.
Proof.
move=> h; have [h1 h2] := bf_run_steps init ys.
elim=> [|t IH] ht //=; rewrite /sol h2 // bf_update_size // pred_size //.
by apply: IH; exact: ltnW.
Qed.

(* The trajectory: prediction then Bayes' rule with the trapezoidal normaliser. *)
Lemma bf_run_bayes init ys (sol := run init ys)
  (prev := fun t => if t is t'.+1 then nth [::] sol t' else init)
  (Z := fun t => trapezoid xs (fun j => nth 0 (pdf (nth y0 ys t) xs) j * nth 0 (pred (prev t)) j)) :
  size init = n ->
  [/\ size sol = size ys,
      forall t i, (t < size ys)%N -> (i < n)%N ->
        nth 0 (nth [::] sol t) i = nth 0 (pdf (nth y0 ys t) xs) i * nth 0 (pred (prev t)) i / Z t
    & forall t, (t < size ys)%N -> Z t != 0 -> trapezoid xs (nth 0 (nth [::] sol t)) = 1].
Proof.
move=> h; have [h1 h2] := bf_run_steps init ys; split=> //.
  move=> t i ht hi; rewrite /sol h2 // bf_updateE // pred_size //.
  by apply: bf_run_size => //; exact: ltnW.
move=> t ht h0; rewrite /sol h2 // bf_update_normal // pred_size //.
by apply: bf_run_size => //; exact: ltnW.
Qed.

Lemma bf_run_scale (c : Y -> R) init ys : (forall y, c y != 0) ->
  bf_run (fun y s => [seq c y * v | v <- pdf y s]) xs pred init ys = run init ys.
Proof.
move=> hc; elim: ys init => [//|y ys IH] init; rewrite /bf_run !scan_cons' -!/(bf_run _ _ _ _ _) /=.
have -> : forall ps, bf_update (fun y s => [seq c y * v | v <- pdf y s]) xs y ps = bf_update pdf xs y ps.
  move=> ps; rewrite /bf_update.
  have -> : [seq p.1 * p.2 | p <- zip [seq c y * v | v <- pdf y xs] ps]
           = [seq c y * v | v <- [seq p.1 * p.2 | p <- zip (pdf y xs) ps]].
    by elim: (pdf y xs) ps => [|a s IHs] [|p ps] //=; rewrite IHs mulrA.
  set l := [seq p.1 * p.2 | p <- _].
  have -> : trapz [seq c y * v | v <- l] xs = c y * trapz l xs.
    exact: trapz_scale.
  by rewrite -map_comp; apply: eq_map => v /=; rewrite -mulf_div divff // mul1r.
by congr (_ :: _); exact: IH.
Qed.

Lemma bf_update_homog (a : R) y ps : a != 0 ->
  bf_update pdf xs y [seq a * v | v <- ps] = bf_update pdf xs y ps.
Proof.
move=> ha; rewrite /bf_update.
have -> : [seq p.1 * p.2 | p <- zip (pdf y xs) [seq a * v | v <- ps]]
         = [seq a * v | v <- [seq p.1 * p.2 | p <- zip (pdf y xs) ps]].
  elim: (pdf y xs) ps => [|b s IHs] [|p ps] //=; rewrite IHs mulrCA //.
set l := [seq p.1 * p.2 | p <- _].
have -> : trapz [seq a * v | v <- l] xs = a * trapz l xs.
  exact: trapz_scale.
by rewrite -map_comp; apply: eq_map => v /=; rewrite -mulf_div divff // mul1r.
Qed.

Lemma bf_run_homog (a : R) init ys : a != 0 ->
  (forall ps, pred [seq a * v | v <- ps] = [seq a * v | v <- pred ps]) ->
  run [seq a * v | v <- init] ys = run init ys.
Proof.
move=> ha hp; case: ys => [//|y ys]; rewrite !bf_run_cons hp bf_update_homog //.
Qed.

Lemma bf_run_ge0 init ys : sorted <=%R xs ->
  (forall y s, all (fun v => 0 <= v) (pdf y s)) ->
  (forall ps, size ps = n -> all (fun v => 0 <= v) ps -> all (fun v => 0 <= v) (pred ps)) ->
  size init = n -> all (fun v => 0 <= v) init ->
  forall ps, ps \in run init ys -> all (fun v => 0 <= v) ps.
Proof.
move=> hs hpdf hpred; elim: ys init => [//|y ys IH] init hsz hi ps; rewrite bf_run_cons inE.
have hps := pred_size hsz; have hp0 := hpred _ hsz hi.
have hl i : (i < n)%N -> 0 <= nth 0 (pdf y xs) i * nth 0 (pred init) i.
  by move=> h; rewrite mulr_ge0 //; [apply: (all_nthP 0 (hpdf _ _)); rewrite pdf_size|apply: (all_nthP 0 hp0); rewrite hps].
have hu : all (fun v => 0 <= v) (bf_update pdf xs y (pred init)).
  apply/(all_nthP 0) => i; rewrite bf_update_size // => h; rewrite bf_updateE //.
  by rewrite divr_ge0 ?hl // trapezoid_ge0.
case/orP => [/eqP -> //|]; apply: IH => //; exact: bf_update_size.
Qed.
End Run.

Section Pred.
Variable R : rcfType.
Variables (grad : (R -> R) -> R -> R) (norm_pdf : R -> R -> R -> R).
Variables (drift dispersion : R -> R) (xs : seq R) (dt : R) (k : nat).
Local Notation n := (size xs).

(* ---- Chapman--Kolmogorov ---- *)
Section Chapman.
Variables (mu sg : R -> R).
Local Notation st := ([seq mu x | x <- xs], [seq sg x | x <- xs]).

Lemma integrateE x q : size q = n ->
  integrate_transition norm_pdf xs st x q =
  trapezoid xs (fun j => norm_pdf x (mu (nth 0 xs j)) (sg (nth 0 xs j)) * nth 0 q j).
Proof.
move=> h; rewrite /integrate_transition trapzE; last by rewrite size_map !size_zip !size_map h !minnn.
apply: trapezoid_ext => i hi.
rewrite (nth_map (0, 0, 0)) ?size_zip ?size_map ?h ?minnn //.
rewrite nth_zip ?size_zip ?size_map ?h ?minnn //= nth_zip ?size_map //=.
by rewrite !(nth_map 0).
Qed.

Lemma chapman_size q : size q = n -> size (pred_chapman norm_pdf xs k st q) = n.
Proof. by rewrite /pred_chapman; case: k => [|m] //= _; rewrite size_map. Qed.

Lemma chapman_iter q : size q = n -> exists r : nat -> seq R,
  [/\ r 0%N = q, r k = pred_chapman norm_pdf xs k st q, forall s, size (r s) = n
    & forall s i, (i < n)%N -> nth 0 (r s.+1) i =
        trapezoid xs (fun j => norm_pdf (nth 0 xs i) (mu (nth 0 xs j)) (sg (nth 0 xs j)) * nth 0 (r s) j)].
Proof.
move=> h; pose r s := iter s (fun q => [seq integrate_transition norm_pdf xs st x q | x <- xs]) q.
have hs s : size (r s) = n by case: s => [|s] //=; rewrite size_map.
by exists r; split=> // s i hi; rewrite /= (nth_map 0) // integrateE.
Qed.

Lemma chapman_homog (a : R) q :
  pred_chapman norm_pdf xs k st [seq a * v | v <- q] = [seq a * v | v <- pred_chapman norm_pdf xs k st q].
Proof.
rewrite /pred_chapman; elim: k => [//|m IH] /=; rewrite IH -map_comp.
apply: eq_map => x /=; rewrite /integrate_transition -trapz_scale; congr trapz.
move: (zip [seq mu _ | _ <- _] _) (iter _ _ _) => z r; elim: z r => [|b z IHz] [|p r] //=.
by rewrite IHz mulrCA.
Qed.

Lemma chapman_ge0 q : sorted <=%R xs -> (forall x m s, 0 <= norm_pdf x m s) ->
  size q = n -> all (fun v => 0 <= v) q -> all (fun v => 0 <= v) (pred_chapman norm_pdf xs k st q).
Proof.
move=> hs hp hq h0; rewrite /pred_chapman.
suff [] : all (fun v => 0 <= v) (iter k (fun q => [seq integrate_transition norm_pdf xs st x q | x <- xs]) q) /\
  size (iter k (fun q => [seq integrate_transition norm_pdf xs st x q | x <- xs]) q) = n by [].
elim: k => [//|m [IH1 IH2]] /=; rewrite size_map; split=> //.
apply/allP => v /mapP [x _ ->]; rewrite integrateE //; apply: trapezoid_ge0 => // i hi.
by rewrite mulr_ge0 //; apply: (all_nthP 0 IH1); rewrite IH2.
Qed.
End Chapman.

(* ---- Kolmogorov forward equation ---- *)
Local Notation fwd := (kolmogorov_fwd_opt grad drift dispersion xs).

Lemma size_jgradient (ps : seq R) h : size (jgradient ps h) = size ps.
Proof. by rewrite size_map size_iota. Qed.

Lemma nth_jgradient (ps : seq R) h i : (0 < i)%N -> (i.+1 < size ps)%N ->
  nth 0 (jgradient ps h) i = (nth 0 ps i.+1 - nth 0 ps i.-1) / (2%:R * h).
Proof.
move=> h1 h2; have h3 := ltnW h2; rewrite (nth_map 0%N) ?size_iota // nth_iota // add0n.
have -> : (i == 0%N) = false by rewrite gtn_eqF.
have -> // : (i == (size ps).-1) = false by apply/negbTE; move: h2; clear; lia.
Qed.

Lemma jgradient_homog (a : R) ps h : jgradient [seq a * v | v <- ps] h = [seq a * v | v <- jgradient ps h].
Proof.
rewrite /jgradient size_map -map_comp.
have hn i : nth 0 [seq a * v | v <- ps] i = a * nth 0 ps i.
  by case: (ltnP i (size ps)) => hi; [rewrite (nth_map 0)|rewrite !nth_default ?size_map ?mulr0].
by apply: eq_map => i /=; rewrite !hn -!mulrBr -!mulrA; case: ifP => _ //; case: ifP.
Qed.

Lemma iter_inv (T : Type) (P : T -> Prop) (f : T -> T) m q : (forall r, P r -> P (f r)) -> P q -> P (iter m f q).
Proof. by move=> h hq; elim: m => //= m; exact: h. Qed.
Lemma iter_comm (T : Type) (f g : T -> T) m q : (forall r, f (g r) = g (f r)) -> iter m f (g q) = g (iter m f q).
Proof. by move=> h; elim: m => //= m ->. Qed.

Lemma fwd_id (a b c d e g p q r : R) :
  - (b * (a * p) + e * (a * q)) + 1 / 2%:R * (c * (a * p) + 2%:R * d * (a * q) + g * (a * r)) =
  a * (- (b * p + e * q) + 1 / 2%:R * (c * p + 2%:R * d * q + g * r)).
Proof. by field. Qed.

Lemma fwd_homog (a : R) ps : fwd [seq a * v | v <- ps] = [seq a * v | v <- fwd ps].
Proof.
rewrite /kolmogorov_fwd_opt; cbv zeta; rewrite !jgradient_homog -[RHS]map_comp; apply: eq_map => i /=.
have hn (s : seq R) : nth 0 [seq a * v | v <- s] i = a * nth 0 s i.
  by case: (ltnP i (size s)) => hi; [rewrite (nth_map 0)|rewrite !nth_default ?size_map ?mulr0].
by rewrite !hn; exact: fwd_id.
Qed.

Lemma kolmogorov_size ps : size ps = n -> size (pred_kolmogorov grad drift dispersion xs dt k ps) = n.
Proof.
apply: (iter_inv (P := fun q => size q = n)) => q h; by rewrite size_map size_zip h size_map size_iota minnn.
Qed.

Lemma kolmogorov_homog (a : R) ps :
  pred_kolmogorov grad drift dispersion xs dt k [seq a * v | v <- ps] =
  [seq a * v | v <- pred_kolmogorov grad drift dispersion xs dt k ps].
Proof.
apply: (iter_comm (g := map ( *%R a))) => q; rewrite /bf_euler fwd_homog.
move: (fwd q) => f; elim: q f => [|b q IHq] [|d f] //=.
by rewrite IHq; congr (_ :: _); rewrite mulrDr mulrA.
Qed.

(* on quadratics the finite differences are exact away from the boundary *)
Section Quadratic.
Variables (x0 h : R) (p A B : {poly R}).
Hypothesis hx : forall i, (i < n)%N -> nth 0 xs i = x0 + i%:R * h.
Hypothesis h0 : h != 0.
Hypothesis hp : (size p <= 3)%N.
Hypothesis hA : forall x, drift x = A.[x].
Hypothesis hB : forall x, dispersion x = B.[x].
Hypothesis gA : grad_at grad A.
Hypothesis gG : grad_at grad (B ^+ 2).
Hypothesis gG' : grad_at grad (B ^+ 2)^`().

Lemma quadE x : p.[x] = p`_0 + p`_1 * x + p`_2 * x ^+ 2.
Proof. by rewrite (horner_coef_wide _ hp) !big_ord_recl big_ord0 /= expr0 mulr1 expr1 addr0 addrA. Qed.
Lemma quad_deriv x : (p^`()).[x] = p`_1 + 2%:R * p`_2 * x.
Proof.
have hs : (size p^`() <= 2)%N.
  by case: (eqVneq p 0) => [->|hn]; rewrite ?deriv0 ?size_poly0 // -ltnS (leq_trans (lt_size_deriv hn)).
rewrite (horner_coef_wide _ hs) !big_ord_recl big_ord0 /= !coef_deriv expr0 mulr1 expr1 addr0 mulr1n.
by rewrite -[p`_2 *+ 2]mulr_natl.
Qed.
Lemma quad_deriv2 x : (p^`()^`()).[x] = 2%:R * p`_2.
Proof.
have hs : (size p^`()^`() <= 1)%N.
  have h1 : (size p^`() <= 2)%N.
    by case: (eqVneq p 0) => [->|hn]; rewrite ?deriv0 ?size_poly0 // -ltnS (leq_trans (lt_size_deriv hn)).
  by case: (eqVneq p^`() 0) => [->|hn]; rewrite ?deriv0 ?size_poly0 // -ltnS (leq_trans (lt_size_deriv hn)).
rewrite (horner_coef_wide _ hs) big_ord_recl big_ord0 /= !coef_deriv expr0 mulr1 addr0 mulr1n.
by rewrite -[p`_2 *+ 2]mulr_natl.
Qed.

Lemma bf_dxE : (1 < n)%N -> bf_dx xs = h.
Proof.
move=> hn; rewrite /bf_dx !jget_nth //; last exact: ltnW.
by rewrite !hx //; [rewrite mul1r mul0r addr0 addrC addKr|exact: ltnW].
Qed.

Let ps := [seq p.[x] | x <- xs].
Lemma nth_ps i : (i < n)%N -> nth 0 ps i = p.[nth 0 xs i].
Proof. by move=> hi; rewrite (nth_map 0). Qed.

Lemma grad1 i : (0 < i)%N -> (i.+1 < n)%N -> nth 0 (jgradient ps h) i = (p^`()).[nth 0 xs i].
Proof.
case: i => [//|i] _ hi; rewrite nth_jgradient ?size_map //= !nth_ps //; last by move: hi; clear; lia.
rewrite !hx ?quadE ?quad_deriv //; try by move: hi; clear; lia.
by rewrite !mulrS; move: (i%:R) => t; field.
Qed.

Lemma grad2 i : (1 < i)%N -> (i.+2 < n)%N ->
  nth 0 (jgradient (jgradient ps h) h) i = (p^`()^`()).[nth 0 xs i].
Proof.
case: i => [//|[//|i]] _ hi; rewrite nth_jgradient ?size_jgradient ?size_map //=; last by move: hi; clear; lia.
rewrite !grad1 //; try by move: hi; clear; lia.
rewrite !hx ?quad_deriv ?quad_deriv2 //; try by move: hi; clear; lia.
by rewrite !mulrS; move: (i%:R) => t; field.
Qed.

Lemma fwd_exact i : (1 < i)%N -> (i.+2 < n)%N ->
  nth 0 (fwd ps) i = (- (A * p)^`() + (2%:R^-1)%:P * (B ^+ 2 * p)^`()^`()).[nth 0 xs i].
Proof.
move=> h1 h2; have hi : (i < n)%N by move: h2; clear; lia.
rewrite (nth_map 0%N) ?size_iota // nth_iota // add0n bf_dxE; last by move: h2; clear; lia.
rewrite grad2 // grad1; try by move: h1 h2; clear; lia.
rewrite nth_ps //; set x := nth 0 xs i.
have eG y : bf_gamma dispersion y = (B ^+ 2).[y] by rewrite /bf_gamma hB horner_exp.
cbv zeta; rewrite (gA hA) (gG' (gG eG)) (gG eG) hA eG.
move: (B ^+ 2) => G; rewrite !derivM !derivD !derivM.
rewrite !(hornerD, hornerN, hornerM, hornerC).
move: (p^`()^`().[x]) (p^`().[x]) (p.[x]) => p2 p1 p00.
move: (G^`()^`().[x]) (G^`().[x]) (G.[x]) => g2 g1 g0.
by move: (A^`().[x]) (A.[x]) => a1 a0; field.
Qed.
End Quadratic.
End Pred.

(* ---- dispatch ---- *)
Section Dispatch.
Variable R : rcfType.
Variables (grad : (R -> R) -> R -> R) (norm_pdf : R -> R -> R -> R) (sqrt_ : R -> R).
Variables (tme : R -> int -> R -> R * R) (py_int : string -> option int) (Y : Type).
Variables (drift dispersion : R -> R) (pdf : Y -> seq R -> seq R) (xs : seq R) (dt : R) (k : nat).
Local Notation run := (brute_force_filter grad norm_pdf sqrt_ tme py_int drift dispersion pdf xs dt k).

Lemma run_kolmogorov init ys :
  run init ys "kolmogorov" = BfOk (bf_run pdf xs (pred_kolmogorov grad drift dispersion xs dt k) init ys).
Proof. by []. Qed.

Lemma run_euler init ys : run init ys "chapman-euler" =
  BfOk (bf_run pdf xs (pred_chapman norm_pdf xs k
    ([seq x + drift x * (dt / k%:R) | x <- xs], [seq dispersion x * sqrt_ (dt / k%:R) | x <- xs])) init ys).
Proof. by []. Qed.

Lemma contains_app (s t : string) : contains s (append s t).
Proof.
have hp : String.prefix s (append s t).
  by elim: s => [|c s IH] /=; [case: t|case: ascii_dec].
by case: (append s t) hp => [|c r] /= ->.
Qed.

Lemma prefix_head (a b s : string) : String.prefix (append a b) s -> String.prefix a s.
Proof. by elim: a s => [|c a IH] [|d s] //=; case: ascii_dec => // _; exact: IH. Qed.

Lemma contains_head (a b s : string) : contains (append a b) s -> contains a s.
Proof.
elim: s => [|c s IH]; rewrite /contains -/contains; first by rewrite !orbF; exact: prefix_head.
by case/orP => [/prefix_head ->|/IH ->] //; rewrite orbT.
Qed.

Lemma last_segment_app (s t : string) : ~~ has_dash t -> last_segment (append s (String dash t)) = t.
Proof.
move=> ht; elim: s => [|c s IH] /=; first by rewrite (negbTE ht).
suff -> : has_dash (append s (String dash t)) by [].
by elim: s {IH} => [|d s IH] //=; rewrite IH orbT.
Qed.

Lemma run_tme init ys (t : string) order : ~~ has_dash t -> py_int t = Some order ->
  run init ys (append "chapman-tme-" t) =
  BfOk (bf_run pdf xs (pred_chapman norm_pdf xs k
    ([seq (tme (dt / k%:R) order x).1 | x <- xs], [seq sqrt_ (tme (dt / k%:R) order x).2 | x <- xs])) init ys).
Proof.
move=> ht ho; rewrite /brute_force_filter /bf_method_stats.
have -> : last_segment (append "chapman-tme-" t) = t by exact: (last_segment_app "chapman-tme").
by rewrite ho.
Qed.

Lemma run_unknown init ys (s : string) : s <> "kolmogorov"%string -> contains "chapman" s = false ->
  run init ys s = BfNotImplementedError.
Proof.
move=> h1 h2; rewrite /brute_force_filter /bf_method_stats h2.
have -> : String.eqb s "kolmogorov" = false by apply/String.eqb_neq.
have -> : String.eqb s "chapman-euler" = false by apply/String.eqb_neq => e; rewrite e in h2.
have -> // : contains "chapman-tme" s = false.
apply/negbTE/negP => h; move: h2; suff -> : contains "chapman" s by [].
exact: (@contains_head "chapman" "-tme").
Qed.
End Dispatch.

Section Any.
Variable R : rcfType.
Variables (grad : (R -> R) -> R -> R) (norm_pdf : R -> R -> R -> R) (sqrt_ : R -> R).
Variables (tme : R -> int -> R -> R * R) (py_int : string -> option int) (Y : Type).
Variables (drift dispersion : R -> R) (pdf : Y -> seq R -> seq R) (xs : seq R) (dt : R) (k : nat).
Local Notation run := (brute_force_filter grad norm_pdf sqrt_ tme py_int drift dispersion pdf xs dt k).

Lemma chapman_run (y0 : Y) : (forall y s, size (pdf y s) = size s) -> forall (np : R -> R -> R -> R) (m : nat) (mu sg : R -> R)
  (init : seq R) (ys : seq Y) , size init = size xs ->
  let sol := bf_run pdf xs (pred_chapman np xs m ([seq mu x | x <- xs], [seq sg x | x <- xs])) init ys in
  size sol = size ys /\
  forall t, (t < size ys)%N -> exists q : nat -> seq R,
    let lik j := nth 0 (pdf (nth y0 ys t) xs) j in
    let Z := trapezoid xs (fun j => lik j * nth 0 (q m) j) in
    [/\ q 0%N = (if t is t'.+1 then nth [::] sol t' else init),
        forall s i, (i < size xs)%N -> nth 0 (q s.+1) i = trapezoid xs (fun j =>
          np (nth 0 xs i) (mu (nth 0 xs j)) (sg (nth 0 xs j)) * nth 0 (q s) j),
        forall i, (i < size xs)%N -> nth 0 (nth [::] sol t) i = lik i * nth 0 (q m) i / Z
      & Z != 0 -> trapezoid xs (nth 0 (nth [::] sol t)) = 1].
Proof.
move=> h1 np m mu sg init ys h2 sol.
have hp ps : size ps = size xs ->
    size (pred_chapman np xs m ([seq mu x | x <- xs], [seq sg x | x <- xs]) ps) = size xs.
  exact: chapman_size.
have [e1 e2 e3] := bf_run_bayes y0 h1 hp ys h2; split=> // t ht.
have hs := bf_run_size y0 h1 hp h2 (ltnW ht).
have [q [q0 qm qs qr]] := chapman_iter np m mu sg hs.
exists q => lik Z; split=> //.
- by move=> i hi; rewrite /Z qm; apply: e2.
- by rewrite /Z qm; apply: e3.
Qed.

Lemma ok_cases init ys method sol : run init ys method = BfOk sol ->
  (method = "kolmogorov"%string /\
     sol = bf_run pdf xs (pred_kolmogorov grad drift dispersion xs dt k) init ys) \/
  (method <> "kolmogorov"%string /\ exists mu sg : R -> R,
     sol = bf_run pdf xs (pred_chapman norm_pdf xs k ([seq mu x | x <- xs], [seq sg x | x <- xs])) init ys).
Proof.
rewrite /brute_force_filter /bf_method_stats.
case: (String.eqb_spec method "kolmogorov") => [-> [<-]|hk]; first by left.
move=> h; right; split=> //; move: h.
case: (String.eqb method "chapman-euler").
  case: ifP => // _ [<-].
  by exists (fun x => x + drift x * (dt / k%:R)), (fun x => dispersion x * sqrt_ (dt / k%:R)).
case: (contains "chapman-tme" method); last by case: ifP.
case: (py_int _) => [order|] //; case: ifP => // _ [<-].
by exists (fun x => (tme (dt / k%:R) order x).1), (fun x => sqrt_ (tme (dt / k%:R) order x).2).
Qed.

Lemma chapman_nonneg init ys method sol :
  (forall y s, size (pdf y s) = size s) -> size init = size xs ->
  sorted <=%R xs -> (forall x m s, 0 <= norm_pdf x m s) ->
  (forall y s, all (fun v => 0 <= v) (pdf y s)) -> all (fun v => 0 <= v) init ->
  method <> "kolmogorov"%string -> run init ys method = BfOk sol ->
  forall ps, ps \in sol -> all (fun v => 0 <= v) ps.
Proof.
move=> h1 h2 h3 h4 h5 h6 hk /ok_cases [[]//|[_ [mu [sg ->]]]].
apply: bf_run_ge0 => // ps hs; first exact: chapman_size.
by move=> h0; apply: chapman_ge0.
Qed.

Lemma kolmogorov_run (y0 : Y) init ys :
  (forall y s, size (pdf y s) = size s) -> size init = size xs ->
  let sol := bf_run pdf xs (pred_kolmogorov grad drift dispersion xs dt k) init ys in
  size sol = size ys /\
  forall t, (t < size ys)%N -> exists q : nat -> seq R,
    let lik j := nth 0 (pdf (nth y0 ys t) xs) j in
    let Z := trapezoid xs (fun j => lik j * nth 0 (q k) j) in
    [/\ q 0%N = (if t is t'.+1 then nth [::] sol t' else init),
        forall s i, (i < size xs)%N -> nth 0 (q s.+1) i = nth 0 (q s) i +
          nth 0 (kolmogorov_fwd_opt grad drift dispersion xs (q s)) i * (dt / k%:R),
        forall i, (i < size xs)%N -> nth 0 (nth [::] sol t) i = lik i * nth 0 (q k) i / Z
      & Z != 0 -> trapezoid xs (nth 0 (nth [::] sol t)) = 1].
Proof.
move=> h1 h2 sol.
have hp ps : size ps = size xs -> size (pred_kolmogorov grad drift dispersion xs dt k ps) = size xs.
  exact: kolmogorov_size.
have [e1 e2 e3] := bf_run_bayes y0 h1 hp ys h2; split=> // t ht.
have hs := bf_run_size y0 h1 hp h2 (ltnW ht).
move: hs; set q0 := (X in size X = _) => hs.
exists (fun s => iter s (bf_euler grad drift dispersion xs dt k) q0) => lik Z; split=> //.
- move=> s i hi; rewrite iterS {1}/bf_euler.
  have hsz : size (iter s (bf_euler grad drift dispersion xs dt k) q0) = size xs.
    by elim: s => //= s IH; rewrite /bf_euler size_map size_zip IH size_map size_iota minnn.
  rewrite (nth_map (0, 0)) ?nth_zip ?size_zip ?hsz ?size_map ?size_iota ?minnn //=.
- by move=> i hi; apply: e2.
- exact: e3.
Qed.

Lemma scale_any (c : Y -> R) init ys method : (forall y, c y != 0) ->
  brute_force_filter grad norm_pdf sqrt_ tme py_int drift dispersion
    (fun y s => [seq c y * v | v <- pdf y s]) xs dt k init ys method = run init ys method.
Proof.
move=> hc; rewrite /brute_force_filter.
case: (bf_method_stats _ _ _ _ _ _ _ _ _) => [st||] //; case: ifP => _; rewrite ?bf_run_scale //.
Qed.

Lemma chapman_homog' (st : seq R * seq R) (a : R) q :
  pred_chapman norm_pdf xs k st [seq a * v | v <- q] = [seq a * v | v <- pred_chapman norm_pdf xs k st q].
Proof.
rewrite /pred_chapman; elim: k => [//|m IH] /=; rewrite IH -map_comp.
apply: eq_map => x /=; rewrite /integrate_transition -trapz_scale; congr trapz.
move: (zip st.1 _) (iter _ _ _) => z r; elim: z r => [|b z IHz] [|p r] //=.
by rewrite IHz mulrCA.
Qed.

Lemma homog_any (a : R) init ys method : a != 0 ->
  run [seq a * v | v <- init] ys method = run init ys method.
Proof.
move=> ha; rewrite /brute_force_filter.
have e1 : bf_run pdf xs (pred_kolmogorov grad drift dispersion xs dt k) [seq a * v | v <- init] ys =
  bf_run pdf xs (pred_kolmogorov grad drift dispersion xs dt k) init ys.
  by apply: bf_run_homog => // ps; exact: kolmogorov_homog.
case: (bf_method_stats _ _ _ _ _ _ _ _ _) => [st||] //; case: ifP => _; rewrite ?e1 //.
case: ifP => // _; congr BfOk; apply: bf_run_homog => // ps; exact: chapman_homog'.
Qed.

Lemma methods_all init ys :
  [/\ forall method, method <> "kolmogorov"%string -> contains "chapman" method = false ->
        run init ys method = BfNotImplementedError,
      exists sol, run init ys "kolmogorov"%string = BfOk sol,
      exists sol, run init ys "chapman-euler"%string = BfOk sol
    & forall digits, ~~ has_dash digits ->
        if py_int digits is Some _ then exists sol, run init ys (append "chapman-tme-" digits) = BfOk sol
        else run init ys (append "chapman-tme-" digits) = BfValueError].
Proof.
split; [exact: run_unknown|by eexists; exact: run_kolmogorov|by eexists; exact: run_euler|].
move=> t ht; case e: (py_int t) => [order|]; first by eexists; apply: (run_tme _ _ _ _ _ _ _ _ _ _ _ _ ht e).
rewrite /brute_force_filter /bf_method_stats.
have -> : last_segment (append "chapman-tme-" t) = t by exact: (last_segment_app "chapman-tme").
by rewrite e.
Qed.
End Any.

Section Refs.
Variable R : rcfType.

Lemma grad_ref (p : {poly R}) : (size p <= 3)%N ->
  grad_at (fun f x => (f (x + 1) - f (x - 1)) / 2%:R) p.
Proof.
by move=> hp f hf x; rewrite !hf !(quadE hp) (quad_deriv hp); move: (p`_0) (p`_1) (p`_2) => a b c; field.
Qed.

Lemma kolmogorov_hyp :
  let grad (f : R -> R) x := (f (x + 1) - f (x - 1)) / 2%:R in
  let A : {poly R} := - 'X in
  let B : {poly R} := 1 in
  [/\ grad_at grad A, grad_at grad (B ^+ 2), grad_at grad (B ^+ 2)^`()
    & forall j, (j < 5)%N -> nth 0 [seq (i%:R : R) | i <- iota 0 5] j = 0 + j%:R * 1].
Proof.
move=> grad A B; split.
- by apply: grad_ref; rewrite size_opp size_polyX.
- by apply: grad_ref; rewrite expr1n size_poly1.
- by apply: grad_ref; rewrite expr1n derivC size_poly0.
by move=> j hj; rewrite (nth_map 0%N) ?size_iota // nth_iota // add0n add0r mulr1.
Qed.

Lemma brute_run (py_int : string -> option int) :
  let run := brute_force_filter (fun (f : R -> R) => f) (fun _ _ _ => 1) id (fun _ _ _ => (0, 1)) py_int
    (fun _ => 0) (fun _ => 1) (fun (_ : unit) (s : seq R) => s) [:: 0; 1] 1 1 [:: 1; 1] [:: tt] in
  run "chapman-euler"%string = BfOk [:: [:: 0; 2%:R]] /\
  trapezoid ([:: 0; 1] : seq R) (fun j => nth 0 [:: 0; 2%:R] j) = 1.
Proof.
move=> run; split; last by rewrite /trapezoid big_nat1 /=; field.
rewrite /run run_euler /bf_run /bf_update /pred_chapman /integrate_transition /=.
by congr BfOk; congr [:: [:: _; _]]; field.
Qed.
End Refs.
