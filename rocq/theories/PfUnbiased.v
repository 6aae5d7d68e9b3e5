(* Unbiasedness of the bootstrap filter: specification and proof. *)
From mathcomp Require Import all_ssreflect all_algebra.
From mathcomp Require Import zify ring.
From Verif Require Import Prelude ResampleModel ResampleSpec ResampleProofs ResampleLaw ResampleContLaw PfSampler.
Set Implicit Arguments.
Unset Strict Implicit.
Unset Printing Implicit Defensive.
Import Order.TTheory GRing.Theory Num.Theory.
Local Open Scope ring_scope.

(* Specification.  For a hidden Markov model with transition operator P (P f x is the mean of f after one
   step from x) and likelihoods g, the mean over the trajectories from x of the product of the
   likelihoods of ys and of f at the last state. *)
Fixpoint path_mean (R : rcfType) (X Y : Type) (P : (X -> R) -> X -> R) (g : Y -> X -> R) (f : X -> R)
    (ys : seq Y) (x : X) : R :=
  if ys is y :: ys' then P (fun z => g y z * path_mean P g f ys' z) x else f x.

(* the mean of f over a list of particles *)
Definition avg (R : rcfType) (X : Type) (f : X -> R) (xs : seq X) : R := (\sum_(x <- xs) f x) / (size xs)%:R.

(* the expectation over m independent keys *)
Fixpoint iterE (R : rcfType) (K : Type) (E : (K -> R) -> R) (m : nat) (H : seq K -> R) : R :=
  if m is m'.+1 then E (fun k => iterE E m' (fun ks => H (k :: ks))) else H [::].

(* the normalised likelihoods *)
Definition normalised (R : rcfType) (X : Type) (g : X -> R) (xs : seq X) : seq R :=
  [seq g x / \sum_(z <- xs) g z | x <- xs].

(* The transition sampler moves every particle by P, the resampling scheme is unbiased, and the keys of
   one step (of law E for the transition, of law E' for the split key) are independent.  S is a set of
   lists of n particles that both maps preserve. *)
Record step_law (R : rcfType) (X Y K : Type) (S : seq X -> Prop) (n : nat) (E E' : (K -> R) -> R)
    (P : (X -> R) -> X -> R) (g : Y -> X -> R) (split1 : K -> K)
    (transition_sampler : seq X -> K -> seq X) (resample : seq X -> seq R -> K -> seq X) : Prop := StepLaw {
  sl_size : forall xs, S xs -> size xs = n;
  sl_trans : forall xs k, S xs -> S (transition_sampler xs k);
  sl_resample : forall xs y k, S xs -> S (resample xs (normalised (g y) xs) k);
  sl_move : forall xs f, S xs -> E (fun k => \sum_(x <- transition_sampler xs k) f x) = \sum_(x <- xs) P f x;
  sl_unbiased : forall xs y f, S xs ->
    E' (fun k => \sum_(x <- resample xs (normalised (g y) xs) k) f x)
    = n%:R * \sum_(p <- zip (normalised (g y) xs) xs) p.1 * f p.2;
  sl_indep : forall xs (H : seq X -> K -> R), S xs ->
    E (fun k => H (transition_sampler xs k) (split1 k))
    = E (fun k => E' (fun k' => H (transition_sampler xs k) k')) }.

Section Unbiased.
Variables (R : rcfType) (exp log : R -> R).
Hypothesis exp0 : exp 0 = 1.
Hypothesis expD : forall x y, exp (x + y) = exp x * exp y.
Hypothesis explog : forall u, 0 < u -> exp (log u) = u.
Variables (X Y K : Type) (S : seq X -> Prop) (n : nat) (E0 E E' : (K -> R) -> R).
Variables (P : (X -> R) -> X -> R) (g : Y -> X -> R) (split1 : K -> K) (split_keys : K -> nat -> seq K).
Variables (transition_sampler : seq X -> K -> seq X) (resample : seq X -> seq R -> K -> seq X).
Hypothesis n0 : (0 < n)%N.
Hypotheses (E0P : expectation E0) (EP : expectation E) (E'P : expectation E').
Hypothesis gpos : forall y x, 0 < g y x.
Hypothesis law : step_law S n E E' P g split1 transition_sampler resample.

Lemma iterE_ext m H H' : (forall ks, size ks = m -> H ks = H' ks) -> iterE E m H = iterE E m H'.
Proof.
elim: m H H' => [|m IH] H H' h /=; first exact: h.
by apply: (Eext EP) => k; apply: IH => ks hs; apply: h; rewrite /= hs.
Qed.

Local Notation body := (bootstrap_body log split1 transition_sampler (fun y => map (g y)) resample).
Variable f : X -> R.
Local Notation V := (path_mean P g f).

Lemma sum_pos y xs : size xs = n -> 0 < \sum_(x <- xs) g y x.
Proof.
case: xs => [h|x xs _]; first by have := n0; rewrite -h.
by rewrite big_cons ltr_paddr // sumr_ge0 // => z _; exact: ltW.
Qed.
Lemma expN x : exp (- x) = (exp x)^-1.
Proof.
have e : exp x * exp (- x) = 1 by rewrite -expD addrN exp0.
have nz : exp x != 0 by apply/eqP => z; move: e; rewrite z mul0r => /esym/eqP; rewrite oner_eq0.
by apply: (mulfI nz); rewrite e mulfV.
Qed.

Lemma scan_mean ys : forall xs a, S xs ->
  iterE E (size ys) (fun ks => let r := scan body (xs, a) (zip ys ks) in
    exp (- r.1.2) * avg f (last xs r.2)) = exp (- a) * avg (V ys) xs.
Proof.
elim: ys => [|y ys IH] xs a hS //=.
have nR : n%:R != 0 :> R by rewrite pnatr_eq0 -lt0n.
pose zs k := transition_sampler xs k; pose G zs := jmean [seq g y z | z <- zs].
have hz k : S (zs k) by exact: (sl_trans law).
have sz k : size (zs k) = n by exact: (sl_size law).
have Gp k : 0 < G (zs k).
  by rewrite /G /jmean jsumE size_map sz big_map divr_gt0 ?ltr0n // sum_pos.
have step k : iterE E (size ys) (fun ks => let r := scan body (xs, a) (zip (y :: ys) (k :: ks)) in
    exp (- r.1.2) * avg f (last xs r.2))
  = (fun zs k' => exp (- a) * G zs * avg (V ys) (resample zs (normalised (g y) zs) k')) (zs k) (split1 k).
  rewrite -mulrA -[G _](explog (Gp k)).
  have hn : [seq w / jsum [seq g y x | x <- zs k] | w <- [seq g y x | x <- zs k]] = normalised (g y) (zs k).
    by rewrite -map_comp jsumE big_map.
  have hS' : S (resample (zs k) (normalised (g y) (zs k)) (split1 k)) by apply: (sl_resample law).
  have := IH _ (a - log (G (zs k))) hS'; rewrite opprB expD => e.
  rewrite mulrA [_ * exp (log _)]mulrC -[RHS]e; apply: iterE_ext => ks _ /=.
  by rewrite hn; case: (scan _ _ _).
rewrite (Eext EP (g := fun k => _) step).
rewrite (sl_indep law (fun zs k' => exp (- a) * G zs * avg (V ys) (resample zs (normalised (g y) zs) k')) hS).
rewrite (Eext EP (g := fun k => exp (- a) / n%:R * \sum_(z <- zs k) g y z * V ys z)); last first.
  move=> k; rewrite (EZ E'P) -/(zs k).
  have hz' k' : size (resample (zs k) (normalised (g y) (zs k)) k') = n.
    by apply: (sl_size law); apply: (sl_resample law).
  rewrite (Eext E'P (g := fun k' => n%:R^-1 * \sum_(x <- resample (zs k) (normalised (g y) (zs k)) k') V ys x)); last first.
    by move=> k'; rewrite /avg hz' mulrC.
  rewrite (EZ E'P) (sl_unbiased law) // mulKf // /G /jmean jsumE size_map sz big_map -!mulrA; congr (_ * _).
  rewrite mulrA [X in X * _]mulrC -mulrA; congr (_ * _).
  have sp := sum_pos y (sz k).
  rewrite /normalised; set s := \sum_(z <- zs k) g y z in sp *.
  have -> : \sum_(p <- zip [seq g y x / s | x <- zs k] (zs k)) p.1 * V ys p.2 = s^-1 * \sum_(z <- zs k) g y z * V ys z.
    rewrite mulr_sumr; elim: (zs k) => [|z r IHr] /=; rewrite ?big_nil // !big_cons IHr /=; congr (_ + _).
    by rewrite mulrA [s^-1 * _]mulrC.
  by rewrite mulVKf // gt_eqF.
by rewrite (EZ EP) (sl_move law) // /avg (sl_size law hS) -mulrA [_ / _]mulrC.
Qed.

Variables (nu : (X -> R) -> R) (init_sampler : K -> nat -> seq X) (ys : seq Y).
Hypothesis initS : forall k, S (init_sampler k n).
Hypothesis init_law : forall h, E0 (fun k => \sum_(x <- init_sampler k n) h x) = n%:R * nu h.
Hypothesis keys_law : forall H : seq X -> seq K -> R,
  E0 (fun k => H (init_sampler k n) (split_keys k (size ys)))
  = E0 (fun k => iterE E (size ys) (fun ks => H (init_sampler k n) ks)).

Lemma bootstrap_mean :
  E0 (fun k => let r := bootstrap_filter log split1 split_keys transition_sampler (fun y => map (g y)) resample
                          ys init_sampler k n in
               exp (- r.2) * avg f (last (init_sampler k n) r.1))
  = nu (V ys).
Proof.
pose H xs ks := let r := scan body (xs, 0) (zip ys ks) in exp (- r.1.2) * avg f (last xs r.2).
rewrite (Eext E0P (g := fun k => H (init_sampler k n) (split_keys k (size ys)))); last first.
  by move=> k; rewrite /bootstrap_filter /H; case: (scan _ _ _).
rewrite keys_law (Eext E0P (g := fun k => n%:R^-1 * \sum_(x <- init_sampler k n) V ys x)); last first.
  by move=> k; rewrite /H scan_mean // oppr0 exp0 mul1r /avg (sl_size law (initS k)) mulrC.
by rewrite (EZ E0P) init_law mulKf // pnatr_eq0 -lt0n.
Qed.
End Unbiased.

Section Likelihood.
Variables (R : rcfType) (exp log : R -> R).
Hypothesis exp0 : exp 0 = 1.
Hypothesis expD : forall x y, exp (x + y) = exp x * exp y.
Hypothesis explog : forall u, 0 < u -> exp (log u) = u.
Variables (X Y K : Type) (S : seq X -> Prop) (n : nat) (E0 E E' : (K -> R) -> R).
Variables (P : (X -> R) -> X -> R) (g : Y -> X -> R) (split1 : K -> K) (split_keys : K -> nat -> seq K).
Variables (transition_sampler : seq X -> K -> seq X) (resample : seq X -> seq R -> K -> seq X).
Variables (nu : (X -> R) -> R) (init_sampler : K -> nat -> seq X) (ys : seq Y).

Lemma last_in (body : seq X * R -> Y * K -> (seq X * R) * seq X) es xs a :
  (forall xs a e, S xs -> S (body (xs, a) e).1.1 /\ (body (xs, a) e).2 = (body (xs, a) e).1.1) ->
  S xs -> S (last xs (scan body (xs, a) es).2).
Proof.
move=> hb; elim: es xs a => [|e es IH] xs a //= hS.
have [h1 h2] := hb xs a e hS; move: h1 h2; case: (body _ _) => -[xs' a'] o /= h1 ->.
by have := IH xs' a' h1; case: (scan _ _ _).
Qed.

Lemma bootstrap_likelihood :
  (0 < n)%N -> expectation E0 -> expectation E -> expectation E' -> (forall y x, 0 < g y x) ->
  step_law S n E E' P g split1 transition_sampler resample ->
  (forall k, S (init_sampler k n)) ->
  (forall h, E0 (fun k => \sum_(x <- init_sampler k n) h x) = n%:R * nu h) ->
  (forall H : seq X -> seq K -> R,
     E0 (fun k => H (init_sampler k n) (split_keys k (size ys)))
     = E0 (fun k => iterE E (size ys) (fun ks => H (init_sampler k n) ks))) ->
  E0 (fun k => exp (- (bootstrap_filter log split1 split_keys transition_sampler (fun y => map (g y)) resample
                          ys init_sampler k n).2))
  = nu (path_mean P g (fun=> 1) ys).
Proof.
move=> n0 E0P EP E'P gp law iS il kl.
rewrite -(bootstrap_mean (E := E) (E' := E') exp0 expD explog n0 E0P EP E'P gp law (fun=> 1) iS il kl).
apply: (Eext E0P) => k /=; rewrite /avg.
set r := bootstrap_filter _ _ _ _ _ _ _ _ _ _.
have hS : S (last (init_sampler k n) r.1).
  have hb xs a (e : Y * K) : S xs ->
    let body := bootstrap_body log split1 transition_sampler (fun y => map (g y)) resample in
    S (body (xs, a) e).1.1 /\ (body (xs, a) e).2 = (body (xs, a) e).1.1.
    case: e => y k' hx /=; split=> //.
    have -> : [seq w / jsum [seq g y x | x <- transition_sampler xs k'] | w <- [seq g y x | x <- transition_sampler xs k']]
            = normalised (g y) (transition_sampler xs k') by rewrite -map_comp jsumE big_map.
    by apply: (sl_resample law); apply: (sl_trans law).
  have := last_in (zip ys (split_keys k (size ys))) 0 hb (iS k).
  by rewrite /r /bootstrap_filter; case: (scan _ _ _).
by rewrite big_const_seq count_predT iter_addr_0 (sl_size law hS) divff ?mulr1 // pnatr_eq0 -lt0n.
Qed.
End Likelihood.

Section Gather.
Variables (R : rcfType) (ss : seq R -> R -> nat) (X K : Type) (x0 : X).
Variables (D : (K -> R) -> Prop) (E : (K -> R) -> R).
Lemma wmean_zip (w : seq R) (xs : seq X) (f : X -> R) : size w = size xs ->
  wmean w (fun j => f (jget x0 xs j)) = \sum_(p <- zip w xs) p.1 * f p.2.
Proof.
move=> hs; rewrite /wmean (big_nth (0, x0)) size_zip -hs minnn big_mkord; apply: eq_bigr => i _.
rewrite nth_zip //= /jget; congr (_ * f (nth _ _ _)); have hi := ltn_ord i; lia.
Qed.
Lemma gather_sum (f : X -> R) xs idx : \sum_(x <- gather x0 xs idx) f x = sum_at (fun j => f (jget x0 xs j)) idx.
Proof. by rewrite /gather big_map. Qed.
Lemma systematic_particles_l (u : K -> R) (xs : seq X) (w : seq R) (f : X -> R) :
  ss_left_spec ss -> weight_vector w -> size w = size xs -> is_expectation D E -> uniform_draw D E u ->
  E (fun k => \sum_(x <- discrete_resample x0 (fun w k => systematic ss w (u k)) xs w k) f x)
  = (size xs)%:R * \sum_(p <- zip w xs) p.1 * f p.2.
Proof.
move=> ssP hw hs EP uP; have [d e] := systematic_unbiased_l (fun j => f (jget x0 xs j)) ssP hw EP uP.
have h k : sum_at (fun j => f (jget x0 xs j)) (systematic ss w (u k))
         = \sum_(x <- discrete_resample x0 (fun w k => systematic ss w (u k)) xs w k) f x by rewrite -gather_sum.
by have [_ <-] := ex_ext EP d h; rewrite e hs wmean_zip.
Qed.
Lemma stratified_particles_l (us : K -> seq R) (xs : seq X) (w : seq R) (f : X -> R) :
  ss_left_spec ss -> weight_vector w -> size w = size xs -> is_expectation D E ->
  (forall i, (i < size w)%N -> uniform_draw D E (fun k => nth 0 (us k) i)) ->
  E (fun k => \sum_(x <- discrete_resample x0 (fun w k => stratified ss w (us k)) xs w k) f x)
  = (size xs)%:R * \sum_(p <- zip w xs) p.1 * f p.2.
Proof.
move=> ssP hw hs EP uP; have [d e] := stratified_unbiased_l (fun j => f (jget x0 xs j)) ssP hw EP uP.
have h k : sum_at (fun j => f (jget x0 xs j)) (stratified ss w (us k))
         = \sum_(x <- discrete_resample x0 (fun w k => stratified ss w (us k)) xs w k) f x by rewrite -gather_sum.
by have [_ <-] := ex_ext EP d h; rewrite e hs wmean_zip.
Qed.
End Gather.
