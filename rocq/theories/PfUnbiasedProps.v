(* C111: the bootstrap filter is unbiased. *)
From mathcomp Require Import all_ssreflect all_algebra.
From mathcomp Require Import zify ring.
From Verif Require Import Prelude ResampleModel ResampleSpec ResampleProofs ResampleRefs ResampleLaw ResampleContLaw
  PfSampler PfUnbiased.
Set Implicit Arguments.
Unset Strict Implicit.
Unset Printing Implicit Defensive.
Import Order.TTheory GRing.Theory Num.Theory.
Local Open Scope ring_scope.

(* Discrete resampling with systematic or stratified indices keeps the weighted mean of every function of
   the particles. *)
Theorem systematic_particles (R : rcfType) (ss : seq R -> R -> nat) (X K : Type) (x0 : X)
    (D : (K -> R) -> Prop) (E : (K -> R) -> R) (u : K -> R) (xs : seq X) (w : seq R) (f : X -> R) :
  ss_left_spec ss -> weight_vector w -> size w = size xs -> is_expectation D E -> uniform_draw D E u ->
  E (fun k => \sum_(x <- discrete_resample x0 (fun w k => systematic ss w (u k)) xs w k) f x)
  = (size xs)%:R * \sum_(p <- zip w xs) p.1 * f p.2.
Proof. exact: systematic_particles_l. Qed.

Theorem stratified_particles (R : rcfType) (ss : seq R -> R -> nat) (X K : Type) (x0 : X)
    (D : (K -> R) -> Prop) (E : (K -> R) -> R) (us : K -> seq R) (xs : seq X) (w : seq R) (f : X -> R) :
  ss_left_spec ss -> weight_vector w -> size w = size xs -> is_expectation D E ->
  (forall i, (i < size w)%N -> uniform_draw D E (fun k => nth 0 (us k) i)) ->
  E (fun k => \sum_(x <- discrete_resample x0 (fun w k => stratified ss w (us k)) xs w k) f x)
  = (size xs)%:R * \sum_(p <- zip w xs) p.1 * f p.2.
Proof. exact: stratified_particles_l. Qed.

(* The exponential of minus the returned negative log-likelihood, times the mean of f over the last
   particles, has the exact mean: that over the trajectories of the model of the product of the
   likelihoods and of f at the last state.  nu is the initial law. *)
Theorem bootstrap_unbiased (R : rcfType) (exp log : R -> R) (X Y K : Type) (S : seq X -> Prop) (n : nat)
    (E0 E E' : (K -> R) -> R) (P : (X -> R) -> X -> R) (g : Y -> X -> R) (split1 : K -> K)
    (split_keys : K -> nat -> seq K) (transition_sampler : seq X -> K -> seq X)
    (resample : seq X -> seq R -> K -> seq X) (f : X -> R) (nu : (X -> R) -> R)
    (init_sampler : K -> nat -> seq X) (ys : seq Y) :
  exp 0 = 1 -> (forall x y, exp (x + y) = exp x * exp y) -> (forall u, 0 < u -> exp (log u) = u) ->
  (0 < n)%N -> expectation E0 -> expectation E -> expectation E' -> (forall y x, 0 < g y x) ->
  step_law S n E E' P g split1 transition_sampler resample ->
  (forall k, S (init_sampler k n)) ->
  (forall h, E0 (fun k => \sum_(x <- init_sampler k n) h x) = n%:R * nu h) ->
  (forall H : seq X -> seq K -> R,
     E0 (fun k => H (init_sampler k n) (split_keys k (size ys)))
     = E0 (fun k => iterE E (size ys) (fun ks => H (init_sampler k n) ks))) ->
  E0 (fun k => let r := bootstrap_filter log split1 split_keys transition_sampler (fun y => map (g y)) resample
                          ys init_sampler k n in
               exp (- r.2) * avg f (last (init_sampler k n) r.1))
  = nu (path_mean P g f ys).
Proof. by move=> h1 h2 h3 h4 h5 h6 h7 h8 h9; exact: (bootstrap_mean h1 h2 h3 h4 h5 h6 h7 h8 h9). Qed.

(* With f = 1: the likelihood estimate is unbiased. *)
Theorem bootstrap_likelihood_unbiased (R : rcfType) (exp log : R -> R) (X Y K : Type) (S : seq X -> Prop) (n : nat)
    (E0 E E' : (K -> R) -> R) (P : (X -> R) -> X -> R) (g : Y -> X -> R) (split1 : K -> K)
    (split_keys : K -> nat -> seq K) (transition_sampler : seq X -> K -> seq X)
    (resample : seq X -> seq R -> K -> seq X) (nu : (X -> R) -> R)
    (init_sampler : K -> nat -> seq X) (ys : seq Y) :
  exp 0 = 1 -> (forall x y, exp (x + y) = exp x * exp y) -> (forall u, 0 < u -> exp (log u) = u) ->
  (0 < n)%N -> expectation E0 -> expectation E -> expectation E' -> (forall y x, 0 < g y x) ->
  step_law S n E E' P g split1 transition_sampler resample ->
  (forall k, S (init_sampler k n)) ->
  (forall h, E0 (fun k => \sum_(x <- init_sampler k n) h x) = n%:R * nu h) ->
  (forall H : seq X -> seq K -> R,
     E0 (fun k => H (init_sampler k n) (split_keys k (size ys)))
     = E0 (fun k => iterE E (size ys) (fun ks => H (init_sampler k n) ks))) ->
  E0 (fun k => exp (- (bootstrap_filter log split1 split_keys transition_sampler (fun y => map (g y)) resample
                          ys init_sampler k n).2))
  = nu (path_mean P g (fun=> 1) ys).
Proof. by move=> h1 h2 h3 h4 h5 h6 h7 h8 h9 h10; exact: (bootstrap_likelihood h1 h2 h3 h4 h5 h6 h7 h8 h9 h10). Qed.
Print Assumptions systematic_particles.
Print Assumptions stratified_particles.
Print Assumptions bootstrap_unbiased.
Print Assumptions bootstrap_likelihood_unbiased.

(* ---- Example: two particles on two states, keys are lists of fair bits ---- *)
Section Bits.
Variable R : rcfType.
(* the expectation over m fair bits *)
Fixpoint bitsE (m : nat) (f : seq bool -> R) : R :=
  if m is m'.+1 then (bitsE m' (fun l => f (true :: l)) + bitsE m' (fun l => f (false :: l))) / 2%:R else f [::].
Lemma bitsE_ext m f g : (forall l, size l = m -> f l = g l) -> bitsE m f = bitsE m g.
Proof.
elim: m f g => [|m IH] f g h /=; first exact: h.
by congr ((_ + _) / _); apply: IH => l hl; apply: h; rewrite /= hl.
Qed.
Lemma bitsE_expectation m : expectation (bitsE m).
Proof.
elim: m => [|m [h1 h2 h3 h4]] /=; first by split=> // f g; exact.
split=> [f g|c f||f g h] /=.
- by rewrite !h1; field.
- by rewrite !h2; field.
- by rewrite h3; field.
- by congr ((_ + _) / _); apply: h4.
Qed.
Lemma bitsE_cat a b f : bitsE (a + b) f = bitsE a (fun l => bitsE b (fun r => f (l ++ r))).
Proof. by elim: a f => [|a IH] f //=; rewrite !IH. Qed.
Fixpoint chunks (m : nat) (l : seq bool) : seq (seq bool) :=
  if m is m'.+1 then take 3 l :: chunks m' (drop 3 l) else [::].
Lemma chunks_law m (H : seq (seq bool) -> R) : bitsE (3 * m) (fun r => H (chunks m r)) = iterE (bitsE 3) m H.
Proof.
elim: m H => [|m IH] H //; rewrite mulnS bitsE_cat /iterE -/iterE; apply: bitsE_ext => l hl.
rewrite -(IH (fun ks => H (l :: ks))); apply: bitsE_ext => r hr /=.
by rewrite take_size_cat // drop_size_cat.
Qed.

(* a state true stays with probability one half, a state false stays *)
Definition ex_P (f : bool -> R) (x : bool) : R := if x then (f true + f false) / 2%:R else f false.
Definition ex_trans (xs : seq bool) (k : seq bool) : seq bool :=
  [:: nth false xs 0 && nth false k 0; nth false xs 1 && nth false k 1].
Definition ex_g (y x : bool) : R := if x == y then 3%:R else 1.
Definition ex_u (k : seq bool) : R := if nth false k 0 then 3%:R / 4%:R else 1 / 4%:R.
Definition ex_resample : seq bool -> seq R -> seq bool -> seq bool :=
  discrete_resample false (fun w k => systematic (@ss_left_ref R) w (ex_u k)).
Definition ex_init (k : seq bool) (n : nat) : seq bool := [:: nth false k 0; nth false k 1].
Definition ex_nu (f : bool -> R) : R := (f true + f false) / 2%:R.

Lemma eighth (a b : nat) : (a%:R / 8%:R <= b%:R / 8%:R :> R) = (a <= b)%N.
Proof. by rewrite ler_pmul2r ?invr_gt0 ?ltr0n // ler_nat. Qed.
(* the weights of two particles are a/4 and (4 - a)/4 *)
Lemma ex_pick (a b : nat) : (a <= 4)%N -> (b <= 8)%N ->
  clip_index 2 (ss_left_ref (cumsum [:: a%:R / 4%:R; (4 - a)%:R / 4%:R : R]) (b%:R / 8%:R)) = ~~ (b <= a.*2)%N.
Proof.
move=> ha hb; have hw : weight_vector [:: a%:R / 4%:R; (4 - a)%:R / 4%:R : R].
  split; first by rewrite /= !divr_ge0 ?ler0n.
  by rewrite !big_cons big_nil natrB //; field.
have := pick_le (@ss_left_refP R) hw (v := b%:R / 8%:R) (j := 0%N) _ isT.
have h8 : b%:R / 8%:R <= 1 :> R by rewrite ler_pdivr_mulr ?ltr0n // mul1r ler_nat.
move=> /(_ h8); rewrite /cdf /= big_cons big_nil addr0 (_ : a%:R / 4%:R = a.*2%:R / 8%:R); last by rewrite -muln2 natrM; field.
rewrite eighth leqn0 => h.
have : (clip_index 2 (ss_left_ref (cumsum [:: a%:R / 4%:R; (4 - a)%:R / 4%:R : R]) (b%:R / 8%:R)) <= 1)%N by apply: geq_minr.
move: h; rewrite (_ : a%:R / 4%:R = a.*2%:R / 8%:R); last by rewrite -muln2 natrM; field.
by case: (clip_index _ _) => [|[|c]] // <-.
Qed.
Lemma ex_systematic (a : nat) k : (a <= 4)%N ->
  systematic (@ss_left_ref R) [:: a%:R / 4%:R; (4 - a)%:R / 4%:R] (ex_u k)
  = if nth false k 0 then [:: nat_of_bool (~~ (3 <= a.*2)%N); nat_of_bool (~~ (7 <= a.*2)%N)]
    else [:: nat_of_bool (~~ (1 <= a.*2)%N); nat_of_bool (~~ (5 <= a.*2)%N)].
Proof.
move=> ha; pose w : seq R := [:: a%:R / 4%:R; (4 - a)%:R / 4%:R].
transitivity [:: clip_index 2 (ss_left_ref (cumsum w) ((0%:R + ex_u k) / 2%:R));
                 clip_index 2 (ss_left_ref (cumsum w) ((1%:R + ex_u k) / 2%:R))]; first by [].
rewrite /ex_u; case: (nth false k 0).
  rewrite -(@ex_pick a 3) // -(@ex_pick a 7) //.
  by rewrite -/w; congr [:: _; _]; congr (clip_index 2 (ss_left_ref (cumsum w) _)); field.
rewrite -(@ex_pick a 1) // -(@ex_pick a 5) //.
by rewrite -/w; congr [:: _; _]; congr (clip_index 2 (ss_left_ref (cumsum w) _)); field.
Qed.
Definition ex_a (y x0 x1 : bool) : nat := if x0 == x1 then 2%N else if x0 == y then 3%N else 1%N.
Lemma ex_normalised y x0 x1 :
  normalised (ex_g y) [:: x0; x1] = [:: (ex_a y x0 x1)%:R / 4%:R; (4 - ex_a y x0 x1)%:R / 4%:R].
Proof.
rewrite /normalised /= !big_cons big_nil /ex_g /ex_a; congr [:: _; _].
all: by case: x0; case: x1; case: y => /=; rewrite ?(subSS, subn0); field.
Qed.

Lemma size2 (xs : seq bool) : size xs = 2%N -> exists x0 x1, xs = [:: x0; x1].
Proof. by case: xs => [|x0 [|x1 [|x2 xs]]] // _; exists x0, x1. Qed.
Lemma ex_a_le y x0 x1 : (ex_a y x0 x1 <= 4)%N. Proof. by case: y; case: x0; case: x1. Qed.
Lemma ex_law : step_law (fun xs => size xs = 2%N) 2 (bitsE 3) (bitsE 1) ex_P ex_g (drop 2) ex_trans ex_resample.
Proof.
split=> //.
- move=> xs y k /size2 [x0 [x1 ->]]; rewrite ex_normalised size_map ex_systematic ?ex_a_le //.
  by case: (nth _ _ _).
- move=> xs f /size2 [x0 [x1 ->]] /=; rewrite !big_cons !big_nil /= /ex_P.
  by case: x0; case: x1 => /=; field.
- move=> xs y f /size2 [x0 [x1 ->]]; rewrite ex_normalised /bitsE !gather_sum !ex_systematic ?ex_a_le //.
  rewrite /sum_at !big_cons !big_nil /= /ex_a; case: x0; case: x1; case: y => /=; rewrite /jget /= ?(subSS, subn0); by field.
- by move=> xs H _; rewrite /= /ex_trans /=; field.
Qed.
Example ex_filter (exp log : R -> R) (ys : seq bool) :
  exp 0 = 1 -> (forall x y, exp (x + y) = exp x * exp y) -> (forall u, 0 < u -> exp (log u) = u) ->
  bitsE (2 + 3 * size ys) (fun k => exp (- (bootstrap_filter log (drop 2) (fun k m => chunks m (drop 2 k)) ex_trans
     (fun y => map (ex_g y)) ex_resample ys ex_init k 2).2))
  = ex_nu (path_mean ex_P ex_g (fun=> 1) ys).
Proof.
move=> e0 eD el; apply: (bootstrap_likelihood_unbiased (S := fun xs => size xs = 2%N) (E := bitsE 3) (E' := bitsE 1)) => //.
- exact: bitsE_expectation. - exact: bitsE_expectation. - exact: bitsE_expectation.
- by move=> y x; rewrite /ex_g; case: ifP; rewrite ?ltr0n ?ltr01.
- exact: ex_law.
- move=> h; rewrite bitsE_cat (@bitsE_ext 2 _ (fun l => \sum_(x <- ex_init l 2) h x)).
    by rewrite /= !big_cons !big_nil /= /ex_nu; field.
  move=> l hl; rewrite (@bitsE_ext _ _ (fun=> \sum_(x <- ex_init l 2) h x)); first exact: Ec (bitsE_expectation _) _.
  by move=> r _; have [a [b ->]] := size2 hl.
- move=> H; rewrite !bitsE_cat; apply: bitsE_ext => l hl.
  rewrite (@bitsE_ext _ _ (fun r => H (ex_init l 2) (chunks (size ys) r))); last first.
    by move=> r _; have [a [b ->]] := size2 hl; rewrite /= drop0.
  rewrite chunks_law (@bitsE_ext _ _ (fun=> iterE (bitsE 3) (size ys) (fun ks => H (ex_init l 2) ks))).
    by rewrite (Ec (bitsE_expectation _)).
  by move=> r _; have [a [b ->]] := size2 hl.
Qed.
(* the likelihood of two measurements *)
Example ex_value : ex_nu (path_mean ex_P ex_g (fun=> 1) [:: true; false]) = 15%:R / 4%:R :> R.
Proof. rewrite /ex_nu /path_mean /ex_P /ex_g /=; by field. Qed.
End Bits.
