(* Array primitives shared by the models. *)
From mathcomp Require Import all_ssreflect all_algebra.
Set Implicit Arguments.
Unset Strict Implicit.
Unset Printing Implicit Defensive.
Import GRing.Theory Num.Theory.
Local Open Scope ring_scope.

(* jax gather: an index beyond the end is clamped to the last element. *)
Definition jget (T : Type) (x0 : T) (s : seq T) (i : nat) : T :=
  nth x0 s (minn i (size s).-1).

Lemma jget_nth (T : Type) (x0 : T) s i : (i < size s)%N -> jget x0 s i = nth x0 s i.
Proof. by move=> h; rewrite /jget (minn_idPl _) // -ltnS (ltn_predK h). Qed.

(* jnp.sum / Python sum of a one-dimensional array. *)
Definition jsum (R : ringType) (s : seq R) : R := foldr (fun x y => x + y) 0 s.

Lemma jsumE (R : ringType) (s : seq R) : jsum s = \sum_(x <- s) x.
Proof. by elim: s => [|x s IH] /=; rewrite ?big_nil ?big_cons ?IH. Qed.

Lemma jsum_iota (R : ringType) (f : nat -> R) n :
  jsum [seq f i | i <- iota 0 n] = \sum_(i < n) f i.
Proof. by rewrite jsumE big_map -{1}[n]subn0 -/(index_iota 0 n) big_mkord. Qed.

(* jnp.prod / np.prod of a one-dimensional array. *)
Definition jprod (R : ringType) (s : seq R) : R := foldr (fun x y => x * y) 1 s.

Lemma jprodE (R : ringType) (s : seq R) : jprod s = \prod_(x <- s) x.
Proof. by elim: s => [|x s IH] /=; rewrite ?big_nil ?big_cons ?IH. Qed.

Lemma jprod_iota (R : ringType) (f : nat -> R) n :
  jprod [seq f i | i <- iota 0 n] = \prod_(i < n) f i.
Proof. by rewrite jprodE big_map -{1}[n]subn0 -/(index_iota 0 n) big_mkord. Qed.

(* jax.lax.scan(body, init, xs): final carry and stacked outputs. *)
Fixpoint scan (S X O : Type) (body : S -> X -> S * O) (s : S) (xs : seq X)
  : S * seq O :=
  match xs with
  | [::] => (s, [::])
  | x :: xs' =>
      let (s1, o) := body s x in
      let (s2, os) := scan body s1 xs' in
      (s2, o :: os)
  end.

(* jnp.cumsum. *)
Fixpoint cumsum_from (R : ringType) (acc : R) (s : seq R) : seq R :=
  match s with
  | [::] => [::]
  | x :: s' => (acc + x) :: cumsum_from (acc + x) s'
  end.
Definition cumsum (R : ringType) (s : seq R) : seq R := cumsum_from 0 s.

(* jnp.trapz(ys, xs): sum over consecutive pairs of (x' - x) (y + y') / 2. *)
Fixpoint trapz (R : fieldType) (ys xs : seq R) : R :=
  match ys, xs with
  | y :: ((y' :: _) as ys'), x :: ((x' :: _) as xs') =>
      (x' - x) * (y + y') / 2%:R + trapz ys' xs'
  | _, _ => 0
  end.
