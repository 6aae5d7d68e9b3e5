(* Model of raw_moments_mvn_mgf (mfs/multi_dims/moments.py, lines 33-63).

   jax.grad differentiates the traced program, so the function is modelled by its
   expression and jax.grad(f)(x)[k] by the expression of the partial derivative. *)
From mathcomp Require Import all_ssreflect all_algebra.
From Verif Require Import Prelude.
Set Implicit Arguments.
Unset Strict Implicit.
Unset Printing Implicit Defensive.
Import Order.TTheory GRing.Theory Num.Theory.
Local Open Scope ring_scope.

Section Mgf.
Variable R : rcfType.
(* jnp.exp *)
Variable exp : R -> R.

Inductive expr : Type :=
  | Cst of R | Var of nat | Add of expr & expr | Mul of expr & expr | Exp of expr.

Fixpoint eval (z : nat -> R) (e : expr) : R :=
  match e with
  | Cst c => c
  | Var j => z j
  | Add a b => eval z a + eval z b
  | Mul a b => eval z a * eval z b
  | Exp a => exp (eval z a)
  end.

(* line 48: jax.grad(f)(x)[k] *)
Fixpoint diff (k : nat) (e : expr) : expr :=
  match e with
  | Cst _ => Cst 0
  | Var j => Cst (j == k)%:R
  | Add a b => Add (diff k a) (diff k b)
  | Mul a b => Add (Mul (diff k a) b) (Mul a (diff k b))
  | Exp a => Mul (Exp a) (diff k a)
  end.

(* lines 44-49, from the k-th entry of multi_index on *)
Fixpoint gradient_from (k : nat) (multi_index : seq nat) (derivative : expr) : expr :=
  match multi_index with
  | [::] => derivative
  | diff_order :: rest => gradient_from k.+1 rest (iter diff_order (diff k) derivative)
  end.
Definition gradient_wrt_multi_index (func : expr) (multi_index : seq nat) : expr :=
  gradient_from 0 multi_index func.

(* jnp.dot of two vectors of expressions *)
Definition edot (us vs : seq expr) : expr :=
  foldr (fun p acc => Add (Mul p.1 p.2) acc) (Cst 0) (zip us vs).

Variables (d : nat).
Definition zvars : seq expr := [seq Var j | j <- iota 0 d].

(* lines 60-61 *)
Definition mgf (mean : 'cV[R]_d) (cov : 'M[R]_d) : expr :=
  Exp (Add (edot zvars [seq Cst (mean i 0) | i <- enum 'I_d])
           (Mul (Cst (1 / 2%:R))
                (edot zvars [seq edot [seq Cst (cov i j) | j <- enum 'I_d] zvars | i <- enum 'I_d]))).

(* lines 52-63 *)
Definition raw_moments_mvn_mgf (mean : 'cV[R]_d) (cov : 'M[R]_d) (multi_index : seq nat) : R :=
  eval (fun=> 0) (gradient_wrt_multi_index (mgf mean cov) multi_index).
End Mgf.
