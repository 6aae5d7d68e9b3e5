(* Model of mfs/multi_dims/multi_indices.py.

   Multi-indices are [seq nat]; Python integers that may become negative are [int];
   a Python exception is [None]. *)
From mathcomp Require Import all_ssreflect all_algebra.
Set Implicit Arguments.
Unset Strict Implicit.
Unset Printing Implicit Defensive.
Import GRing.Theory Num.Theory.
Local Open Scope ring_scope.

(* math.comb: ValueError on negative arguments, otherwise the binomial coefficient. *)
Definition py_comb (n k : int) : option int :=
  match n, k with
  | Posz n', Posz k' => Some (Posz (binomial n' k'))
  | _, _ => None
  end.

(* multi_indices.py:25-58 sizeof_multi_indices, branch by branch. *)
Definition sizeof_multi_indices (d upper_sum lower_sum : int) : option int :=
  if upper_sum == lower_sum then py_comb (upper_sum + d - 1) upper_sum
  else if upper_sum < lower_sum then Some 0
  else if lower_sum == 0 then py_comb (upper_sum + d) upper_sum
  else obind (fun a => omap (fun b => a - b)
                            (py_comb (lower_sum - 1 + d) (lower_sum - 1)))
             (py_comb (upper_sum + d) upper_sum).

(* multi_indices.py:96-107, the for loop of graded_lexico_indexof_multi_index.
   [d - (i + 1)] is the length of the not yet visited part of the multi-index. *)
Fixpoint indexof_loop (mi : seq nat) (sub_sum pos : int) : option int :=
  match mi with
  | [::] => Some pos
  | ith_index :: rest =>
      let pos' :=
        if (1 <= ith_index)%N then
          let l := sub_sum - ith_index%:Z + 1 in
          let u := sub_sum in
          omap (fun s => pos + s) (sizeof_multi_indices (size rest)%:Z u l)
        else Some pos in
      obind (fun p => indexof_loop rest (sub_sum - ith_index%:Z) p) pos'
  end.

(* multi_indices.py:61-112 graded_lexico_indexof_multi_index. *)
Definition graded_lexico_indexof_multi_index (mi : seq nat) (lower_sum : int)
  : option int :=
  let d := (size mi)%:Z in
  let total_sum := (sumn mi)%:Z in
  obind (fun base_pos =>
    obind (fun pos =>
      if lower_sum != 0 then
        omap (fun s => pos - s) (sizeof_multi_indices d (lower_sum - 1) 0)
      else Some pos)
      (indexof_loop mi total_sum base_pos))
    (sizeof_multi_indices d (total_sum - 1) 0).

(* np.max(np.nonzero(x)): position of the last non-zero entry.  Only used when one
   exists. *)
Definition last_nonzero_ind (x : seq nat) : nat :=
  ((size x).-1 - find (fun v => v != 0%N) (rev x))%N.

(* multi_indices.py:115-136 _next_graded_lexico_multi_index.  The decrement on
   line 128 and the [- 1] on line 134 are applied to non-zero entries, so truncated
   subtraction on [nat] is exact. *)
Definition next_graded_lexico_multi_index (mi : seq nat) : seq nat :=
  let d := size mi in
  let total_sum := sumn mi in
  if ~~ has (fun v => v != 0%N) (behead mi) then
    set_nth 0%N (nseq d 0%N) d.-1 total_sum.+1
  else
    let last := last_nonzero_ind mi in
    if last == d.-1 then
      let nxt := set_nth 0%N mi d.-1 (nth 0%N mi d.-1).-1 in
      set_nth 0%N nxt d.-2 (nth 0%N nxt d.-2).+1
    else
      let nxt := set_nth 0%N mi last 0%N in
      let nxt := set_nth 0%N nxt last.-1 (nth 0%N nxt last.-1).+1 in
      set_nth 0%N nxt d.-1 (nth 0%N nxt d.-1 + (nth 0%N mi last).-1)%N.

(* multi_indices.py:139-177 generate_graded_lexico_multi_indices.  The array of rows
   is the list of rows.  For d >= 2 and an empty range, line 169 raises IndexError;
   d = 0 raises IndexError on line 167; for d = 1 numpy rejects a negative shape
   upper - lower + 1 < -1 and returns no row for 0 and -1 (the documentation demands
   upper >= lower). *)
Definition generate_graded_lexico_multi_indices (d upper_sum lower_sum : nat)
  : option (seq (seq nat)) :=
  if d == 1%N then
    if (lower_sum <= upper_sum.+2)%N then
      Some [seq [:: k] | k <- iota lower_sum (upper_sum.+1 - lower_sum)]
    else None
  else if d == 0%N then None
  else
    obind (fun z =>
      if z == 0 then None
      else
        let init := set_nth 0%N (nseq d 0%N) d.-1 lower_sum in
        Some (traject next_graded_lexico_multi_index init `|z|%N))
      (sizeof_multi_indices d%:Z upper_sum%:Z lower_sum%:Z).

(* multi_indices.py:180-182 find_indices, one entry. *)
Definition find_index (mi : seq nat) : option int :=
  graded_lexico_indexof_multi_index mi 0.

(* Sequence of optional results: one failing entry makes the whole call fail. *)
Fixpoint all_some (T : Type) (s : seq (option T)) : option (seq T) :=
  match s with
  | [::] => Some [::]
  | o :: s' => obind (fun x => omap (cons x) (all_some s')) o
  end.

(* Component-wise addition of multi-indices (numpy broadcasting of line 219). *)
Definition mi_add (x y : seq nat) : seq nat :=
  [seq (p.1 + p.2)%N | p <- zip x y].

(* gram_multi_indices[:, :, i] += 1 on line 224. *)
Definition mi_incr (x : seq nat) (i : nat) : seq nat :=
  set_nth 0%N x i (nth 0%N x i).+1.

(* find_indices applied to a square table. *)
Definition find_table (t : seq (seq (seq nat))) : option (seq (seq int)) :=
  all_some [seq all_some [seq find_index mi | mi <- row] | row <- t].

(* multi_indices.py:185-229 gram_and_hankel_indices_graded_lexico.  N = 0 makes
   math.comb fail on line 214; a shape mismatch on line 220 is an exception. *)
Definition gram_and_hankel_indices_graded_lexico (N d : nat)
  : option (seq (seq (seq int))) :=
  obind (fun s =>
    obind (fun basis =>
      if (size basis)%:Z != s then None
      else
        let gram := [seq [seq mi_add x y | y <- basis] | x <- basis] in
        obind (fun g =>
          omap (cons g)
            (all_some
               [seq find_table [seq [seq mi_incr mi i | mi <- row] | row <- gram]
               | i <- iota 0 d]))
          (find_table gram))
      (generate_graded_lexico_multi_indices d N.-1 0))
    (py_comb (N%:Z - 1 + d%:Z) (N%:Z - 1)).
