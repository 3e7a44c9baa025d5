(** Model of include/util/sorted.hpp and of the sign functions of include/util/simplex.hpp.  Values are
    naturals (size_t); the loops compare only with <. *)
From mathcomp Require Import all_ssreflect.
From Verif Require Import Outcome M_SparseVec M_Perm.
Set Implicit Arguments.
Unset Strict Implicit.
Unset Printing Implicit Defensive.

(** sorted.hpp 21-37 intersect_sorted into a vector (39-58 into a set is the same loop).
    The two iterators are the two remaining lists. *)
Fixpoint intersect_sorted (a : seq nat) : seq nat -> seq nat :=
  match a with
  | [::] => fun _ => [::]
  | x :: a' =>
      fix aux (b : seq nat) : seq nat :=
        match b with
        | [::] => [::]
        | y :: b' =>
            if x < y then intersect_sorted a' b
            else if y < x then aux b'
            else x :: intersect_sorted a' b'
        end
  end.

(** sorted.hpp 63-77 has_intersect_sorted *)
Fixpoint has_intersect_sorted (a : seq nat) : seq nat -> bool :=
  match a with
  | [::] => fun _ => false
  | x :: a' =>
      fix aux (b : seq nat) : bool :=
        match b with
        | [::] => false
        | y :: b' =>
            if x < y then has_intersect_sorted a' b
            else if y < x then aux b'
            else true
        end
  end.

(** the break test after an increment: at the end, or not below maxval *)
Definition at_or_past (m : nat) (a : seq nat) : bool :=
  if a is x :: _ then ~~ (x < m) else true.

(** sorted.hpp 84-105 intersect_sorted_lt(a, b, maxval, c) *)
Fixpoint intersect_sorted_lt (m : nat) (a : seq nat) : seq nat -> seq nat :=
  match a with
  | [::] => fun _ => [::]
  | x :: a' =>
      fix aux (b : seq nat) : seq nat :=
        match b with
        | [::] => [::]
        | y :: b' =>
            if x < y then if at_or_past m a' then [::] else intersect_sorted_lt m a' b
            else if y < x then if at_or_past m b' then [::] else aux b'
            else x :: (if at_or_past m a' || at_or_past m b' then [::] else intersect_sorted_lt m a' b')
        end
  end.

(** sorted.hpp 107-125 has_intersect_sorted_lt *)
Fixpoint has_intersect_sorted_lt (m : nat) (a : seq nat) : seq nat -> bool :=
  match a with
  | [::] => fun _ => false
  | x :: a' =>
      fix aux (b : seq nat) : bool :=
        match b with
        | [::] => false
        | y :: b' =>
            if x < y then if at_or_past m a' then false else has_intersect_sorted_lt m a' b
            else if y < x then if at_or_past m b' then false else aux b'
            else true
        end
  end.

(** sorted.hpp 190-207 find_sorted_lt: lower_bound, then --it and dereference.  NO_IND is None.
    With it == begin the decrement leaves the range: undefined behaviour. *)
Definition find_sorted_lt (s : seq nat) (v : nat) : outcome (option nat) :=
  if s is [::] then Ok None
  else
    let it := find (fun x => ~~ (x < v)) s in      (* lower_bound on a sorted range *)
    if it is k.+1 then
      do x <- oget s k; Ok (if x < v then Some k else None)
    else UB.

(** sorted.hpp 209-233 sorted_complement(ind, n): [i] counts up; the first loop ends with ind *)
Fixpoint compl_rest (fuel i n : nat) : seq nat :=
  if fuel is f.+1 then (if i < n then i :: compl_rest f i.+1 n else [::]) else [::].
Fixpoint compl_loop (fuel : nat) (ind : seq nat) (i : nat) : outcome (seq nat * nat) :=
  if ind is p :: ind' then
    if fuel is f.+1 then
      if p == i then compl_loop f ind' i.+1
      else do (c, j) <- compl_loop f ind i.+1; Ok (i :: c, j)
    else OutOfFuel
  else Ok ([::], i).
(** in an unsorted vector the counter passes an entry and the loop does not end (until size_t wraps):
    out of fuel *)
Definition sorted_complement (ind : seq nat) (n : nat) : outcome (seq nat) :=
  do (c, i) <- compl_loop (size ind + foldr maxn 0 ind).+1 ind 0;
  Ok (c ++ compl_rest (n - i) i n).

Section SumReduce.
Variable T : Type.
Variable O : fops T.

(** sorted.hpp 149-187 sort_sum_reduce, after the two apply_perm calls: the while loop on the arrays
    ind, val with the two pointers *)
Fixpoint ssr_loop (n : nat) (ind : seq nat) (vals : seq T) (fill look : nat) : outcome (seq nat * seq T * nat) :=
  if n is n'.+1 then
    do il <- oget ind look; do jf <- oget ind fill;
    do vl <- oget vals look; do vf <- oget vals fill;
    if il == jf then
      do vals' <- oset vals fill (fadd O vf vl);
      ssr_loop n' ind vals' fill look.+1
    else
      let fill' := if is0 O vf then fill else fill.+1 in
      do ind' <- oset ind fill' il;
      do vals' <- oset vals fill' vl;
      ssr_loop n' ind' vals' fill' look.+1
  else Ok (ind, vals, fill).

Definition sort_sum_reduce (ind : seq nat) (vals : seq T) (offset : nat) : outcome (seq nat * seq T) :=
  let perm := sortperm (fun a b => a < b) 0 (drop offset ind) in
  do i1 <- apply_perm perm (drop offset ind);
  do v1 <- apply_perm perm (drop offset vals);
  do (st, fill) <- ssr_loop (size ind - offset.+1) (take offset ind ++ i1) (take offset vals ++ v1) offset offset.+1;
  let: (i2, v2) := st in
  do vf <- oget v2 fill;
  let fill' := if is0 O vf then fill else fill.+1 in
  Ok (take fill' i2, take fill' v2).
End SumReduce.

(** simplex.hpp 68-74 is_degenerate *)
Fixpoint is_degenerate (s : seq nat) : bool :=
  match s with
  | x :: ((y :: _) as s') => (y == x) || is_degenerate s'
  | _ => false
  end.

(** simplex.hpp 80-85 simplex_sign: sorts s in place; 0, 1 or -1 *)
Inductive sgn : Type := Zero | Plus | Minus.
Definition simplex_sign (s : seq nat) : outcome (seq nat * sgn) :=
  let p := sortperm (fun a b => a < b) 0 s in
  do s' <- apply_perm p s;
  Ok (s', if is_degenerate s' then Zero else if perm_sign_neg p then Minus else Plus).
