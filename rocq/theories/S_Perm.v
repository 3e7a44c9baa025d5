(** Specification vocabulary for permutations given as index vectors. *)
From mathcomp Require Import all_ssreflect.
Set Implicit Arguments.
Unset Strict Implicit.
Unset Printing Implicit Defensive.

(** p lists each of 0..n-1 exactly once *)
Definition is_perm (p : seq nat) : bool := perm_eq p (iota 0 (size p)).

(** number of inversions: pairs of positions i < j with p[j] < p[i] *)
Definition inversions (p : seq nat) : nat :=
  #|[set ij : 'I_(size p) * 'I_(size p) | (ij.1 < ij.2) && (nth 0 p ij.2 < nth 0 p ij.1)]|.

(** number of discordant pairs of two orderings p, q of 0..n-1: x before y in p, y before x in q *)
Definition discordant (n : nat) (p q : seq nat) : nat :=
  #|[set xy : 'I_n * 'I_n | (index (xy.1 : nat) p < index (xy.2 : nat) p) &&
                            (index (xy.2 : nat) q < index (xy.1 : nat) q)]|.
