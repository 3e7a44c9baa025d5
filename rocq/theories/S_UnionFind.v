(** Specification vocabulary for union-find persistence. *)
From mathcomp Require Import all_ssreflect.
Set Implicit Arguments.
Unset Strict Implicit.
Unset Printing Implicit Defensive.

(** connected by the edges of a list *)
Inductive conn (E : seq (nat * nat)) : nat -> nat -> Prop :=
| conn_refl i : conn E i i
| conn_edge i j : (i, j) \in E -> conn E i j
| conn_sym i j : conn E i j -> conn E j i
| conn_trans i j l : conn E i j -> conn E j l -> conn E i l.
