(** Specification vocabulary for flag and Rips complexes. *)
From mathcomp Require Import all_ssreflect all_algebra.
From Verif Require Import Outcome M_Simplicial M_Filtration M_Flag S_Simplicial S_Filtration.
Set Implicit Arguments.
Unset Strict Implicit.
Unset Printing Implicit Defensive.

(** an edge list as a list of pairs; two vertices are adjacent when they form an edge, in either order *)
Definition adjacent (ps : seq (nat * nat)) (x y : nat) : bool := ((x, y) \in ps) || ((y, x) \in ps).

(** vertices below n, no loops, no edge given twice (in either order) *)
Definition simple (n : nat) (ps : seq (nat * nat)) : Prop :=
  [/\ forall p, p \in ps -> [/\ p.1 < n, p.2 < n & p.1 <> p.2], uniq ps & forall p, p \in ps -> (p.2, p.1) \notin ps].

(** the vertices of s, in increasing order, are vertices of the graph and pairwise adjacent *)
Definition clique (n : nat) (ps : seq (nat * nat)) (s : seq nat) : Prop :=
  [/\ sorted ltn s, forall x, x \in s -> x < n & forall x y, x \in s -> y \in s -> x <> y -> adjacent ps x y].

(** the number of vertices allowed for maxdim: edges are there even for maxdim = 0 *)
Definition max_vertices (maxdim : nat) : nat := (maxn maxdim 1).+1.

Section S.
Variable V : eqType.
Variable le : V -> V -> bool.
Definition pairs_of (es : seq (fedge V)) : seq (nat * nat) := [seq (fe_s e, fe_t e) | e <- es].

(** v is the largest value of an edge between two of the vertices of s *)
Definition largest_edge (es : seq (fedge V)) (s : seq nat) (v : V) : Prop :=
  (exists e : fedge V, [/\ e \in es, fe_s e \in s, fe_t e \in s & fe_r e = v]) /\
  (forall e : fedge V, e \in es -> fe_s e \in s -> fe_t e \in s -> le (fe_r e) v).

(** v is the largest of the numbers D x y for x, y in s, x < y *)
Definition diameter (D : nat -> nat -> V) (s : seq nat) (v : V) : Prop :=
  (exists x y, [/\ x \in s, y \in s, x < y & D x y = v]) /\
  (forall x y, x \in s -> y \in s -> x < y -> le (D x y) v).
End S.
