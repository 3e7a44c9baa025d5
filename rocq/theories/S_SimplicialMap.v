(** Specification vocabulary for maps of complexes. *)
From mathcomp Require Import all_ssreflect all_algebra.
From Verif Require Import Outcome M_Simplicial S_Perm S_Simplicial.
Set Implicit Arguments.
Unset Strict Implicit.
Unset Printing Implicit Defensive.

(** the image of a simplex under the vertex map f0 (vertex x goes to f0[x]) *)
Definition image (f0 : seq nat) (s : seq nat) : seq nat := [seq nth 0 f0 x | x <- s].

(** the sign of a list of distinct vertices: -1 to the number of inversions *)
Definition sign_of (s : seq nat) : int := ((-1) ^+ inversions s)%R.

(** f0 is defined on all vertices of X *)
Definition vertices_in (X : scx) (n : nat) : Prop := forall s, s != [::] -> contains X s -> all (fun x => x < n) s.

(** f0 maps X to Y: the image of every simplex, if it has no repeated vertex, is in Y (with its vertices sorted) *)
Definition maps_into (X Y : scx) (f0 : seq nat) : Prop :=
  forall s, s != [::] -> contains X s -> uniq (image f0 s) -> contains Y (sort leq (image f0 s)).
