(** Specification vocabulary for simplicial complexes: which complexes the API can build, which simplices a complex
    contains, and the oriented boundary of a simplex. *)
From mathcomp Require Import all_ssreflect all_algebra.
From Verif Require Import Outcome M_Simplicial.
Set Implicit Arguments.
Unset Strict Implicit.
Unset Printing Implicit Defensive.

(** every complex that a sequence of public calls can produce (calls that throw leave the complex as it was) *)
Inductive built : scx -> Prop :=
| built_new m : built (sc_new m)
| built_add X s X' r : built X -> sc_add X s = Ok (X', r) -> built X'
| built_add_directed X s X' r : built X -> sc_add_directed X s = Ok (X', r) -> built X'
| built_add_recursive X s X' r : built X -> sc_add_recursive X s = Ok (X', r) -> built X'
| built_add_directed_recursive X s X' r : built X -> sc_add_directed_recursive X s = Ok (X', r) -> built X'
| built_union X Y Z : built X -> built Y -> sc_union X Y = Ok Z -> built Z
| built_union_add X Y Z : built X -> built Y -> sc_union_add X Y = Ok Z -> built Z
| built_inter X Y Z : built X -> built Y -> sc_inter X Y = Ok Z -> built Z.

(** find_idx(s) returns an index *)
Definition contains (X : scx) (s : seq nat) : Prop := exists i, sc_find X s = Ok (Some i).

(** the i-th simplex of dimension k is s *)
Definition cell_is (X : scx) (k i : nat) (s : seq nat) : Prop :=
  exists2 n, sc_ncell X k = Ok n & i < n /\ sc_simplex X k i = Ok s.

(** no index changes and nothing disappears *)
Definition preserves (X X' : scx) : Prop := forall t i, sc_find X t = Ok (Some i) -> sc_find X' t = Ok (Some i).

(** all faces of codimension one are there; the faces of a vertex are not required *)
Definition has_faces (X : scx) (s : seq nat) : Prop :=
  forall j, j < size s -> 1 < size s -> contains X (take j s ++ drop j.+1 s).

(** no simplex repeats a vertex *)
Definition nondegenerate (X : scx) : Prop := forall s, contains X s -> uniq s.
