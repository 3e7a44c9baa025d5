(** Specification vocabulary for filtrations. *)
From mathcomp Require Import all_ssreflect all_algebra.
From Verif Require Import Outcome M_Simplicial M_Filtration S_Simplicial.
Set Implicit Arguments.
Unset Strict Implicit.
Unset Printing Implicit Defensive.

Section S.
Variable V : Type.
Variable v0 : V.

(** every filtration that a sequence of public calls can produce *)
Inductive fbuilt : filt V -> Prop :=
| fb_empty : fbuilt (fl_empty V)
| fb_of C F : built C -> fl_of v0 C = Ok F -> fbuilt F
(** filtration.hpp 93-103 Filtration(C, vals) and update_filtration(vals) with one value per cell of C *)
| fb_vals C val : built C -> size val = sc_dims C ->
    (forall k, k < sc_dims C -> sc_ncell C k = Ok (size (nth [::] val k))) -> fbuilt (Filt C val)
| fb_add F t s F' r : fbuilt F -> fl_add v0 F t s = Ok (F', r) -> fbuilt F'
| fb_add_directed F t s F' r : fbuilt F -> fl_add_directed v0 F t s = Ok (F', r) -> fbuilt F'
| fb_add_recursive F t s F' r : fbuilt F -> fl_add_recursive v0 F t s = Ok (F', r) -> fbuilt F'
| fb_union_add F F2 F' : fbuilt F -> fbuilt F2 -> fl_union_add v0 F F2 = Ok F' -> fbuilt F'.

(** the complex contains s and vals()[dim][find_idx(s)] is v *)
Definition fvalue (F : filt V) (s : seq nat) (v : V) : Prop :=
  exists2 i, sc_find (fl_X F) s = Ok (Some i) & (do vs <- oget (fl_val F) (size s).-1; oget vs i) = Ok v.

(** every simplex is stored with its vertices in order (true unless directed simplices were added) *)
Definition undirected (X : scx) : Prop := forall s, contains X s -> sorted leq s.
End S.

(** a face never has a larger value than the simplex *)
Definition monotone (V : Type) (le : V -> V -> bool) (F : filt V) : Prop :=
  forall t u v w, u != [::] -> subseq u t -> fvalue F t v -> fvalue F u w -> le w v.
