(** Specification vocabulary for LightSimplicialComplex. *)
From mathcomp Require Import all_ssreflect all_algebra.
From Verif Require Import Outcome M_Light.
Set Implicit Arguments.
Unset Strict Implicit.
Unset Printing Implicit Defensive.

(** the simplices a complex on n vertices of dimension at most k can hold: vectors of at most k+1 vertices below n *)
Definition lsimplex (n k : nat) (s : seq nat) : Prop := s != [::] /\ size s <= k.+1 /\ all (fun x => x < n) s.

Section S.
Variable W : nat.
Variable junk : option nat.

(** find_idx(s) returns an index *)
Definition lcontains (L : lsc) (s : seq nat) : Prop := exists i, l_find W L s = Ok (Some i).

(** the complexes the API can build from LightSimplicialComplex(n, k) *)
Inductive lbuilt (n k : nat) : lsc -> Prop :=
| lb_new : lbuilt n k (l_new W n k)
| lb_add L s L' i : lbuilt n k L -> lsimplex n k s -> l_add W L s = Ok (L', i) -> lbuilt n k L'
| lb_add_unsafe L s L' i : lbuilt n k L -> lsimplex n k s -> ~ lcontains L s -> l_add_unsafe W L s = Ok (L', i) -> lbuilt n k L'
| lb_add_recursive L s L' r : lbuilt n k L -> lsimplex n k s -> l_add_recursive W junk L s = Ok (L', r) -> lbuilt n k L'
| lb_add_key L d key L' i : lbuilt n k L -> d <= k -> key < n ^ d.+1 -> l_add_key L d key = Ok (L', i) -> lbuilt n k L'
| lb_add_recursive_key L d key L' r : lbuilt n k L -> d <= k -> key < n ^ d.+1 -> l_add_rec W junk d L key = Ok (L', r) -> lbuilt n k L'.

(** the i-th simplex of dimension d is s *)
Definition lcell_is (L : lsc) (d i : nat) (s : seq nat) : Prop :=
  exists2 m, l_ncell L d = Ok m & i < m /\ l_simplex W L d i = Ok s.

Definition lpreserves (L L' : lsc) : Prop := forall t i, l_find W L t = Ok (Some i) -> l_find W L' t = Ok (Some i).

(** every nonempty subsequence of a simplex is there *)
Definition lclosed (n k : nat) (L : lsc) : Prop :=
  forall s t, lsimplex n k s -> lcontains L s -> t != [::] -> subseq t s -> lcontains L t.
End S.
