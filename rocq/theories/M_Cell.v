(** Model of include/complex/cell_complex.hpp.  reserve(dim, k) (34-43) only reserves capacity; boundary(k, row, col) (145-149) is declared
    without a definition. *)
From mathcomp Require Import all_ssreflect all_algebra.
From Verif Require Import Outcome M_SparseVec M_Perm M_ColMatrix M_CSC M_Simplicial.
Set Implicit Arguments.
Unset Strict Implicit.
Unset Printing Implicit Defensive.

(** 17-23 *)
Record cellx := Cellx { ce_ncells : seq nat; ce_ptr : seq (seq nat); ce_bdr : seq (seq nat); ce_coeff : seq (seq int) }.

(** 26-32 reserve(maxdim) *)
Definition ce_reserve (maxdim : nat) (X : cellx) : cellx :=
  Cellx (grow 0 maxdim.+1 (ce_ncells X)) (grow [:: 0] maxdim (ce_ptr X)) (grow [::] maxdim (ce_bdr X)) (grow [::] maxdim (ce_coeff X)).
(** 98-100 CellComplex(maxdim); CellComplex() is maxdim = 0 *)
Definition ce_new (maxdim : nat) : cellx := ce_reserve maxdim (Cellx [::] [::] [::] [::]).

(** 103 maxdim() *)
Definition ce_maxdim (X : cellx) : nat := (size (ce_ncells X)).-1.
(** 105 ncells(k) *)
Definition ce_ncell (X : cellx) (k : nat) : outcome nat := if k <= ce_maxdim X then oget (ce_ncells X) k else Ok 0.
(** 107-113 ncells() *)
Definition ce_total (X : cellx) : outcome nat := ofold (fun ct k => do n <- ce_ncell X k; Ok (ct + n)) 0 (iota 0 (ce_maxdim X).+1).

(** 69-71, 124 add_vertex() *)
Definition ce_add_vertex (X : cellx) : outcome (cellx * nat) :=
  do n <- oget (ce_ncells X) 0; do s <- oset (ce_ncells X) 0 n.+1; Ok (Cellx s (ce_ptr X) (ce_bdr X) (ce_coeff X), n).
(** 74-77, 125 add_vertices(k): returns the new number of vertices *)
Definition ce_add_vertices (X : cellx) (k : nat) : outcome (cellx * nat) :=
  do n <- oget (ce_ncells X) 0; do s <- oset (ce_ncells X) 0 (n + k); Ok (Cellx s (ce_ptr X) (ce_bdr X) (ce_coeff X), n + k).

(** 46-67 add_unsafe(b, c, k) *)
Definition ce_add_unsafe (X : cellx) (b : seq nat) (c : seq int) (k : nat) : outcome (cellx * nat) :=
  do v <- oget (ce_bdr X) k.-1; do bdr <- oset (ce_bdr X) k.-1 (v ++ b);
  do w <- oget (ce_coeff X) k.-1; do coeff <- oset (ce_coeff X) k.-1 (w ++ c);
  do p <- oget (ce_ptr X) k.-1; do ptr <- oset (ce_ptr X) k.-1 (rcons p (size (v ++ b)));
  do n <- oget (ce_ncells X) k; do nc <- oset (ce_ncells X) k n.+1;
  Ok (Cellx nc ptr bdr coeff, n).

(** 79-92 add_safe, 116-122 add(b, c, k); a failed assert is Throw *)
Definition ce_add (X : cellx) (b : seq nat) (c : seq int) (k : nat) : outcome (cellx * nat) :=
  if k == 0 then ce_add_vertex X
  else if size b != size c then Throw
  else ce_add_unsafe (ce_reserve k X) b c k.

(** 128-136 boundary_csc(dim); for dim = 0 the index dim - 1 wraps *)
Definition ce_boundary_csc (X : cellx) (dim : nat) : outcome (csc int) :=
  if dim is d.+1 then
    do m <- ce_ncell X d; do n <- ce_ncell X dim;
    do ptr <- oget (ce_ptr X) d; do bdr <- oget (ce_bdr X) d; do coeff <- oget (ce_coeff X) d;
    csc_make m n ptr bdr coeff
  else UB.
(** 139-141 boundary(dim), converted with conv: TV(int) *)
Definition ce_boundary (T : Type) (conv : int -> T) (X : cellx) (dim : nat) : outcome (cmat T) :=
  do A <- ce_boundary_csc X dim; cm_of_csc conv A.
