(** Model of the parts of include/linalg/csc_matrix.hpp that the complexes use, and of the conversion to ColumnMatrix.
    [int] values are unbounded integers here (the complexes only store 1 and -1). *)
From mathcomp Require Import all_ssreflect all_algebra.
From Verif Require Import Outcome M_SparseVec M_Perm M_ColMatrix.
Set Implicit Arguments.
Unset Strict Implicit.
Unset Printing Implicit Defensive.

(** permutation.hpp 16-32 fill_sortperm on the range [off, off+len) of ind, then 199-216 apply_perm on the same
    range of ind and of val (csc_matrix.hpp 25-50; simplicial_complex.hpp 132-146, 226-240).
    std::sort on the keys is modelled as the stable sort. *)
Definition range_sort (T : Type) (off len : nat) (ind : seq nat) (val : seq T) : outcome (seq nat * seq T) :=
  if (off + len <= size ind) && (off + len <= size val) then
    let perm := sortperm (fun a b => a < b) 0 (take len (drop off ind)) in
    do i' <- apply_perm perm (drop off ind);
    do v' <- apply_perm perm (drop off val);
    Ok (take off ind ++ i', take off val ++ v')
  else UB.

Section CSC.
Variable T : Type.

(** csc_matrix.hpp 17-23 *)
Record csc := CSC { c_m : nat; c_n : nat; c_colptr : seq nat; c_rowind : seq nat; c_val : seq T }.

(** csc_matrix.hpp 25-50 sort_col *)
Definition csc_sort_col (A : csc) (j : nat) : outcome csc :=
  do b <- oget (c_colptr A) j;
  do e <- oget (c_colptr A) j.+1;
  do r <- range_sort b (e - b) (c_rowind A) (c_val A);
  Ok (CSC (c_m A) (c_n A) (c_colptr A) r.1 r.2).

(** csc_matrix.hpp 60-67 sort *)
Definition csc_sort (A : csc) : outcome csc := ofold csc_sort_col A (iota 0 (c_n A)).

(** csc_matrix.hpp 73-81 constructor *)
Definition csc_make (m n : nat) (colptr rowind : seq nat) (val : seq T) : outcome csc :=
  csc_sort (CSC m n colptr rowind val).

(** csc_matrix.hpp 91-96 getval; [z] is TV(0) *)
Fixpoint csc_scan (A : csc) (z : T) (i : nat) (ks : seq nat) : outcome T :=
  match ks with
  | [::] => Ok z
  | k :: ks' => do r <- oget (c_rowind A) k; if r == i then oget (c_val A) k else csc_scan A z i ks'
  end.
Definition csc_getval (z : T) (A : csc) (i j : nat) : outcome T :=
  do b <- oget (c_colptr A) j; do e <- oget (c_colptr A) j.+1; csc_scan A z i (iota b (e - b)).

(** col_matrix.hpp 73-88 ColumnMatrix(const CSCMatrix<int> &) with sparse_vector.hpp 134-142; [conv] is the
    conversion TV(int) *)
Definition cm_of_csc (T' : Type) (conv : T -> T') (A : csc) : outcome (cmat T') :=
  do cs <- omapm (fun j =>
      do b <- oget (c_colptr A) j; do e <- oget (c_colptr A) j.+1;
      omapm (fun i => do r <- oget (c_rowind A) i; do v <- oget (c_val A) i; Ok (r, conv v)) (iota b (e - b)))
    (iota 0 (c_n A));
  Ok (CMat (c_m A) (c_n A) cs).
End CSC.
