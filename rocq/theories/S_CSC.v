(** Specification vocabulary for CSCMatrix. *)
From mathcomp Require Import all_ssreflect all_algebra.
From Verif Require Import Outcome M_SparseVec M_CSC S_Linalg.
Set Implicit Arguments.
Unset Strict Implicit.
Unset Printing Implicit Defensive.

Section S.
Variable T : Type.
(** the data describe an m x n matrix: column j occupies the positions colptr[j], ..., colptr[j+1]-1 *)
Definition csc_wf (A : csc T) : Prop :=
  [/\ size (c_colptr A) = (c_n A).+1, nth 0 (c_colptr A) 0 = 0, sorted leq (c_colptr A),
      last 0 (c_colptr A) = size (c_rowind A) /\ size (c_val A) = size (c_rowind A) & all (fun r => r < c_m A) (c_rowind A)].

(** the (row, value) pairs of column j *)
Definition csc_col (A : csc T) (j : nat) : svec T :=
  let b := nth 0 (c_colptr A) j in let e := nth 0 (c_colptr A) j.+1 in
  drop b (take e (zip (c_rowind A) (c_val A))).
End S.

(** entry (i, j): the sum of the values stored for it *)
Definition csc_entry (F : fieldType) (A : csc F) (i j : nat) : F := coef (csc_col A j) i.
(** the row indices of column j *)
Definition csc_rows (T : Type) (A : csc T) (j : nat) : seq nat := unzip1 (csc_col A j).
