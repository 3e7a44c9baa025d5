(** Model of the remaining operations of include/linalg/csc_matrix.hpp: submatrix, block_select, gemm, sum.
    Not modelled: trilu (its calls of find_sorted_lt are not qualified and it is not used anywhere).  The asserts on the
    dimensions are not modelled. *)
From mathcomp Require Import all_ssreflect all_algebra.
From Verif Require Import Outcome M_SparseVec M_Perm M_Sorted M_ColMatrix M_CSC.
Set Implicit Arguments.
Unset Strict Implicit.
Unset Printing Implicit Defensive.

Section Ops.
Variable T : Type.
Variable O : fops T.

(** the loops  for (p = colptr[j]; p < colptr[j+1]; p++)  over the nonzeros of a column *)
Definition csc_loop (S : Type) (A : csc T) (j : nat) (f : S -> nat -> T -> outcome S) (s : S) : outcome S :=
  do b <- oget (c_colptr A) j; do e <- oget (c_colptr A) j.+1;
  ofold (fun s k => do r <- oget (c_rowind A) k; do v <- oget (c_val A) k; f s r v) s (iota b (e - b)).

(** C.rowind.emplace_back, C.val.emplace_back *)
Definition push2 (s : seq nat * seq T) (r : nat) (v : T) : seq nat * seq T := (rcons s.1 r, rcons s.2 v).

(** csc_matrix.hpp 157-163, 194-200: one nonzero of the block *)
Definition sub_step (prow : seq (option nat)) (s : seq nat * seq T) (r : nat) (v : T) : outcome (seq nat * seq T) :=
  do q <- oget prow r; Ok (if q is Some q' then push2 s q' v else s).

(** csc_matrix.hpp 139-170 submatrix: the columns of A are filled one after the other, colptr[j] is rowind.size() *)
Definition csc_submatrix (rind cind : seq nat) (A : csc T) : outcome (csc T) :=
  do prow <- partial_perm rind (c_m A);
  do st <- ofold (fun st Mj => do s <- csc_loop A Mj (sub_step prow) st.2; Ok (rcons st.1 (size s.1), s))
                 ([:: 0], ([::], [::])) cind;
  Ok (CSC (size rind) (size cind) st.1 st.2.1 st.2.2).

(** csc_matrix.hpp 174-207 block_select(M, cind, prow, m, A): reads M.colptr[j], not M.colptr[Mj] *)
Definition csc_block_select (cind : seq nat) (prow : seq (option nat)) (m : nat) (M : csc T) : outcome (csc T) :=
  do st <- ofold (fun st j => do s <- csc_loop M j (sub_step prow) st.2; Ok (rcons st.1 (size s.1), s))
                 ([:: 0], ([::], [::])) (iota 0 (size cind));
  Ok (CSC m (size cind) st.1 st.2.1 st.2.2).

(** csc_matrix.hpp 280-298, 329-346, 369-386: fill the columns with [fill], then sort_sum_reduce from C.colptr[j] *)
Definition csc_build (m n : nat) (fill : nat -> seq nat * seq T -> outcome (seq nat * seq T)) : outcome (csc T) :=
  do st <- ofold (fun st j =>
      do s <- fill j st.2;
      do off <- oget st.1 j;
      do s' <- sort_sum_reduce O s.1 s.2 off;
      Ok (rcons st.1 (size s'.1), s')) ([:: 0], ([::], [::])) (iota 0 n);
  Ok (CSC m n st.1 st.2.1 st.2.2).

(** csc_matrix.hpp 257-303 gemm, operator* *)
Definition csc_gemm (A B : csc T) : outcome (csc T) :=
  csc_build (c_m A) (c_n B) (fun j s =>
    csc_loop B j (fun s k v => csc_loop A k (fun s r a => Ok (push2 s r (fmul O v a))) s) s).

(** csc_matrix.hpp 309-346 sum(A, B, C) *)
Definition csc_sum (A B : csc T) : outcome (csc T) :=
  csc_build (c_m A) (c_n B) (fun j s =>
    do s1 <- csc_loop B j (fun s r v => Ok (push2 s r v)) s;
    csc_loop A j (fun s r v => Ok (push2 s r v)) s1).

(** csc_matrix.hpp 349-386 sum(alpha, A, B, C) *)
Definition csc_axpy (alpha : T) (A B : csc T) : outcome (csc T) :=
  csc_build (c_m A) (c_n B) (fun j s =>
    do s1 <- csc_loop B j (fun s r v => Ok (push2 s r v)) s;
    csc_loop A j (fun s r v => Ok (push2 s r (fmul O alpha v))) s1).
End Ops.
