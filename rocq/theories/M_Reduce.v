(** Model of include/homology/reduction.hpp.  A pivot-to-column map (std::vector<size_t> filled with
    NO_IND, reduction.hpp 31, 58) is a [seq (option nat)]. *)
From mathcomp Require Import all_ssreflect.
From Verif Require Import Outcome M_SparseVec M_Perm M_ColMatrix.
Set Implicit Arguments.
Unset Strict Implicit.
Unset Printing Implicit Defensive.

Section Reduce.
Variable T : Type.
Variable O : fops T.
Notation cols_t := (seq (svec T)).
Notation p2c_t := (seq (option nat)).

(** reduction.hpp 62-78: the while loop for column j of reduce_matrix_standard(M) *)
Fixpoint red_col (fuel : nat) (M : cols_t) (p2c : p2c_t) (j : nat) : outcome (cols_t * p2c_t) :=
  if fuel is fuel'.+1 then
    do c <- oget M j;
    if c is [::] then Ok (M, p2c)                       (* M[j].nnz() == 0 *)
    else
      do (i, v) <- lastnz c;                            (* piv = M[j].lastnz() *)
      do e <- oget p2c i;
      if e is Some k then                               (* eliminate pivot *)
        do ck <- oget M k;
        do (_, w) <- lastnz ck;
        do a <- odiv O v w;
        do M' <- oset M j (axpy O (fopp O a) ck c);
        red_col fuel' M' p2c j
      else                                              (* new pivot *)
        do p2c' <- oset p2c i (Some j); Ok (M, p2c')
  else OutOfFuel.

(** reduction.hpp 54-82: reduce_matrix_standard(M).  The fuel bounds the number of eliminations in
    one column; exhausting it is the outcome OutOfFuel. *)
Definition reduce_standard (M : cmat T) : outcome (cmat T * p2c_t) :=
  do (R, p2c) <- ofold (fun (st : cols_t * p2c_t) j => red_col (nrow M).+2 st.1 st.2 j)
                   (cols M, nseq (nrow M) None) (iota 0 (ncol M));
  Ok (CMat (nrow M) (ncol M) R, p2c).

(** reduction.hpp 160-178: the while loop for column j with change of basis U *)
Fixpoint red_colU (fuel : nat) (M U : cols_t) (p2c : p2c_t) (j : nat)
  : outcome (cols_t * cols_t * p2c_t) :=
  if fuel is fuel'.+1 then
    do c <- oget M j;
    if c is [::] then Ok (M, U, p2c)
    else
      do (i, v) <- lastnz c;
      do e <- oget p2c i;
      if e is Some k then
        do ck <- oget M k;
        do (_, w) <- lastnz ck;
        do a <- odiv O v w;
        do M' <- oset M j (axpy O (fopp O a) ck c);
        do uj <- oget U j; do uk <- oget U k;
        do U' <- oset U j (axpy O (fopp O a) uk uj);
        red_colU fuel' M' U' p2c j
      else
        do p2c' <- oset p2c i (Some j); Ok (M, U, p2c')
  else OutOfFuel.

(** reduction.hpp 147-182: reduce_matrix_standard(M, U) *)
Definition reduce_standardU (M U : cmat T) : outcome (cmat T * cmat T * p2c_t) :=
  if ncol M != ncol U then Throw
  else
    do (R, U', p2c) <- ofold (fun (st : cols_t * cols_t * p2c_t) j =>
                          red_colU (nrow M).+2 st.1.1 st.1.2 st.2 j)
                     (cols M, cols U, nseq (nrow M) None) (iota 0 (ncol M));
    Ok (CMat (nrow M) (ncol M) R, CMat (nrow U) (ncol U) U', p2c).

(** reduction.hpp 96-122: column j of reduce_matrix_extra(M).  piv = nzend() - end_offset, and the
    loop condition piv - nzbegin() > 0 is [off < size c] (for an empty column nzend()-1 is already
    an invalid pointer; its difference to nzbegin() is -1). *)
Fixpoint red_col_extra (fuel : nat) (M : cols_t) (p2c : p2c_t) (j off : nat) (found : bool)
  : outcome (cols_t * p2c_t) :=
  if fuel is fuel'.+1 then
    do c <- oget M j;
    if off < size c then
      do (i, v) <- oget c (size c - off);
      do e <- oget p2c i;
      if e is Some k then
        do ck <- oget M k;
        do (_, w) <- lastnz ck;
        do a <- odiv O v w;
        do M' <- oset M j (axpy O (fopp O a) ck c);
        red_col_extra fuel' M' p2c j off found
      else if ~~ found then
        do p2c' <- oset p2c i (Some j);
        red_col_extra fuel' M p2c' j off.+1 true
      else red_col_extra fuel' M p2c j off.+1 found
    else Ok (M, p2c)
  else OutOfFuel.

(** reduction.hpp 87-124: reduce_matrix_extra(M) *)
Definition reduce_extra (M : cmat T) : outcome (cmat T * p2c_t) :=
  do (R, p2c) <- ofold (fun (st : cols_t * p2c_t) j =>
                       red_col_extra ((nrow M).+2) st.1 st.2 j 1 false)
                   (cols M, nseq (nrow M) None) (iota 0 (ncol M));
  Ok (CMat (nrow M) (ncol M) R, p2c).

(** reduction.hpp 196-222: column j of reduce_matrix_extra(M, U); "not found yet" is end_offset == 1 *)
Fixpoint red_col_extraU (fuel : nat) (M U : cols_t) (p2c : p2c_t) (j off : nat)
  : outcome (cols_t * cols_t * p2c_t) :=
  if fuel is fuel'.+1 then
    do c <- oget M j;
    if off < size c then
      do (i, v) <- oget c (size c - off);
      do e <- oget p2c i;
      if e is Some k then
        do ck <- oget M k;
        do (_, w) <- lastnz ck;
        do a <- odiv O v w;
        do M' <- oset M j (axpy O (fopp O a) ck c);
        do uj <- oget U j; do uk <- oget U k;
        do U' <- oset U j (axpy O (fopp O a) uk uj);
        red_col_extraU fuel' M' U' p2c j off
      else if off == 1 then
        do p2c' <- oset p2c i (Some j);
        red_col_extraU fuel' M U p2c' j off.+1
      else red_col_extraU fuel' M U p2c j off.+1
    else Ok (M, U, p2c)
  else OutOfFuel.

(** reduction.hpp 184-224: reduce_matrix_extra(M, U) *)
Definition reduce_extraU (M U : cmat T) : outcome (cmat T * cmat T * p2c_t) :=
  if ncol M != ncol U then Throw
  else
    do (R, U', p2c) <- ofold (fun (st : cols_t * cols_t * p2c_t) j =>
                          red_col_extraU (nrow M).+2 st.1.1 st.1.2 st.2 j 1)
                     (cols M, cols U, nseq (nrow M) None) (iota 0 (ncol M));
    Ok (CMat (nrow M) (ncol M) R, CMat (nrow U) (ncol U) U', p2c).

(** reduction.hpp 392-408: get_clearing_inds (already increasing, so std::sort changes nothing) *)
Definition get_clearing_inds (p2c : p2c_t) : seq nat :=
  [seq i <- iota 0 (size p2c) | isSome (nth None p2c i)].

(** reduction.hpp 417-434: reduce_matrix_clearing(M, clear_inds, standard flag) *)
Definition reduce_clearing (M : cmat T) (clear_inds : seq nat) : outcome (cmat T * p2c_t) :=
  do cs <- ofold (fun cs i => oset cs i [::]) (cols M) clear_inds;
  reduce_standard (CMat (nrow M) (ncol M) cs).

(** reduction.hpp 448-476: reduce_matrix_clearing(M, U, R, p2c, standard flag) *)
Definition reduce_clearingU (M U R : cmat T) (p2c : p2c_t)
  : outcome (cmat T * cmat T * p2c_t) :=
  do (cm, cu) <- ofold (fun (st : cols_t * cols_t) i =>
          if nth None p2c i is Some j then
            do cm <- oset st.1 i [::];
            do r <- oget (cols R) j;
            do cu <- oset st.2 i r;
            Ok (cm, cu)
          else Ok st)
       (cols M, cols U) (iota 0 (size p2c));
  reduce_standardU (CMat (nrow M) (ncol M) cm) (CMat (nrow U) (ncol U) cu).

(** reduction.hpp 482-488: get_compression_inds *)
Definition get_compression_inds (R : cmat T) : seq bool :=
  [seq 0 < size (colof R j) | j <- iota 0 (ncol R)].

(** reduction.hpp 494-505 and 508-519: reduce_matrix_compression *)
Definition reduce_compression (M : cmat T) (comp : seq bool) : outcome (cmat T * p2c_t) :=
  do M' <- clear_rows comp M; reduce_standard M'.
Definition reduce_compressionU (M U : cmat T) (comp : seq bool)
  : outcome (cmat T * cmat T * p2c_t) :=
  do M' <- clear_rows comp M; reduce_standardU M' U.

(** reduction.hpp 598-615: extract_basis_indices(Rk, p2ck1) *)
Definition extract_basis_indices (Rk : cmat T) (p2ck1 : p2c_t) : outcome (seq nat) :=
  ofold (fun I j =>
      do c <- oget (cols Rk) j;
      if c is [::] then
        do e <- oget p2ck1 j;
        Ok (if e is Some _ then I else rcons I j)
      else Ok I) [::] (iota 0 (ncol Rk)).

(** reduction.hpp 621-637: extract_basis_indices(Rk) *)
Definition extract_basis_indices_top (Rk : cmat T) : outcome (seq nat) :=
  ofold (fun I j => do c <- oget (cols Rk) j; Ok (if c is [::] then rcons I j else I))
        [::] (iota 0 (ncol Rk)).

(** reduction.hpp 547-572: column j of remove_extra_cycles.  piv = nzend() - end_offset with
    end_offset starting at 2 *)
Fixpoint rec_col (fuel : nat) (R U : cols_t) (j off : nat) : outcome cols_t :=
  if fuel is fuel'.+1 then
    do c <- oget U j;
    if off < size c then
      do (k, v) <- oget c (size c - off);
      do rk <- oget R k;
      if rk is [::] then
        do uk <- oget U k;
        do (_, w) <- lastnz uk;
        do a <- odiv O v w;
        do U' <- oset U j (axpy O (fopp O a) uk c);
        rec_col fuel' R U' j off
      else rec_col fuel' R U j off.+1
    else Ok U
  else OutOfFuel.

(** reduction.hpp 535-574: remove_extra_cycles(R, U) *)
Definition remove_extra_cycles (R U : cmat T) : outcome (cmat T) :=
  if ncol R != ncol U then Throw
  else
    do U' <- ofold (fun U0 j => rec_col (nrow U).+2 (cols R) U0 j 2) (cols U) (iota 0 (ncol U));
    Ok (CMat (nrow U) (ncol U) U').

End Reduce.
