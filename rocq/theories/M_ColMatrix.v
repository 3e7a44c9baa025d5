(** Model of include/linalg/col_matrix.hpp (ColumnMatrix<SparseVector<..>>). *)
From mathcomp Require Import all_ssreflect.
From Verif Require Import Outcome M_SparseVec M_Perm.
Set Implicit Arguments.
Unset Strict Implicit.
Unset Printing Implicit Defensive.

Section ColMatrix.
Variable T : Type.
Variable O : fops T.

(** col_matrix.hpp 34-36: m, n, col *)
Record cmat := CMat { nrow : nat; ncol : nat; cols : seq (svec T) }.

(** A[j] as an access that is in range by precondition; out of range reads are UB in C++.
    [colof] is only used where the model has checked the range or the theorem's
    well-formedness hypothesis gives it. *)
Definition colof (A : cmat) (j : nat) : svec T := nth [::] (cols A) j.

(** col_matrix.hpp 46-48: ColumnMatrix(m, n), the zero matrix *)
Definition cm_zero (m n : nat) : cmat := CMat m n (nseq n [::]).

(** col_matrix.hpp 1050-1056: identity *)
Definition cm_identity (n : nat) : cmat := CMat n n [seq sv_unit O j | j <- iota 0 n].

(** col_matrix.hpp 128-130: getval *)
Definition cm_getval (A : cmat) (i j : nat) : outcome T :=
  do c <- oget (cols A) j; Ok (getval O c i).

(** col_matrix.hpp 684-702: gemv; indexing col out of range is UB *)
Definition gemv (A : cmat) (x : svec T) : outcome (svec T) :=
  ofold (fun y (p : nat * T) => do c <- oget (cols A) p.1; Ok (axpy O p.2 c y)) [::] x.

(** col_matrix.hpp 705-712: scalar multiplication *)
Definition cm_scale (A : cmat) (a : T) : cmat :=
  CMat (nrow A) (ncol A) [seq sv_scale O c a | c <- cols A].

(** col_matrix.hpp 717-727: C = self * B *)
Definition gemm (A B : cmat) : outcome cmat :=
  do cs <- omapm (gemv A) (cols B); Ok (CMat (nrow A) (ncol B) cs).

(** col_matrix.hpp 732-743: x^T A *)
Definition vecmat (x : svec T) (A : cmat) : svec T :=
  [seq p <- [seq (j, dot O x (colof A j)) | j <- iota 0 (ncol A)] | ~~ is0 O p.2].

(** col_matrix.hpp 746-752: operator+ : copy of B, then C.col[j].axpy(1, col[j]) for j < n *)
Definition cm_axpy_cols (a : T) (A B : cmat) : outcome cmat :=
  do cs <- ofold (fun cs j => do x <- oget (cols A) j; do y <- oget cs j;
                              oset cs j (axpy O a x y))
                 (cols B) (iota 0 (ncol A));
  Ok (CMat (nrow B) (ncol B) cs).
Definition cm_add (A B : cmat) : outcome cmat := cm_axpy_cols (f1 O) A B.

(** col_matrix.hpp 761-767: operator- : copy of B, then C.col[j].axpy(-1, col[j]) for j < n *)
Definition cm_sub (A B : cmat) : outcome cmat := cm_axpy_cols (fopp O (f1 O)) A B.

(** col_matrix.hpp 769-778: transpose *)
Definition transpose (A : cmat) : outcome cmat :=
  do t <- ofold (fun t j =>
            do c <- oget (cols A) j;
            ofold (fun t (p : nat * T) => do r <- oget t p.1; oset t p.1 (rcons r (j, p.2))) t c)
          (nseq (nrow A) [::]) (iota 0 (ncol A));
  Ok (CMat (ncol A) (nrow A) t).

(** col_matrix.hpp 786-788: permute_cols; 790-792: ipermute_cols *)
Definition permute_cols (p : seq nat) (A : cmat) : outcome cmat :=
  do cs <- apply_perm_swap [::] p (cols A); Ok (CMat (nrow A) (ncol A) cs).
Definition ipermute_cols (p : seq nat) (A : cmat) : outcome cmat :=
  do cs <- apply_iperm_swap [::] p (cols A); Ok (CMat (nrow A) (ncol A) cs).

(** col_matrix.hpp 133-138: permute_rows; 141-146: ipermute_rows (same body through ipermute) *)
Definition permute_rows (p : seq nat) (A : cmat) : outcome cmat :=
  do cs <- omapm (sv_permute p) (cols A); Ok (CMat (nrow A) (ncol A) cs).

(** col_matrix.hpp 796-803: mix_cols *)
Definition mix_cols (j k : nat) (a b c d : T) (A : cmat) : outcome cmat :=
  do cj <- oget (cols A) j; do ck <- oget (cols A) k;
  do cs <- oset (cols A) j (axpy O c ck (scale_inplace O a cj));
  do ck' <- oget cs k;
  do cs' <- oset cs k (axpy O b cj (scale_inplace O d ck'));
  Ok (CMat (nrow A) (ncol A) cs').

(** col_matrix.hpp 854-856: swap_cols *)
Definition swap_cols (j k : nat) (A : cmat) : outcome cmat :=
  do cj <- oget (cols A) j; do ck <- oget (cols A) k;
  do cs <- oset (cols A) j ck; do cs' <- oset cs k cj; Ok (CMat (nrow A) (ncol A) cs').

(** col_matrix.hpp 814-819: J_right_inplace *)
Definition J_right (A : cmat) : outcome cmat :=
  ofold (fun A j => swap_cols j (ncol A - 1 - j) A) A (iota 0 (ncol A %/ 2)).
(** col_matrix.hpp 828-833: J_left_inplace *)
Definition J_left (A : cmat) : cmat :=
  CMat (nrow A) (ncol A) [seq sv_J (nrow A) c | c <- cols A].

(** col_matrix.hpp 586-601: submatrix(rind, cind) *)
Definition submatrix (rind cind : seq nat) (A : cmat) : outcome cmat :=
  do prow <- partial_perm rind (nrow A);
  do cs <- omapm (fun j => do c <- oget (cols A) j; subvector prow c) cind;
  Ok (CMat (size rind) (size cind) cs).

(** col_matrix.hpp 605-619: block *)
Definition cm_block (i0 i1 j0 j1 : nat) (A : cmat) : outcome cmat :=
  do cs <- omapm (fun j => do c <- oget (cols A) j; Ok (sv_block i0 i1 c)) (iota j0 (j1 - j0));
  Ok (CMat (i1 - i0) (j1 - j0) cs).

(** col_matrix.hpp 621-632: set_block *)
Definition cm_set_block (i0 i1 j0 j1 : nat) (B A : cmat) : outcome cmat :=
  do cs <- ofold (fun cs j => do c <- oget cs j; do b <- oget (cols B) (j - j0);
                              oset cs j (sv_set_block i0 i1 b c))
                 (cols A) (iota j0 (j1 - j0));
  Ok (CMat (nrow A) (ncol A) cs).

(** col_matrix.hpp 638-643: clear_rows *)
Definition clear_rows (c : seq bool) (A : cmat) : outcome cmat :=
  if size c != nrow A then Throw
  else do cs <- omapm (clear_inds c) (cols A); Ok (CMat (nrow A) (ncol A) cs).

(** col_matrix.hpp 650-657: clear_cols *)
Definition clear_cols (c : seq bool) (A : cmat) : outcome cmat :=
  if size c != ncol A then Throw
  else Ok (CMat (nrow A) (ncol A)
       [seq (if nth false c j then [::] else colof A j) | j <- iota 0 (size (cols A))]).

(** col_matrix.hpp 158-160, 191: append_column(v) *)
Definition append_column (v : svec T) (A : cmat) : cmat :=
  CMat (nrow A) (ncol A).+1 (rcons (cols A) v).

(** col_matrix.hpp 178-187 / 196-206: the permutation built by both insert_column functions *)
Definition insert_colperm (n index : nat) : seq nat :=
  [seq (if i == index then n - 1 else if index < i then i - 1 else i) | i <- iota 0 n].

(** col_matrix.hpp 173-189: insert_column(index, args...) *)
Definition insert_column (index : nat) (v : svec T) (A : cmat) : outcome cmat :=
  let A' := append_column v A in ipermute_cols (insert_colperm (ncol A') index) A'.

(** col_matrix.hpp 194-207: insert_column(index), a zero column *)
Definition insert_zero_column (index : nat) (A : cmat) : outcome cmat :=
  let A' := append_column [::] A in permute_cols (insert_colperm (ncol A') index) A'.

(** col_matrix.hpp 448-451: erase_column(index) *)
Definition erase_column (index : nat) (A : cmat) : outcome cmat :=
  if index < size (cols A)
  then Ok (CMat (nrow A) (ncol A - 1) (take index (cols A) ++ drop index.+1 (cols A))) else UB.

(** col_matrix.hpp 481-486: erase_row(index) *)
Definition erase_row (index : nat) (A : cmat) : cmat :=
  CMat (nrow A - 1) (ncol A) [seq erase_for_matrix index c | c <- cols A].

(** col_matrix.hpp 905-917: is_upper *)
Definition last_ind (v : svec T) : option nat :=
  if v is p :: v' then Some (last p v').1 else None.
Definition first_ind (v : svec T) : option nat :=
  if v is p :: _ then Some p.1 else None.
Definition is_upper (A : cmat) : bool :=
  all (fun j => if last_ind (colof A j) is Some i then i <= j else true) (iota 0 (ncol A)).

(** col_matrix.hpp 920-931: is_upper_invert *)
Definition is_upper_invert (A : cmat) : bool :=
  all (fun j => if last_ind (colof A j) is Some i then i == j else true) (iota 0 (ncol A)).

(** col_matrix.hpp 933-943: is_lower *)
Definition is_lower (A : cmat) : bool :=
  all (fun j => if first_ind (colof A j) is Some i then j <= i else true) (iota 0 (ncol A)).

(** col_matrix.hpp 944-962: is_reduced; the std::map p2c is the list of pivots seen *)
Fixpoint is_reduced_from (seen : seq nat) (cs : seq (svec T)) : bool :=
  match cs with
  | [::] => true
  | c :: cs' =>
      if last_ind c is Some i then
        if i \in seen then false else is_reduced_from (i :: seen) cs'
      else is_reduced_from seen cs'
  end.
Definition is_reduced (A : cmat) : bool := is_reduced_from [::] (take (ncol A) (cols A)).

(** col_matrix.hpp 1145-1171: u_solve(U, y).  The loop variable is the iterator xit = upper_bound(j),
    modelled by the bound b with xit = first entry of index >= b (b = n+1 initially, then j). *)
Fixpoint u_solve_loop (fuel : nat) (U : cmat) (b : nat) (x : svec T) : outcome (svec T) :=
  if fuel is fuel'.+1 then
    match (split_lb x b).1 with
    | [::] => Ok x                                   (* xit == nzbegin() *)
    | p :: r =>
        let: (j, v) := last p r in                   (* --xit; j = xit->ind *)
        do Uj <- oget (cols U) j;
        match (split_lb Uj j).2 with
        | [::] => Throw                              (* diagonal doesn't exist *)
        | d :: _ =>
            do a <- odiv O v d.2;
            let x1 := set_at j a x in                (* x.replace(xit, a) *)
            if j == 0 then Ok x1
            else u_solve_loop fuel' U j (axpy_range O (fopp O a) Uj 0 j x1)
        end
    end
  else OutOfFuel.
Definition u_solve (U : cmat) (y : svec T) : outcome (svec T) :=
  if y is [::] then Ok y else u_solve_loop (ncol U).+2 U (ncol U).+1 y.

(** col_matrix.hpp 1174-1196: l_solve(L, y).  No check for a missing diagonal: dereferencing the
    end iterator is UB. *)
Fixpoint l_solve_loop (fuel : nat) (L : cmat) (b : nat) (x : svec T) : outcome (svec T) :=
  if fuel is fuel'.+1 then
    match (split_lb x b).2 with
    | [::] => Ok x
    | (j, v) :: _ =>
        do Lj <- oget (cols L) j;
        match (split_lb Lj j).2 with
        | [::] => UB
        | d :: _ =>
            do a <- odiv O v d.2;
            let x1 := set_at j a x in
            l_solve_loop fuel' L j.+1 (axpy_range O (fopp O a) Lj j.+1 (nrow L) x1)
        end
    end
  else OutOfFuel.
Definition l_solve (L : cmat) (y : svec T) : outcome (svec T) :=
  if y is [::] then Ok y else l_solve_loop (nrow L).+1 L 0 y.

(** col_matrix.hpp 1199-1231: matrix versions *)
Definition u_solve_mat (U A : cmat) : outcome cmat :=
  do cs <- omapm (u_solve U) (cols A); Ok (CMat (nrow A) (ncol A) cs).
Definition l_solve_mat (L A : cmat) : outcome cmat :=
  do cs <- omapm (l_solve L) (cols A); Ok (CMat (nrow A) (ncol A) cs).

(** col_matrix.hpp 1233-1247: u_inv, l_inv *)
Definition u_inv (U : cmat) : outcome cmat := u_solve_mat U (cm_identity (nrow U)).
Definition l_inv (L : cmat) : outcome cmat := l_solve_mat L (cm_identity (nrow L)).

End ColMatrix.
