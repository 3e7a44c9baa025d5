(** Model of ReducedChainComplex::update_basis_general (include/homology/basis.hpp 320-463) and of the matrix functions only
    it uses.  [past] says what reading one element past the end of a std::vector does in sparse_vector.hpp 735: the value
    read there is never used ([ri != end] is then false), so [past = true] lets the loop stop, and [past = false] is the
    language rule (undefined behaviour).  [W] is the number of values of size_t. *)
From mathcomp Require Import all_ssreflect.
From Verif Require Import Outcome M_SparseVec M_Perm M_ColMatrix M_Reduce M_Homology.
Set Implicit Arguments.
Unset Strict Implicit.
Unset Printing Implicit Defensive.

(** the members of update_information.hpp Update_info (217-245) that update_basis_general reads *)
Record uinfo := UInfo { ui_maxdim : nat; ui_del : seq (seq nat); ui_perm : seq (seq nat); ui_add : seq (seq nat);
                        ui_bd : seq (seq (seq nat)) }.

Section UG.
Variable T : Type.
Variable O : fops T.
Variable past : bool.
Variable W : nat.
Notation p2c_t := (seq (option nat)).

(** sparse_vector.hpp 735: while ( *ri <= iv->ind && ri != r_inds.end()) {++ri; iv->ind++; ++ninserted; } with ri at position n *)
Fixpoint bump (fuel : nat) (r : seq nat) (n ind : nat) : outcome (nat * nat) :=
  match drop n r with
  | [::] => if past then Ok (n, ind) else UB
  | a :: _ => if a <= ind then (if fuel is f.+1 then bump f r n.+1 ind.+1 else OutOfFuel) else Ok (n, ind)
  end.

(** sparse_vector.hpp 720-738: the loop over the stored entries *)
Fixpoint insert_rows_loop (r : seq nat) (nins : nat) (v : svec T) : outcome (svec T) :=
  match v with
  | [::] => Ok [::]
  | (i, x) :: v' =>
      let targ := i + nins in
      let n1 := nins + find (fun a => targ <= a) (drop nins r) in
      do st <- bump (size r) r n1 (i + n1);
      do w <- insert_rows_loop r st.1 v';
      Ok ((st.2, x) :: w)
  end.
(** sparse_vector.hpp 712-744 insert_rows(r_inds, ninserted) *)
Definition sv_insert_rows (r : seq nat) (nins : nat) (v : svec T) : outcome (svec T) :=
  if r is [::] then Ok v else insert_rows_loop r nins v.

(** col_matrix.hpp 365: while (ninserted < r_inds.size() && r_inds[ninserted] == ninserted) { ++ninserted; } *)
Fixpoint prefix_from (r : seq nat) (i : nat) : nat :=
  match r with [::] => i | a :: r' => if a == i then prefix_from r' i.+1 else i end.
(** col_matrix.hpp 362-371 insert_rows(r_inds) *)
Definition cm_insert_rows (r : seq nat) (A : cmat T) : outcome (cmat T) :=
  do cs <- omapm (sv_insert_rows r (prefix_from r 0)) (cols A);
  Ok (CMat (nrow A + size r) (ncol A) cs).

(** col_matrix.hpp 222-247: the three loops of insert_columns; i = oldi + newi *)
Fixpoint merge_cols (fuel i : nat) (c : seq nat) (old new : seq (svec T)) : outcome (seq (svec T)) :=
  match old, new with
  | [::], _ => Ok new
  | _, [::] => Ok old
  | a :: old', b :: new' =>
      if fuel is f.+1 then
        match c with
        | [::] => UB                                   (* c_inds[newi] *)
        | ci :: c' =>
            if i == ci then do s <- merge_cols f i.+1 c' old new'; Ok (b :: s)
            else do s <- merge_cols f i.+1 c old' new; Ok (a :: s)
        end
      else OutOfFuel
  end.
(** col_matrix.hpp 214-253 insert_columns(c_inds, insert_col); newcol has n + c_inds.size() elements *)
Definition insert_columns (c : seq nat) (new : seq (svec T)) (A : cmat T) : outcome (cmat T) :=
  do cs <- merge_cols (size (cols A) + size new) 0 c (cols A) new;
  if size cs <= ncol A + size c
  then Ok (CMat (nrow A) (ncol A + size c) (cs ++ nseq (ncol A + size c - size cs) [::])) else UB.

(** col_matrix.hpp 453-456 erase_column() and 518-520 erase_row_unsafe(), each called d times *)
Definition erase_last_column (A : cmat T) : outcome (cmat T) :=
  if cols A is _ :: _ then Ok (CMat (nrow A) (ncol A - 1) (take (size (cols A)).-1 (cols A))) else UB.
Definition erase_row_unsafe (A : cmat T) : cmat T := CMat (nrow A - 1) (ncol A) (cols A).

(** basis.hpp 336-360: the permutation of dimension k: deleted cells to the end, then the kept cells into the new order *)
Definition general_perm (UI : uinfo) (k n : nat) : outcome (seq nat) :=
  do del <- oget (ui_del UI) k;
  let pd := if del is [::] then identity_perm n else perm_to_the_end del n in
  do pm <- oget (ui_perm UI) k;
  apply_perm (extension_perm pm n) pd.

(** basis.hpp 334-361 *)
Definition general_permute (UI : uinfo) (st : seq (cmat T) * seq (cmat T)) (k : nat) : outcome (seq (cmat T) * seq (cmat T)) :=
  do Rk <- oget st.2 k;
  do p <- general_perm UI k (ncol Rk);
  permute_matrices k p st.1 st.2.

(** basis.hpp 366-382, steps 2.1 and 2.2 *)
Definition general_upper (U R : cmat T) : outcome (cmat T * cmat T) :=
  do (U1, R1, p1) <- reduce_standardU O U R;
  do (U2, R2, p2) <- ofold (@sort_step T) (U1, R1, p1) (iota 0 (ncol R1));
  Ok (U2, R2).

(** basis.hpp 384-400, steps 2.3 and 2.4 *)
Definition general_erase (del delp : seq nat) (U R : cmat T) : outcome (cmat T * cmat T) :=
  do st <- ofold (fun (st : cmat T * cmat T) (_ : nat) =>
    do U1 <- erase_last_column st.1;
    do R1 <- erase_last_column st.2;
    Ok (erase_row_unsafe U1, R1)) (U, R) (iota 0 (size del));
  Ok (st.1, iter (size delp) erase_row_unsafe st.2).

(** basis.hpp 414-428, step 2.6 in dimension 0: VectT(i) is the i-th unit vector (sparse_vector.hpp 147-149), i running from
    U[0].ncol() - 1 in size_t arithmetic *)
Definition general_add0 (add : seq nat) (U R : cmat T) : cmat T * cmat T :=
  let n := ncol U in
  foldl (fun (st : cmat T * cmat T) (i : nat) =>
    (append_column (sv_unit O ((n + W - 1 + i) %% W)) (CMat (nrow st.1).+1 (ncol st.1) (cols st.1)), append_column [::] st.2))
    (U, R) (iota 0 (size add)).

(** basis.hpp 429-463, step 2.6 in positive dimension *)
Definition general_add (add : seq nat) (bd : seq (seq nat)) (U R : cmat T) : outcome (cmat T * cmat T) :=
  do U1 <- cm_insert_rows add U;
  do Rcol <- omapm (fun i => do b <- oget bd i; Ok [seq (x, f1 O) | x <- b]) (iota 0 (size add));
  do R1 <- insert_columns add Rcol R;
  do U2 <- insert_columns add [seq sv_unit O a | a <- add] U1;
  Ok (U2, R1).

(** basis.hpp 364-500: one dimension of step 2 *)
Definition general_step (UI : uinfo) (st : seq (cmat T) * seq (cmat T) * seq p2c_t) (k : nat)
  : outcome (seq (cmat T) * seq (cmat T) * seq p2c_t) :=
  let: (U, R, p) := st in
  do Uk <- oget U k; do Rk <- oget R k;
  do (U1, R1) <- general_upper Uk Rk;
  do del <- oget (ui_del UI) k;
  do delp <- (if k is k'.+1 then oget (ui_del UI) k' else Ok [::]);
  do (U2, R2) <- general_erase del delp U1 R1;
  do R3 <- (if k is k'.+1 then do addp <- oget (ui_add UI) k'; cm_insert_rows addp R2 else Ok R2);
  do add <- oget (ui_add UI) k;
  do (U4, R4) <- (if k is _.+1 then do bd <- oget (ui_bd UI) k; general_add add bd U2 R3 else Ok (general_add0 add U2 R3));
  do (R5, U5, p5) <- reduce_standardU O R4 U4;
  do U' <- oset U k U5; do R' <- oset R k R5; do p' <- oset p k p5;
  Ok (U', R', p').

(** basis.hpp 322-503 update_basis_general(UI), standard reduction *)
Definition update_basis_general (UI : uinfo) (X : rcc T) : outcome (rcc T) :=
  do (U1, R1) <- ofold (general_permute UI) (rc_U X, rc_R X) (iota 0 (ui_maxdim UI).+1);
  do (U2, R2, p2) <- ofold (general_step UI) (U1, R1, rc_p2c X) (iota 0 (ui_maxdim UI).+1);
  do Ix <- set_indices R2 p2;
  Ok (RCC U2 R2 Ix p2).
End UG.
