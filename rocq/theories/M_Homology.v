(** Model of include/homology/basis.hpp (ReducedChainComplex), over chain complexes
    (include/chain/chain_complex.hpp 13-61: a std::vector of boundary matrices). *)
From mathcomp Require Import all_ssreflect.
From Verif Require Import Outcome M_SparseVec M_Perm M_ColMatrix M_Reduce.
Set Implicit Arguments.
Unset Strict Implicit.
Unset Printing Implicit Defensive.

Section Homology.
Variable T : Type.
Variable O : fops T.
Notation p2c_t := (seq (option nat)).

(** chain_complex.hpp 13-16 *)
Definition chain_complex := seq (cmat T).

Definition cm_nil : cmat T := CMat 0 0 [::].

(** basis.hpp 27-30: the members.  [rc_U] is empty for the constructors that do not compute a basis *)
Record rcc := RCC { rc_U : seq (cmat T); rc_R : seq (cmat T);
                    rc_I : seq (seq nat); rc_p2c : seq p2c_t }.

(** basis.hpp 33-34: hdim(k) = betti(k) = I[k].size() *)
Definition hdim (X : rcc) (k : nat) : outcome nat := do Ix <- oget (rc_I X) k; Ok (size Ix).

(** basis.hpp 64-71: set_indices.  maxdim() = R.size() - 1; with R empty it underflows and the loop
    reads out of range. *)
Definition set_indices (R : seq (cmat T)) (p2c : seq p2c_t) : outcome (seq (seq nat)) :=
  if size R is d.+1 then
    do Is <- omapm (fun k => do Rk <- oget R k; do p <- oget p2c k.+1;
                             extract_basis_indices Rk p) (iota 0 d);
    do Rd <- oget R d;
    do It <- extract_basis_indices_top Rd;
    Ok (rcons Is It)
  else UB.

(** basis.hpp 78-97 (and 121-141 with the standard flag): ReducedChainComplex(C) *)
Definition rcc_standard (C : chain_complex) : outcome rcc :=
  do rs <- omapm (fun B => reduce_standardU O B (cm_identity O (ncol B))) C;
  let U := [seq x.1.2 | x <- rs] in
  let R := [seq x.1.1 | x <- rs] in
  let p := [seq x.2 | x <- rs] in
  do Ix <- set_indices R p;
  Ok (RCC U R Ix p).

(** basis.hpp 101-117: ReducedChainComplex(C, algflag), standard reduction, no basis *)
Definition rcc_nobasis (C : chain_complex) : outcome rcc :=
  do rs <- omapm (fun B => reduce_standard O B) C;
  let R := [seq x.1 | x <- rs] in
  let p := [seq x.2 | x <- rs] in
  do Ix <- set_indices R p;
  Ok (RCC [::] R Ix p).

(** basis.hpp 101-117 with the extra_reduction_flag *)
Definition rcc_extra (C : chain_complex) : outcome rcc :=
  do rs <- omapm (fun B => reduce_extra O B) C;
  let R := [seq x.1 | x <- rs] in
  let p := [seq x.2 | x <- rs] in
  do Ix <- set_indices R p;
  Ok (RCC [::] R Ix p).

(** basis.hpp 121-141 with the extra_reduction_flag: with basis *)
Definition rcc_extraU (C : chain_complex) : outcome rcc :=
  do rs <- omapm (fun B => reduce_extraU O B (cm_identity O (ncol B))) C;
  let U := [seq x.1.2 | x <- rs] in
  let R := [seq x.1.1 | x <- rs] in
  let p := [seq x.2 | x <- rs] in
  do Ix <- set_indices R p;
  Ok (RCC U R Ix p).

(** basis.hpp 156-163: the downward loop; [Cs] is boundary[0..dmax-1] and the results are in the
    same order.  The last matrix is reduced plainly. *)
Fixpoint clearing_loop (Cs : seq (cmat T)) : outcome (seq (cmat T * p2c_t)) :=
  match Cs with
  | [::] => Ok [::]
  | B :: Cs' =>
      do rs <- clearing_loop Cs';
      do r <- (if rs is rk1 :: _ then reduce_clearing O B (get_clearing_inds rk1.2)
               else reduce_standard O B);
      Ok (r :: rs)
  end.

(** basis.hpp 143-166: ReducedChainComplex(C, standard, clearing_flag) *)
Definition rcc_clearing (C : chain_complex) : outcome rcc :=
  do rs <- clearing_loop C;
  let R := [seq x.1 | x <- rs] in
  let p := [seq x.2 | x <- rs] in
  do Ix <- set_indices R p;
  Ok (RCC [::] R Ix p).

(** basis.hpp 183-191 *)
Fixpoint clearing_loopU (Cs : seq (cmat T)) : outcome (seq (cmat T * cmat T * p2c_t)) :=
  match Cs with
  | [::] => Ok [::]
  | B :: Cs' =>
      do rs <- clearing_loopU Cs';
      let U0 := cm_identity O (ncol B) in
      do r <- (if rs is rk1 :: _ then reduce_clearingU O B U0 rk1.1.1 rk1.2
               else reduce_standardU O B U0);
      Ok (r :: rs)
  end.

(** basis.hpp 168-194: ReducedChainComplex(C, standard, clearing_flag, compute_basis_flag) *)
Definition rcc_clearingU (C : chain_complex) : outcome rcc :=
  do rs <- clearing_loopU C;
  let U := [seq x.1.2 | x <- rs] in
  let R := [seq x.1.1 | x <- rs] in
  let p := [seq x.2 | x <- rs] in
  do Ix <- set_indices R p;
  Ok (RCC U R Ix p).

(** basis.hpp 214-218: upward loop; [comp] is None before the first matrix *)
Fixpoint compression_loop (comp : option (seq bool)) (Cs : seq (cmat T))
  : outcome (seq (cmat T * p2c_t)) :=
  match Cs with
  | [::] => Ok [::]
  | B :: Cs' =>
      do r <- (if comp is Some c then reduce_compression O B c else reduce_standard O B);
      do rs <- compression_loop (Some (get_compression_inds r.1)) Cs';
      Ok (r :: rs)
  end.

(** basis.hpp 196-221: ReducedChainComplex(C, standard, compression_flag) *)
Definition rcc_compression (C : chain_complex) : outcome rcc :=
  do rs <- compression_loop None C;
  let R := [seq x.1 | x <- rs] in
  let p := [seq x.2 | x <- rs] in
  do Ix <- set_indices R p;
  Ok (RCC [::] R Ix p).

(** basis.hpp 243-248 *)
Fixpoint compression_loopU (comp : option (seq bool)) (Cs : seq (cmat T))
  : outcome (seq (cmat T * cmat T * p2c_t)) :=
  match Cs with
  | [::] => Ok [::]
  | B :: Cs' =>
      let U0 := cm_identity O (ncol B) in
      do r <- (if comp is Some c then reduce_compressionU O B U0 c else reduce_standardU O B U0);
      do rs <- compression_loopU (Some (get_compression_inds r.1.1)) Cs';
      Ok (r :: rs)
  end.

(** basis.hpp 224-251: ReducedChainComplex(C, standard, compression_flag, compute_basis_flag) *)
Definition rcc_compressionU (C : chain_complex) : outcome rcc :=
  do rs <- compression_loopU None C;
  let U := [seq x.1.2 | x <- rs] in
  let R := [seq x.1.1 | x <- rs] in
  let p := [seq x.2 | x <- rs] in
  do Ix <- set_indices R p;
  Ok (RCC U R Ix p).

(** The constructor overloads of ReducedChainComplex that select the standard reduction algorithm
    (basis.hpp 78, 101, 121, 143, 168, 196, 224) *)
Inductive options := StandardBasis | StandardNoBasis | Clearing | ClearingBasis
                   | Compression | CompressionBasis.
Definition rcc_of (opt : options) (C : chain_complex) : outcome rcc :=
  match opt with
  | StandardBasis => rcc_standard C
  | StandardNoBasis => rcc_nobasis C
  | Clearing => rcc_clearing C
  | ClearingBasis => rcc_clearingU C
  | Compression => rcc_compression C
  | CompressionBasis => rcc_compressionU C
  end.
Definition has_basis (opt : options) : bool :=
  match opt with StandardBasis | ClearingBasis | CompressionBasis => true | _ => false end.

(** basis.hpp 263-274: the sorting loop of update_reduction2, column j *)
Definition sort_step (st : cmat T * cmat T * p2c_t) (j : nat) : outcome (cmat T * cmat T * p2c_t) :=
  let: (U, R, p2c) := st in
  do e <- oget p2c j;
  if e == Some j then Ok st
  else
    do uj <- oget (cols U) j;
    do (pj, _) <- lastnz uj;
    if e is Some p then
      do U' <- swap_cols p j U;
      do R' <- swap_cols p j R;
      do p2c1 <- oset p2c j (Some j);
      do p2c2 <- oset p2c1 pj (Some p);
      Ok (U', R', p2c2)
    else UB.                         (* swap_cols(NO_IND, j) *)

(** basis.hpp 253-278: update_reduction2(k) on the pair (U[k], R[k]), standard flag *)
Definition update_reduction2 (U R : cmat T) : outcome (cmat T * cmat T * p2c_t) :=
  do (U1, R1, p1) <- reduce_standardU O U R;
  do (U2, R2, p2) <- ofold sort_step (U1, R1, p1) (iota 0 (ncol R1));
  do (R3, U3, p3) <- reduce_standardU O R2 U2;
  Ok (U3, R3, p3).

(** basis.hpp 295-311: permute_matrices(k, perm) *)
Definition permute_matrices (k : nat) (perm : seq nat) (U R : seq (cmat T))
  : outcome (seq (cmat T) * seq (cmat T)) :=
  do iperm <- inv_perm perm;
  if k == 0 then
    do R1 <- oget R 1; do R1' <- permute_rows iperm R1; do R' <- oset R 1 R1'; Ok (U, R')
  else if k == size R - 1 then
    do Uk <- oget U k; do Uk' <- permute_rows iperm Uk; do U' <- oset U k Uk'; Ok (U', R)
  else
    do Uk <- oget U k; do Uk' <- permute_rows iperm Uk; do U' <- oset U k Uk';
    do R1 <- oget R k.+1; do R1' <- permute_rows iperm R1; do R' <- oset R k.+1 R1';
    Ok (U', R').

(** basis.hpp 314-324: permute_basis(perm) *)
Definition permute_basis (perms : seq (seq nat)) (X : rcc) : outcome rcc :=
  do (U1, R1) <- ofold (fun (st : seq (cmat T) * seq (cmat T)) k =>
                   do p <- oget perms k; permute_matrices k p st.1 st.2)
                 (rc_U X, rc_R X) (iota 0 (size perms));
  do (U2, R2, p2) <- ofold (fun (st : seq (cmat T) * seq (cmat T) * seq p2c_t) k =>
                   let: (U, R, p) := st in
                   do Uk <- oget U k; do Rk <- oget R k;
                   do (Uk', Rk', pk') <- update_reduction2 Uk Rk;
                   do U' <- oset U k Uk'; do R' <- oset R k Rk'; do p' <- oset p k pk';
                   Ok (U', R', p'))
                 (U1, R1, rc_p2c X) (iota 0 (size perms));
  do Ix <- set_indices R2 p2;
  Ok (RCC U2 R2 Ix p2).

(** chain_complex.hpp 124-137 permute_basis(k, perm), 140-144 the loop over all dimensions *)
Definition cc_permute1 (k : nat) (perm : seq nat) (C : chain_complex) : outcome chain_complex :=
  if k == 0 then
    do B1 <- oget C 1; do B1' <- permute_rows perm B1; oset C 1 B1'
  else if k == size C - 1 then
    do Bk <- oget C k; do Bk' <- permute_cols perm Bk; oset C k Bk'
  else
    do Bk <- oget C k; do Bk' <- permute_cols perm Bk; do C' <- oset C k Bk';
    do B1 <- oget C' k.+1; do B1' <- permute_rows perm B1; oset C' k.+1 B1'.
Definition cc_permute_basis (perms : seq (seq nat)) (C : chain_complex) : outcome chain_complex :=
  ofold (fun C k => do p <- oget perms k; cc_permute1 k p C) C (iota 0 (size perms)).

(** chain_complex.hpp 146-158 ipermute_basis(k, perm), 160-164 the loop over all dimensions *)
Definition cc_ipermute1 (k : nat) (perm : seq nat) (C : chain_complex) : outcome chain_complex :=
  if k == 0 then
    do B1 <- oget C 1; do ip <- inv_perm perm; do B1' <- permute_rows ip B1; oset C 1 B1'
  else if k == size C - 1 then
    do Bk <- oget C k; do Bk' <- ipermute_cols perm Bk; oset C k Bk'
  else
    do Bk <- oget C k; do Bk' <- ipermute_cols perm Bk; do C' <- oset C k Bk';
    do B1 <- oget C' k.+1; do ip <- inv_perm perm; do B1' <- permute_rows ip B1; oset C' k.+1 B1'.
Definition cc_ipermute_basis (perms : seq (seq nat)) (C : chain_complex) : outcome chain_complex :=
  ofold (fun C k => do p <- oget perms k; cc_ipermute1 k p C) C (iota 0 (size perms)).

End Homology.
