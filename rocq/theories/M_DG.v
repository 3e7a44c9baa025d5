(** Model of differential graded vector spaces: include/dgvs/dgvs.hpp, include/dgvs/filtered_dgvs.hpp,
    include/homology/dgbasis.hpp (constructors, indices, permutations, representatives),
    include/persistence/filtered_dgbasis.hpp and the DGLinearMap overload of
    include/homology/induced_map.hpp.
    The degree is the C++ int; hom = -1, cohom = +1. *)
From mathcomp Require Import all_ssreflect all_algebra.
From Verif Require Import Outcome M_SparseVec M_Perm M_ColMatrix M_Reduce M_Homology M_Persist M_Induced.
Set Implicit Arguments.
Unset Strict Implicit.
Unset Printing Implicit Defensive.
Import GRing.Theory.

Section DG.
Variable T : Type.
Variable O : fops T.
Notation p2c_t := (seq (option nat)).

(** dgvs.hpp 29-31 *)
Record dgvs := DG { dg_degree : int; dg_diff : seq (cmat T) }.
(** dgvs.hpp 42-47, 96-98: operator[](k) is differential[k] or differential[k+1], dim(k) its ncol *)
Definition dg_ix (deg : int) (k : nat) : nat := if deg == (-1)%R then k else k.+1.
Definition dg_dim (D : dgvs) (k : nat) : outcome nat :=
  do A <- oget (dg_diff D) (dg_ix (dg_degree D) k); Ok (ncol A).

(** col_matrix.hpp 55-57 with sparse_vector.hpp 154-161: MT(m, n, a), every entry a *)
Definition cm_fill (m n : nat) (a : T) : cmat T := CMat m n (nseq n [seq (i, a) | i <- iota 0 m]).

(** dgvs.hpp 63-91: DGVectorSpace(X, deg, augmented).  The complex X is given by C = ChainComplex(X):
    ncol C[k] is X.ncells(k), C[k] is MT(X.boundary_csc(k)) for k > 0, and size C is X.maxdim()+1.
    An empty C (maxdim() underflow) is UB. *)
Definition dg_of (C : seq (cmat T)) (deg : int) (aug : bool) : outcome dgvs :=
  if C is C0 :: Bs then
    let n0 := ncol C0 in
    let nd := ncol (last C0 Bs) in
    if deg == (-1)%R then
      Ok (DG deg ((if aug then cm_fill 1 n0 (f1 O) else cm_zero T 0 n0) :: rcons Bs (cm_zero T nd 0)))
    else if deg == 1%R then
      do Ts <- omapm (@transpose T) Bs;
      Ok (DG deg ((if aug then cm_fill n0 1 (f1 O) else cm_zero T n0 0) :: rcons Ts (cm_zero T 0 nd)))
    else Throw
  else UB.

(** col_matrix.hpp 895-902: is_zero *)
Definition cm_is_zero (A : cmat T) : bool := all (fun c : svec T => size c == 0) (cols A).

(** dgvs.hpp 166-168: is_differential(k) = (differential[k+degree] * differential[k]).is_zero();
    for k = 0 and degree -1 the index wraps *)
Definition is_differential (D : dgvs) (k : nat) : outcome bool :=
  do A <- (if dg_degree D == (-1)%R then (if k is k'.+1 then oget (dg_diff D) k' else UB)
           else oget (dg_diff D) k.+1);
  do B <- oget (dg_diff D) k;
  do P <- gemm O A B; Ok (cm_is_zero P).

(** dgvs.hpp 119-154: ipermute_basis(k, perm).  maxdim() = differential.size() - 2 *)
Definition oupd (D : seq (cmat T)) (k : nat) (f : cmat T -> outcome (cmat T)) : outcome (seq (cmat T)) :=
  do A <- oget D k; do A' <- f A; oset D k A'.
Definition dg_ipermute1 (deg : int) (D : seq (cmat T)) (k : nat) (perm : seq nat) : outcome (seq (cmat T)) :=
  let rows A := do ip <- inv_perm perm; permute_rows ip A in
  if deg == (-1)%R then
    if k == 0 then oupd D 1 rows
    else if k == size D - 2 then oupd D k (ipermute_cols perm)
    else do D' <- oupd D k (ipermute_cols perm); oupd D' k.+1 rows
  else
    if k == 0 then oupd D 1 (ipermute_cols perm)
    else if k == size D - 2 then oupd D k rows
    else do D' <- oupd D k.+1 (ipermute_cols perm); oupd D' k rows.
(** dgvs.hpp 156-160 *)
Definition dg_ipermute (perms : seq (seq nat)) (D : dgvs) : outcome dgvs :=
  do ds <- ofold (fun ds k => do p <- oget perms k; dg_ipermute1 (dg_degree D) ds k p)
                 (dg_diff D) (iota 0 (size perms));
  Ok (DG (dg_degree D) ds).

(** dgbasis.hpp 29-33 *)
Record rdg := RDG { rd_degree : int; rd_U : seq (cmat T); rd_R : seq (cmat T);
                    rd_I : seq (seq nat); rd_p2c : seq p2c_t }.

(** dgbasis.hpp 37-39 *)
Definition rd_hdim (X : rdg) (k : nat) : outcome nat :=
  do Ix <- oget (rd_I X) (dg_ix (rd_degree X) k); Ok (size Ix).

(** dgbasis.hpp 71-86: set_indices.  maxdim() = R.size() - 2; with fewer than two matrices it underflows.
    In degree +1, I[0] keeps its initial empty value. *)
Definition rd_indices (deg : int) (R : seq (cmat T)) (p2c : seq p2c_t) : outcome (seq (seq nat)) :=
  if size R is m.+2 then
    if deg == (-1)%R then
      do Is <- omapm (fun k => do Rk <- oget R k; do p <- oget p2c k.+1;
                               extract_basis_indices Rk p) (iota 0 m.+1);
      do Rm <- oget R m;
      do It <- extract_basis_indices_top Rm;
      Ok (rcons Is It)
    else if deg == 1%R then
      do Is <- omapm (fun k => do Rk <- oget R k.+1; do p <- oget p2c k;
                               extract_basis_indices Rk p) (iota 0 m.+1);
      Ok ([::] :: Is)
    else Ok (nseq m.+2 [::])
  else UB.

(** The constructors of ReducedDGVectorSpace (dgbasis.hpp 91-271) with the standard reduction:
    (C) and (C, std, compute_basis); (C, std); (C, std, clearing); (C, std, clearing, compute_basis);
    (C, std, compression).  There is no compression constructor with a basis. *)
Inductive dgopt := DBasis | DNoBasis | DClearing | DClearingBasis | DCompression.
Definition dg_has_basis (o : dgopt) : bool := match o with DBasis | DClearingBasis => true | _ => false end.

(** The reductions, in the order of a list of differentials [ds] in which clearing runs from the last to
    the first and compression from the first to the last: that is [differential] in degree -1 and
    [rev differential] in degree +1 (dgbasis.hpp 169-190, 208-232, 247-268). *)
Definition dg_reduce (opt : dgopt) (ds : seq (cmat T))
  : outcome (seq (cmat T) * seq (cmat T) * seq p2c_t) :=
  match opt with
  | DBasis => do rs <- omapm (fun B => reduce_standardU O B (cm_identity O (ncol B))) ds;
              Ok ([seq x.1.2 | x <- rs], [seq x.1.1 | x <- rs], [seq x.2 | x <- rs])
  | DNoBasis => do rs <- omapm (fun B => reduce_standard O B) ds;
              Ok ([::], [seq x.1 | x <- rs], [seq x.2 | x <- rs])
  | DClearing => do rs <- clearing_loop O ds; Ok ([::], [seq x.1 | x <- rs], [seq x.2 | x <- rs])
  | DClearingBasis => do rs <- clearing_loopU O ds;
              Ok ([seq x.1.2 | x <- rs], [seq x.1.1 | x <- rs], [seq x.2 | x <- rs])
  | DCompression => do rs <- compression_loop O None ds; Ok ([::], [seq x.1 | x <- rs], [seq x.2 | x <- rs])
  end.
Definition rdg_of (opt : dgopt) (D : dgvs) : outcome rdg :=
  let hom := dg_degree D == (-1)%R in
  do (U, R, p) <- dg_reduce opt (if hom then dg_diff D else rev (dg_diff D));
  let U := if hom then U else rev U in
  let R := if hom then R else rev R in
  let p := if hom then p else rev p in
  do Ix <- rd_indices (dg_degree D) R p;
  Ok (RDG (dg_degree D) U R Ix p).

(** dgbasis.hpp 304-340: find_preferred_representative(y, k) *)
Definition rd_find_preferred (X : rdg) (y : svec T) (k : nat) : outcome (svec T) :=
  let k := dg_ix (rd_degree X) k in
  if k.+1 == size (rd_R X) then Ok y
  else
    do Uk <- oget (rd_U X) k; do R1 <- oget (rd_R X) k.+1; do p1 <- oget (rd_p2c X) k.+1;
    fpr_loop O (2 * (nrow R1).+2).+1 Uk R1 p1 (nrow R1).+1 y.

(** induced_map.hpp 94-125; [Fk] is F[k] *)
Definition rd_induced_map (Fk : cmat T) (C D : rdg) (k : nat) : outcome (cmat T) :=
  if rd_degree C != rd_degree D then Throw else
  let d := dg_ix (rd_degree C) k in
  do CR <- oget (rd_R C) d; do DR <- oget (rd_R D) d;
  if (ncol Fk != ncol CR) || (nrow Fk != ncol DR) then Throw
  else
    do CI <- oget (rd_I C) d; do DI <- oget (rd_I D) d;
    do cs <- omapm (fun i =>
               do CU <- oget (rd_U C) d; do DU <- oget (rd_U D) d;
               do c <- oget (cols CU) i;
               do x <- gemv O Fk c;
               do y <- u_solve O DU x;
               do y' <- rd_find_preferred D y k;
               Ok (select y' DI)) CI;
    Ok (CMat (size DI) (size CI) cs).

(** dgbasis.hpp 369-410: _make_U_upper_triangular(k) and update_reduction2(k) on the stored index [i]:
    the body is that of ReducedChainComplex::update_reduction2 *)
Definition rd_update1 (st : seq (cmat T) * seq (cmat T) * seq p2c_t) (i : nat)
  : outcome (seq (cmat T) * seq (cmat T) * seq p2c_t) :=
  let: (U, R, p) := st in
  do Ui <- oget U i; do Ri <- oget R i;
  do (Ui', Ri', pi') <- update_reduction2 O Ui Ri;
  do U' <- oset U i Ui'; do R' <- oset R i Ri'; do p' <- oset p i pi';
  Ok (U', R', p').

(** dgbasis.hpp 413-442: permute_matrices(k, perm) *)
Definition rd_permute1 (deg : int) (UR : seq (cmat T) * seq (cmat T)) (k : nat) (perm : seq nat)
  : outcome (seq (cmat T) * seq (cmat T)) :=
  let: (U, R) := UR in
  do ip <- inv_perm perm;
  if deg == (-1)%R then
    if k == 0 then do R' <- oupd R 1 (permute_rows ip); Ok (U, R')
    else if k == size R - 2 then do U' <- oupd U k (permute_rows ip); Ok (U', R)
    else do U' <- oupd U k (permute_rows ip); do R' <- oupd R k.+1 (permute_rows ip); Ok (U', R')
  else
    if k == 0 then do U' <- oupd U 1 (permute_rows ip); Ok (U', R)
    else if k == size R - 2 then do R' <- oupd R k (permute_rows ip); Ok (U, R')
    else do U' <- oupd U k.+1 (permute_rows ip); do R' <- oupd R k (permute_rows ip); Ok (U', R').

(** dgbasis.hpp 445-455: permute_basis(perm) *)
Definition rd_permute (perms : seq (seq nat)) (X : rdg) : outcome rdg :=
  do (U1, R1) <- ofold (fun UR k => do p <- oget perms k; rd_permute1 (rd_degree X) UR k p)
                   (rd_U X, rd_R X) (iota 0 (size perms));
  do (U2, R2, p2) <- ofold (fun st k => rd_update1 st (dg_ix (rd_degree X) k))
                   (U1, R1, rd_p2c X) (iota 0 (size perms));
  do Ix <- rd_indices (rd_degree X) R2 p2;
  Ok (RDG (rd_degree X) U2 R2 Ix p2).

Section Filtered.
Variable V : Type.
Variables (ltv : V -> V -> bool) (inf v0 : V).

(** filtered_dgvs.hpp 20-29, filtered_dgbasis.hpp 166-172: the sorting permutations, reversed in
    degree +1 *)
Definition dg_perms (deg : int) (val : seq (seq V)) : seq (seq nat) :=
  let ps := filtration_sortperm ltv v0 val in
  if deg == 1%R then [seq rev p | p <- ps] else ps.

(** filtered_dgvs.hpp 10-13, 39-46: FilteredDGVectorSpace *)
Record fdg := FDG { fd_val : seq (seq V); fd_C : dgvs; fd_perm : seq (seq nat) }.
Definition fdg_make (val : seq (seq V)) (D : dgvs) : outcome fdg :=
  let perms := dg_perms (dg_degree D) val in
  do D' <- dg_ipermute perms D;
  Ok (FDG val D' perms).

(** filtered_dgbasis.hpp 14-27: ReducedFilteredDGVectorSpace *)
Record rfdg := RFDG { rfd_RC : rdg; rfd_val : seq (seq V); rfd_perm : seq (seq nat) }.
Definition rfdg_make (opt : dgopt) (X : fdg) : outcome rfdg :=
  do RC <- rdg_of opt (fd_C X); Ok (RFDG RC (fd_val X) (fd_perm X)).

(** perm[k][i] with the value val[k][perm[k][i]] *)
Definition rfd_cell (X : rfdg) (k i : nat) : outcome (nat * V) :=
  do pk <- oget (rfd_perm X) k; do c <- oget pk i; do vk <- oget (rfd_val X) k; do v <- oget vk c; Ok (c, v).

(** filtered_dgbasis.hpp 38-104: persistence_pairs(k) *)
Definition rfd_pair (X : rfdg) (k i : nat) : outcome (seq (ppair V)) :=
  let RC := rfd_RC X in
  if rd_degree RC == (-1)%R then
    do Rk <- oget (rd_R RC) k; do c <- oget (cols Rk) i;
    if size c == 0 then
      do e <- (if k == size (rd_R RC) - 2 then Ok None
               else do p <- oget (rd_p2c RC) k.+1; oget p i);
      do (b, vb) <- rfd_cell X k i;
      match e with
      | None => Ok [:: PPair k b None vb inf]
      | Some j => do (d, vd) <- rfd_cell X k.+1 j; Ok [:: PPair k b (Some d) vb vd]
      end
    else Ok [::]
  else
    do Rk <- oget (rd_R RC) k.+1; do c <- oget (cols Rk) i;
    if size c > 0 then
      do (j, _) <- lastnz c;
      do (b, vb) <- rfd_cell X k i; do (d, vd) <- rfd_cell X k.+1 j;
      Ok [:: PPair k b (Some d) vb vd]
    else
      do p <- oget (rd_p2c RC) k; do e <- oget p i;
      if e is None then do (b, vb) <- rfd_cell X k i; Ok [:: PPair k b None vb inf]
      else Ok [::].
Definition rfd_pairs (X : rfdg) (k : nat) : outcome (seq (ppair V)) :=
  do Rk <- oget (rd_R (rfd_RC X)) (dg_ix (rd_degree (rfd_RC X)) k);
  do l <- omapm (rfd_pair X k) (iota 0 (ncol Rk));
  Ok (flatten l).

(** filtered_dgbasis.hpp 160-193: update_filtration(newval) *)
Definition rfd_update_perms (deg : int) (perm : seq (seq nat)) (newval : seq (seq V)) : outcome (seq (seq nat)) :=
  let perms := dg_perms deg newval in
  do iperm <- filtration_iperm perm;
  ofold (fun ip k => do p <- oget perms k; do d <- oget ip k;
                     do d' <- apply_perm p d; oset ip k d')
        iperm (iota 0 (size iperm)).
Definition rfdg_update (newval : seq (seq V)) (X : rfdg) : outcome rfdg :=
  let deg := rd_degree (rfd_RC X) in
  do up <- rfd_update_perms deg (rfd_perm X) newval;
  do RC <- rd_permute up (rfd_RC X);
  Ok (RFDG RC newval (dg_perms deg newval)).

(** filtered_dgvs.hpp 39-46, filtered_dgbasis.hpp 23-27: reduce(FilteredDGVectorSpace(val, DGVectorSpace(X, deg, aug)), opt) *)
Definition dg_build (opt : dgopt) (deg : int) (aug : bool) (val : seq (seq V)) (C : seq (cmat T)) : outcome rfdg :=
  do D <- dg_of C deg aug; do X <- fdg_make val D; rfdg_make opt X.
End Filtered.
End DG.
