(** Model of include/complex/simplicial_map.hpp, include/complex/cell_map.hpp, include/complex/cubical_map.hpp and the
    constructor of include/chain/chain_map.hpp.  Coefficients are mathcomp integers (the code only stores 1 and -1). *)
From mathcomp Require Import all_ssreflect all_algebra.
From Verif Require Import Outcome M_SparseVec M_Perm M_ColMatrix M_CSC M_Sorted M_Simplicial M_Cubical.
Set Implicit Arguments.
Unset Strict Implicit.
Unset Printing Implicit Defensive.

(** the C++ int that simplex_sign returns (simplex.hpp 80-85) *)
Definition sgn_int (g : sgn) : int := match g with Zero => 0 | Plus => 1 | Minus => -1 end%R.

(** simplicial_map.hpp 46-68: the column of one simplex; reading f0 out of range is UB *)
Definition smap_col (Y : scx) (f0 : seq nat) (s0 : seq nat) : outcome (svec int) :=
  do s <- omapm (oget f0) s0;
  do r <- simplex_sign s;
  if sgn_int r.2 != 0%R then
    do j <- sc_find Y r.1;
    match j with None => Throw | Some j => Ok [:: (j, sgn_int r.2)] end
  else Ok [::].

(** simplicial_map.hpp 33-73 SimplicialMap(X, Y, f0); CellularMap(maxd) has maxd+1 entries, so f[k] needs no resizing.
    Y.ncells(k) is an unchecked read *)
Definition simplicial_map (X Y : scx) (f0 : seq nat) : outcome (seq (cmat int)) :=
  omapm (fun k =>
    do nx <- sc_ncell X k;
    do cs <- omapm (fun i => do s <- sc_simplex X k i; smap_col Y f0 s) (iota 0 nx);
    do ny <- sc_ncell Y k;
    Ok (CMat ny nx cs)) (iota 0 (sc_dims X)).

(** cell_map.hpp 53-79 CellularMap(X, Y): the inclusion; simplicial_map.hpp 20-27 SimplicialMap(X, Y) *)
Definition incl_col (find : seq nat -> outcome (option nat)) (s : seq nat) : outcome (svec int) :=
  do j <- find s; match j with None => Throw | Some j => Ok [:: (j, 1%R)] end.
Definition sc_inclusion (X Y : scx) : outcome (seq (cmat int)) :=
  omapm (fun k =>
    do nx <- sc_ncell X k;
    do cs <- omapm (fun i => do s <- sc_simplex X k i; incl_col (sc_find Y) s) (iota 0 nx);
    do ny <- sc_ncell Y k;
    Ok (CMat ny nx cs)) (iota 0 (sc_dims X)).
(** the same for cubical complexes: cubical_map.hpp 27-32 CubicalMap(X, Y) *)
Definition cc_inclusion (X Y : ccx) : outcome (seq (cmat int)) :=
  omapm (fun k =>
    do nx <- cc_ncell X k;
    do cs <- omapm (fun i => do s <- cc_cube X k i; incl_col (cc_find Y) s) (iota 0 nx);
    do ny <- cc_ncell Y k;
    Ok (CMat ny nx cs)) (iota 0 (cc_maxdim X).+1).

(** cell_map.hpp 93-101 CellularMap::identity(X) *)
Definition cell_identity (X : scx) : outcome (seq (cmat int)) :=
  omapm (fun k => do n <- sc_ncell X k; Ok (CMat n n [seq [:: (j, 1%R)] | j <- iota 0 n])) (iota 0 (sc_dims X)).

(** chain_map.hpp 21-27 ChainMap(CellularMap): col_matrix.hpp 64-70 and sparse_vector.hpp 108-119 convert every value and
    keep every stored entry *)
Definition cm_conv (A B : Type) (conv : A -> B) (M : cmat A) : cmat B :=
  CMat (nrow M) (ncol M) [seq [seq (p.1, conv p.2) | p <- v] | v <- cols M].
Definition chain_of (B : Type) (conv : int -> B) (fs : seq (cmat int)) : seq (cmat B) := map (cm_conv conv) fs.
