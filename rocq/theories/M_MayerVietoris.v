(** Model of include/topology/mayer_vietoris.hpp: the connecting map C_{k+1}(X) -> C_k(Y) for X = A u B, Y = A n B. *)
From mathcomp Require Import all_ssreflect all_algebra.
From Verif Require Import Outcome M_SparseVec M_ColMatrix M_Simplicial.
Set Implicit Arguments.
Unset Strict Implicit.
Unset Printing Implicit Defensive.

(** complex/simplicial_complex.hpp 430-441: the loop of get_simplices(dim); [s] is the simplex being read *)
Fixpoint chunk_loop (dim : nat) (s v : seq nat) : seq (seq nat) :=
  if v is i :: v' then
    let s := rcons s i in
    if size s == dim.+1 then s :: chunk_loop dim [::] v' else chunk_loop dim s v'
  else [::].
Definition sc_simplices (X : scx) (dim : nat) : outcome (seq (seq nat)) :=
  do v <- oget (sc_spx X) dim; Ok (chunk_loop dim [::] v).

(** mayer_vietoris.hpp 46-64: one pass of the loop over the faces; the state is (inds, vals) zipped, and c *)
Definition mv_face (Y : scx) (s : seq nat) (k : nat) (st : svec int * int) (i : nat) : outcome (svec int * int) :=
  do ind <- sc_find Y (skip (k.+1 - i) s);
  Ok (if ind is Some j then rcons st.1 (j, st.2) else st.1, (- st.2)%R).
(** 36-71: the column of the simplex s; TC(inds, vals) (sparse_vector.hpp 97-106) keeps the order of inds *)
Definition mv_col (A Y : scx) (k : nat) (s : seq nat) : outcome (svec int) :=
  do a <- sc_find A s;
  if a is Some _ then do st <- ofold (mv_face Y s k) ([::], (-1)%R) (iota 0 k.+2); Ok st.1 else Ok [::].
(** 16-74 mayer_vietoris_boundary(A, X, Y, k) *)
Definition mayer_vietoris_boundary (A X Y : scx) (k : nat) : outcome (cmat int) :=
  do n <- sc_ncell X k.+1;
  do m <- sc_ncell Y k;
  do ss <- sc_simplices X k.+1;
  do col <- omapm (mv_col A Y k) ss;
  Ok (CMat m n col).
