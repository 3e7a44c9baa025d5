(** Model of include/filtration/filtration.hpp with CpxT = SimplicialComplex. *)
From mathcomp Require Import all_ssreflect all_algebra.
From Verif Require Import Outcome M_Simplicial.
Set Implicit Arguments.
Unset Strict Implicit.
Unset Printing Implicit Defensive.

Section Filt.
Variable V : Type.
Variable v0 : V.                 (* TF() *)
Variable le : V -> V -> bool.    (* <= on TF *)

(** 51-52 X, val *)
Record filt := Filt { fl_X : scx; fl_val : seq (seq V) }.

(** 54-63 reserve(dim, n) *)
Definition fv_reserve (val : seq (seq V)) (dim n : nat) : outcome (seq (seq V)) :=
  let val1 := grow [::] dim.+1 val in
  do v <- oget val1 dim;
  oset val1 dim (grow v0 n v).

(** 143-144, 158-159, 178-179: reserve(dim, ind+1); val[dim][ind] = t.  For ind = NO_IND = 2^64-1 the sum is 0 and the
    store is far outside the vector. *)
Definition fv_store (val : seq (seq V)) (dim : nat) (ind : option nat) (t : V) : outcome (seq (seq V)) :=
  match ind with
  | None => UB
  | Some i =>
      do val1 <- fv_reserve val dim i.+1;
      do v <- oget val1 dim;
      do v' <- oset v i t;
      oset val1 dim v'
  end.

(** 68 Filtration() *)
Definition fl_empty : filt := Filt (sc_new 0) [::].
(** 71-76 Filtration(C) and 83-89 Filtration(args...) for a complex C = CpxT(args...) *)
Definition fl_of (C : scx) : outcome filt :=
  do val <- ofold (fun val dim => do n <- sc_ncell C dim; fv_reserve val dim n) [::] (iota 0 (sc_dims C));
  Ok (Filt C val).

(** 141-146 add *)
Definition fl_add (F : filt) (t : V) (s : seq nat) : outcome (filt * option nat) :=
  do r <- sc_add (fl_X F) s;
  do val <- fv_store (fl_val F) (size s).-1 r.2 t;
  Ok (Filt r.1 val, r.2).

(** 155-160 add_directed *)
Definition fl_add_directed (F : filt) (t : V) (s : seq nat) : outcome (filt * option nat) :=
  do r <- sc_add_directed (fl_X F) s;
  do val <- fv_store (fl_val F) (size s).-1 r.2 t;
  Ok (Filt r.1 val, r.2).

(** 174-181 add_recursive *)
Definition fl_add_recursive (F : filt) (t : V) (s : seq nat) : outcome (filt * seq (nat * nat)) :=
  do r <- sc_add_recursive (fl_X F) s;
  do val <- ofold (fun val (p : nat * nat) => fv_store val p.1 (Some p.2) t) (fl_val F) r.2;
  Ok (Filt r.1 val, r.2).

(** 183-194 union_add; F2.maxdim() + 1 is F2.val.size() *)
Definition fl_union_add (F F2 : filt) : outcome filt :=
  ofold (fun F dim => do n <- sc_ncell (fl_X F2) dim;
    ofold (fun F i =>
      do s <- sc_simplex (fl_X F2) dim i;
      do r <- sc_add (fl_X F) s;
      do v <- oget (fl_val F2) dim; do t <- oget v i;
      do val <- fv_store (fl_val F) dim r.2 t;
      Ok (Filt r.1 val)) F (iota 0 n)) F (iota 0 (size (fl_val F2))).

(** 211-221 sublevelset(a) *)
Definition fl_sublevelset (F : filt) (a : V) : outcome scx :=
  do n0 <- sc_ncell (fl_X F) 0;
  ofold (fun Y k => do vs <- oget (fl_val F) k;
    ofold (fun Y i => do v <- oget vs i;
      if le v a then do s <- sc_simplex (fl_X F) k i; do r <- sc_add Y s; Ok r.1 else Ok Y) Y (iota 0 (size vs)))
    (sc_new (sc_dims (fl_X F)).-1) (iota 0 (size (fl_val F))).
End Filt.
