(** Model of include/topology/grid.hpp for CpxT = SimplicialComplex.  The capacity n of CpxT X(n, maxdim) carries no state. *)
From mathcomp Require Import all_ssreflect all_algebra.
From Verif Require Import Outcome M_Simplicial M_Cubical.
Set Implicit Arguments.
Unset Strict Implicit.
Unset Printing Implicit Defensive.

(** grid.hpp 10-19 rowmajor::get_idx *)
Definition idx2 (i j n : nat) : nat := j + n * i.
Definition idx3 (i j k n2 n3 : nat) : nat := k + n3 * (j + i * n2).

(** n - 1 in size_t: for n = 0 it wraps to 2^64 - 1 and the loop does not end in practice; UB stands for that *)
Definition dec1 (n : nat) : outcome nat := if n is p.+1 then Ok p else UB.
(** for (size_t i = a; i < b; ++i) *)
Definition loop (A : Type) (a b : nat) (f : A -> nat -> outcome A) (X : A) : outcome A := ofold f X (iota a (b - a)).

Definition addr (X : scx) (s : seq nat) : outcome scx := do r <- sc_add_recursive X s; Ok r.1.
Definition addrs (X : scx) (l : seq (seq nat)) : outcome scx := ofold addr X l.
Definition caddr (X : ccx) (s : seq nat) : outcome ccx := do r <- cc_add_recursive X s; Ok r.1.

(** 33-48 Freudenthal(m, n) *)
Definition Freudenthal2 (m n : nat) : outcome scx :=
  do m1 <- dec1 m;
  loop 0 m1 (fun X i =>
    do n1 <- dec1 n;
    loop 0 n1 (fun X j =>
      let k1 := idx2 i j n in let k2 := idx2 i.+1 j n in let k3 := idx2 i j.+1 n in let k4 := idx2 i.+1 j.+1 n in
      addrs X [:: [:: k1; k2; k4]; [:: k1; k3; k4]]) X) (sc_new 2).

(** 54-63 Cube(m, n) *)
Definition Cube2 (m n : nat) : outcome ccx :=
  do m1 <- dec1 m;
  loop 0 m1 (fun X i => do n1 <- dec1 n; loop 0 n1 (fun X j => caddr X [:: i; i.+1; j; j.+1]) X) (cc_new 2).

(** 82-95 (the same lines as 196-209, and 334-347 with the ends of the intervals of a cube instead of i, i+1, ...) *)
Definition six (X : scx) (n2 n3 i i' j j' k k' : nat) : outcome scx :=
  let s1 := idx3 i j k n2 n3 in
  let s2 := idx3 i j k' n2 n3 in
  let s3 := idx3 i j' k n2 n3 in
  let s4 := idx3 i' j k n2 n3 in
  let s5 := idx3 i j' k' n2 n3 in
  let s6 := idx3 i' j k' n2 n3 in
  let s7 := idx3 i' j' k n2 n3 in
  let s8 := idx3 i' j' k' n2 n3 in
  addrs X [:: [:: s1; s2; s5; s8]; [:: s1; s2; s6; s8]; [:: s1; s4; s7; s8]; [:: s1; s4; s6; s8]; [:: s1; s3; s7; s8]; [:: s1; s3; s5; s8]].

(** three nested loops: the upper bounds of the inner ones are evaluated inside the outer ones *)
Definition loop3 (A : Type) (i0 : nat) (i1 : outcome nat) (j0 : nat) (j1 : outcome nat) (k0 : nat) (k1 : outcome nat)
    (f : nat -> nat -> nat -> A -> outcome A) (X : A) : outcome A :=
  do i1 <- i1; loop i0 i1 (fun X i => do j1 <- j1; loop j0 j1 (fun X j => do k1 <- k1; loop k0 k1 (fun X k => f i j k X) X) X) X.

(** 75-101 Freudenthal(n1, n2, n3) *)
Definition Freudenthal3 (n1 n2 n3 : nat) : outcome scx :=
  loop3 0 (dec1 n1) 0 (dec1 n2) 0 (dec1 n3) (fun i j k X => six X n2 n3 i i.+1 j j.+1 k k.+1) (sc_new 3).

(** 106-118 Cube(n1, n2, n3) *)
Definition Cube3 (n1 n2 n3 : nat) : outcome ccx :=
  loop3 0 (dec1 n1) 0 (dec1 n2) 0 (dec1 n3) (fun i j k X => caddr X [:: i; i.+1; j; j.+1; k; k.+1]) (cc_new 3).

(** 136-215 Freudenthal(n1, n2, n3, i0, i1, j0, j1, k0, k1) *)
Definition FreudenthalBox (n1 n2 n3 i0 i1 j0 j1 k0 k1 : nat) : outcome scx :=
  do X <- loop3 i0 (dec1 i1) j0 (dec1 j1) k0 (Ok k1) (fun i j k X =>
    let s1 := idx3 i j k n2 n3 in let s2 := idx3 i.+1 j k n2 n3 in let s3 := idx3 i j.+1 k n2 n3 in let s4 := idx3 i.+1 j.+1 k n2 n3 in
    addrs X [:: [:: s1; s2; s4]; [:: s1; s3; s4]]) (sc_new 3);
  do X <- loop3 i0 (Ok i1) j0 (dec1 j1) k0 (dec1 k1) (fun i j k X =>
    let s1 := idx3 i j k n2 n3 in let s2 := idx3 i j.+1 k n2 n3 in let s3 := idx3 i j k.+1 n2 n3 in let s4 := idx3 i j.+1 k.+1 n2 n3 in
    addrs X [:: [:: s1; s2; s4]; [:: s1; s3; s4]]) X;
  do X <- loop3 i0 (dec1 i1) j0 (Ok j1) k0 (dec1 k1) (fun i j k X =>
    let s1 := idx3 i j k n2 n3 in let s2 := idx3 i.+1 j k n2 n3 in let s3 := idx3 i j k.+1 n2 n3 in let s4 := idx3 i.+1 j k.+1 n2 n3 in
    addrs X [:: [:: s1; s2; s4]; [:: s1; s3; s4]]) X;
  loop3 i0 (dec1 i1) j0 (dec1 j1) k0 (dec1 k1) (fun i j k X => six X n2 n3 i i.+1 j j.+1 k k.+1) X.

(** 232-278 Cube(_, _, _, i0, i1, j0, j1, k0, k1) *)
Definition CubeBox (i0 i1 j0 j1 k0 k1 : nat) : outcome ccx :=
  do X <- loop3 i0 (dec1 i1) j0 (dec1 j1) k0 (Ok k1) (fun i j k X => caddr X [:: i; i.+1; j; j.+1; k; k]) (cc_new 3);
  do X <- loop3 i0 (Ok i1) j0 (dec1 j1) k0 (dec1 k1) (fun i j k X => caddr X [:: i; i; j; j.+1; k; k.+1]) X;
  do X <- loop3 i0 (dec1 i1) j0 (Ok j1) k0 (dec1 k1) (fun i j k X => caddr X [:: i; i.+1; j; j; k; k.+1]) X;
  loop3 i0 (dec1 i1) j0 (dec1 j1) k0 (dec1 k1) (fun i j k X => caddr X [:: i; i.+1; j; j.+1; k; k.+1]) X.

(** 287-350 Freudenthal(X, n1, n2, n3) *)
Definition FreudenthalCubical (X : ccx) (n1 n2 n3 : nat) : outcome scx :=
  if cc_maxdim X != 3 then Throw else
  do m <- cc_ncell X 0;
  do F <- loop 0 m (fun F i =>
    do c <- cc_cube X 0 i;
    do c0 <- oget c 0; do c2 <- oget c 2; do c4 <- oget c 4;
    do r <- sc_add F [:: idx3 c0 c2 c4 n2 n3]; Ok r.1) (sc_new 3);
  do m <- cc_ncell X 1;
  do F <- loop 0 m (fun F i =>
    do c <- cc_cube X 1 i;
    do c0 <- oget c 0; do c1 <- oget c 1; do c2 <- oget c 2; do c3 <- oget c 3; do c4 <- oget c 4; do c5 <- oget c 5;
    do r <- sc_add F [:: idx3 c0 c2 c4 n2 n3; idx3 c1 c3 c5 n2 n3]; Ok r.1) F;
  do m <- cc_ncell X 2;
  do F <- loop 0 m (fun F i =>
    do c <- cc_cube X 2 i;
    do c0 <- oget c 0; do c1 <- oget c 1; do c2 <- oget c 2; do c3 <- oget c 3; do c4 <- oget c 4; do c5 <- oget c 5;
    let s1 := idx3 c0 c2 c4 n2 n3 in
    let s23 := if c0 == c1 then (idx3 c0 c3 c4 n2 n3, idx3 c0 c2 c5 n2 n3)
               else if c2 == c3 then (idx3 c1 c2 c4 n2 n3, idx3 c0 c2 c5 n2 n3)
               else (idx3 c1 c2 c4 n2 n3, idx3 c0 c3 c4 n2 n3) in
    let s4 := idx3 c1 c3 c5 n2 n3 in
    addrs F [:: [:: s1; s23.1; s4]; [:: s1; s23.2; s4]]) F;
  do m <- cc_ncell X 3;
  loop 0 m (fun F i =>
    do c <- cc_cube X 3 i;
    do c0 <- oget c 0; do c1 <- oget c 1; do c2 <- oget c 2; do c3 <- oget c 3; do c4 <- oget c 4; do c5 <- oget c 5;
    six F n2 n3 c0 c1 c2 c3 c4 c5) F.
