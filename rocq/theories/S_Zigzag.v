(** Specification vocabulary for zigzag barcodes: cells of a chain complex enter and leave, H_k of the resulting sequence of
    subcomplexes (connected by inclusions) is decomposed into intervals.  Nothing here mentions the algorithm. *)
From mathcomp Require Import all_ssreflect all_algebra.
From Verif Require Import Outcome M_SparseVec M_ColMatrix S_Linalg S_Homology S_Induced M_Zigzag.
Set Implicit Arguments.
Unset Strict Implicit.
Unset Printing Implicit Defensive.
Import GRing.Theory.
Local Open Scope ring_scope.

Section S.
Variable F : fieldType.
Variable A : Type.
Variable C : seq (cmat F).
Notation event := (rfv A).

(** the event concerns cell i of dimension k *)
Definition at_cell (k i : nat) (e : event) : bool := (z_dim e == k) && (z_ind e == i).
Definition entered (evs : seq event) k i : bool := has (fun e => z_entry e && at_cell k i e) evs.
Definition removed (evs : seq event) k i : bool := has (fun e => ~~ z_entry e && at_cell k i e) evs.
(** cell i of dimension k is present after the events *)
Definition present (evs : seq event) k i : bool := entered evs k i && ~~ removed evs k i.

(** a list of events that describes a sequence of subcomplexes: every cell enters at most once, after its faces; it leaves
    after its cofaces, and cells of one dimension leave in the order of decreasing index *)
Definition event_ok (evs : seq event) (e : event) : Prop :=
  let k := z_dim e in let i := z_ind e in
  [/\ (k < size C)%N, (i < ncell C k)%N &
    if z_entry e then
      ~~ entered evs k i /\ forall k' i', k = k'.+1 -> entry (bmx C k) i' i != 0 -> present evs k' i'
    else
      [/\ present evs k i, forall j, entry (bmx C k.+1) i j != 0 -> ~~ present evs k.+1 j &
          forall j, present evs k j -> (j <= i)%N]].
Definition zigzag_ok (evs : seq event) : Prop :=
  forall pre e post, evs = pre ++ e :: post -> event_ok pre e.

(** the number of dimensions whose bars are returned: 0..d when maxdim = d is given, else all below the top one *)
Definition dims_asked (maxdim : option nat) : nat := if maxdim is Some d then d.+1 else (size C).-1.

(** no boundary in dimension 0 *)
Definition no_bd0 : Prop := forall i j, (j < ncell C 0)%N -> entry (bmx C 0) i j = 0.

(** k-chains of the subcomplex with the cells P k i; its cycles; homology *)
Definition chain_in (P : nat -> nat -> bool) k (z : 'cV[F]_(ncell C k)) : Prop := forall i, z i 0 != 0 -> P k i.
Definition cycle_in P k (z : 'cV[F]_(ncell C k)) : Prop := chain_in P z /\ cycle z.
Definition homologous_in (P : nat -> nat -> bool) k (x y : 'cV[F]_(ncell C k)) : Prop :=
  exists2 w : 'cV[F]_(ncell C k.+1), chain_in P w & x - y = bd1 C k *m w.
(** the columns of Z are cycles of the subcomplex whose classes are a basis of its H_k *)
Definition basis_in P k r (Z : 'M[F]_(ncell C k, r)) : Prop :=
  (forall j, cycle_in P (col j Z)) /\
  forall z : 'cV[F]_(ncell C k), cycle_in P z ->
    exists h, homologous_in P z (Z *m h) /\ forall h', homologous_in P z (Z *m h') -> h' = h.

(** an interval (s, Some e): born with event number s, dies with event number e; (s, None): alive at the end.
    Time t is the moment after the first t events. *)
Definition lives (b : nat * option nat) (t : nat) : bool := (b.1 < t)%N && (if b.2 is Some e then (t <= e)%N else true).
(** the intervals [ps] decompose the zigzag of H_k: there are bases of H_k at all times (the columns of Z t are cycles that
    represent them), one basis vector for every interval that lives at t, and the inclusion of the subcomplex before an
    entry into the one after it, and of the one after a removal into the one before it, sends the basis vector of an
    interval to the basis vector of the same interval, or to 0 if the interval does not live there. *)
Definition zigzag_intervals (evs : seq event) (k : nat) (ps : seq (nat * option nat)) : Prop :=
  let X t := present (take t evs) in
  exists (d : nat -> nat) (Z : forall t, 'M[F]_(ncell C k, d t)) (lab : nat -> nat -> nat),
  [/\ forall t, (t <= size evs)%N -> basis_in (X t) (Z t),
      forall t, (t <= size evs)%N ->
        [/\ forall x, (x < d t)%N -> (lab t x < size ps)%N /\ lives (nth (0, None)%N ps (lab t x)) t,
            forall x y, (x < d t)%N -> (y < d t)%N -> lab t x = lab t y -> x = y &
            forall b, (b < size ps)%N -> lives (nth (0, None)%N ps b) t -> exists2 x, (x < d t)%N & lab t x = b],
      forall t e, (t < size evs)%N ->
        if z_entry (nth e evs t)
        then forall x, homologous_in (X t.+1) (col x (Z t)) (\sum_(y < d t.+1 | lab t.+1 y == lab t x) col y (Z t.+1))
        else forall x, homologous_in (X t) (col x (Z t.+1)) (\sum_(y < d t | lab t y == lab t.+1 x) col y (Z t)) &
      forall b, (b < size ps)%N -> let p := nth (0, None)%N ps b in
        (p.1 < size evs)%N /\ if p.2 is Some e then (p.1 < e < size evs)%N else True].

(** the ZigzagPair that reports an interval: the cell, value and kind of its first and of its last event *)
Definition reports (vmax : A) (evs : seq event) k (p : nat * option nat) (z : zpair A) : Prop :=
  forall e0, let b := nth e0 evs p.1 in
  [/\ zp_dim z = k, zp_birth_ind z = z_cind b, zp_birth z = z_val b, zp_birth_entry z = z_entry b &
      if p.2 is Some e then
        let d := nth e0 evs e in
        [/\ zp_death_ind z = Some (z_cind d), zp_death z = z_val d & zp_death_entry z = z_entry d]
      else zp_death_ind z = None /\ zp_death z = vmax].
End S.
