(** Specification vocabulary for diagrams of chain complexes on a path: interval decompositions of their homology. *)
From mathcomp Require Import all_ssreflect all_algebra.
From Verif Require Import Outcome M_SparseVec M_ColMatrix S_Linalg S_Homology M_Homology S_Induced M_Fact M_Quiver S_Quiver M_Functor.
Set Implicit Arguments.
Unset Strict Implicit.
Unset Printing Implicit Defensive.
Import GRing.Theory.
Local Open Scope ring_scope.

Section S.
Variable F : fieldType.
Notation chains := (seq (cmat F)).
Notation cdgm := (dgm chains chains).

(** complex at node i, chain map on edge j *)
Definition nodeC (D : cdgm) i : chains := nth [::] (d_node D) i.
Definition edgeF (D : cdgm) j : chains := nth [::] (d_edata D) j.
Definition edge_at (D : cdgm) j : nat * nat := nth (0, 0)%N (d_elist D) j.

(** m + 1 chain complexes on a path; edge j is a chain map from node j to node j+1, or back *)
Definition path_of_chains (m : nat) (D : cdgm) : Prop :=
  [/\ size (d_node D) = m.+1, size (d_edata D) = m, size (d_elist D) = m,
      forall i, (i <= m)%N -> chain_wf (nodeC D i) &
      forall j, (j < m)%N ->
        (edge_at D j = (j, j.+1) /\ chain_map (nodeC D j) (nodeC D j.+1) (edgeF D j)) \/
        (edge_at D j = (j.+1, j) /\ chain_map (nodeC D j.+1) (nodeC D j) (edgeF D j))].

(** the columns of Z are cycles whose classes are a basis of H_k(C) *)
Definition homology_basis (C : chains) k r (Z : 'M[F]_(ncell C k, r)) : Prop :=
  (forall j, cycle (col j Z)) /\
  forall z : 'cV[F]_(ncell C k), cycle z ->
    exists h, homologous z (Z *m h) /\ forall h', homologous z (Z *m h') -> h' = h.

(** The pairs [ps] are the interval decomposition of H_k of the diagram: there are cycles (the columns of Z i) whose classes
    form a basis of the homology of node i, one for every pair alive at i, such that every chain map of the diagram sends the
    cycle of a pair to a cycle homologous to that of the same pair, or to a boundary if the pair is not alive at the target. *)
Definition homology_intervals (m k : nat) (D : cdgm) (ps : seq ppair) : Prop :=
  exists (d : nat -> nat) (Z : forall i, 'M[F]_(ncell (nodeC D i) k, d i)) (lab : nat -> nat -> nat),
  [/\ forall i, (i <= m)%N -> homology_basis (Z i),
      forall i, (i <= m)%N ->
        [/\ forall x, (x < d i)%N -> (lab i x < size ps)%N /\ alive (nth (PPair 0 0 0 0 0) ps (lab i x)) i,
            forall x y, (x < d i)%N -> (y < d i)%N -> lab i x = lab i y -> x = y &
            forall b, (b < size ps)%N -> alive (nth (PPair 0 0 0 0 0) ps b) i -> exists2 x, (x < d i)%N & lab i x = b],
      forall j, (j < m)%N ->
        if edge_at D j == (j, j.+1)
        then forall x, homologous (fmx (nodeC D j) (nodeC D j.+1) (edgeF D j) k *m col x (Z j))
                                  (\sum_(y < d j.+1 | lab j.+1 y == lab j x) col y (Z j.+1))
        else forall x, homologous (fmx (nodeC D j.+1) (nodeC D j) (edgeF D j) k *m col x (Z j.+1))
                                  (\sum_(y < d j | lab j y == lab j.+1 x) col y (Z j)) &
      forall b, (b < size ps)%N -> let p := nth (PPair 0 0 0 0 0) ps b in
        p_dim p = k /\ (p_birth p <= p_death p <= m)%N].

(** Ranks of zigzags on homology, without bases.  A space of k-chains of node i is given by the rows of a square matrix;
    cycles and boundaries: *)
Definition cycles (C : chains) k : 'M[F]_(ncell C k) := kermx (bd C k)^T.
Definition boundaries (C : chains) k : 'M[F]_(ncell C k) := <<(bd1 C k)^T>>%MS.
(** the cycles of node j+1 related by edge j, up to boundaries, to a chain in W *)
Definition hpush (D : cdgm) k j (W : 'M[F]_(ncell (nodeC D j) k)) : 'M[F]_(ncell (nodeC D j.+1) k) :=
  if edge_at D j == (j, j.+1)
  then (W *m (fmx (nodeC D j) (nodeC D j.+1) (edgeF D j) k)^T + boundaries (nodeC D j.+1) k)%MS
  else (cycles (nodeC D j.+1) k :&: kermx ((fmx (nodeC D j.+1) (nodeC D j) (edgeF D j) k)^T *m cokermx W))%MS.
Fixpoint hreach (D : cdgm) k s n (W : 'M[F]_(ncell (nodeC D s) k)) : 'M[F]_(ncell (nodeC D (n + s)) k) :=
  match n return 'M[F]_(ncell (nodeC D (n + s)) k) with 0 => W | n'.+1 => hpush (hreach n' W) end.
Definition hzrank (D : cdgm) k s n : nat :=
  (\rank (hreach n (cycles (nodeC D s) k)) - \rank (hreach n (boundaries (nodeC D s) k)))%N.

(** the composite chain map from node s to node n + s, when all edges between point right, and the rank it has on homology:
    dimension of (images of the k-cycles + k-boundaries) / k-boundaries *)
Fixpoint compF (D : cdgm) k s n : 'M[F]_(ncell (nodeC D (n + s)) k, ncell (nodeC D s) k) :=
  match n with 0 => 1%:M | n'.+1 => fmx (nodeC D (n' + s)) (nodeC D (n' + s).+1) (edgeF D (n' + s)) k *m compF D k s n' end.
Definition hom_rank (C E : chains) k (f : 'M[F]_(ncell E k, ncell C k)) : nat :=
  (\rank (cycles C k *m f^T + boundaries E k)%MS - \rank (boundaries E k))%N.

End S.
