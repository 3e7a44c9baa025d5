(** Specification vocabulary for type-A quiver representations and interval decompositions. *)
From mathcomp Require Import all_ssreflect all_fingroup all_algebra.
From Verif Require Import Outcome M_SparseVec M_ColMatrix S_Linalg M_Fact S_Fact M_Quiver.
Set Implicit Arguments.
Unset Strict Implicit.
Unset Printing Implicit Defensive.
Import GRing.Theory.
Local Open Scope ring_scope.

Section S.
Variable F : fieldType.

(** a linear map between two neighbouring nodes of dimensions a and b: to the left (F^b -> F^a) or to the right *)
Inductive arrow (a b : nat) := Lft of 'M[F]_(a, b) | Rgt of 'M[F]_(b, a).
Arguments Lft {a b} _.
Arguments Rgt {a b} _.

(** a representation: dimensions d k of the nodes, one arrow between nodes k and k+1 for every k *)
Variable d : nat -> nat.
Definition rep := forall k, arrow (d k) (d k.+1).

Definition is_lft a b (v : arrow a b) : bool := if v is Lft _ then true else false.
(** a ColumnMatrix holds the map of an arrow *)
Definition dene a b (A : cmat F) (v : arrow a b) : Prop :=
  match v with Lft M => den A M | Rgt M => den A M end.
(** the Diagram holds the first m arrows of q; edge k joins nodes k and k+1 in the direction of the arrow *)
Definition denq (m : nat) (dg : diagram F) (q : rep) : Prop :=
  [/\ size (elist dg) = m, size (edata dg) = m &
      forall k, (k < m)%N -> dene (nth (CMat 0 0 [::]) (edata dg) k) (q k) /\
        nth (0, 0)%N (elist dg) k = if is_lft (q k) then (k.+1, k) else (k, k.+1)].

(** the arrow in the bases given by the columns of A (left node) and B (right node) *)
Definition chbase a b (v : arrow a b) (A : 'M[F]_a) (B : 'M[F]_b) : arrow a b :=
  match v with Lft M => Lft (invmx A *m M *m B) | Rgt M => Rgt (invmx B *m M *m A) end.
(** two representations that differ by a choice of basis at every node *)
Definition isorep (m : nat) (q q' : rep) : Prop :=
  exists2 G : forall k, 'M[F]_(d k), forall k, G k \in unitmx & forall k, (k < m)%N -> q' k = chbase (q k) (G k) (G k.+1).
Definition pivot_arrow a b (v : arrow a b) : Prop := match v with Lft M => pivotmx M | Rgt M => pivotmx M end.

(** a PersistencePair as an interval of nodes *)
Definition alive (p : ppair) (k : nat) : bool := (p_birth p <= k <= p_death p)%N.

(** The pairs [ps] are the interval decomposition of the first m arrows (m+1 nodes) of q:
    there are bases of all node spaces (the columns of G k), and every basis vector i of node k belongs to a pair
    lab k i, such that
    - at every node the basis vectors correspond one to one to the pairs alive there,
    - every arrow sends a basis vector to the basis vector of the same pair, or to 0 if the pair is not alive at the target,
    - birth_ind/death_ind are the positions of the pair's basis vector in the first and last node of its interval. *)
Definition interval_decomposition (m hdim : nat) (q : rep) (ps : seq ppair) : Prop :=
  exists (G : forall k, 'M[F]_(d k)) (lab : nat -> nat -> nat),
  [/\ forall k, (k <= m)%N -> G k \in unitmx,
      forall k, (k <= m)%N ->
        [/\ forall i, (i < d k)%N -> (lab k i < size ps)%N /\ alive (nth (PPair 0 0 0 0 0) ps (lab k i)) k,
            forall i i', (i < d k)%N -> (i' < d k)%N -> lab k i = lab k i' -> i = i' &
            forall b, (b < size ps)%N -> alive (nth (PPair 0 0 0 0 0) ps b) k -> exists2 i, (i < d k)%N & lab k i = b],
      forall k, (k < m)%N ->
        match q k with
        | Lft M => forall j, M *m col j (G k.+1) = \sum_(i < d k | lab k i == lab k.+1 j) col i (G k)
        | Rgt M => forall j, M *m col j (G k) = \sum_(i < d k.+1 | lab k.+1 i == lab k j) col i (G k.+1)
        end &
      forall b, (b < size ps)%N -> let p := nth (PPair 0 0 0 0 0) ps b in
        [/\ p_dim p = hdim, (p_birth p <= p_death p <= m)%N,
            (p_birth_ind p < d (p_birth p))%N /\ lab (p_birth p) (p_birth_ind p) = b &
            (p_death_ind p < d (p_death p))%N /\ lab (p_death p) (p_death_ind p) = b]].

(** Spaces of vectors (rows of a square matrix) pushed along an arrow: the vectors of the right node related by the arrow
    to some vector of W (the image of W, or its preimage when the arrow points left) *)
Definition zpush a b (v : arrow a b) (W : 'M[F]_a) : 'M[F]_b :=
  match v with Rgt M => <<W *m M^T>>%MS | Lft M => kermx (M^T *m cokermx W) end.
Fixpoint zreach (q : rep) (s n : nat) (W : 'M[F]_(d s)) : 'M[F]_(d (n + s)) :=
  match n return 'M[F]_(d (n + s)) with 0 => W | n'.+1 => zpush (q (n' + s)%N) (zreach q n' W) end.
(** the rank of the zigzag from node s to node n + s: how many independent vectors of node n + s are joined by compatible
    chains to node s, modulo those joined to 0 *)
Definition zrank (q : rep) (s n : nat) : nat := (\rank (zreach q n (1%:M%R : 'M_(d s))) - \rank (zreach q n (0%R : 'M_(d s))))%N.

(** the composite of the arrows from node s to node n + s, all of which point right *)
Definition mapR a b (v : arrow a b) : 'M[F]_(b, a) := if v is Rgt M then M else 0.
Fixpoint compR (q : rep) (s n : nat) : 'M[F]_(d (n + s), d s) :=
  match n with 0 => 1%:M | n'.+1 => mapR (q (n' + s)%N) *m compR q s n' end.

End S.
Arguments Lft {F a b} _.
Arguments Rgt {F a b} _.
