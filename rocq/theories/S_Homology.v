(** Specification of homology: pivots and Betti numbers in terms of ranks only. *)
From mathcomp Require Import all_ssreflect all_algebra.
From Verif Require Import M_SparseVec M_ColMatrix S_Linalg S_Perm.
Set Implicit Arguments.
Unset Strict Implicit.
Unset Printing Implicit Defensive.
Import GRing.Theory.
Local Open Scope ring_scope.

Section H.
Variable F : fieldType.

(** (i,j) is a persistence pivot pair of the matrix B: the second difference of the ranks of the
    lower-left submatrices of B at (i,j) is one. *)
Definition is_pivot m n (B : 'M[F]_(m, n)) (i j : nat) : bool :=
  (rll B i j.+1 + rll B i.+1 j == rll B i j + rll B i.+1 j.+1 + 1)%N.

(** A pivot-to-column vector is right for B *)
Definition pivots_exact m n (B : 'M[F]_(m, n)) (p : seq (option nat)) : Prop :=
  size p = m /\
  forall i, (i < m)%N -> forall j, nth None p i = Some j <-> (j < n)%N && is_pivot B i j.

(** boundary matrices of a chain complex: conforming sizes, well formed, product zero *)
Definition bmx (C : seq (cmat F)) (k : nat) : cmat F := nth (CMat 0 0 [::]) C k.

Definition chain_wf (C : seq (cmat F)) : Prop :=
  [/\ (0 < size C)%N,
      all (@cm_wf F) C &
      forall k, (k.+1 < size C)%N ->
        nrow (bmx C k.+1) = ncol (bmx C k) /\
        mxc (nrow (bmx C k)) (ncol (bmx C k)) (cols (bmx C k)) *m
        mxc (ncol (bmx C k)) (ncol (bmx C k.+1)) (cols (bmx C k.+1)) = 0].

(** rank of the k-th boundary (zero above the top dimension) *)
Definition brank (C : seq (cmat F)) (k : nat) : nat := \rank (mx (bmx C k)).

(** a pivot lies in column j / row i *)
Definition pcol m n (B : 'M[F]_(m, n)) (j : nat) : bool := [exists i : 'I_m, is_pivot B i j].
Definition prow m n (B : 'M[F]_(m, n)) (i : nat) : bool := [exists j : 'I_n, is_pivot B i j].

(** the homology indices of dimension k: cells that carry no pivot column and no pivot row *)
Definition hinds (C : seq (cmat F)) (k : nat) : seq nat :=
  [seq j <- iota 0 (ncol (bmx C k)) | ~~ pcol (mx (bmx C k)) j && ~~ prow (mx (bmx C k.+1)) j].

Notation pk perms k := (nth [::] perms k).

(** [perms] has one permutation per dimension, of the number of cells of that dimension *)
Definition perms_ok (C : seq (cmat F)) (perms : seq (seq nat)) : Prop :=
  size perms = size C /\
  forall k, (k < size C)%N -> is_perm (pk perms k) /\ size (pk perms k) = ncol (bmx C k).

(** C' is C with the basis reordered: new cell j of dimension k is old cell perm_k[j] *)
Definition reordered (C C' : seq (cmat F)) (perms : seq (seq nat)) : Prop :=
  size C' = size C /\
  forall k, (k < size C)%N ->
    [/\ nrow (bmx C' k) = nrow (bmx C k), ncol (bmx C' k) = ncol (bmx C k) &
        forall i j, (i < nrow (bmx C k))%N -> (j < ncol (bmx C k))%N ->
          coef (nth [::] (cols (bmx C' k)) j) i =
          coef (nth [::] (cols (bmx C k)) (nth 0%N (pk perms k) j))
               (if k is k'.+1 then nth 0%N (pk perms k') i else i)].

(** the boundary out of dimension 0 treats all vertices alike (zero, or the augmentation) *)
Definition aug_const (C : seq (cmat F)) : Prop :=
  forall i j j', (j < ncol (bmx C 0))%N -> (j' < ncol (bmx C 0))%N ->
    coef (nth [::] (cols (bmx C 0)) j) i = coef (nth [::] (cols (bmx C 0)) j') i.

(** no combination of the columns has exactly one nonzero entry *)
Definition nosingle m n (M : 'M[F]_(m, n)) : Prop :=
  forall (y : 'cV[F]_n) i, (M *m y) i 0 != 0 -> exists2 i', i' != i & (M *m y) i' 0 != 0.

(** what every simplicial or cubical complex satisfies: no boundary out of dimension 0, the two ends
    of an edge cancel, and every cell of positive dimension has a nonzero boundary *)
Definition cells_like (C : seq (cmat F)) : Prop :=
  [/\ forall i j, (j < ncol (bmx C 0))%N -> coef (nth [::] (cols (bmx C 0)) j) i = 0,
      forall j, (j < ncol (bmx C 1))%N ->
        \sum_(i < nrow (bmx C 1)) coef (nth [::] (cols (bmx C 1)) j) i = 0 &
      forall k j, (0 < k)%N -> (k < size C)%N -> (j < ncol (bmx C k))%N ->
        exists i, coef (nth [::] (cols (bmx C k)) j) i != 0].

End H.
