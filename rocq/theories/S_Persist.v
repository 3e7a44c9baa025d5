(** Specification vocabulary for persistence, on the complex in its original order of cells. *)
From mathcomp Require Import all_ssreflect all_algebra.
From Verif Require Import M_SparseVec M_ColMatrix S_Linalg S_Homology.
Set Implicit Arguments.
Unset Strict Implicit.
Unset Printing Implicit Defensive.
Import GRing.Theory.
Local Open Scope ring_scope.

Section S.
Variable F : fieldType.

(** the chains supported on the cells satisfying s, as a row space *)
Definition mask n (s : pred nat) : 'M[F]_n := diag_mx (\row_i (s i)%:R).

(** B1, B2 consecutive boundary matrices (columns are boundaries).  Z: the cycles of the cells in s;
    Bd: the boundaries of the cells in t. *)
Definition Zsp m n (B1 : 'M[F]_(m, n)) (s : pred nat) : 'M[F]_n := (kermx B1^T :&: mask n s)%MS.
Definition Bsp n q (B2 : 'M[F]_(n, q)) (t : pred nat) : 'M[F]_(q, n) := mask q t *m B2^T.

(** rank of the map induced by inclusion Z(s)/B(s) -> Z(t)/B(t): dim of Z(s) / (Z(s) meet B(t)) *)
Definition pbet m n q (B1 : 'M[F]_(m, n)) (B2 : 'M[F]_(n, q)) (s t : pred nat) : nat :=
  (\rank (Zsp B1 s) - \rank (Zsp B1 s :&: Bsp B2 t)%MS)%N.

(** the persistent Betti number of a complex: [s] selects the k-cells of the smaller stage, [t] the
    (k+1)-cells of the larger one *)
Definition pbetti (C : seq (cmat F)) (k : nat) (s t : pred nat) : nat :=
  pbet (mx (bmx C k)) (mxc (ncol (bmx C k)) (ncol (bmx C k.+1)) (cols (bmx C k.+1))) s t.

(** one list of values per dimension, one value per cell *)
Definition vals_ok (V : Type) (C : seq (cmat F)) (val : seq (seq V)) : Prop :=
  size val = size C /\ forall k, (k < size C)%N -> size (nth [::] val k) = ncol (bmx C k).

End S.

Section S2.
Variable F : fieldType.
Variables (disp : unit) (V : orderType disp) (v0 : V).
(** value of cell i of dimension k *)
Definition cval (val : seq (seq V)) (k i : nat) : V := nth v0 (nth [::] val k) i.
(** no cell comes before a cell in its boundary *)
Definition monotone (C : seq (cmat F)) (val : seq (seq V)) : Prop :=
  forall k i j, (k.+1 < size C)%N -> (i < ncol (bmx C k))%N -> (j < ncol (bmx C k.+1))%N ->
    coef (nth [::] (cols (bmx C k.+1)) j) i != 0 -> (cval val k i <= cval val k.+1 j)%O.
End S2.
