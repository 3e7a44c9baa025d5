(** Specification of homology classes, representatives and induced maps. *)
From mathcomp Require Import all_ssreflect all_algebra.
From Verif Require Import M_SparseVec M_ColMatrix M_Reduce M_Homology S_Linalg S_Homology.
Set Implicit Arguments.
Unset Strict Implicit.
Unset Printing Implicit Defensive.
Import GRing.Theory.
Local Open Scope ring_scope.

Section S.
Variable F : fieldType.
Implicit Types C D : seq (cmat F).

(** number of k-cells *)
Definition ncell C k : nat := ncol (bmx C k).

(** boundary of a k-chain; boundaries in dimension k (of (k+1)-chains; none above the top) *)
Definition bd C k : 'M[F]_(nrow (bmx C k), ncell C k) := mx (bmx C k).
Definition bd1 C k : 'M[F]_(ncell C k, ncell C k.+1) := mxc (ncell C k) (ncell C k.+1) (cols (bmx C k.+1)).

Definition cycle C k (z : 'cV[F]_(ncell C k)) : Prop := bd C k *m z = 0.
Definition homologous C k (x y : 'cV[F]_(ncell C k)) : Prop := exists w, x - y = bd1 C k *m w.

(** the k-cells listed as homology generators by a reduction, and the matrix of their representatives
    (columns U[k][I[k][0]], U[k][I[k][1]], ...) *)
Definition gens (X : rcc F) k : seq nat := nth [::] (rc_I X) k.
Definition repmx n (X : rcc F) k : 'M[F]_(n, size (gens X k)) :=
  \matrix_(i, j) entry (bmx (rc_U X) k) i (nth 0%N (gens X k) j).

(** F is a chain map C -> D: F_k takes k-chains to k-chains and commutes with the boundaries; in dimension 0
    (where the boundary matrix is usually a zero row) it takes cycles to cycles *)
Definition fmx C D (Fs : seq (cmat F)) k : 'M[F]_(ncell D k, ncell C k) :=
  mxc (ncell D k) (ncell C k) (cols (bmx Fs k)).
Definition chain_map C D (Fs : seq (cmat F)) : Prop :=
  [/\ size D = size C, size Fs = size C,
      (forall k, (k < size C)%N ->
         [/\ cm_wf (bmx Fs k), nrow (bmx Fs k) = ncell D k & ncol (bmx Fs k) = ncell C k]),
      (forall k, (k.+1 < size C)%N ->
        bd1 D k *m fmx C D Fs k.+1 = fmx C D Fs k *m bd1 C k) &
      forall z : 'cV[F]_(ncell C 0), cycle z -> cycle (fmx C D Fs 0 *m z)].

End S.
