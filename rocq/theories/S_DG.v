(** Specification vocabulary for DG vector spaces built from a cell complex. *)
From mathcomp Require Import all_ssreflect all_algebra.
From Verif Require Import M_SparseVec M_ColMatrix S_Linalg S_Homology.
Set Implicit Arguments.
Unset Strict Implicit.
Unset Printing Implicit Defensive.
Import GRing.Theory.
Local Open Scope ring_scope.

Section S.
Variable F : fieldType.

(** the boundary matrices of a complex with the one out of dimension 0 replaced by the augmentation
    (every vertex goes to 1, for reduced homology) or by the map to the zero space *)
Definition augment (aug : bool) (C : seq (cmat F)) : seq (cmat F) :=
  if C is C0 :: Bs then
    (if aug then CMat 1 (ncol C0) (nseq (ncol C0) [:: (0%N, 1)])
     else CMat 0 (ncol C0) (nseq (ncol C0) [::])) :: Bs
  else [::].

(** the coefficients of every edge sum to zero *)
Definition edges_cancel (C : seq (cmat F)) : Prop :=
  forall j, (j < ncol (bmx C 1))%N -> \sum_(i < nrow (bmx C 1)) coef (nth [::] (cols (bmx C 1)) j) i = 0.

(** B^T, entry by entry *)
Definition is_transpose (B B' : cmat F) : Prop :=
  [/\ cm_wf B', nrow B' = ncol B, ncol B' = nrow B &
      forall i j, (i < nrow B)%N -> (j < ncol B)%N ->
        coef (nth [::] (cols B') i) j = coef (nth [::] (cols B) j) i].
End S.
