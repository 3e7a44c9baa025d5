(** Specification of updating a chain complex by deleting, reordering and adding cells. *)
From mathcomp Require Import all_ssreflect all_algebra.
From Verif Require Import M_SparseVec M_ColMatrix M_Reduce M_Homology M_UpdateGen S_Linalg S_Perm S_Homology.
Set Implicit Arguments.
Unset Strict Implicit.
Unset Printing Implicit Defensive.
Import GRing.Theory.
Local Open Scope ring_scope.

(** the numbers below n that are not in d, in order *)
Definition without (d : seq nat) (n : nat) : seq nat := [seq x <- iota 0 n | x \notin d].

(** a strictly increasing list of numbers below n *)
Definition subset_list (d : seq nat) (n : nat) : Prop := sorted ltn d /\ all (fun x => x < n)%N d.

Section S.
Variable F : fieldType.
Implicit Types C : seq (cmat F).

(** the old cells of dimension k that are kept, in the new order; their places in the new complex *)
Definition origin (UI : uinfo) C k : seq nat :=
  [seq nth 0%N (without (nth [::] (ui_del UI) k) (ncol (bmx C k))) i | i <- nth [::] (ui_perm UI) k].
Definition place (UI : uinfo) (C' : seq (cmat F)) k : seq nat := without (nth [::] (ui_add UI) k) (ncol (bmx C' k)).

(** UI describes how C' is obtained from C.  In dimension k the cells del_k of C are dropped, the cells add_k of C' are
    new, and the i-th remaining cell of C' is the cell origin_k[i] of C, with the same boundary.  The boundary of the j-th
    new cell is the sum of the cells bd_k[j] (all coefficients 1). *)
Definition describes (UI : uinfo) C C' : Prop :=
  [/\ size C' = size C /\ nrow (bmx C' 0) = nrow (bmx C 0), size C = (ui_maxdim UI).+1,
      [/\ size (ui_del UI) = size C, size (ui_perm UI) = size C, size (ui_add UI) = size C & size (ui_bd UI) = size C],
      (forall k, (k < size C)%N -> let del := nth [::] (ui_del UI) k in let add := nth [::] (ui_add UI) k in
         let pm := nth [::] (ui_perm UI) k in
         [/\ subset_list del (ncol (bmx C k)), subset_list add (ncol (bmx C' k)), is_perm pm,
             (size pm + size del = ncol (bmx C k))%N & (size pm + size add = ncol (bmx C' k))%N]) &
      forall k, (k.+1 < size C)%N ->
        let B := bmx C k.+1 in let B' := bmx C' k.+1 in let bd := nth [::] (ui_bd UI) k.+1 in
        [/\ forall i j, (i < size (origin UI C k))%N -> (j < size (origin UI C k.+1))%N ->
              entry B' (nth 0%N (place UI C' k) i) (nth 0%N (place UI C' k.+1) j) =
              entry B (nth 0%N (origin UI C k) i) (nth 0%N (origin UI C k.+1) j),
            forall a j, a \in nth [::] (ui_add UI) k -> (j < size (origin UI C k.+1))%N ->
              entry B' a (nth 0%N (place UI C' k.+1) j) = 0,
            forall d j, d \in nth [::] (ui_del UI) k -> (j < size (origin UI C k.+1))%N ->
              entry B d (nth 0%N (origin UI C k.+1) j) = 0,
            size bd = size (nth [::] (ui_add UI) k.+1) &
            forall j, (j < size bd)%N -> subset_list (nth [::] bd j) (ncol (bmx C' k)) /\
              forall i, entry B' i (nth 0%N (nth [::] (ui_add UI) k.+1) j) = (i \in nth [::] bd j)%:R]].

(** X holds in dimension k a reduction of the boundary B of C: R = B U, U invertible upper triangular, R reduced, and the
    pivots of B *)
Definition factored_at C (X : rcc F) k : Prop :=
  exists Rc Uc, let B := bmx C k in let R := CMat (nrow B) (ncol B) Rc in let U := CMat (ncol B) (ncol B) Uc in
  [/\ bmx (rc_R X) k = R /\ bmx (rc_U X) k = U, cm_wf R /\ cm_wf U, mx R = mx B *m mx U /\ reduced (mx R),
      upper (mx U) /\ diagn0 (mx U) & pivots_exact (mx B) (nth [::] (rc_p2c X) k)].
Definition factored C (X : rcc F) : Prop :=
  [/\ size (rc_R X) = size C, size (rc_U X) = size C, size (rc_p2c X) = size C & forall k, (k < size C)%N -> factored_at C X k].

(** no boundary out of dimension 0 *)
Definition no_bd0 C : Prop := forall i j, entry (bmx C 0) i j = 0.
End S.
