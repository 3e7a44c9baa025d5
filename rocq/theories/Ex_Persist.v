(** Concrete cases meeting the hypotheses of Props_Persist.v: the filled triangle with its vertices
    entering in another order than they are stored, two edges at the same time. *)
From mathcomp Require Import all_ssreflect all_algebra.
From Verif Require Import Outcome M_SparseVec M_ColMatrix M_Homology M_Persist S_Linalg S_Perm S_Homology S_Persist
  Ex_Reduction Props_Persist.
Set Implicit Arguments.
Unset Strict Implicit.
Unset Printing Implicit Defensive.

Definition ex_val : seq (seq nat) := [:: [:: 2; 0; 1]; [:: 3; 5; 3]; [:: 7]].

Lemma ex_vals_ok F : vals_ok (tri F) ex_val.
Proof. by split=> // -[|[|[|k]]]. Qed.
Lemma ex_monotone F : monotone 0 (tri F) ex_val.
Proof. by case=> [|[|k]] // i j _; case: i => [|[|[|i]]] //; case: j => [|[|[|j]]]. Qed.
Lemma ex_bottom F : mx (bmx (tri F) 0) = 0%R.
Proof. by apply/matrixP => i [[|[|[|j]]] lt]; rewrite !mxE /coef /= ?big_nil. Qed.

(** the theorem applied, and what the model computes there: one essential component, two
    components dying at 3, one loop of dimension 1 from 5 to 7 *)
Lemma ex_pairs : exists X, build 0 ClearingBasis ex_val (tri F2) = Ok X /\
  [/\ persistence_pairs 99 X 0 false = Ok [:: PPair 0 1 None 0 99; PPair 0 2 (Some 2) 1 3; PPair 0 0 (Some 0) 2 3],
      persistence_pairs 99 X 1 false = Ok [:: PPair 1 1 (Some 0) 5 7] &
      persistence_pairs 99 X 2 false = Ok [::]].
Proof. by eexists; split; [vm_compute; reflexivity | split; vm_compute; reflexivity]. Qed.

(** an involutive update: swap two vertices in time (C35_update_involution) *)
Definition ex_new : seq (seq nat) := [:: [:: 2; 1; 0]; [:: 3; 5; 3]; [:: 7]].
Lemma ex_invol F k i : k < size (tri F) -> i < ncol (bmx (tri F) k) ->
  let p := M_Perm.sortperm ltn 0 (nth [::] ex_val k) in let q := M_Perm.sortperm ltn 0 (nth [::] ex_new k) in
  index (nth 0 q (index (nth 0 q i) p)) p = i.
Proof. by case: k => [|[|[|k]]] //; case: i => [|[|[|i]]]. Qed.
Lemma ex_moves : M_Perm.sortperm ltn 0 (nth [::] ex_val 0) != M_Perm.sortperm ltn 0 (nth [::] ex_new 0).
Proof. by []. Qed.
