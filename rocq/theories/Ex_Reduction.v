(** Concrete cases meeting the hypotheses of Props_Reduction.v, and the refutation for C17. *)
From mathcomp Require Import all_ssreflect all_algebra zify.
From Verif Require Import Outcome P_Outcome M_SparseVec M_Perm M_ColMatrix M_Reduce M_Homology
  S_Linalg S_Perm S_Homology P_SparseVec Props_Reduction.
Set Implicit Arguments.
Unset Strict Implicit.
Unset Printing Implicit Defensive.
Import GRing.Theory.
Local Open Scope ring_scope.

Section Tri.
Variable F : fieldType.

(** the filled triangle: vertices 0,1,2, edges 01,02,12, one 2-cell *)
Definition tri0 : cmat F := CMat 1 3 [:: [::]; [::]; [::]].
Definition tri1 : cmat F := CMat 3 3 [:: [:: (0%N, -1); (1%N, 1)]; [:: (0%N, -1); (2%N, 1)]; [:: (1%N, -1); (2%N, 1)]].
Definition tri2 : cmat F := CMat 3 1 [:: [:: (0%N, 1); (1%N, -1); (2%N, 1)]].
Definition tri : seq (cmat F) := [:: tri0; tri1; tri2].

Lemma tri_wf : chain_wf tri.
Proof.
have n1 : (-1 : F) != 0 by rewrite oppr_eq0 oner_neq0.
have n2 := oner_neq0 F.
split=> //.
  by rewrite /= /cm_wf /= /sv_wf /sv_sorted /sv_below /sv_nonzero /= !n1 !n2.
case=> [|[|k]] //= _; split=> //; apply/matrixP => i j; rewrite !mxE !big_ord_recl big_ord0 !mxE.
  by rewrite /= !coef_nil !mul0r !addr0.
case: i => [[|[|[|i]]] li] //; case: j => [[|j] lj] //=;
  rewrite /coef /= !big_cons !big_nil /=;
  rewrite ?mulr0 ?mul0r ?addr0 ?add0r ?mulrN ?mulNr ?mulr1 ?mul1r ?opprK ?addrN ?addNr //.
Qed.

(** all three vertices permuted cyclically, the edges reversed *)
Definition tri_perms : seq (seq nat) := [:: [:: 1%N; 2%N; 0%N]; [:: 2%N; 1%N; 0%N]; [:: 0%N]].
Lemma tri_perms_ok : perms_ok tri tri_perms.
Proof. by split=> // -[|[|[|k]]]. Qed.
Lemma tri_aug : aug_const tri.
Proof. by move=> i [|[|[|j]]] [|[|[|j']]]. Qed.


Lemma tri_cells : cells_like tri.
Proof.
have n1 : (-1 : F) != 0 by rewrite oppr_eq0 oner_neq0.
have n2 := oner_neq0 F.
split.
- by move=> i [|[|[|j]]] //= _; rewrite coef_nil.
- by case=> [|[|[|j]]] //= _; rewrite !big_ord_recl big_ord0 /= !coef_cons !coef_nil /= ?add0r ?addr0 ?addNr.
- case=> [|[|[|k]]] //= [|[|[|j]]] // _ _ _; by exists 0%N + exists 1%N; rewrite /= !coef_cons !coef_nil /= ?addr0.
Qed.

End Tri.


