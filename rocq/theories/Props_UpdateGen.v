(** C36: update_basis_general. *)
From mathcomp Require Import all_ssreflect all_fingroup all_algebra zify.
From Verif Require Import Outcome P_Outcome M_SparseVec M_Perm M_ColMatrix M_Reduce M_Homology M_UpdateGen
  S_Linalg S_Homology S_UpdateGen P_SparseVec P_Pairing P_Reduce S_Perm P_Perm P_Homology P_Betti P_Extra P_Update P_Insert P_UpdateGen
  P_UpdateGen2.
Set Implicit Arguments.
Unset Strict Implicit.
Unset Printing Implicit Defensive.
Import GRing.Theory.
Local Open Scope ring_scope.

Section H.
Variable F : fieldType.
Notation O := (ops_of F).
Notation cmat := (cmat F).

Lemma urec_factored C (X : rcc F) k : urec (bmx C k) (bmx (rc_R X) k) (bmx (rc_U X) k) (nth [::] (rc_p2c X) k) -> factored_at C X k.
Proof.
move=> H; have [Rc [Uc [eR eU e ud red]]] := urec_open H; exists Rc, Uc.
have [[_ _ [_ _ pe _]] [_ _ WU WR _]] := H.
by split=> //; rewrite -eR -eU.
Qed.

(** C36. If UI describes how the complex C' arises from C, updating the reduction of C gives, in every dimension, the
    pivots and the homology indices a reduction of C' from scratch gives; and in every dimension where the basis is not
    spoilt by C36_vertex_singular below, a factorization R = B' U of the new boundary with U invertible upper triangular *)
Theorem C36_update W UI (C C' : seq cmat) (X : rcc F) :
  chain_wf C -> chain_wf C' -> (1 < size C)%N -> no_bd0 C -> no_bd0 C' -> describes UI C C' -> factored C X ->
  exists Y Z, [/\ update_basis_general O true W UI X = Ok Y, rcc_of O StandardBasis C' = Ok Z,
    rc_I Y = rc_I Z /\ rc_p2c Y = rc_p2c Z, [/\ size (rc_R Y) = size C', size (rc_U Y) = size C' & size (rc_p2c Y) = size C'] &
    forall k, (k < size C')%N -> (0 < k)%N \/ nth [::] (ui_add UI) 0 = [::] -> factored_at C' Y k].
Proof.
move=> CW CW' C2 Z0 Z0' D FX; have [Y [EY IY [s1 s2 s3] G [K _]]] := update_general_spec W CW CW' C2 Z0 Z0' D FX.
have [Z [EZ IZ [t1 t2 t3] GZ]] := rcc_standard_spec CW'.
have [[sC _] _ _ _ _] := D; exists Y, Z; rewrite sC; split=> //.
  rewrite IY IZ sC; split=> //; apply: (@eq_from_nth _ [::]); rewrite s3 ?t3 // => k kC.
  have [_ _ [_ _ p1 _]] := G k kC; have kC' : (k < size C')%N by rewrite sC.
  have [[_ _ [_ _ p2 _]] _] := GZ k kC'; exact: pivots_exact_inj p1 p2.
by move=> k kC h; apply: urec_factored; exact: K.
Qed.

(** C36. Updating twice: after an update that adds no vertex the result is again a reduction, of C', so any number of such
    updates can follow each other *)
Theorem C36_again W UI (C C' : seq cmat) (X : rcc F) :
  chain_wf C -> chain_wf C' -> (1 < size C)%N -> no_bd0 C -> no_bd0 C' -> describes UI C C' -> factored C X ->
  nth [::] (ui_add UI) 0 = [::] ->
  exists2 Y, update_basis_general O true W UI X = Ok Y & factored C' Y.
Proof.
move=> CW CW' C2 Z0 Z0' D FX a0; have [Y [Z [E _ _ [s1 s2 s3] G]]] := C36_update W CW CW' C2 Z0 Z0' D FX.
by exists Y => //; split=> // k kC; apply: G => //; right.
Qed.

(** a reduction from scratch is a factorization, so C36_update applies to it *)
Theorem C36_fresh (C : seq cmat) : chain_wf C -> exists2 X, rcc_of O StandardBasis C = Ok X & factored C X.
Proof.
move=> CW; have [X [E _ [s1 s2 s3] G]] := rcc_standard_spec CW; exists X => //; split=> // k kC.
by apply: urec_factored; have [] := G k kC.
Qed.

(** C36 refuted for added vertices: the basis of dimension 0 is then singular (its last row is zero), although its columns
    should form a basis of the 0-chains *)
Theorem C36_vertex_singular W UI (C C' : seq cmat) (X : rcc F) :
  chain_wf C -> chain_wf C' -> (1 < size C)%N -> no_bd0 C -> no_bd0 C' -> describes UI C C' -> factored C X ->
  nth [::] (ui_add UI) 0 <> [::] -> (ncol (bmx C' 0) < W)%N ->
  exists Y Uc, let n := ncol (bmx C' 0) in
    [/\ update_basis_general O true W UI X = Ok Y, bmx (rc_U Y) 0 = CMat n n Uc & mx (CMat n n Uc) \notin unitmx].
Proof.
move=> CW CW' C2 Z0 Z0' D FX an LW; have [Y [EY _ _ _ [_ S]]] := update_general_spec W CW CW' C2 Z0 Z0' D FX.
have [n1 c1 z] := S an LW; exists Y, (cols (bmx (rc_U Y) 0)) => n; split=> //.
  by move: n1 c1; rewrite /n; case: (bmx (rc_U Y) 0) => a b c /= -> ->.
apply/negP => un.
have n0 : (0 < n)%N.
  have C0 : (0 < size C)%N by exact: ltnW.
  have [_ _ _ H _] := D; have [_ _ _ _] := H 0%N C0; rewrite -/n => <-.
  by case: (nth [::] (ui_add UI) 0) an => // a l _; rewrite addnS.
have ln : (n.-1 < n)%N by rewrite prednK.
have : row (Ordinal ln) (mx (CMat n n (cols (bmx (rc_U Y) 0)))) = 0.
  by apply/rowP => j; rewrite !mxE /=; exact: z.
move/(congr1 (fun v => v *m invmx (mx (CMat n n (cols (bmx (rc_U Y) 0)))))); rewrite mul0mx -row_mul mulmxV //.
by move/rowP => /(_ (Ordinal ln)) /eqP; rewrite !mxE eqxx oner_eq0.
Qed.

(** C36 refuted for one-dimensional input: permute_matrices(0, .) reads R[1] *)
Theorem C36_maxdim0 W UI (X : rcc F) p : size (rc_R X) = 1%N -> general_perm UI 0 (ncol (bmx (rc_R X) 0)) = Ok p ->
  is_perm p -> update_basis_general O true W UI X = UB.
Proof.
move=> s E P; rewrite /update_basis_general /= /general_permute (oget_nth (CMat 0 0 [::])) ?s //=.
rewrite -/(bmx _ 0) E /= /permute_matrices inv_permE //=.
by case: (rc_R X) s => [|a [|b l]].
Qed.
End H.

(** ** Examples *)
(** path a-b, b-c on vertices a, b, c becomes: order c, a, b; bc dropped, ca and cb added in front of ab *)
Definition gC : seq (cmat F2) :=
  [:: CMat 1 3 [:: [::]; [::]; [::]]; CMat 3 2 [:: [:: (0%N, 1); (1%N, 1)]; [:: (1%N, 1); (2%N, 1)]]].
Definition gC' : seq (cmat F2) :=
  [:: CMat 1 3 [:: [::]; [::]; [::]]; CMat 3 3 [:: [:: (0%N, 1); (1%N, 1)]; [:: (0%N, 1); (2%N, 1)]; [:: (1%N, 1); (2%N, 1)]]].
Definition gUI : uinfo := UInfo 1 [:: [::]; [:: 1%N]] [:: [:: 2; 0; 1]%N; [:: 0%N]] [:: [::]; [:: 0; 1]%N] [:: [::]; [:: [:: 0; 1]%N; [:: 0; 2]%N]].

Lemma gC_wf : chain_wf gC /\ chain_wf gC'.
Proof.
split; split=> //; case=> [|k] //= _; split=> //.
all: by apply/matrixP => i j; rewrite !mxE big1 // => h _; rewrite !mxE /=; case: h => [[|[|[|h]]] lh]; rewrite /= ?coef_nil ?mul0r.
Qed.

Lemma gC_desc : describes gUI gC gC'.
Proof.
split=> //.
- by case=> [|[|k]] // _; split=> //; split.
- case=> [|k] // _; split=> //=.
  + by case=> [|[|[|i]]] [|j] //= _ _; rewrite /entry /= !coef_cons !coef_nil.
  + by case=> [|[|j]] //= _; split=> // i; rewrite /entry /= !coef_cons coef_nil /= !inE; case: i => [|[|[|i]]] //=; rewrite ?addr0.
Qed.

(** C36: the hypotheses of C36_update are satisfied, and the update does something *)
Theorem C36_nonvacuous : [/\ chain_wf gC, chain_wf gC', no_bd0 gC /\ no_bd0 gC', describes gUI gC gC' &
  exists X Y, [/\ rcc_of (ops_of F2) StandardBasis gC = Ok X, update_basis_general (ops_of F2) true 100 gUI X = Ok Y &
    rc_I X = [:: [:: 0%N]; [::]] /\ rc_I Y = [:: [:: 0%N]; [:: 2%N]]]].
Proof.
have z : no_bd0 gC by move=> i [|[|[|j]]]; rewrite /entry /= ?nth_nil coef_nil.
have z' : no_bd0 gC' by move=> i [|[|[|j]]]; rewrite /entry /= ?nth_nil coef_nil.
have [w w'] := gC_wf; split=> //; first exact: gC_desc.
by do 2 eexists; split; [by vm_compute | by vm_compute | split; by vm_compute].
Qed.

(** C36 refuted outside characteristic 2: the boundary of an added cell is entered with all coefficients 1.  Over the field
    of three elements, adding the three edges of a triangle to its three vertices leaves no homology at all,
    although the triangle has one class in dimensions 0 and 1. *)
Definition F3 : fieldType := [fieldType of 'F_3].
Definition hC : seq (cmat F3) := [:: CMat 1 3 [:: [::]; [::]; [::]]; CMat 3 0 [::]].
Definition hC' : seq (cmat F3) :=
  [:: CMat 1 3 [:: [::]; [::]; [::]];
      CMat 3 3 [:: [:: (0%N, -1); (1%N, 1)]; [:: (0%N, -1); (2%N, 1)]; [:: (1%N, -1); (2%N, 1)]]].
Definition hUI : uinfo := UInfo 1 [:: [::]; [::]] [:: [:: 0; 1; 2]%N; [::]] [:: [::]; [:: 0; 1; 2]%N]
  [:: [::]; [:: [:: 0; 1]%N; [:: 0; 2]%N; [:: 1; 2]%N]].
Theorem C36_not_char2 : exists X Y Z, [/\ rcc_of (ops_of F3) StandardBasis hC = Ok X,
  update_basis_general (ops_of F3) true 100 hUI X = Ok Y, rcc_of (ops_of F3) StandardBasis hC' = Ok Z,
  rc_I Y = [:: [::]; [::]] & rc_I Z = [:: [:: 0%N]; [:: 2%N]]].
Proof. by do 3 eexists; split; by vm_compute. Qed.

(** C36 and the language rule: insert_rows reads one element past the end of the list of new rows (sparse_vector.hpp 735)
    as soon as a stored entry moves past the last inserted row, so adding a vertex in front of an existing edge is undefined
    behaviour *)
Theorem C36_insert_past_end : (forall T (x : T), sv_insert_rows false [:: 0%N] 0 [:: (0%N, x)] = UB) /\
  exists X, rcc_of (ops_of F2) StandardBasis gC = Ok X /\
    update_basis_general (ops_of F2) false 100
      (UInfo 1 [:: [::]; [::]] [:: [:: 0; 1; 2]%N; [:: 0; 1]%N] [:: [:: 0%N]; [::]] [:: [::]; [::]]) X = UB.
Proof. by split=> //; eexists; split; by vm_compute. Qed.
