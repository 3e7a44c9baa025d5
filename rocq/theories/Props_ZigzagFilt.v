(** C47: barcodes of zigzag filtrations.  A concrete instance, and filtrations for which the program fails. *)
From mathcomp Require Import all_ssreflect all_algebra zify.
From Verif Require Import Outcome P_Outcome M_SparseVec M_ColMatrix M_Perm M_Homology S_Linalg S_Homology S_Induced M_Zigzag S_Zigzag
  S_ZigzagFilt M_ZigzagFilt P_SparseVec P_SparseVec2 P_ZF7.
Set Implicit Arguments.
Unset Strict Implicit.
Unset Printing Implicit Defensive.
Import GRing.Theory Order.Theory.

Section T.
Variable F : fieldType.
Variable disp : unit.
Variable A : orderType disp.
Variables a0 vmax : A.
Notation ltv := (fun x y : A => (x < y)%O).
Variable C : seq (cmat F).
Variable val : seq (seq (seq (A * A))).
Variable srt : forall B : Type, (B -> B -> bool) -> seq B -> seq B.

(** barcode of a ZigzagFiltration on any complex *)
Theorem zigzag_filtration_barcode maxdim : sorts srt -> chain_wf C -> (1 < size C)%N -> no_bd0 C -> filtration_ok a0 C val ->
  (size C <= (dims_asked C maxdim).+1)%N ->
  exists bars evs, zz_barcode (ops_of F) ltv a0 vmax srt C val maxdim = Ok bars /\
    zigzag_bars a0 C val vmax (dims_asked C maxdim) evs bars.
Proof. by move=> SR CW C1 nb FO; apply: gen_barcode. Qed.
(** barcode of a ZigzagFiltration on a SimplicialComplex *)
Theorem zigzag_filtration_barcode_spx spx maxdim : sorts srt -> chain_wf C -> (1 < size C)%N -> no_bd0 C -> filtration_ok a0 C val ->
  simplices_ok C spx -> (size C <= (dims_asked C maxdim).+1)%N ->
  exists bars evs, zz_barcode_spx (ops_of F) ltv a0 vmax srt spx C val maxdim = Ok bars /\
    zigzag_bars a0 C val vmax (dims_asked C maxdim) evs bars.
Proof. by move=> SR CW C1 nb FO SO; apply: spx_barcode. Qed.
End T.

(** a sorting function *)
Definition msort (B : Type) (lt : B -> B -> bool) (l : seq B) : seq B := sort (fun x y => ~~ lt y x) l.
Theorem msort_sorts : sorts msort.
Proof.
move=> B lt [|d l'] SW; first by split=> //; exists [::].
set l := d :: l' in SW *; pose p := sort (fun i j => ~~ lt (nth d l j) (nth d l i)) (iota 0 (size l)).
have e : msort lt l = [seq nth d l i | i <- p].
  by rewrite /msort -{1}(mkseq_nth d l) /mkseq sort_map.
have inl i : i < size l -> List.In (nth d l i) l.
  by elim: (l) i => //= x s IH [|i] li; [left|right; apply: IH].
have a : all [pred i | i < size l] (iota 0 (size l)) by apply/allP => i; rewrite mem_iota.
have pp : perm_eq p (iota 0 (size l)) by rewrite perm_sort.
split; last first.
  exists p => // x0; rewrite e; apply/eq_in_map => i; rewrite (perm_mem pp) mem_iota => li; exact: set_nth_default.
rewrite e pairwise_map.
have tr : {in [pred i | i < size l] & &, transitive (fun i j => ~~ lt (nth d l j) (nth d l i))}.
  move=> i j k; rewrite !inE => li lj lk h1 h2; have [_ _ h] := SW _ _ _ (inl _ lk) (inl _ li) (inl _ lj); exact: h.
have to : {in [pred i | i < size l] &, total (fun i j => ~~ lt (nth d l j) (nth d l i))}.
  move=> i j; rewrite !inE => li lj; have [n h _] := SW _ _ _ (inl _ li) (inl _ lj) (inl _ li).
  case: (boolP (lt (nth d l j) (nth d l i))) => // h1; apply/negP => h2; by case/negP: n; apply: h.
have := sort_sorted_in to a; rewrite (sorted_pairwise_in tr) //.
by rewrite (perm_all _ pp).
Qed.

(** three vertices and two edges *)
Definition pth (F : fieldType) : seq (cmat F) := [:: CMat 1 3 [:: [::]; [::]; [::]];
  CMat 3 2 [:: [:: (0%N, -1); (1%N, 1)]; [:: (1%N, -1); (2%N, 1)]]]%R.
Lemma pth_wf (F : fieldType) : chain_wf (pth F).
Proof.
have n1 : ((-1 : F) != 0)%R by rewrite oppr_eq0 oner_neq0.
have n2 := oner_neq0 F; split=> //.
  by rewrite /= /cm_wf /= /sv_wf /sv_sorted /sv_below /sv_nonzero /= !n1 !n2.
case=> [|k] //= _; split=> //; apply/matrixP => i j; rewrite !mxE !big_ord_recl big_ord0 !mxE.
by rewrite /= !coef_nil !mul0r !addr0; case: i j => [[|i] li] // [[|[|j]] lj].
Qed.
Lemma pth_bd0 (F : fieldType) : no_bd0 (pth F).
Proof. by move=> i [|[|[|j]]] //= _; rewrite /entry /= coef_nil. Qed.
Definition pth_spx : seq (seq (seq nat)) := [:: [:: [:: 0]; [:: 1]; [:: 2]]; [:: [:: 0; 1]; [:: 1; 2]]].
(** vertex 2 and both edges come back *)
Definition pth_val : seq (seq (seq (nat * nat))) :=
  [:: [:: [:: (0, 9)]; [:: (0, 9)]; [:: (0, 2); (4, 8)]]; [:: [:: (1, 3); (5, 7)]; [:: (1, 1); (5, 6)]]].
Notation ltn' := (fun x y : nat => (x < y)%O).
Lemma pth_ok : filtration_ok 0 (pth F2) pth_val.
Proof.
split=> //.
- by case=> [|[|k]].
- by case=> [|[|k]] // [|[|[|i]]] // _ _; split=> //; case=> [|[|m]].
case=> [|k] // i [|[|j]] // _ _; rewrite /entry /= /coef /= !big_cons !big_nil;
  case: i => [|[|[|i]]] /=; rewrite ?addr0 ?eqxx // => _ [|[|m]] // _; first [by exists 0%N|by exists 1%N].
Qed.
Lemma pth_spx_ok : simplices_ok (pth F2) pth_spx.
Proof.
split.
- by case=> [|[|k]].
- by case=> [|[|[|k]]].
- by case=> [|[|k]] // [|[|[|i]]].
case=> [|k] // i [|[|j]] // _ _; rewrite /entry /= /coef /= !big_cons !big_nil;
  case: i => [|[|[|i]]] /=; rewrite ?addr0 ?eqxx //.
Qed.
(** the hypotheses hold, and what the program returns: the components of vertices 1 and 2 die when the edges enter; the edges
    leave, vertex 2 leaves; it comes back as cell 3, the edges as cells 2 and 3 *)
Theorem zigzag_filtration_example :
  [/\ sorts msort, chain_wf (pth F2), no_bd0 (pth F2), filtration_ok 0 (pth F2) pth_val & simplices_ok (pth F2) pth_spx] /\
  exists bars, [/\ zz_barcode (ops_of F2) ltn' 0 99 msort (pth F2) pth_val None = Ok bars,
    zz_barcode_spx (ops_of F2) ltn' 0 99 msort pth_spx (pth F2) pth_val None = Ok bars &
    [seq [seq (zp_birth_ind b, zp_birth b, zp_death_ind b, zp_death b) | b <- bk] | bk <- bars] =
    [:: [:: (0, 0, Some 0, 9); (1, 0, Some 0, 1); (2, 0, Some 1, 1); (1, 1, Some 2, 2); (0, 3, Some 2, 5); (3, 4, Some 3, 5);
            (3, 6, Some 3, 8); (2, 7, Some 1, 9)]]].
Proof.
split; first by split; [exact: msort_sorts|exact: pth_wf|exact: pth_bd0|exact: pth_ok|exact: pth_spx_ok].
by eexists; split; vm_compute.
Qed.

(** The demands are needed.  An edge whose first interval lies in the second interval of a vertex refers to the first copy of
    the vertex, which is gone: the program reads outside of its arrays.  The same happens when the edge enters at the moment at
    which the second copy of the vertex is removed. *)
Definition seg (F : fieldType) : seq (cmat F) := [:: CMat 1 2 [:: [::]; [::]]; CMat 2 1 [:: [:: (0%N, -1); (1%N, 1)]]]%R.
Definition seg_val1 : seq (seq (seq (nat * nat))) := [:: [:: [:: (0, 1); (2, 5)]; [:: (0, 5)]]; [:: [:: (3, 4)]]].
Definition seg_val2 : seq (seq (seq (nat * nat))) := [:: [:: [:: (0, 1); (2, 4)]; [:: (0, 5)]]; [:: [:: (0, 1); (4, 4)]]].
Lemma seg_wf (F : fieldType) : chain_wf (seg F).
Proof.
have n1 : ((-1 : F) != 0)%R by rewrite oppr_eq0 oner_neq0.
have n2 := oner_neq0 F; split=> //.
  by rewrite /= /cm_wf /= /sv_wf /sv_sorted /sv_below /sv_nonzero /= !n1 !n2.
case=> [|k] //= _; split=> //; apply/matrixP => i j; rewrite !mxE !big_ord_recl big_ord0 !mxE.
by rewrite /= !coef_nil !mul0r !addr0; case: i j => [[|i] li] // [[|j] lj].
Qed.
Lemma seg_bd0 (F : fieldType) : no_bd0 (seg F).
Proof. by move=> i [|[|j]] //= _; rewrite /entry /= coef_nil. Qed.
Theorem zigzag_filtration_later_face_refuted :
  [/\ chain_wf (seg F2), no_bd0 (seg F2), filtration_valid 0 (seg F2) seg_val1 &
      zz_barcode (ops_of F2) ltn' 0 99 msort (seg F2) seg_val1 None = UB].
Proof.
split; [exact: seg_wf|exact: seg_bd0| |by vm_compute].
split=> //.
- by case=> [|[|k]].
- by case=> [|[|k]] // [|[|i]] // _ _; split=> //; case=> [|[|m]].
case=> [|k] // i [|j] // _ _; rewrite /entry /= /coef /= !big_cons !big_nil;
  case: i => [|[|i]] /=; rewrite ?addr0 ?eqxx // => _ [|[|m]] // _; first [by exists 0%N|by exists 1%N].
Qed.
Theorem zigzag_filtration_touching_refuted :
  [/\ chain_wf (seg F2), no_bd0 (seg F2), filtration_valid 0 (seg F2) seg_val2 &
      zz_barcode (ops_of F2) ltn' 0 99 msort (seg F2) seg_val2 None = UB].
Proof.
split; [exact: seg_wf|exact: seg_bd0| |by vm_compute].
split=> //.
- by case=> [|[|k]].
- by case=> [|[|k]] // [|[|i]] // _ _; split=> //; case=> [|[|m]].
case=> [|k] // i [|j] // _ _; rewrite /entry /= /coef /= !big_cons !big_nil;
  case: i => [|[|i]] /=; rewrite ?addr0 ?eqxx // => _ [|[|m]] // _; first [by exists 0%N|by exists 1%N].
Qed.
(** a complex of vertices only, and a cell without interval *)
Theorem zigzag_filtration_degenerate_refuted :
  zz_barcode (ops_of F2) ltn' 0 99 msort [:: CMat 1 1 [:: [::]]] [:: [:: [:: (0, 1)]]] (Some 0) = UB /\
  zz_barcode (ops_of F2) ltn' 0 99 msort (seg F2) [:: [:: [:: (0, 1)]; [::]]; [:: [:: (0, 1)]]] None = UB.
Proof. by split; vm_compute. Qed.
