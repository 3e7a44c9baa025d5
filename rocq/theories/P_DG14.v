(** DG vector spaces, part 14: induced maps in degree -1. *)
From mathcomp Require Import all_ssreflect all_algebra zify.
From Verif Require Import Outcome P_Outcome M_SparseVec M_Perm M_ColMatrix M_Reduce M_Homology M_Persist
  M_Induced M_DG S_Linalg S_Perm S_Homology S_Persist S_Induced S_DG P_SparseVec P_Pairing P_Reduce P_Perm P_PermMx P_ColMatrix P_Homology P_Betti
  P_Update P_Extra P_Chain P_Sort P_Persist P_Pairs P_UpdFilt P_DG1 P_DG2 P_DG3 P_DG4 P_DG5 P_DG6 P_DG7 P_DG8 P_DG9 P_DG10 P_DG11
  P_DG13 P_Induced Props_Induced.
Set Implicit Arguments.
Unset Strict Implicit.
Unset Printing Implicit Defensive.
Import GRing.Theory Order.TTheory.
Local Open Scope ring_scope.

Section A.
Variable F : fieldType.
Notation O := (ops_of F).
Notation cmat := (cmat F).
Notation m0 := (CMat 0 0 [::] : cmat).
Notation Z C := (cm_zero F (ncol (bmx C (size C).-1)) 0).
Notation ext aug C := (rcons (augment aug C) (Z C)).

(** the stored data in the layout of a ReducedChainComplex *)
Definition rd_view (X : rdg F) : rcc F := RCC (rd_U X) (rd_R X) (rd_I X) (rd_p2c X).

Lemma hom_view m opt (aug : bool) (C : seq cmat) X' : dg_has_basis opt -> chain_wf C -> size C = m.+1 ->
  (aug -> edges_cancel C) -> rcc_of O (opt_of opt) (ext aug C) = Ok X' ->
  exists X, [/\ (do D <- dg_of O C (-1) aug; rdg_of O opt D) = Ok X, rd_degree X = -1,
    [/\ rd_U X = rc_U X', rd_R X = rc_R X' & rd_p2c X = rc_p2c X'],
    forall k, (k <= m)%N -> nth [::] (rd_I X) k = nth [::] (rc_I X') k &
    [/\ size (rd_U X) = m.+2, size (rd_R X) = m.+2, size (rd_I X) = m.+2, size (rc_I X') = m.+2 & forall k, (k <= m.+1)%N ->
      [/\ ncol (bmx (rd_R X) k) = ncol (bmx (ext aug C) k), nrow (bmx (rd_U X) k) = ncol (bmx (ext aug C) k) &
          ncol (bmx (rd_U X) k) = ncol (bmx (ext aug C) k)]]].
Proof.
move=> hb CW sC EC EX.
have [D0 E0 [sD [DW _]]] := dg_of_chain (or_introl erefl) CW sC EC.
have C0 : (0 < size C)%N by rewrite sC.
move: (E0); rewrite dg_of_hom // => -[eD]; rewrite -eD in sD DW.
have DW' : chain_wf (ext aug C) by [].
have [X [EXX dX IX GX]] := rdg_of_spec opt (or_introl erefl) sD DW.
have [sR sU sp G] := rdg_of_dgu (or_introl erefl) sD DW hb EXX.
have [X'' [E'' IX' _ _]] := rcc_of_spec (opt_of opt) DW'.
move: E''; rewrite EX => -[e]; subst X''.
exists X; split=> //.
- move: EXX; rewrite /rdg_of /= (rcc_dg_reduce EX); cbn [obind].
  by case: (rd_indices _ _ _) => //= Ix [<-].
- move=> k km; rewrite IX IX' /dg_inds (_ : (-1 == -1 :> int) = true) //.
  rewrite nth_rcons size_map size_iota ltnS km !(nth_map 0%N) ?size_iota ?sD ?ltnS ?leqW // !nth_iota ?sD ?ltnS //.
  exact: leqW.
- rewrite sU sR sD IX /dg_inds (_ : (-1 == -1 :> int) = true) // size_rcons size_map size_iota IX' size_map size_iota sD; split=> // k km.
  by have [|[nR cR _] [nU cU _ _ _]] := G k; first by rewrite sD.
Qed.

Lemma rd_induced_hom m (X Y : rdg F) X' Y' (Fk : cmat) k n n' : rd_degree X = -1 -> rd_degree Y = -1 -> (k <= m)%N ->
  rd_U X = rc_U X' -> [/\ rd_U Y = rc_U Y', rd_R Y = rc_R Y' & rd_p2c Y = rc_p2c Y'] ->
  nth [::] (rd_I X) k = nth [::] (rc_I X') k -> nth [::] (rd_I Y) k = nth [::] (rc_I Y') k ->
  size (rd_U X) = m.+2 -> size (rd_U Y) = m.+2 -> size (rd_R X) = m.+2 -> size (rd_R Y) = m.+2 ->
  size (rd_I X) = m.+2 -> size (rd_I Y) = m.+2 -> size (rc_I X') = m.+2 -> size (rc_I Y') = m.+2 ->
  ncol (bmx (rd_R X) k) = n -> nrow (bmx (rd_U X) k) = n ->
  ncol (bmx (rd_R Y) k) = n' -> ncol (bmx (rd_U Y) k) = n' ->
  rd_induced_map O Fk X Y k = induced_map O Fk X' Y' k.
Proof.
move=> dX dY km eU [eUY eRY epY] eI eIY sU sUY sR sRY sI sIY sI' sIY' h1 h2 h3 h4.
have k2 : (k < m.+2)%N by apply: leqW.
have eT : (-1 == -1 :> int) = true by [].
rewrite /rd_induced_map /induced_map dX dY eqxx /dg_ix eT.
rewrite !(oget_nth m0) -?eU -?eUY ?sU ?sR ?sUY ?sRY //; cbn [obind negb]; rewrite !bmxE h1 h2 h3 h4.
case: ifP => // _; rewrite !(oget_nth [::]) ?sI ?sIY ?sI' ?sIY' //; cbn [obind]; rewrite eI eIY.
have EM (f g : nat -> outcome (svec F)) (h : seq (svec F) -> outcome cmat) l : f =1 g ->
    (do x <- omapm f l; h x) = (do x <- omapm g l; h x).
  by move=> fg; have -> : omapm f l = omapm g l by elim: l => //= a l ->; rewrite fg.
apply: EM => i; cbn [obind]; case: (oget _ i) => //= c.
case: (gemv _ _ _) => //= x; case: (u_solve _ _ _) => //= y.
by rewrite /rd_find_preferred /find_preferred dY /dg_ix eT eUY eRY epY.
Qed.
End A.
