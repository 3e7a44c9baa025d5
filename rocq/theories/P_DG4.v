(** DG vector spaces, part 4: what ReducedDGVectorSpace stores. *)
From mathcomp Require Import all_ssreflect all_algebra zify.
From Verif Require Import Outcome P_Outcome M_SparseVec M_Perm M_ColMatrix M_Reduce M_Homology M_Persist
  M_Induced M_DG S_Linalg S_Perm S_Homology P_SparseVec P_Pairing P_Reduce P_Perm P_PermMx P_ColMatrix P_Homology P_Betti
  P_Update P_Chain P_DG1 P_DG2 P_DG3.
Set Implicit Arguments.
Unset Strict Implicit.
Unset Printing Implicit Defensive.
Import GRing.Theory.
Local Open Scope ring_scope.

Section A.
Variable F : fieldType.
Notation O := (ops_of F).
Notation cmat := (cmat F).
Notation m0 := (CMat 0 0 [::] : cmat).
Notation p2c_t := (seq (option nat)).

(** the differentials in the order in which they compose to a chain complex *)
Definition hord (deg : int) (D : seq cmat) : seq cmat := if deg == -1 then D else rev D.

Lemma ebi (C R : seq cmat) (p : seq p2c_t) k : chain_wf C -> (k.+1 < size C)%N ->
  grec (bmx C k) (bmx R k) (nth [::] p k) -> grec (bmx C k.+1) (bmx R k.+1) (nth [::] p k.+1) ->
  extract_basis_indices (bmx R k) (nth [::] p k.+1) = Ok (hinds C k).
Proof.
move=> [_ _ BB] k1 [n1 c1 [s1 _ _ He]] [_ _ [_ _ Hp _]]; have [En _] := BB k k1.
rewrite extract_basis_indicesE ?s1 //; last by case: Hp => -> _; rewrite En c1.
congr Ok; rewrite c1 /hinds; apply: eq_in_filter => j; rewrite mem_iota add0n => /andP[_ jn].
by rewrite He // (pivots_exact_prow Hp) // En.
Qed.

(** stored data of a reduced complex with differentials D *)
Definition dgood (D : seq cmat) (X : rdg F) : Prop :=
  [/\ size (rd_R X) = size D, size (rd_p2c X) = size D,
    (forall k, (k < size D)%N -> grec (bmx D k) (bmx (rd_R X) k) (nth [::] (rd_p2c X) k)) &
    (forall k i j, (k < size D)%N -> (i < nrow (bmx D k))%N -> (j < ncol (bmx D k))%N ->
       (last_ind (nth [::] (cols (bmx (rd_R X) k)) j) = Some i) <-> is_pivot (mx (bmx D k)) i j)].

Definition dg_inds m (deg : int) (D : seq cmat) : seq (seq nat) :=
  if deg == -1 then rcons [seq hinds D k | k <- iota 0 m.+1]
                          [seq j <- iota 0 (ncol (bmx D m)) | ~~ pcol (mx (bmx D m)) j]
  else [::] :: [seq hinds (rev D) (m - k) | k <- iota 0 m.+1].

Lemma rd_indicesE m deg (D R : seq cmat) p : deg = -1 \/ deg = 1 -> size D = m.+2 ->
  chain_wf (hord deg D) -> size R = size D -> size p = size D ->
  (forall k, (k < size D)%N -> grec (bmx D k) (bmx R k) (nth [::] p k)) ->
  rd_indices deg R p = Ok (dg_inds m deg D).
Proof.
move=> Hd sD CW sR sp G; rewrite /rd_indices /dg_inds sR sD; case: Hd CW => -> CW.
  rewrite eqxx (omapm_Ok_eq (l := iota 0 m.+1) (g := hinds D)); last first.
    move=> k; rewrite mem_iota add0n => /andP[_ km].
    have k1 : (k.+1 < size D)%N by rewrite sD.
    have k0 := ltnW k1.
    by rewrite (oget_nth m0) ?sR //= (oget_nth [::]) ?sp //= bmxE (ebi CW k1) //; apply: G.
  cbn [obind]; have mD : (m < size D)%N by rewrite sD.
  rewrite (oget_nth m0) ?sR //; cbn [obind]; rewrite bmxE; have [_ c1 [s1 _ _ He]] := G m mD.
  rewrite extract_basis_indices_topE ?s1 //; cbn [obind]; rewrite c1; congr (Ok (rcons _ _)).
  apply: eq_in_filter => j; rewrite mem_iota add0n => /andP[_ jn]; by rewrite He.
have -> : (1 == -1 :> int) = false by [].
rewrite eqxx (omapm_Ok_eq (l := iota 0 m.+1) (g := fun k => hinds (rev D) (m - k))) //.
move=> k; rewrite mem_iota add0n => /andP[_ km].
have k1 : (k.+1 < size D)%N by rewrite sD.
have k0 := ltnW k1.
rewrite (oget_nth m0) ?sR //= (oget_nth [::]) ?sp //= bmxE.
have e1 : ((m - k).+1 < size D)%N by rewrite sD; clear; lia.
have e2 : (size D - (m - k).+1)%N = k.+1 by rewrite sD; move: km; clear; lia.
have e3 : (size D - (m - k).+2)%N = k by rewrite sD; move: km; clear; lia.
have := @ebi (rev D) (rev R) (rev p) (m - k); rewrite !bmx_rev ?sR //; try exact: ltnW.
rewrite !nth_rev ?sp //; try exact: ltnW.
rewrite e2 e3 size_rev => -> //; first [exact: G | exact: ltnW].
Qed.

Lemma rdg_of_spec m opt deg (D : seq cmat) : deg = -1 \/ deg = 1 -> size D = m.+2 ->
  chain_wf (hord deg D) ->
  exists X, [/\ rdg_of O opt (DG deg D) = Ok X, rd_degree X = deg, rd_I X = dg_inds m deg D & dgood D X].
Proof.
move=> Hd sD CW; rewrite /rdg_of /=.
have [U [R [p [E [sR sp] G L]]]] := dg_reduce_spec opt CW.
have -> : (if deg == -1 then D else rev D) = hord deg D by [].
rewrite E /=.
pose R' := if deg == -1 then R else rev R; pose p' := if deg == -1 then p else rev p.
have sh : size (hord deg D) = size D by rewrite /hord; case: ifP; rewrite ?size_rev.
have sR' : size R' = size D by rewrite /R' -sh; case: ifP; rewrite ?size_rev sR.
have sp' : size p' = size D by rewrite /p' -sh; case: ifP; rewrite ?size_rev sp.
have ix k : (k < size D)%N -> exists2 l, (l < size (hord deg D))%N & [/\ bmx D k = bmx (hord deg D) l,
    bmx R' k = bmx R l & nth [::] p' k = nth [::] p l].
  move=> kD; rewrite /R' /p' /hord; move: (sh) sR sp; rewrite /hord; case: ifP => _ e1 e2 e3.
    by exists k; rewrite ?e1.
  exists (size D - k.+1)%N; first by rewrite e1; move: kD; clear; lia.
  rewrite !bmx_rev ?nth_rev ?e2 ?e3 ?e1 //; last by move: kD; clear; lia.
  by have -> : (size D - (size D - k.+1).+1)%N = k by move: kD; clear; lia.
have G' k : (k < size D)%N -> grec (bmx D k) (bmx R' k) (nth [::] p' k).
  by move=> /ix[l lt [-> -> ->]]; apply: G.
rewrite -/R' -/p' (rd_indicesE Hd sD CW sR' sp' G') /=.
eexists; split; [by [] | by [] | by [] |].
split=> //= k i j /ix[l lt [-> -> _]]; exact: L.
Qed.
End A.
