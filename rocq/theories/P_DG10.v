(** DG vector spaces, part 10: update_filtration of the reduced complex against a fresh construction. *)
From mathcomp Require Import all_ssreflect all_algebra zify.
From Verif Require Import Outcome P_Outcome M_SparseVec M_Perm M_ColMatrix M_Reduce M_Homology M_Persist
  M_Induced M_DG S_Linalg S_Perm S_Homology S_Persist S_DG P_SparseVec P_Pairing P_Reduce P_Perm P_PermMx P_ColMatrix P_Homology P_Betti
  P_Update P_Chain P_Sort P_Persist P_Pairs P_UpdFilt P_DG1 P_DG2 P_DG3 P_DG4 P_DG5 P_DG6 P_DG7 P_DG8 P_DG9.
Set Implicit Arguments.
Unset Strict Implicit.
Unset Printing Implicit Defensive.
Import GRing.Theory Order.TTheory.
Local Open Scope ring_scope.

Section A.
Variable F : fieldType.
Notation O := (ops_of F).
Notation cmat := (cmat F).
Notation m0 := (CMat 0 0 [::] : cmat).
Notation p2c_t := (seq (option nat)).

Lemma rd_permute_spec m deg (D D' : seq cmat) qs X : deg = -1 \/ deg = 1 -> size D = m.+2 ->
  chain_wf (hord deg D') -> dgp m deg D qs -> dgr m deg D D' qs -> rd_degree X = deg -> dgu D X ->
  exists Y, [/\ rd_permute O qs X = Ok Y, rd_degree Y = deg, rd_I Y = dg_inds m deg D' & dgu D' Y].
Proof.
move=> Hd sD CW DP [sD' DR] dX [sR sU sp G]; rewrite /rd_permute dX.
have [sq Pq L H HZ] := DP; rewrite sq.
rewrite sD in sR sU sp G.
have [|U1 [R1 [EQ sU1 sR1 I1 I2]]] := rd_permute_loop Hd sD DP sR sU.
  by move=> k /G[[nR cR _] [nU cU WU WR _]].
rewrite EQ; cbn [obind].
have eT : (-1 == -1 :> int) = true by [].
have eF : (1 == -1 :> int) = false by [].
have ixle k : (k <= m)%N -> (dg_ix deg k < m.+2)%N.
  by move=> km; rewrite /dg_ix; case: ifP => _; move: km; clear; lia.
have pre l : (l < m.+2)%N -> exists U2 R2 p2, update_reduction2 O (bmx U1 l) (bmx R1 l) = Ok (U2, R2, p2) /\
    urec (bmx D' l) R2 U2 p2.
  move=> lm; have UR := G l lm; have [[nR cR _] [nU cU WU WR _]] := UR.
  have := DR l; case lr: (0 < l <= m)%N => RD.
    have [a b] := I1 l lr; have [r1 r2] := dgp_r DP lr; have [c1 c2] := dgp_c DP lr.
    exact: upd_rec UR r2 (esym r1) c2 (esym c1) RD a b.
  have WD : cm_wf (bmx D l).
    rewrite -RD; move: CW; rewrite /hord; case: ifP => _ CW; first exact: chain_wf_nth.
    have := chain_wf_nth (size D' - l.+1) CW; rewrite bmx_rev ?sD' //; last by move: lm; clear; lia.
    by have -> : (m.+2 - (m.+2 - l.+1).+1)%N = l by move: lm; clear; lia.
  have RF := reord_refl WD; rewrite -{2}RD in RF.
  have [|ER [EU|[mz d1 l1 RU]]] := I2 l lm; first by rewrite lr.
    apply: upd_rec UR _ _ _ _ RF _ _; rewrite ?size_iota ?is_perm_iota // ?ER ?EU.
      by rewrite -nR -cR; apply: reord_refl.
    by rewrite -{1}nU -cU; apply: reord_refl.
  apply: upd_rec UR (is_perm_iota (nrow (bmx D l))) (size_iota 0 _) (Pq 0%N (leq0n _)) _ _ _ RU.
  - have := H 0%N; rewrite mz d1 eF l1 => -> //.
  - rewrite RD; split=> // i j; have := HZ mz; rewrite d1 eF l1 => ->; by [].
  - by rewrite ER -nR -cR; apply: reord_refl.
have [||[[U2 R2] p2] E2 [s1 s2 s3 G2]] := ofold_iota_ind
  (P := fun k (st : seq cmat * seq cmat * seq p2c_t) =>
    let: (U, R, p) := st in
    [/\ size U = m.+2, size R = m.+2, size p = m.+2 &
      (forall l, (l < m.+2)%N -> if (dg_ix deg 0 <= l < dg_ix deg k)%N then
        urec (bmx D' l) (bmx R l) (bmx U l) (nth [::] p l) else
        [/\ bmx R l = bmx R1 l, bmx U l = bmx U1 l & nth [::] p l = nth [::] (rd_p2c X) l])])
  (n := m.+1) (a := (U1, R1, rd_p2c X)) (g := fun st k => rd_update1 O st (dg_ix deg k)).
- split=> // l lm; by have -> : (dg_ix deg 0 <= l < dg_ix deg 0)%N = false by clear; lia.
- move=> k [[U R] p] km [a1 a2 a3 a4]; have ix := ixle k km.
  rewrite /rd_update1 (oget_nth m0) ?a1 //; cbn [obind]; rewrite (oget_nth m0) ?a2 //; cbn [obind]; rewrite !bmxE.
  have := a4 _ ix; rewrite ltnn andbF => -[-> -> _].
  have [U' [R' [p' [-> UR]]]] := pre _ ix.
  cbn [obind]; rewrite (oset_Ok m0) ?a1 //; cbn [obind]; rewrite (oset_Ok m0) ?a2 //; cbn [obind].
  rewrite (oset_Ok [::]) ?a3 //; cbn [obind].
  eexists; first by []; split; rewrite ?size_set_nth ?a1 ?a2 ?a3; try exact/maxn_idPr.
  move=> l lm; rewrite /bmx !nth_setE -!/(bmx _ _).
  have ik : (dg_ix deg k.+1) = (dg_ix deg k).+1 by rewrite /dg_ix; case: ifP.
  have i0 : (dg_ix deg 0 <= dg_ix deg k)%N by rewrite /dg_ix; case: ifP; clear; lia.
  rewrite ik; case: (eqVneq l (dg_ix deg k)) => [->|ne]; first by rewrite i0 ltnSn.
  have -> : (dg_ix deg 0 <= l < (dg_ix deg k).+1)%N = (dg_ix deg 0 <= l < dg_ix deg k)%N by move: ne; clear; lia.
  exact: a4.
rewrite E2; cbn [obind].
have G3 l : (l < m.+2)%N -> urec (bmx D' l) (bmx R2 l) (bmx U2 l) (nth [::] p2 l).
  move=> lm; have := G2 l lm; case: ifP => // ir [-> -> ->].
  have nr : ~~ (0 < l <= m)%N by move: lm ir; rewrite /dg_ix; clear; case: ifP => _; lia.
  have [-> [->|[mz d1 l1 _]]] := I2 l lm nr.
    by have := DR l; rewrite (negbTE nr) => ->; apply: G.
  by exfalso; move: ir; rewrite d1 l1 mz.
rewrite (rd_indicesE Hd sD' CW) ?sD' //; last by move=> k /G3[].
cbn [obind]; eexists; split; [by [] | by [] | by [] |].
by split=> //=; rewrite sD' // => k; exact: G3.
Qed.

Lemma urec_last (B R U : cmat) p i j : urec B R U p -> (i < nrow B)%N -> (j < ncol B)%N ->
  last_ind (nth [::] (cols R) j) = Some i <-> is_pivot (mx B) i j.
Proof.
move=> [[nR cR [_ W _ _]] [_ _ _ _ [V [Vu Vd _ RV red]]]] im jn.
have LI := @last_ind_low F (nrow B) (ncol B) (cols R) (Ordinal im) (Ordinal jn) (nth_wf j W).
rewrite RV in red LI; have PL := pivot_low (Ordinal im) (Ordinal jn) Vu Vd red.
split=> [/LI /lowP | P]; first by rewrite -PL.
by apply/LI/lowP; rewrite -PL.
Qed.

Lemma dgu_dgood (D : seq cmat) X : dgu D X -> dgood D X.
Proof.
move=> [sR sU sp G]; split=> // [k /G[] // | k i j kD]; by apply: urec_last (G k kD).
Qed.

Lemma rdg_of_dgu m opt deg (D : seq cmat) X : deg = -1 \/ deg = 1 -> size D = m.+2 ->
  chain_wf (hord deg D) -> dg_has_basis opt -> rdg_of O opt (DG deg D) = Ok X -> dgu D X.
Proof.
move=> Hd sD CW hb; rewrite /rdg_of /=.
have [Y [E _ [s1 s2 s3] G]] : exists Y, [/\ rcc_of O (opt_of opt) (hord deg D) = Ok Y,
     rc_I Y = [seq hinds (hord deg D) k | k <- iota 0 (size (hord deg D))],
     [/\ size (rc_R Y) = size (hord deg D), size (rc_U Y) = size (hord deg D) & size (rc_p2c Y) = size (hord deg D)] &
     forall k, (k < size (hord deg D))%N ->
       urec (bmx (hord deg D) k) (bmx (rc_R Y) k) (bmx (rc_U Y) k) (nth [::] (rc_p2c Y) k)].
  by case: opt hb => // _; [apply: rcc_standard_spec | apply: rcc_clearingU_spec].
rewrite -/(hord deg D) (rcc_dg_reduce E); cbn [obind]; case: (rd_indices _ _ _) => //= Ix [<-].
have sh : size (hord deg D) = size D by rewrite /hord; case: ifP; rewrite ?size_rev.
split=> /=; try by case: ifP; rewrite ?size_rev ?s1 ?s2 ?s3 sh.
move=> k kD; move: s1 s2 s3 G; rewrite sh /hord; case: ifP => _ s1 s2 s3 G; first exact: G.
have lt : (size D - k.+1 < size D)%N by move: kD; clear; lia.
have := G _ lt; rewrite !bmx_rev ?nth_rev ?s1 ?s2 ?s3 //.
by have -> : (size D - (size D - k.+1).+1)%N = k by move: kD; clear; lia.
Qed.

(** ** composing reorderings *)
Lemma reord_uperm (A B B' : cmat) a b a' b' : is_perm a -> is_perm a' -> is_perm b -> is_perm b' ->
  size a = nrow A -> size a' = nrow A -> size b = ncol A -> size b' = ncol A ->
  reord A B a b -> reord A B' a' b' -> reord B B' (uperm a a') (uperm b b').
Proof.
move=> Pa Pa' Pb Pb' sa sa' sb sb' [W n1 c1 H] [W' n2 c2 H'].
have key p q i : is_perm p -> is_perm q -> size p = size q -> (i < size q)%N ->
    (nth 0%N (uperm p q) i < size q)%N /\ nth 0%N p (nth 0%N (uperm p q) i) = nth 0%N q i.
  move=> P Q s iq; rewrite uperm_nth //.
  have lq : (nth 0%N q i < size p)%N by rewrite s is_perm_lt.
  split; last by rewrite nth_ipl_nth.
  by rewrite -s -[X in (_ < X)%N](size_ipl p) is_perm_lt ?size_ipl ?is_perm_ipl.
split=> //; rewrite ?n1 ?n2 ?c1 ?c2 // => i j im jn.
have [x1 x2] := key a a' i Pa Pa' (etrans sa (esym sa')) (eq_ind_r (fun x => (i < x)%N) im sa').
have [y1 y2] := key b b' j Pb Pb' (etrans sb (esym sb')) (eq_ind_r (fun x => (j < x)%N) jn sb').
rewrite sa' in x1; rewrite sb' in y1.
by rewrite H // x2 y2 H'.
Qed.
End A.
