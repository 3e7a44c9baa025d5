(** DG vector spaces, part 12: the persistence pairs of the two degrees and of the chain complex. *)
From mathcomp Require Import all_ssreflect all_algebra zify.
From Verif Require Import Outcome P_Outcome M_SparseVec M_Perm M_ColMatrix M_Reduce M_Homology M_Persist
  M_Induced M_DG S_Linalg S_Perm S_Homology S_Persist S_DG P_SparseVec P_Pairing P_Reduce P_Perm P_PermMx P_ColMatrix P_Homology P_Betti
  P_Update P_Extra P_Chain P_Sort P_Persist P_Pairs P_UpdFilt P_DG1 P_DG2 P_DG3 P_DG4 P_DG5 P_DG6 P_DG7 P_DG8 P_DG9 P_DG10 P_DG11 Props_Persist.
Set Implicit Arguments.
Unset Strict Implicit.
Unset Printing Implicit Defensive.
Import GRing.Theory Order.TTheory.
Local Open Scope ring_scope.

Section A.
Variable F : fieldType.
Notation O := (ops_of F).
Notation cmat := (cmat F).
Notation m0 := (CMat 0 0 [::] : cmat).
Notation Z C := (cm_zero F (ncol (bmx C (size C).-1)) 0).
Variables (disp : unit) (V : orderType disp) (v0 inf : V).
Notation ltv := (fun x y : V => (x < y)%O).
Notation fsp := (filtration_sortperm ltv v0).

Lemma opt_ext (x y : option nat) : (forall j, x = Some j <-> y = Some j) -> x = y.
Proof.
move=> H; case: x H => [j H|H]; first by have /H -> : Some j = Some j by [].
by case: y H => // j H; have /H : Some j = Some j by [].
Qed.

Lemma pcol0 m n j : pcol (0 : 'M[F]_(m, n)) j = false.
Proof.
apply/negbTE/negP => /existsP[i]; have z a b : rll (0 : 'M[F]_(m, n)) a b = 0%N.
  rewrite /rll (_ : lowerleft _ _ _ = 0) ?mxrank0 //.
  by apply/matrixP => x y; rewrite !mxE; case: ifP.
by rewrite /is_pivot !z.
Qed.

Lemma mx0_const (C : seq cmat) : chain_wf C -> mx (bmx C 0) = 0 ->
  forall i j, (j < ncol (bmx C 0))%N -> coef (nth [::] (cols (bmx C 0)) j) i = 0.
Proof.
move=> CW Z0 i j jn; case: (ltnP i (nrow (bmx C 0))) => im.
  by move/matrixP/(_ (Ordinal im) (Ordinal jn)): Z0; rewrite !mxE.
have /andP[_ A] := chain_wf_nth 0 CW.
by have /and3P[_ B _] := nth_wf j A; apply: (coef_ge B).
Qed.

Lemma dg_pairs_canon m (aug : bool) (C : seq cmat) val : chain_wf C -> size C = m.+1 ->
  (aug -> edges_cancel C) -> vals_ok C val ->
  exists L : nat -> seq (ppair V),
  [/\ forall deg D0 X k, deg = -1 \/ deg = 1 -> dg_of O C deg aug = Ok (DG deg D0) -> dginv v0 m deg D0 false val X ->
       (k <= m)%N -> rfd_pairs inf X k = Ok (if deg == -1 then L k else rev (L k)),
      forall k s t, (k <= m)%N -> (t < inf)%O ->
       count (fun p => (pp_birth p <= s)%O && (t < pp_death p)%O) (L k) =
       pbetti (augment aug C) k (fun i => (cval v0 val k i <= s)%O) (fun j => (cval v0 val k.+1 j <= t)%O) &
      aug = false -> (0 < m)%N -> mx (bmx C 0) = 0 ->
       forall opt k, (k <= m)%N -> exists2 X, build v0 opt val C = Ok X & persistence_pairs inf X k false = Ok (L k)].
Proof.
move=> CW sC EC VO; have AW := augment_chain CW EC; have PO := fsp_ok v0 VO.
have sA : size (augment aug C) = m.+1 by rewrite size_augment.
have cA k : ncol (bmx (augment aug C) k) = ncol (bmx C k) by apply: augment_ncol.
have VA : vals_ok (augment aug C) val by have [a b] := VO; split; rewrite ?size_augment // => k kC; rewrite cA b.
have [E [EH RO EW EWZ]] := hom_perm CW EC PO.
have nc k := reordered_ncol k RO; have [sE RE] := RO; rewrite sA in sE.
have POE : perms_ok E (fsp val) := perms_ok_reordered RO (fsp_ok v0 VA).
have VOE : vals_ok E val by have [a b] := VA; split; rewrite ?sE -?sA // => k kC; rewrite nc b.
have eZ : Z C = cm_zero F (ncol (bmx E m)) 0 by rewrite nc cA sC.
have sEZ : size (rcons E (Z C)) = m.+2 by rewrite size_rcons sE.
have [RCh [ERh dRh IRh GRh]] := rdg_of_spec DNoBasis (or_introl erefl) sEZ (EWZ : chain_wf (hord (-1) _)).
have GR' : dgood (rcons E (cm_zero F (ncol (bmx E m)) 0)) RCh by rewrite -eZ.
have HP := dgood_epiv sE EW GR'.
have RG := rcc_part_good sE GR'.
exists (pair_list v0 inf E val (fsp val) (rd_p2c RCh)); split.
- move=> deg D0 X k Hd ED IX km; have [D1 E1 [s1 [DP HM]]] := dg_make_spec Hd CW sC EC.
  move: E1; rewrite ED => -[E1]; subst D1.
  have [E' [D' [_ DR' _ [RO' EW'] H3]]] := HM _ PO.
  have eE : E' = E := reordered_inj EW' EW RO' RO; subst E'.
  have [D [RC [eX DR DW [dR _] GD]]] := IX; have eD := dgr_inj s1 DR DR'; subst D'; subst X.
  have eT : (-1 == -1 :> int) = true by [].
  have eF : (1 == -1 :> int) = false by [].
  case: Hd => dE; subst deg.
    rewrite dE eT in H3 *; rewrite H3 eZ in GD.
    have -> : dgq (-1) (fsp val) = fsp val by [].
    rewrite (hom_pairs v0 inf sE EW POE VOE GD dE km) /pair_list; congr Ok.
    apply/eq_in_map => i; rewrite mem_filter mem_iota add0n => /andP[_ /andP[_ il]].
    rewrite /mkpair; suff -> : epiv (rd_p2c RC) k i = epiv (rd_p2c RCh) k i by [].
    by apply: opt_ext => j; rewrite (dgood_epiv sE EW GD) // HP.
  rewrite dE eF in H3 *.
  have AT k' : (k' <= m.+1)%N -> atr (bmx (rcons E (cm_zero F (ncol (bmx E m)) 0)) k') (bmx D k') by rewrite -eZ; apply: H3.
  have [sD _] := DR.
  exact: (coh_pairs v0 inf sE EW POE VOE sD AT GD dE HP km).
- move=> k s t km tinf; have kA : (k < size (augment aug C))%N by rewrite sA.
  have kE : (k < size E)%N by rewrite sE.
  have [ps EP <-] := pairs_rank false s AW EW VA RO RG kA tinf.
  move: EP; rewrite (pairsE v0 inf false EW RG POE VOE kE) => -[<-]; rewrite /pair_list; congr count.
  apply/eq_in_map => i; rewrite mem_filter mem_iota add0n => /andP[_ /andP[_ il]].
  rewrite /mkpair; suff -> : epiv (rd_p2c RCh) k i = epiv (rc_p2c (rcc_part m RCh)) k i by [].
  apply: opt_ext => j; rewrite HP // (epivE _ EW RG kE il) /bmx1 bmx_rcons sE ltnS.
  case: (ltnP k m) => km1; first by have [_ _ DD] := EW; have [|e _] := DD k; rewrite ?sE // -e; case: (bmx E k.+1).
  have -> : k = m by move: km km1; clear; lia.
  have -> : bmx E m.+1 = m0 by rewrite /bmx nth_default ?sE.
  by rewrite eqxx.
- move=> ea m1 Z0 opt k km; subst aug.
  have C2 : (1 < size C)%N by rewrite sC.
  have AC : aug_const C by move=> i j j' jn jn'; rewrite !(mx0_const CW Z0).
  have [D [RC [EB RD DW GD _]]] := build_spec v0 opt CW C2 AC VO.
  eexists; first exact: EB.
  have [sD RDE] := RD; have ncD k' := reordered_ncol k' RD.
  have kD : (k < size D)%N by rewrite sD sC.
  have POD : perms_ok D (fsp val) := perms_ok_reordered RD PO.
  have VOD : vals_ok D val by have [a b] := VO; split; rewrite ?sD // => k' kC; rewrite ncD b.
  rewrite (pairsE v0 inf false DW GD POD VOD kD) /pair_list; congr Ok.
  have eb l : (0 < l)%N -> (l <= m)%N -> bmx D l = bmx E l.
    move=> l0 lm; have lC : (l < size C)%N by rewrite sC.
    have lA : (l < size (augment false C))%N by rewrite sA.
    have [a b c] := RDE l lC; have [a' b' c'] := RE l lA.
    case: l l0 lm lC lA a b c a' b' c' => // l _ lm lC lA a b c a' b' c'.
    rewrite augment_S in a' b' c'; apply: cm_ext_ent; try exact: chain_wf_nth; rewrite ?a ?a' ?b ?b' // => i j im jn.
    by rewrite /ent c // c'.
  have pD : pcol (mx (bmx D k)) =1 pcol (mx (bmx E k)).
    move=> j; case: k km kD => [|k] km kD; last by rewrite eb.
    have kA : (0 < size (augment false C))%N by rewrite sA.
    have kC : (0 < size C)%N by rewrite sC.
    have [a b c] := RDE 0%N kC; have [a' b' c'] := RE 0%N kA.
    have -> : mx (bmx D 0) = 0.
      apply/matrixP => x y; rewrite !mxE c ?(mx0_const CW Z0) //; last 2 first.
      + by rewrite -a ltn_ord.
      + by rewrite -b ltn_ord.
      have [P0 s0] := PO.2 0%N kC; by rewrite -s0 is_perm_lt // s0 -b ltn_ord.
    have -> : mx (bmx E 0) = 0.
      apply/matrixP => x y; exfalso; case: x => x; rewrite a'; case: (C) sC => //.
    by rewrite !pcol0.
  rewrite (eq_filter (a2 := fun i => ~~ pcol (mx (bmx E k)) i)); last by move=> i; rewrite pD.
  have eN : ncol (bmx D k) = ncol (bmx E k) by rewrite ncD -(cA k) -nc.
  rewrite eN.
  apply/eq_in_map => i; rewrite mem_filter mem_iota add0n => /andP[_ /andP[_ il]].
  rewrite /mkpair; suff -> : epiv (rc_p2c RC) k i = epiv (rd_p2c RCh) k i by [].
  have ilD : (i < ncol (bmx D k))%N by rewrite ncD -(cA k) -nc.
  apply: opt_ext => j; rewrite HP // (epivE _ DW GD kD ilD) /bmx1 bmx_rcons sE ltnS.
  case: (ltnP k m) => km1.
    have [_ _ DD] := DW; have [|e _] := DD k; first by rewrite sD sC.
    by rewrite -e eb //; case: (bmx E k.+1).
  have -> : k = m by move: km km1; clear; lia.
  have -> : bmx D m.+1 = m0 by rewrite /bmx nth_default ?sD ?sC.
  by rewrite eqxx.
Qed.
End A.
