(** Property C45: DG vector spaces.  DGVectorSpace of a complex in degree -1 (homology) and degree +1
    (cohomology), plain or augmented, ReducedDGVectorSpace and their filtered versions.
    Read with S_Linalg.v, S_Homology.v, S_Persist.v and S_DG.v. *)
From mathcomp Require Import all_ssreflect all_algebra zify.
From Verif Require Import Outcome P_Outcome M_SparseVec M_Perm M_ColMatrix M_Reduce M_Homology M_Persist
  M_Induced M_DG S_Linalg S_Perm S_Homology S_Persist S_DG P_SparseVec P_Pairing P_Reduce P_Perm P_PermMx P_ColMatrix P_Homology P_Betti
  P_Update P_Extra P_Chain P_Sort P_Persist P_Pairs P_UpdFilt P_DG1 P_DG2 P_DG3 P_DG4 P_DG5 P_DG6 P_DG7 P_DG8 P_DG9 P_DG10 P_DG11
  P_DG12 P_DG13 Ex_Reduction Props_Persist.
Set Implicit Arguments.
Unset Strict Implicit.
Unset Printing Implicit Defensive.
Import GRing.Theory Order.TTheory.
Local Open Scope ring_scope.

Section P.
Variables (F : fieldType) (disp : unit) (V : orderType disp) (v0 inf : V).
Notation ltv := (fun x y : V => (x < y)%O).
Notation O := (ops_of F).

(** C45. In both degrees and with every option, the number of pairs of dimension k born by s and not dead
    by t is the rank of H_k(K_s) -> H_k(K_t) (reduced homology when augmented). *)
Theorem C45_persistent_betti opt (deg : int) (aug : bool) val (C : seq (cmat F)) :
  deg = -1 \/ deg = 1 -> chain_wf C -> (aug -> edges_cancel C) -> vals_ok C val ->
  exists X, dg_build O ltv v0 opt deg aug val C = Ok X /\
  forall k s t, (k < size C)%N -> (t < inf)%O ->
    exists2 ps, rfd_pairs inf X k = Ok ps &
      count (fun p => (pp_birth p <= s)%O && (t < pp_death p)%O) ps =
      pbetti (augment aug C) k (fun i => (cval v0 val k i <= s)%O) (fun j => (cval v0 val k.+1 j <= t)%O).
Proof.
move=> Hd CW EC VO; have [s0 _ _] := CW; case sC: (size C) s0 => [//|m] _.
have [D0 [D [E [X [ED EB IX _ _]]]]] := dg_build_spec v0 opt Hd CW sC EC VO.
have [L [HL HC _]] := dg_pairs_canon v0 inf CW sC EC VO.
eexists; split; first exact: EB; move=> k s t km tinf.
exists (if deg == -1 then L k else rev (L k)); first exact: HL Hd ED (dginv_w IX) km.
by rewrite -HC //; case: ifP; rewrite ?count_rev.
Qed.

(** C45. Persistent homology and persistent cohomology report the same pairs, in opposite orders, whatever
    the options of the two computations. *)
Theorem C45_pairs_agree opt opt' (aug : bool) val (C : seq (cmat F)) :
  chain_wf C -> (aug -> edges_cancel C) -> vals_ok C val ->
  exists X Y, [/\ dg_build O ltv v0 opt (-1) aug val C = Ok X, dg_build O ltv v0 opt' 1 aug val C = Ok Y &
  forall k, (k < size C)%N ->
    exists2 ps, rfd_pairs inf X k = Ok ps & rfd_pairs inf Y k = Ok (rev ps)].
Proof.
move=> CW EC VO; have [s0 _ _] := CW; case sC: (size C) s0 => [//|m] _.
have [D0 [D [E [X [ED EB IX _ _]]]]] := dg_build_spec v0 opt (or_introl erefl) CW sC EC VO.
have [D0' [D' [E' [X' [ED' EB' IX' _ _]]]]] := dg_build_spec v0 opt' (or_intror erefl) CW sC EC VO.
have [L [HL _ _]] := dg_pairs_canon v0 inf CW sC EC VO.
do 2 eexists; split; [exact: EB | exact: EB' | move=> k km].
exists (L k); first by have := HL _ _ _ _ (or_introl erefl) ED (dginv_w IX) km.
by have := HL _ _ _ _ (or_intror erefl) ED' (dginv_w IX') km.
Qed.

(** C45. Without augmentation the pairs are those of the ReducedFilteredChainComplex. *)
Theorem C45_same_as_chain_complex opt opt' val (C : seq (cmat F)) :
  chain_wf C -> (1 < size C)%N -> mx (bmx C 0) = 0 -> vals_ok C val ->
  exists X Y, [/\ dg_build O ltv v0 opt (-1) false val C = Ok X, build v0 opt' val C = Ok Y &
  forall k, (k < size C)%N ->
    exists2 ps, rfd_pairs inf X k = Ok ps & persistence_pairs inf Y k false = Ok ps].
Proof.
move=> CW C2 Z0 VO; have [s0 _ _] := CW; case sC: (size C) s0 C2 => [//|m] _ C2.
have EC : false -> edges_cancel C by [].
have [D0 [D [E [X [ED EB IX _ _]]]]] := dg_build_spec v0 opt (or_introl erefl) CW sC EC VO.
have [L [HL _ HB]] := dg_pairs_canon v0 inf CW sC EC VO.
have [Y EY _] := HB erefl C2 Z0 opt' 0%N (leq0n _).
exists (RFDG X val (dgq (-1) (filtration_sortperm ltv v0 val))), Y; split=> // k km; exists (L k).
  by have := HL _ _ _ _ (or_introl erefl) ED (dginv_w IX) km.
by have [Y' EY' <-] := HB erefl C2 Z0 opt' k km; move: EY; rewrite EY' => -[->].
Qed.

(** C45. In both degrees and with every option, hdim(k) is
    dim C_k - rank d_k - rank d_(k+1), the k-th (reduced) Betti number. *)
Theorem C45_hdim opt (deg : int) (aug : bool) (C : seq (cmat F)) :
  deg = -1 \/ deg = 1 -> chain_wf C -> (aug -> edges_cancel C) ->
  exists X, (do D <- dg_of O C deg aug; rdg_of O opt D) = Ok X /\
  forall k, (k < size C)%N -> exists2 h, rd_hdim X k = Ok h &
    (h + brank (augment aug C) k + brank (augment aug C) k.+1 = ncol (bmx C k))%N.
Proof.
move=> Hd CW EC; have [s0 _ _] := CW; case sC: (size C) s0 => [//|m] _.
have [D0 E0 [sD [DW [RK NC]]]] := dg_of_chain Hd CW sC EC.
have [X EX [_ HX]] := rd_hdimE opt Hd sD DW.
exists X; rewrite E0; split=> // k km; have [h Eh H] := HX k km; exists h => //.
by rewrite -!RK //; [rewrite H; exact: NC | exact: leqW].
Qed.

(** C45. So does the filtered complex, for any filtration values. *)
Theorem C45_hdim_filtered opt (deg : int) (aug : bool) val (C : seq (cmat F)) :
  deg = -1 \/ deg = 1 -> chain_wf C -> (aug -> edges_cancel C) -> vals_ok C val ->
  exists X, dg_build O ltv v0 opt deg aug val C = Ok X /\
  forall k, (k < size C)%N -> exists2 h, rd_hdim (rfd_RC X) k = Ok h &
    (h + brank (augment aug C) k + brank (augment aug C) k.+1 = ncol (bmx C k))%N.
Proof.
move=> Hd CW EC VO; have [s0 _ _] := CW; case sC: (size C) s0 => [//|m] _.
have [D0 E0 [s0 [DP HM]]] := dg_make_spec Hd CW sC EC.
have [D1 E1 [sD1 [_ [RK NC]]]] := dg_of_chain Hd CW sC EC; move: E1; rewrite E0 => -[e]; subst D1.
have PO := fsp_ok v0 VO; have [E [D [EP DR DW _ _]]] := HM _ PO.
have PQ := DP _ (dgq_ok deg PO); have [sD _] := DR.
have [X EX [_ HX]] := rd_hdimE opt Hd sD DW.
exists (RFDG X val (dgq deg (filtration_sortperm ltv v0 val))); split.
  rewrite /dg_build E0; cbn [obind]; rewrite /fdg_make.
  have -> : dg_perms ltv v0 (dg_degree (DG deg D0)) val = dgq deg (filtration_sortperm ltv v0 val) by [].
  by rewrite EP; cbn [obind]; rewrite /rfdg_make EX.
move=> k km; have [h Eh H] := HX k km; exists h => //.
have [r1 _] := rank_reord k PQ DR; have [r2 _] := rank_reord k.+1 PQ DR; have [_ r3] := rank_reord (dg_ix deg k) PQ DR.
by rewrite -!RK //; [rewrite -r1 -r2 H r3; exact: NC | exact: leqW].
Qed.

(** C45. is_differential holds wherever both differentials exist; at the end of the complex (k = 0 in degree
    -1, the last differential in degree +1) the call reads outside the stored differentials. *)
Theorem C45_is_differential (deg : int) (aug : bool) (C : seq (cmat F)) :
  deg = -1 \/ deg = 1 -> chain_wf C -> (aug -> edges_cancel C) ->
  exists D, [/\ dg_of O C deg aug = Ok D,
    forall k, (k < size C)%N -> is_differential O D (if deg == -1 then k.+1 else k) = Ok true &
    is_differential O D (if deg == -1 then 0%N else size C) = UB].
Proof.
move=> Hd CW EC; have [s0 _ _] := CW; case sC: (size C) s0 => [//|m] _.
have [D0 E0 [sD [DW _]]] := dg_of_chain Hd CW sC EC.
exists (DG deg D0); split=> //.
- move=> k km; rewrite /is_differential /=.
  have eT : (-1 == -1 :> int) = true by [].
  have eF : (1 == -1 :> int) = false by [].
  have k1 : (k.+1 < size D0)%N by rewrite sD.
  case: Hd => dE; subst deg; rewrite /hord ?eT ?eF in DW *.
    rewrite (oget_nth (CMat 0 0 [::])) ?(ltnW k1) //; cbn [obind]; rewrite (oget_nth (CMat 0 0 [::])) //; cbn [obind].
    have [_ _ H] := DW; have [n z] := H k k1.
    by apply: is_diffE; rewrite // ?bmxE; apply: chain_wf_nth.
  rewrite (oget_nth (CMat 0 0 [::])) //; cbn [obind]; rewrite (oget_nth (CMat 0 0 [::])) ?(ltnW k1) //; cbn [obind].
  have [_ _ H] := DW; have l1 : ((m - k).+1 < size (rev D0))%N by rewrite size_rev sD; clear; lia.
  have [n z] := H _ l1; rewrite size_rev in l1.
  have w0 := chain_wf_nth (m - k) DW; have w1 := chain_wf_nth (m - k).+1 DW.
  have l0 := ltnW l1.
  have e1 : (size D0 - (m - k).+2)%N = k by rewrite sD; move: km; clear; lia.
  have e0 : (size D0 - (m - k).+1)%N = k.+1 by rewrite sD; move: km; clear; lia.
  rewrite !bmx_rev // e0 e1 in n z w0 w1.
  by apply: is_diffE.
- rewrite /is_differential /=; case: Hd => -> //=.
  by have -> : oget D0 m.+2 = UB by rewrite /oget drop_oversize ?sD.
Qed.

(** C45. Any other degree is refused; a complex without dimensions is undefined behaviour. *)
Theorem C45_degree (deg : int) (aug : bool) (C : seq (cmat F)) :
  deg != -1 -> deg != 1 -> dg_of O C deg aug = if size C == 0%N then UB else Throw.
Proof. by move=> /negbTE h1 /negbTE h2; case: C => [|C0 Bs] //=; rewrite h1 h2. Qed.

(** C45. Beyond the top dimension: in degree -1 hdim(maxdim + 1) is not 0 but the dimension of the cycles of
    the top dimension; in degree +1 it reads outside the stored indices. *)
Theorem C45_hdim_above opt (aug : bool) (C : seq (cmat F)) :
  chain_wf C -> (aug -> edges_cancel C) ->
  exists X Y, [/\ (do D <- dg_of O C (-1) aug; rdg_of O opt D) = Ok X,
    (do D <- dg_of O C 1 aug; rdg_of O opt D) = Ok Y,
    exists2 h, rd_hdim X (size C) = Ok h &
      (h + brank (augment aug C) (size C).-1 = ncol (bmx C (size C).-1))%N &
    rd_hdim Y (size C) = UB].
Proof.
move=> CW EC; have [s0 _ _] := CW; case sC: (size C) s0 => [//|m] _.
have eT : (-1 == -1 :> int) = true by [].
have eF : (1 == -1 :> int) = false by [].
have [D0 E0 [sD [DW [RK NC]]]] := dg_of_chain (or_introl erefl) CW sC EC.
have [X [EX dX IX GX]] := rdg_of_spec opt (or_introl erefl) sD DW.
have [D1 E1 [sD1 [DW1 _]]] := dg_of_chain (or_intror erefl) CW sC EC.
have [Y [EY dY IY GY]] := rdg_of_spec opt (or_intror erefl) sD1 DW1.
exists X, Y; rewrite E0 E1; split=> //; last first.
  rewrite /rd_hdim dY IY /dg_inds /dg_ix eF.
  by rewrite /oget drop_oversize //= size_map size_iota.
rewrite /rd_hdim dX IX /dg_inds /dg_ix eT.
rewrite (oget_nth [::]) ?size_rcons ?size_map ?size_iota //.
rewrite nth_rcons size_map size_iota ltnn eqxx; cbn [obind]; eexists; first by [].
rewrite -RK; last by rewrite leqW.
have := NC m (leqnn m); rewrite /dg_ix eT => <-.
by apply: free_count; apply: (@chain_wf_nth _ D0).
Qed.

(** C45. Any sequence of update_filtration calls on the reduced filtered complex, in either degree, ends with
    the homology indices, pivots and persistence pairs of a construction with the last values. *)
Theorem C45_update_filtration opt opt' (deg : int) (aug : bool) val (vals : seq (seq (seq V))) (C : seq (cmat F)) :
  dg_has_basis opt -> deg = -1 \/ deg = 1 -> chain_wf C -> (aug -> edges_cancel C) ->
  vals_ok C val -> (forall v, v \in vals -> vals_ok C v) ->
  exists X Y Z, [/\ dg_build O ltv v0 opt deg aug val C = Ok X,
    ofold (fun X v => rfdg_update O ltv v0 v X) X vals = Ok Y,
    dg_build O ltv v0 opt' deg aug (last val vals) C = Ok Z,
    rd_I (rfd_RC Y) = rd_I (rfd_RC Z) /\ rd_p2c (rfd_RC Y) = rd_p2c (rfd_RC Z) &
    forall k, (k < size C)%N -> exists2 ps, rfd_pairs inf Y k = Ok ps & rfd_pairs inf Z k = Ok ps].
Proof.
move=> hb Hd CW EC VO VS; have [s0 _ _] := CW; case sC: (size C) s0 => [//|m] _.
have [D0 [_ [_ [X [ED EB IX _ _]]]]] := dg_build_spec v0 opt Hd CW sC EC VO; rewrite hb in IX.
have VL : vals_ok C (last val vals).
  by have := mem_last val vals; rewrite inE => /orP[/eqP->|/VS].
have [D1 [_ [_ [Z [ED' EB' IZ _ _]]]]] := dg_build_spec v0 opt' Hd CW sC EC VL.
move: ED'; rewrite ED => -[e]; subst D1.
have [Y EY IY] : exists2 Y, ofold (fun X v => rfdg_update O ltv v0 v X)
     (RFDG X val (dgq deg (filtration_sortperm ltv v0 val))) vals = Ok Y & dginv v0 m deg D0 true (last val vals) Y.
  move: IX VS VO; clear EB EB' IZ VL; move: (RFDG X val _); elim: vals val => [|v vs IH] val X' IX VS VO; first by exists X'.
  have Vv : vals_ok C v by apply: VS; rewrite inE eqxx.
  have [Y EY IY] := rfdg_update_inv Hd CW sC EC VO Vv ED IX.
  cbn [ofold]; rewrite EY; cbn [obind]; apply: (IH v Y IY) => // w Hw; apply: VS; by rewrite inE Hw orbT.
exists (RFDG X val (dgq deg (filtration_sortperm ltv v0 val))), Y,
  (RFDG Z (last val vals) (dgq deg (filtration_sortperm ltv v0 (last val vals)))); split=> //.
  have [D2 E2 [s2 _ _ _ _]] := dg_of_spec Hd CW sC EC; move: E2; rewrite ED => -[e]; subst D2.
  exact: dginv_det s2 (dginv_w IY) (dginv_w IZ).
have [L [HL _ _]] := dg_pairs_canon v0 inf CW sC EC VL.
move=> k km; exists (if deg == -1 then L k else rev (L k)); by apply: HL; [|exact: ED | apply: dginv_w; eassumption |].
Qed.

End P.
