(** DG vector spaces, part 11: construction and update_filtration in both degrees. *)
From mathcomp Require Import all_ssreflect all_algebra zify.
From Verif Require Import Outcome P_Outcome M_SparseVec M_Perm M_ColMatrix M_Reduce M_Homology M_Persist
  M_Induced M_DG S_Linalg S_Perm S_Homology S_Persist S_DG P_SparseVec P_Pairing P_Reduce P_Perm P_PermMx P_ColMatrix P_Homology P_Betti
  P_Update P_Extra P_Chain P_Sort P_Persist P_Pairs P_UpdFilt P_DG1 P_DG2 P_DG3 P_DG4 P_DG5 P_DG6 P_DG7 P_DG8 P_DG9 P_DG10.
Set Implicit Arguments.
Unset Strict Implicit.
Unset Printing Implicit Defensive.
Import GRing.Theory Order.TTheory.
Local Open Scope ring_scope.

Section A.
Variable F : fieldType.
Notation O := (ops_of F).
Notation cmat := (cmat F).
Notation m0 := (CMat 0 0 [::] : cmat).
Notation p2c_t := (seq (option nat)).
Notation Z C := (cm_zero F (ncol (bmx C (size C).-1)) 0).

Definition dgq (deg : int) (qs : seq (seq nat)) := if deg == 1 then [seq rev p | p <- qs] else qs.

Lemma dgq_ok (C : seq cmat) deg qs : perms_ok C qs -> perms_ok C (dgq deg qs).
Proof.
move=> [s H]; rewrite /dgq; case: ifP => // _; split; first by rewrite size_map.
move=> k kC; have [P z] := H k kC; rewrite (nth_map [::]) ?s // size_rev; split=> //.
by rewrite /is_perm size_rev perm_rev.
Qed.

Lemma dg_of_spec m deg (aug : bool) (C : seq cmat) : deg = -1 \/ deg = 1 -> chain_wf C -> size C = m.+1 ->
  (aug -> edges_cancel C) ->
  exists2 D0, dg_of O C deg aug = Ok (DG deg D0) & [/\ size D0 = m.+2, (forall k, (k <= m.+1)%N -> cm_wf (bmx D0 k)),
    (forall k, (k <= m)%N -> (if deg == -1 then nrow (bmx D0 k.+1) else ncol (bmx D0 k.+1)) = ncol (bmx C k)),
    (forall k, (k <= m)%N -> (if deg == -1 then ncol (bmx D0 k) else nrow (bmx D0 k)) = ncol (bmx C k)) &
    (if deg == -1 then ncol (bmx D0 m.+1) else nrow (bmx D0 m.+1)) = 0%N].
Proof.
move=> Hd CW sC EC; have AW := augment_chain CW EC; have s0 : (0 < size C)%N by rewrite sC.
have sA : size (augment aug C) = size C by apply: size_augment.
have bA k : (k <= m)%N -> bmx (rcons (augment aug C) (Z C)) k = bmx (augment aug C) k.
  by move=> km; rewrite bmx_rcons sA sC ltnS km.
have bAm : bmx (rcons (augment aug C) (Z C)) m.+1 = Z C by rewrite bmx_rcons sA sC ltnn eqxx.
have [_ _ WC] := AW.
have nr k : (k <= m)%N -> nrow (bmx (rcons (augment aug C) (Z C)) k.+1) = ncol (bmx C k).
  rewrite leq_eqVlt => /orP[/eqP->|km]; first by rewrite bAm /= sC.
  by rewrite bA //; have [|-> _] := WC k; rewrite ?sA ?sC // augment_ncol.
have nc k : (k <= m)%N -> ncol (bmx (rcons (augment aug C) (Z C)) k) = ncol (bmx C k).
  by move=> km; rewrite bA // augment_ncol.
have eT : (-1 == -1 :> int) = true by [].
have eF : (1 == -1 :> int) = false by [].
case: Hd => dE; subst deg.
  exists (rcons (augment aug C) (Z C)); first exact: dg_of_hom.
  rewrite eT; split=> //; first by rewrite size_rcons sA sC.
  - move=> k km; case: (ltnP k m.+1) => k1; first by rewrite bA //; apply: chain_wf_nth.
    have -> : k = m.+1 by move: km k1; clear; lia.
    by rewrite bAm; apply: wf_zero.
  - by rewrite bAm.
have [D E [sD HT]] := dg_of_coh aug CW; exists D => //; rewrite eF; rewrite sC in sD.
have {}HT k : (k <= m.+1)%N -> is_transpose (bmx (rcons (augment aug C) (Z C)) k) (bmx D k) by move=> km; apply: HT; rewrite sC.
split=> //.
- by move=> k /HT[].
- by move=> k km; have [_ _ -> _] := HT _ (km : (k < m.+1)%N); apply: nr.
- by move=> k km; have [_ -> _ _] := HT k (leqW km); apply: nc.
- by have [_ -> _ _] := HT m.+1 (leqnn _); rewrite bAm.
Qed.

Lemma dg_of_dgp m deg (C D0 : seq cmat) qs : size C = m.+1 -> perms_ok C qs ->
  size D0 = m.+2 -> 
  (forall k, (k <= m)%N -> (if deg == -1 then nrow (bmx D0 k.+1) else ncol (bmx D0 k.+1)) = ncol (bmx C k)) ->
  (forall k, (k <= m)%N -> (if deg == -1 then ncol (bmx D0 k) else nrow (bmx D0 k)) = ncol (bmx C k)) ->
  (if deg == -1 then ncol (bmx D0 m.+1) else nrow (bmx D0 m.+1)) = 0%N -> dgp m deg D0 qs.
Proof.
move=> sC [sq HQ] sD H1 H2 H3.
have P k : (k <= m)%N -> is_perm (nth [::] qs k) /\ size (nth [::] qs k) = ncol (bmx C k).
  by move=> km; apply: HQ; rewrite sC.
split; first by rewrite sq sC.
- by move=> k /P[].
- by move=> k /andP[_ km]; have [_ ->] := P k km; apply: H2.
- move=> k km; have km' : (k <= m)%N by move: km; clear; lia.
  by have [_ ->] := P k km'; apply: H1.
- by move=> mz; rewrite mz in H3.
Qed.

(** the filtered complex: reordered, and a chain complex in the order of the degree *)
Lemma dg_make_spec m deg (aug : bool) (C : seq cmat) : deg = -1 \/ deg = 1 -> chain_wf C -> size C = m.+1 ->
  (aug -> edges_cancel C) ->
  exists2 D0, dg_of O C deg aug = Ok (DG deg D0) & size D0 = m.+2 /\
  (forall qs, perms_ok C qs -> dgp m deg D0 qs) /\
  forall qs, perms_ok C qs -> exists E D, [/\ dg_ipermute (dgq deg qs) (DG deg D0) = Ok (DG deg D),
    dgr m deg D0 D (dgq deg qs), chain_wf (hord deg D),
    reordered (augment aug C) E qs /\ chain_wf E &
    if deg == -1 then D = rcons E (Z C) else forall k, (k <= m.+1)%N -> atr (bmx (rcons E (Z C)) k) (bmx D k)].
Proof.
move=> Hd CW sC EC; have [D0 E0 [sD0 W0 n1 n2 n3]] := dg_of_spec Hd CW sC EC.
have DP qs : perms_ok C qs -> dgp m deg D0 qs by move=> PO; apply: dg_of_dgp sC PO sD0 n1 n2 n3.
exists D0 => //; split=> //; split=> // qs PO.
have [E [EH RO EW EWZ]] := hom_perm CW EC PO.
have PQ := dgq_ok deg PO; have QP := DP _ PQ; have [sq Pq L H HZ] := QP.
have [||D' ED' DR] := @dg_ipermute_spec F m deg D0 (dgq deg qs) Hd sD0 sq Pq.
- move=> k kr; have [r1 _] := dgp_r QP kr; have [c1 _] := dgp_c QP kr; split=> //.
  by apply: W0; move: kr; clear; lia.
- move=> mz; split; first by apply: W0; rewrite mz.
  by move: (H 0%N) (HZ mz); rewrite mz; case: ifP => _ /(_ isT).
exists E, D'; have [sD' _] := DR.
have eT : (-1 == -1 :> int) = true by [].
have eF : (1 == -1 :> int) = false by [].
case: Hd => dE; subst deg.
  have C0 : (0 < size C)%N by rewrite sC.
  have : Ok (DG (-1) D') = Ok (DG (-1) (rcons E (Z C))) :> outcome (dgvs F).
    by move: E0; rewrite dg_of_hom // => -[eD]; rewrite -ED' -eD; exact: EH.
  move=> [eD]; subst D'; by split.
have [Dc [D [Ec EP sD HA]]] := coh_perm CW EC PO RO EW.
have : Ok (DG 1 D') = Ok (DG 1 D) :> outcome (dgvs F).
  by move: E0; rewrite Ec => -[eD]; rewrite -ED' -eD; exact: EP.
move=> [eD]; subst D'; split=> //; last by rewrite eF => k km; apply: HA; rewrite sC.
rewrite /hord eF; have [sE _] := RO; apply: (atr_chain EWZ); first by rewrite size_rcons sE size_augment sD.
by move=> k; rewrite size_rcons sE size_augment; apply: HA.
Qed.

Lemma dgr_inj m deg (D0 D D' : seq cmat) qs : size D0 = m.+2 -> dgr m deg D0 D qs -> dgr m deg D0 D' qs -> D = D'.
Proof.
move=> s0 [s H] [s' H']; apply: (@eq_from_nth _ m0); first by rewrite s s'.
move=> k _; rewrite !bmxE; have := H k; have := H' k; case: ifP => _; last by move=> -> ->.
move=> [w' a' b' c'] [w a b c]; apply: cm_ext_ent => //; rewrite ?a ?b ?a' ?b' // => i j im jn.
by rewrite c // c'.
Qed.

Lemma dgr_uperms m deg (D0 D D' : seq cmat) ps qs : deg = -1 \/ deg = 1 -> size D0 = m.+2 -> dgp m deg D0 ps -> dgp m deg D0 qs ->
  dgr m deg D0 D ps -> dgr m deg D0 D' qs -> dgr m deg D D' (uperms ps qs) /\ dgp m deg D (uperms ps qs).
Proof.
move=> Hd s0 P Q [s H] [s' H'].
have [sp Pp Lp Hp Zp] := P; have [sq Pq Lq Hq Zq] := Q.
have un k : (k <= m)%N -> nth [::] (uperms ps qs) k = uperm (nth [::] ps k) (nth [::] qs k).
  by move=> km; rewrite (nth_map 0%N) ?size_iota ?sp // nth_iota ?sp.
have k1m k : (k <= m)%N -> (k < maxn m 1)%N || (0 < k <= m)%N by clear; lia.
have ss k : (k <= m)%N -> size (nth [::] ps k) = size (nth [::] qs k).
  move=> /k1m/orP[kr|kr]; first by rewrite -Hp // -Hq.
  by rewrite -Lp // -Lq.
have su k : (k <= m)%N -> size (nth [::] (uperms ps qs) k) = size (nth [::] qs k).
  by move=> km; rewrite un // size_map.
have pred k : (0 < k <= m)%N -> (rix deg k <= m)%N /\ (cix deg k <= m)%N.
  by rewrite /rix /cix; clear => kr; case: ifP => _; split; lia.
have dims k : (0 < k <= m.+1)%N -> nrow (bmx D k) = nrow (bmx D0 k) /\ ncol (bmx D k) = ncol (bmx D0 k).
  by move=> kr; have := H k; case: ifP => [_ []|_ ->].
split.
  split=> // k; have := H k; have := H' k; case: ifP => kr; last by move=> -> ->.
  move=> R1 R2; have [a b] := pred k kr; rewrite !un //.
  have [x1 x2] := dgp_r P kr; have [y1 y2] := dgp_c P kr; have [x1' x2'] := dgp_r Q kr; have [y1' y2'] := dgp_c Q kr.
  exact: reord_uperm x2 x2' y2 y2' (esym x1) (esym x1') (esym y1) (esym y1') R2 R1.
split; first by rewrite size_map size_iota.
- by move=> k km; rewrite un //; apply: uperm_perm; rewrite ?ss //; [apply: Pp | apply: Pq].
- move=> k kr; have km : (k <= m)%N by move: kr; clear; lia.
  have kr' : (0 < k <= m.+1)%N by move: kr; clear; lia.
  by have [-> ->] := dims k kr'; rewrite Lq // su.
- move=> k kr; have km : (k <= m)%N by move: kr; clear; lia.
  have kr' : (0 < k.+1 <= m.+1)%N by move: kr; clear; lia.
  by have [-> ->] := dims _ kr'; rewrite Hq // su.
- by move=> mz; have [|-> ->] := dims 1%N; [rewrite mz | apply: Zq].
Qed.

Section Filt.
Variables (disp : unit) (V : orderType disp) (v0 inf : V).
Notation ltv := (fun x y : V => (x < y)%O).
Notation fsp := (filtration_sortperm ltv v0).

Lemma rfd_update_permsE (C : seq cmat) deg perm newval : perms_ok C perm -> perms_ok C (dg_perms ltv v0 deg newval) ->
  rfd_update_perms ltv v0 deg perm newval = Ok (uperms perm (dg_perms ltv v0 deg newval)).
Proof.
move=> [s1 H1] [s2 H2]; rewrite /rfd_update_perms /filtration_iperm.
set fn := dg_perms _ _ _ _ in s2 H2 *.
rewrite (omapm_Ok_eq (g := ipl)); last first.
  move=> p Hp; have := nth_index [::] Hp; rewrite -index_mem in Hp => <-.
  by apply: inv_permE; have [] := H1 (index p perm); rewrite -?s1.
cbn [obind]; rewrite size_map.
have [||r -> [sr G]] := @ofold_iota_ind _ (fun ip k => do p <- oget fn k; do d <- oget ip k;
                     do d' <- apply_perm p d; oset ip k d')
  (fun l (ip : seq (seq nat)) => size ip = size perm /\ forall k, (k < size perm)%N ->
     nth [::] ip k = if (k < l)%N then uperm (nth [::] perm k) (nth [::] fn k) else ipl (nth [::] perm k))
  (size perm) [seq ipl p | p <- perm].
- by rewrite size_map; split=> // k kp; rewrite ltn0 (nth_map [::]).
- move=> l ip lp [sip G]; have lC : (l < size C)%N by rewrite -s1.
  have [P1 z1] := H1 l lC; have [P2 z2] := H2 l lC.
  rewrite (oget_nth [::]) ?s2 //= (oget_nth [::]) ?sip //= G // ltnn.
  rewrite (@apply_permE _ 0%N) /=; last 2 first.
  + by apply/allP => i; rewrite is_perm_mem // size_ipl z1 z2.
  + by rewrite size_ipl z1 z2.
  rewrite (oset_Ok [::]) ?sip //; eexists; first by [].
  split; first by rewrite size_set_nth sip; apply/maxn_idPr.
  move=> k kp; rewrite nth_setE; case: (eqVneq k l) => [->|ne].
    rewrite ltnSn drop_oversize ?cats0 //; by rewrite size_ipl z1 z2.
  have -> : (k < l.+1)%N = (k < l)%N by move: ne; clear; lia.
  exact: G.
congr Ok; apply: (@eq_from_nth _ [::]); first by rewrite sr size_map size_iota.
by move=> k; rewrite sr => kp; rewrite G // kp (nth_map 0%N) ?size_iota // nth_iota.
Qed.

Definition dginv m deg D0 (u : bool) val (X : rfdg F V) : Prop :=
  exists D RC, [/\ X = RFDG RC val (dgq deg (fsp val)), dgr m deg D0 D (dgq deg (fsp val)), chain_wf (hord deg D),
    rd_degree RC = deg /\ rd_I RC = dg_inds m deg D & if u then dgu D RC else dgood D RC].

Lemma dginv_w m deg D0 u val X : dginv m deg D0 u val X -> dginv m deg D0 false val X.
Proof. by move=> [D [RC [a b c d]]]; case: u => e; exists D, RC; split=> //; apply: dgu_dgood. Qed.

Lemma dg_build_spec m opt deg (aug : bool) val (C : seq cmat) : deg = -1 \/ deg = 1 -> chain_wf C -> size C = m.+1 ->
  (aug -> edges_cancel C) -> vals_ok C val ->
  exists D0 D E X, [/\ dg_of O C deg aug = Ok (DG deg D0),
    dg_build O ltv v0 opt deg aug val C = Ok (RFDG X val (dgq deg (fsp val))),
    dginv m deg D0 (dg_has_basis opt) val (RFDG X val (dgq deg (fsp val))),
    [/\ dgood D X, rd_degree X = deg, rd_I X = dg_inds m deg D & chain_wf (hord deg D)] &
    [/\ reordered (augment aug C) E (fsp val), chain_wf E &
      if deg == -1 then D = rcons E (Z C) else forall k, (k <= m.+1)%N -> atr (bmx (rcons E (Z C)) k) (bmx D k)]].
Proof.
move=> Hd CW sC EC VO; have PO := fsp_ok v0 VO.
have [D0 E0 [s0 [DP HM]]] := dg_make_spec Hd CW sC EC.
have [E [D [EP DR DW [RO EW] X3]]] := HM _ PO.
have [sD _] := DR.
have [X [EX dX IX GX]] := rdg_of_spec opt Hd sD DW.
exists D0, D, E, X; split=> //.
  rewrite /dg_build E0; cbn [obind]; rewrite /fdg_make.
  have -> : dg_perms ltv v0 (dg_degree (DG deg D0)) val = dgq deg (fsp val) by [].
  by rewrite EP; cbn [obind]; rewrite /rfdg_make EX.
exists D, X; split=> //; case: ifP => // hb; exact: (rdg_of_dgu Hd sD DW hb EX).
Qed.

Lemma rfdg_update_inv m deg (aug : bool) val newval (C : seq cmat) D0 X : deg = -1 \/ deg = 1 -> chain_wf C -> size C = m.+1 ->
  (aug -> edges_cancel C) -> vals_ok C val -> vals_ok C newval -> dg_of O C deg aug = Ok (DG deg D0) ->
  dginv m deg D0 true val X ->
  exists2 Y, rfdg_update O ltv v0 newval X = Ok Y & dginv m deg D0 true newval Y.
Proof.
move=> Hd CW sC EC VO VN ED [D [RC [-> DR DW [dX IX] G]]].
have PO := dgq_ok deg (fsp_ok v0 VO); have PN0 := fsp_ok v0 VN; have PN := dgq_ok deg PN0.
have [D1 E1 [s1 [DP HM]]] := dg_make_spec Hd CW sC EC; move: E1; rewrite ED => -[E1]; subst D1.
have [_ [D' [_ DR' DW' _ _]]] := HM _ PN0.
have [RU PU] := dgr_uperms Hd s1 (DP _ PO) (DP _ PN) DR DR'.
have [sD _] := DR.
rewrite /rfdg_update /= dX.
rewrite (rfd_update_permsE PO PN); cbn [obind].
have [Y [-> dY IY GY]] := rd_permute_spec Hd sD DW' PU RU dX G.
by cbn [obind]; eexists; [by [] | exists D', Y; split].
Qed.

(** the stored indices and pivots are determined *)
Lemma dginv_det m deg D0 val X Y : size D0 = m.+2 -> dginv m deg D0 false val X -> dginv m deg D0 false val Y ->
  rd_I (rfd_RC X) = rd_I (rfd_RC Y) /\ rd_p2c (rfd_RC X) = rd_p2c (rfd_RC Y).
Proof.
move=> s0 [D [RC [-> DR _ [_ I1] [_ sp G _]]]] [D' [RC' [-> DR' _ [_ I2] [_ sp' G' _]]]] /=.
have e := dgr_inj s0 DR DR'; subst D'; rewrite I1 I2; split=> //.
apply: (@eq_from_nth _ [::]); first by rewrite sp sp'.
move=> k; rewrite sp => kD; have [_ _ [_ _ p1 _]] := G k kD; have [_ _ [_ _ p2 _]] := G' k kD.
exact: pivots_exact_inj p1 p2.
Qed.

End Filt.
End A.
