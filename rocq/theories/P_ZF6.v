(** From the comparison functions to the barcode of a zigzag filtration. *)
From mathcomp Require Import all_ssreflect all_algebra zify.
From Verif Require Import Outcome P_Outcome M_SparseVec M_ColMatrix M_Perm M_Homology S_Linalg S_Perm S_Homology S_Induced M_Zigzag S_Zigzag
  S_ZigzagFilt M_ZigzagFilt P_Perm P_Chain P_SparseVec P_SparseVec2 P_Reduce P_ColMatrix P_Betti P_ZF1 P_ZF2 P_ZF3 P_ZF4 P_ZF5 Props_Zigzag.
Set Implicit Arguments.
Unset Strict Implicit.
Unset Printing Implicit Defensive.
Import GRing.Theory Order.Theory.

Lemma sorts_perm srt (B : eqType) (lt : B -> B -> bool) (l : seq B) (x0 : B) : sorts srt -> strict_weak lt l ->
  perm_eq (srt B lt l) l /\ pairwise (fun x y => ~~ lt y x) (srt B lt l).
Proof.
move=> SR SW; have [pw [p pp /(_ x0) e]] := SR B lt l SW; split=> //; rewrite e.
by apply: (perm_trans (perm_map _ pp)); rewrite -/(mkseq _ _) mkseq_nth.
Qed.

(** strict weak orders that first compare the values *)
Lemma sw_val (disp : unit) (A : orderType disp) (B : eqType) (v : B -> A) (le R : B -> B -> bool) (l : seq B) :
  (forall a b, le a b = if v a != v b then (v a < v b)%O else R a b) ->
  (forall a b c, a \in l -> b \in l -> c \in l -> v a = v b -> v b = v c ->
    [/\ ~~ R a a, R a b -> R b c -> R a c & ~~ R a b -> ~~ R b c -> ~~ R a c]) ->
  strict_weak le l.
Proof.
move=> E H x y z /In_mem xl /In_mem yl /In_mem zl; rewrite !E eqxx /=; split.
- by have [] := H x x x xl xl xl erefl erefl.
- case: (ltgtP (v x) (v y)) => // e1; case: (ltgtP (v y) (v z)) => // e2 h1 h2.
  + by rewrite (lt_trans e1 e2) lt_eqF // (lt_trans e1 e2).
  + by rewrite -e2 e1 lt_eqF.
  + by rewrite e1 e2 lt_eqF.
  + by rewrite e1 e2 eqxx /=; have [_ h _] := H x y z xl yl zl e1 e2; apply: h.
- case: (ltgtP (v x) (v y)) => // e1; case: (ltgtP (v y) (v z)) => // e2 h1 h2.
  + by rewrite gt_eqF ?(lt_trans e2 e1) //= -leNgt ltW // (lt_trans e2 e1).
  + by rewrite -e2 gt_eqF //= -leNgt ltW.
  + by rewrite e1 gt_eqF //= -leNgt ltW.
  + by rewrite e1 e2 eqxx /=; have [_ _ h] := H x y z xl yl zl e1 e2; apply: h.
Qed.

Section S.
Variable F : fieldType.
Variable disp : unit.
Variable A : orderType disp.
Variables a0 vmax : A.
Notation iv := (A * A)%type.
Notation event := (rfv A).
Notation ltv := (fun x y : A => (x < y)%O).
Variable C : seq (cmat F).
Variable val : seq (seq (seq iv)).
Hypothesis CW : chain_wf C.
Hypothesis C1 : 1 < size C.
Hypothesis FO : filtration_ok a0 C val.
Hypothesis nb0 : no_bd0 C.
Notation tot := (tot val).
Notation C2 := (C2 a0 C val).
Notation vv := (vv a0 val).
Variable srt : forall B : Type, (B -> B -> bool) -> seq B -> seq B.
Hypothesis SR : sorts srt.
Definition Z2 := ZCC C2 (mkseq (vl a0 val) (size C)) (mkseq (cil val) (size C)) (mkseq (exl val) (size C)).
Lemma zvE k c : k < size C -> zv a0 Z2 k c = vv k c.
Proof. by move=> lk; rewrite /zv nth_mkseq. Qed.

Variable lp : zcc F A -> nat -> nat -> nat -> bool.
Variable le : zcc F A -> event -> event -> bool.
Definition perms := [seq srt (lp Z2 k) (iota 0 (tot k)) | k <- iota 0 (size C)].
Hypothesis lpw : forall k, k < size C -> strict_weak (lp Z2 k) (iota 0 (tot k)).
Hypothesis lpv : forall k c c', c < tot k -> c' < tot k -> ~~ lp Z2 k c' c -> ((vv k c').2 <= (vv k c).2)%O.
Notation evL := (evL a0 C val perms).
Notation mkev := (mkev a0 val perms).
Hypothesis lew : strict_weak (le Z2) evL.
Hypothesis H1 : forall k a c, a < tot k -> c < tot k.+1 -> entry (bmx C2 k.+1) a c != 0%R -> (vv k a).1 = (vv k.+1 c).1 ->
  le Z2 (mkev k a true) (mkev k.+1 c true).
Hypothesis H2 : forall k a c, a < tot k -> c < tot k.+1 -> entry (bmx C2 k.+1) a c != 0%R -> (vv k a).2 = (vv k.+1 c).2 ->
  le Z2 (mkev k.+1 c false) (mkev k a false).
Hypothesis H3 : forall a b, z_entry a -> ~~ z_entry b -> z_val a = z_val b -> le Z2 a b.
Hypothesis H4 : forall a b, ~~ z_entry a -> ~~ z_entry b -> z_val a = z_val b -> z_dim a = z_dim b -> z_ind b < z_ind a -> le Z2 a b.
Hypothesis H5 : forall a b, (z_val a < z_val b)%O -> le Z2 a b.

Lemma permsE k : k < size C -> nth [::] perms k = srt (lp Z2 k) (iota 0 (tot k)).
Proof. by move=> lk; rewrite /perms (nth_map 0) ?size_iota // nth_iota. Qed.
Lemma perms_fine : perms_ok C2 perms.
Proof.
split; first by rewrite /perms size_map size_iota size_mkseq.
rewrite size_mkseq => k lk; rewrite permsE // -[ncol _]/(ncell C2 k) (ncell2 FO).
have [pe _] := sorts_perm 0 SR (lpw lk); have sz : size (srt (lp Z2 k) (iota 0 (tot k))) = tot k by rewrite (perm_size pe) size_iota.
by split=> //; rewrite /is_perm sz.
Qed.
Lemma aug2 : aug_const C2.
Proof.
move=> i j j'; rewrite -[ncol _]/(ncell C2 0) (ncell2 FO) => lj lj'.
by have := entry20 CW FO nb0 i lj; have := entry20 CW FO nb0 i lj'; rewrite /entry => -> ->.
Qed.
Lemma prepE : exists D, [/\ zz_prepare ltv a0 srt lp le C val = Ok (D, srt (le Z2) evL), reordered C2 D perms & chain_wf D].
Proof.
have [||||D [eD RO DW]] := @cc_ipermute_spec F C2 perms.
- exact: chain_wf2.
- by rewrite size_mkseq.
- exact: aug2.
- exact: perms_fine.
exists D; split=> //; rewrite /zz_prepare (zcc_makeE CW FO) -/Z2; cbn [obind].
have -> : [seq srt (lp Z2 k) (iota 0 (size (nth [::] (zc_v Z2) k))) | k <- iota 0 (size (zc_C Z2))] = perms.
  rewrite size_mkseq; apply/eq_in_map => k; rewrite mem_iota => /andP[_ lk]; rewrite nth_mkseq //.
  by rewrite size_vl.
rewrite eD; cbn [obind]; rewrite size_mkseq.
rewrite (@omapm_Ok_eq _ _ _ (fun k => flatten [seq [:: mkev k c true; mkev k c false] | c <- iota 0 (tot k)])) // => k.
rewrite mem_iota add0n => /andP[_ lk].
have [P s] := pk_ok FO perms_fine lk.
rewrite (oget_nth [::]); last by rewrite /perms size_map size_iota.
cbn [obind]; rewrite /zz_dim_events (inv_permE P); cbn [obind].
have [sD hD] := RO; rewrite size_mkseq in sD hD.
rewrite (oget_nth (CMat 0 0 [::])) ?sD //; cbn [obind]; rewrite oget_mkseq //; cbn [obind].
rewrite -[nth _ D k]/(bmx D k) -[ncol _]/(ncell D k) (ncellD FO RO).
rewrite (@omapm_Ok_eq _ _ _ (fun c => [:: mkev k c true; mkev k c false])) // => c.
rewrite mem_iota add0n => /andP[_ lc].
by rewrite (oget_nth 0) ?size_ipl ?s //; cbn [obind]; rewrite (oget_nth (a0, a0)) ?size_vl.
Qed.

Lemma H4' k c c' : c < tot k -> c' < tot k -> ip perms k c < ip perms k c' -> le Z2 (mkev k c' false) (mkev k c false).
Proof.
move=> lc lc' lt; have lk := tot_lt FO lc.
have [pe pw] := sorts_perm 0 SR (lpw lk).
have nl : ~~ lp Z2 k c' c.
  rewrite -permsE // in pw.
  have [P s] := pk_ok FO perms_fine lk.
  move/(pairwiseP 0%N): pw => /(_ (ip perms k c) (ip perms k c')); rewrite !inE s !(ip_lt FO perms_fine) //.
  by move=> /(_ isT isT lt); rewrite -!/(pm perms k _) !(pm_ip FO perms_fine).
have := lpv lc lc' nl; rewrite le_eqVlt => /orP[/eqP e|l]; [exact: H4|exact: H5].
Qed.

Notation O := (ops_of F).
Theorem prep_barcode maxdim : (size C <= (dims_asked C maxdim).+1)%N ->
  exists bars evs, (do r <- zz_prepare ltv a0 srt lp le C val; zigzag_barcode_reduction O vmax r.1 r.2 maxdim) = Ok bars /\
    zigzag_bars a0 C val vmax (dims_asked C maxdim) evs bars.
Proof.
move=> szd; have [D [-> RO DW]] := prepE; cbn [obind].
have [PE PW] := sorts_perm (RFV 0 0 0 a0 true) SR lew; set evs := srt (le Z2) evL in PE PW *.
have PO := perms_fine.
have irr e : e \in evL -> ~~ le Z2 e e by move=> eL; have [] := lew (x := e) (y := e) (z := e); rewrite // ?In_mem.
have sD : size D = size C by case: RO => -> _; rewrite size_mkseq.
have dD : dims_asked D maxdim = dims_asked C maxdim by rewrite /dims_asked sD.
have OK := evs_ok CW FO PO RO DW irr H1 H2 H3 H4' H5 PE PW.
have nb := no_bd0D CW FO nb0 PO RO DW.
cbn [fst snd]; have [|bars [-> sb h]] := @zigzag_barcode F A vmax D evs maxdim DW nb OK; first by rewrite sD dD.
exists bars, [seq orig val e | e <- evs]; split=> //; rewrite dD in sb h; split=> //.
- exact: (ordered FO H3 H5 PE PW).
- move=> t k i j n0; rewrite -map_take.
  exact: (subcomplex CW FO irr H1 H2 H5 PE PW (esym (cat_take_drop t evs)) n0).
move=> k lk; have [ps [zi [sz rp]]] := h k lk; exists ps; split=> //.
- exact: (transport CW FO nb0 PO RO DW irr H1 H2 H5 PE PW zi).
case: zi => [d [Z [lab [_ _ _ L]]]] b z0 lb; have [l1 l2] := L b lb.
apply: reports_orig => //; first by case: (_.2) l2 => // e /andP[].
exact: rp.
Qed.
End S.
