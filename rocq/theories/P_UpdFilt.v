(** update_filtration against a fresh construction, partition of the cells, representatives. *)
From mathcomp Require Import all_ssreflect all_algebra zify.
From Verif Require Import Outcome P_Outcome RingTac M_SparseVec M_Perm M_ColMatrix M_Reduce M_Homology
  M_Persist S_Linalg P_SparseVec P_Pairing P_Reduce S_Perm P_Perm P_PermMx S_Homology S_Persist
  P_Homology P_Betti P_Update P_Extra P_Chain P_Sort P_Persist P_Pairs.
Set Implicit Arguments.
Unset Strict Implicit.
Unset Printing Implicit Defensive.
Import GRing.Theory Order.TTheory.
Local Open Scope ring_scope.

Section H.
Variable F : fieldType.
Notation O := (ops_of F).
Notation svec := (svec F).
Notation cmat := (cmat F).
Variables (disp : unit) (V : orderType disp) (v0 inf : V).
Notation ltv := (fun x y : V => (x < y)%O).
Notation fsp := (filtration_sortperm ltv v0).

Definition uperm (p q : seq nat) : seq nat := [seq nth 0%N (ipl p) j | j <- q].
Definition uperms (ps qs : seq (seq nat)) : seq (seq nat) :=
  [seq uperm (nth [::] ps k) (nth [::] qs k) | k <- iota 0 (size ps)].

Lemma uperm_nth p q i : (i < size q)%N -> nth 0%N (uperm p q) i = nth 0%N (ipl p) (nth 0%N q i).
Proof. by move=> lt; rewrite (nth_map 0%N). Qed.
Lemma uperm_perm p q : is_perm p -> is_perm q -> size p = size q -> is_perm (uperm p q).
Proof.
move=> P Q s; have P' := is_perm_ipl P; apply: is_permP; last first.
  apply/allP => i /mapP[j]; rewrite is_perm_mem // -s => jl ->; rewrite size_map -s -(size_ipl p) is_perm_lt //.
  by rewrite size_ipl.
rewrite map_inj_in_uniq ?is_perm_uniq // => i j; rewrite !is_perm_mem // -s => il jl.
by apply: is_perm_inj; rewrite ?size_ipl.
Qed.

Lemma update_permsE (C : seq cmat) perm newval : perms_ok C perm -> perms_ok C (fsp newval) ->
  update_perms ltv v0 perm newval = Ok (uperms perm (fsp newval)).
Proof.
move=> [s1 H1] [s2 H2]; rewrite /update_perms /filtration_iperm.
rewrite (omapm_Ok_eq (g := ipl)) /=; last first.
  move=> p Hp; have := nth_index [::] Hp; rewrite -index_mem in Hp => <-.
  by apply: inv_permE; have [] := H1 (index p perm); rewrite -?s1.
rewrite size_map.
have [||r -> [sr G]] := @ofold_iota_ind _ (fun ip k => do p <- oget (fsp newval) k; do d <- oget ip k;
                     do d' <- apply_perm p d; oset ip k d')
  (fun l (ip : seq (seq nat)) => size ip = size perm /\ forall k, (k < size perm)%N ->
     nth [::] ip k = if (k < l)%N then uperm (nth [::] perm k) (nth [::] (fsp newval) k) else ipl (nth [::] perm k))
  (size perm) [seq ipl p | p <- perm].
- by rewrite size_map; split=> // k kp; rewrite ltn0 (nth_map [::]).
- move=> l ip lp [sip G]; have lC : (l < size C)%N by rewrite -s1.
  have [P1 z1] := H1 l lC; have [P2 z2] := H2 l lC.
  rewrite (oget_nth [::]) ?s2 //= (oget_nth [::]) ?sip //= G // ltnn.
  rewrite (@apply_permE _ 0%N) /=; last 2 first.
  + by apply/allP => i; rewrite is_perm_mem // size_ipl z1 z2.
  + by rewrite size_ipl z1 z2.
  rewrite (oset_Ok [::]) ?sip //; eexists; first by [].
  split; first by rewrite size_set_nth sip; apply/maxn_idPr.
  move=> k kp; rewrite nth_setE; case: eqP => [->|/eqP ne].
    rewrite ltnSn drop_oversize ?cats0 //; by rewrite size_ipl z1 z2.
  have -> : (k < l.+1)%N = (k < l)%N by move: ne; clear; lia.
  exact: G.
congr Ok; apply: (@eq_from_nth _ [::]); first by rewrite sr size_map size_iota.
by move=> k; rewrite sr => kp; rewrite G // kp (nth_map 0%N) ?size_iota // nth_iota.
Qed.

Lemma uperms_ok (C : seq cmat) ps qs : perms_ok C ps -> perms_ok C qs -> perms_ok C (uperms ps qs).
Proof.
move=> [s1 H1] [s2 H2]; split; first by rewrite size_map size_iota.
move=> k kC; have [P1 z1] := H1 k kC; have [P2 z2] := H2 k kC.
rewrite (nth_map 0%N) ?size_iota ?s1 // nth_iota ?s1 // add0n size_map z2; split=> //.
by apply: uperm_perm; rewrite // z1 z2.
Qed.

Lemma perms_ok_reordered (C D : seq cmat) perms qs : reordered C D perms -> perms_ok C qs -> perms_ok D qs.
Proof.
move=> RO [a b]; have [sD _] := RO; split; rewrite ?sD // => k kC.
by rewrite (reordered_ncol k RO); apply: b.
Qed.

Lemma reordered_uperms (C D E : seq cmat) ps qs : chain_wf C -> perms_ok C ps -> perms_ok C qs ->
  reordered C D ps -> reordered C E qs -> reordered D E (uperms ps qs).
Proof.
move=> CW [s1 H1] [s2 H2] [sD RD] [sE RE]; split; first by rewrite sE.
move=> k; rewrite sD => kC; have [n1 m1 G1] := RD k kC; have [n2 m2 G2] := RE k kC.
have U k' i : (k' < size C)%N -> (i < ncol (bmx C k'))%N ->
   (nth 0%N (nth [::] (uperms ps qs) k') i < ncol (bmx C k'))%N /\
   nth 0%N (nth [::] ps k') (nth 0%N (nth [::] (uperms ps qs) k') i) = nth 0%N (nth [::] qs k') i.
  move=> kC' il; have [P1 z1] := H1 k' kC'; have [P2 z2] := H2 k' kC'.
  rewrite (nth_map 0%N) ?size_iota ?s1 // nth_iota ?s1 // add0n uperm_nth ?z2 //.
  have lq : (nth 0%N (nth [::] qs k') i < size (nth [::] ps k'))%N by rewrite z1 -z2 is_perm_lt // z2.
  split; last by rewrite nth_ipl_nth.
  by rewrite -z1 -(size_ipl (nth [::] ps k')) is_perm_lt ?size_ipl ?is_perm_ipl.
rewrite n1 m1; split=> // i j im jn; rewrite G2 //.
have [u1 u2] := U k j kC jn.
pose ri (z : seq (seq nat)) i := if k is k'.+1 then nth 0%N (nth [::] z k') i else i.
have [lr Er] : (ri (uperms ps qs) i < nrow (bmx C k))%N /\ ri ps (ri (uperms ps qs) i) = ri qs i.
  rewrite /ri; case: (k) kC im => [|k'] kC im //; have [_ _ CC] := CW; have [En _] := CC k' kC.
  have := U k' i (ltnW kC); rewrite -En => /(_ im) [-> ->]; by split.
by rewrite -/(ri qs i) -Er -/(ri (uperms ps qs) i) G1 // u2 /ri; case: (k).
Qed.

(** ** the invariant of a sequence of updates *)
Definition ugood (D : seq cmat) (RC : rcc F) : Prop :=
  [/\ rc_I RC = [seq hinds D k | k <- iota 0 (size D)],
      [/\ size (rc_R RC) = size D, size (rc_U RC) = size D & size (rc_p2c RC) = size D] &
      forall k, (k < size D)%N ->
         urec (bmx D k) (bmx (rc_R RC) k) (bmx (rc_U RC) k) (nth [::] (rc_p2c RC) k)].

Lemma ugood_rfgood D RC : ugood D RC -> rfgood D RC.
Proof. by move=> [_ [a b c] d]; split=> // k /d[]. Qed.

Definition uinv (C : seq cmat) (val : seq (seq V)) (X : rfcc F V) : Prop :=
  exists D, [/\ reordered C D (fsp val), chain_wf D, ugood D (rf_RC X) &
                rf_val X = val /\ rf_perm X = fsp val].

Lemma rfcc_make_ugood opt D (val : seq (seq V)) perms : opt = StandardBasis \/ opt = ClearingBasis -> chain_wf D ->
  exists RC, rfcc_make O opt (FCC val D perms) = Ok (RFCC RC val perms) /\ ugood D RC.
Proof.
move=> Ho DW; rewrite /rfcc_make /=.
have [X [E I S G]] : exists X, [/\ rcc_of O opt D = Ok X,
     rc_I X = [seq hinds D k | k <- iota 0 (size D)],
     [/\ size (rc_R X) = size D, size (rc_U X) = size D & size (rc_p2c X) = size D] &
     forall k, (k < size D)%N ->
       urec (bmx D k) (bmx (rc_R X) k) (bmx (rc_U X) k) (nth [::] (rc_p2c X) k)].
  by case: Ho => ->; [apply: rcc_standard_spec | apply: rcc_clearingU_spec].
by exists X; rewrite E.
Qed.

Lemma rfcc_make_rfgood opt D (val : seq (seq V)) perms : chain_wf D ->
  exists RC, [/\ rfcc_make O opt (FCC val D perms) = Ok (RFCC RC val perms), rfgood D RC &
     rc_I RC = [seq hinds D k | k <- iota 0 (size D)]].
Proof.
move=> DW; rewrite /rfcc_make /=; have [X [E I [s1 s2] G]] := rcc_of_spec opt DW.
by exists X; rewrite E.
Qed.

Lemma aug_const_reordered (C D : seq cmat) perms : aug_const C -> perms_ok C perms ->
  reordered C D perms -> (0 < size C)%N -> chain_wf C -> chain_wf D -> aug_const D.
Proof.
move=> AC [s H] [sD RD] C0 CW DW i j j'; have [n m G] := RD 0%N C0; rewrite m => jn jn'.
have [P z] := H 0%N C0.
case: (ltnP i (nrow (bmx C 0))) => im; last first.
  have /andP[_ A] := chain_wf_nth 0 DW; rewrite n in A.
  have /and3P[_ B1 _] := nth_wf j A; have /and3P[_ B2 _] := nth_wf j' A.
  by rewrite (coef_ge B1 im) (coef_ge B2 im).
by rewrite !G //; apply: AC; rewrite -z is_perm_lt // z.
Qed.

Lemma rfcc_update_uinv (C : seq cmat) val newval X : chain_wf C -> (1 < size C)%N -> aug_const C ->
  vals_ok C val -> vals_ok C newval -> uinv C val X ->
  exists2 Y, rfcc_update O ltv v0 newval X = Ok Y & uinv C newval Y.
Proof.
move=> CW C2 AC VO VN [D [RO DW [GI [s1 s2 s3] G] [Ev Ep]]].
have PO := fsp_ok v0 VO; have PN := fsp_ok v0 VN.
rewrite /rfcc_update Ep (update_permsE PO PN) /=.
have [E [_ RN EW]] := fcc_make_spec v0 CW C2 AC VN.
have RU := reordered_uperms CW PO PN RO RN.
have [sD _] := RO; have [sE _] := RN.
have PU := perms_ok_reordered RO (uperms_ok PO PN).
have AD := aug_const_reordered AC PO RO (ltnW C2) CW DW.
have D2 : (1 < size D)%N by rewrite sD.
have [Y [EY IY [t1 t2 t3] GY]] := permute_basis_spec DW EW D2 AD PU RU (And3 s1 s2 s3) G.
rewrite EY /=; eexists; first by []; exists E; split=> //=.
rewrite /ugood sE -sD; split=> //; by rewrite IY.
Qed.

Lemma reordered_inj (C D E : seq cmat) perms : chain_wf D -> chain_wf E ->
  reordered C D perms -> reordered C E perms -> D = E.
Proof.
move=> DW EW [sD HD] [sE HE].
apply: (@eq_from_nth _ (CMat 0 0 [::])); first by rewrite sD sE.
move=> k; rewrite sD => kC; rewrite -/(bmx D k) -/(bmx E k).
have [a b c] := HD k kC; have [a' b' c'] := HE k kC.
have := chain_wf_nth k DW; have := chain_wf_nth k EW.
case: (bmx D k) a b c => nr nc cs /= -> -> c; case: (bmx E k) a' b' c' => nr' nc' cs' /= -> -> c'.
move=> /andP[/= /eqP s' w'] /andP[/= /eqP s w]; congr CMat.
apply: (@eq_from_nth _ [::]); first by rewrite s s'.
move=> j; rewrite s => jn.
have wj := nth_wf j w; have wj' := nth_wf j w'.
have /and3P[S1 B1 N1] := wj; have /and3P[S2 B2 N2] := wj'.
apply: sv_ext => // i; case: (ltnP i (nrow (bmx C k))) => im; first by rewrite c // c'.
by rewrite (coef_ge B1 im) (coef_ge B2 im).
Qed.

Lemma uinv_pairs (C : seq cmat) val X Y : chain_wf C -> vals_ok C val -> uinv C val X -> uinv C val Y ->
  [/\ rc_I (rf_RC X) = rc_I (rf_RC Y), rc_p2c (rf_RC X) = rc_p2c (rf_RC Y) &
   forall k permuted, (k < size C)%N -> exists2 ps,
      persistence_pairs inf X k permuted = Ok ps & persistence_pairs inf Y k permuted = Ok ps].
Proof.
move=> CW VO [D [RD DW GD [v1 p1]]] [E [RE EW GE [v2 p2]]].
have [sD HD] := RD; have [sE HE] := RE; have PO := fsp_ok v0 VO.
have ED : D = E := reordered_inj DW EW RD RE.
subst E; have [I1 [a1 a2 a3] G1] := GD; have [I2 [b1 b2 b3] G2] := GE.
have EP : rc_p2c (rf_RC X) = rc_p2c (rf_RC Y).
  apply: (@eq_from_nth _ [::]); rewrite a3 ?b3 // => k kD.
  have [[_ _ [_ _ P1 _]] _] := G1 k kD; have [[_ _ [_ _ P2 _]] _] := G2 k kD.
  exact: pivots_exact_inj P1 P2.
split=> //; first by rewrite I1 I2.
move=> k permuted kC; have kD : (k < size D)%N by rewrite sD.
have POD := perms_ok_reordered RD PO.
have VOD : vals_ok D val.
  by have [a b] := VO; split; rewrite ?sD // => k'; rewrite ?sD (reordered_ncol k' RD); apply: b.
case: X Y v1 p1 v2 p2 GD GE EP {I1 a1 a2 a3 G1 I2 b1 b2 b3 G2} => [RX vX pX] [RY vY pY] /= -> -> -> -> GD GE EP.
eexists; first exact: pairsE DW (ugood_rfgood GD) POD VOD kD.
by rewrite EP; exact: pairsE DW (ugood_rfgood GE) POD VOD kD.
Qed.

(** ** FilteredChainComplex::update_filtration *)
Lemma fcc_update_spec (C D : seq cmat) val newval : chain_wf C -> (1 < size C)%N -> aug_const C ->
  vals_ok C val -> vals_ok C newval -> reordered C D (fsp val) -> chain_wf D ->
  exists D', [/\ fcc_update ltv v0 newval (FCC val D (fsp val)) = Ok (FCC newval D' (fsp newval)), chain_wf D' &
     reordered D D' [seq ipl u | u <- uperms (fsp val) (fsp newval)]].
Proof.
move=> CW C2 AC VO VN RO DW; have PO := fsp_ok v0 VO; have PN := fsp_ok v0 VN.
have [sD _] := RO; have AD := aug_const_reordered AC PO RO (ltnW C2) CW DW.
have PU := perms_ok_reordered RO (uperms_ok PO PN).
rewrite /fcc_update /= (update_permsE PO PN) /=.
have D2 : (1 < size D)%N by rewrite sD.
have [D' [E R W]] := cc_permute_spec DW D2 AD PU.
by rewrite E /=; exists D'.
Qed.

Lemma fcc_update_invol (C D : seq cmat) val newval : chain_wf C -> (1 < size C)%N -> aug_const C ->
  vals_ok C val -> vals_ok C newval -> fcc_make ltv v0 val C = Ok (FCC val D (fsp val)) ->
  (forall k i, (k < size C)%N -> (i < ncol (bmx C k))%N ->
     let p := sortperm ltv v0 (nth [::] val k) in let q := sortperm ltv v0 (nth [::] newval k) in
     index (nth 0%N q (index (nth 0%N q i) p)) p = i) ->
  fcc_update ltv v0 newval (FCC val D (fsp val)) = fcc_make ltv v0 newval C.
Proof.
move=> CW C2 AC VO VN E I; have PO := fsp_ok v0 VO; have PN := fsp_ok v0 VN.
have [D1 [E1 RO DW]] := fcc_make_spec v0 CW C2 AC VO.
have ? : D1 = D by move: E1; rewrite E => -[].
subst D1; have [D' [-> DW' RU]] := fcc_update_spec CW C2 AC VO VN RO DW.
have [E' [-> RN EW]] := fcc_make_spec v0 CW C2 AC VN.
have RE := reordered_uperms CW PO PN RO RN.
suff EU : [seq ipl u | u <- uperms (fsp val) (fsp newval)] = uperms (fsp val) (fsp newval).
  by rewrite EU in RU; rewrite (reordered_inj DW' EW RU RE).
have [s1 H1] := PO; have [s2 H2] := PN; have [sU HU] := uperms_ok PO PN.
apply: (@eq_from_nth _ [::]); first by rewrite size_map.
move=> k; rewrite size_map sU => kC; rewrite (nth_map [::]) ?sU //.
have [P1 z1] := H1 k kC; have [P2 z2] := H2 k kC; have [PU zU] := HU k kC.
have [sV VS] := VO; have [sN NS] := VN.
apply: (@eq_from_nth _ 0%N); first by rewrite size_ipl.
move=> i; rewrite size_ipl zU => il; rewrite nth_ipl ?zU //.
have UE j : (j < ncol (bmx C k))%N -> nth 0%N (nth [::] (uperms (fsp val) (fsp newval)) k) j =
   index (nth 0%N (nth [::] (fsp newval) k) j) (nth [::] (fsp val) k).
  move=> jl; rewrite (nth_map 0%N) ?size_iota ?s1 // nth_iota ?s1 // add0n uperm_nth ?z2 // nth_ipl // z1 -z2.
  by rewrite is_perm_lt ?z2.
have lt : (index (nth 0%N (nth [::] (fsp newval) k) i) (nth [::] (fsp val) k) < ncol (bmx C k))%N.
  by rewrite -z1 is_perm_index // z1 -z2 is_perm_lt ?z2.
rewrite UE //; set w := index _ _ in lt *.
have iu : nth 0%N (nth [::] (uperms (fsp val) (fsp newval)) k) w = i.
  by rewrite UE // /w !fsp_nth ?sV ?sN // I.
by rewrite -{1}iu index_uniq ?is_perm_uniq ?zU.
Qed.

End H.
