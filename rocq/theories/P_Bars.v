(** Partition of the cells into births and deaths, representatives, monotone filtrations. *)
From mathcomp Require Import all_ssreflect all_algebra zify.
From Verif Require Import Outcome P_Outcome RingTac M_SparseVec M_Perm M_ColMatrix M_Reduce M_Homology
  M_Persist S_Linalg P_SparseVec P_Pairing P_Reduce S_Perm P_Perm P_PermMx S_Homology S_Persist
  P_Homology P_Betti P_Update P_Extra P_Chain P_Sort P_Persist P_Pairs P_UpdFilt.
Set Implicit Arguments.
Unset Strict Implicit.
Unset Printing Implicit Defensive.
Import GRing.Theory Order.TTheory.
Local Open Scope ring_scope.

Section H.
Variable F : fieldType.
Notation O := (ops_of F).
Notation svec := (svec F).
Notation cmat := (cmat F).
Variables (disp : unit) (V : orderType disp) (v0 inf : V).
Notation ltv := (fun x y : V => (x < y)%O).
Notation fsp := (filtration_sortperm ltv v0).

Lemma pivot_inj m n (B : 'M[F]_(m, n)) (U : 'M[F]_n) (i i' : 'I_m) (j : 'I_n) :
  upper U -> diagn0 U -> reduced (B *m U) -> is_pivot B i j -> is_pivot B i' j -> i = i'.
Proof.
move=> a b c; rewrite !(pivot_low _ _ a b c) => /lowP L /lowP L'; exact: low_unique L L'.
Qed.

Lemma bmx1_reduction (D : seq cmat) k : chain_wf D ->
  exists U, [/\ upper U, diagn0 U & reduced (mx (bmx1 D k) *m U)].
Proof.
move=> DW; have [W _] := bmx1_wf k DW; have [U [a b c]] := reduction_exists W.
by exists U; split=> //; apply: diag1_n0.
Qed.

Definition brows (D : seq cmat) k : seq nat :=
  [seq i <- iota 0 (ncol (bmx D k)) | ~~ pcol (mx (bmx D k)) i].

Lemma mem_brows D k i : (i \in brows D k) = ~~ pcol (mx (bmx D k)) i && (i < ncol (bmx D k))%N.
Proof. by rewrite mem_filter mem_iota add0n. Qed.
Lemma uniq_brows D k : uniq (brows D k). Proof. by rewrite filter_uniq // iota_uniq. Qed.

Lemma mem_deaths (D : seq cmat) RC k j : chain_wf D -> rfgood D RC -> (k < size D)%N ->
  (j \in pmap (epiv (rc_p2c RC) k) (brows D k)) = (j < ncol (bmx D k.+1))%N && pcol (mx (bmx1 D k)) j.
Proof.
move=> DW RG kD; rewrite mem_pmap; apply/mapP/andP => [[i]|[jn /existsP[i pv]]].
  rewrite mem_brows => /andP[_ il] /esym/(epivE _ DW RG kD il)/andP[jn pv]; split=> //.
  by apply/existsP; exists (Ordinal il).
have E : epiv (rc_p2c RC) k i = Some j by apply/(epivE _ DW RG kD (ltn_ord i)); rewrite jn.
exists (i : nat); last by rewrite E.
rewrite mem_brows ltn_ord andbT.
have [WD ZD] := bmx1_wf k DW.
have [V1 [u1 d1 r1]] := reduction_exists (chain_wf_nth k DW).
have [V2 [u2 d2 r2]] := reduction_exists WD.
apply: (pivots_disjoint ZD u1 (diag1_n0 d1) r1 u2 (diag1_n0 d2) r2).
by apply/existsP; exists (Ordinal jn).
Qed.

Lemma uniq_deaths (D : seq cmat) RC k : chain_wf D -> rfgood D RC -> (k < size D)%N ->
  uniq (pmap (epiv (rc_p2c RC) k) (brows D k)).
Proof.
move=> DW RG kD; have [U [a b c]] := bmx1_reduction k DW.
have := uniq_brows D k; have : {subset brows D k <= [pred i | (i < ncol (bmx D k))%N]}.
  by move=> i; rewrite mem_brows => /andP[].
elim: (brows D k) => //= i s IH sub /andP[ni us].
have il : (i < ncol (bmx D k))%N by apply: (sub i); rewrite mem_head.
have IH' : uniq (pmap (epiv (rc_p2c RC) k) s) by apply: IH => // x xs; apply: sub; rewrite inE xs orbT.
case E: (epiv _ k i) => [j|] //=; rewrite IH' andbT mem_pmap; apply/mapP => -[i' si' E'].
have il' : (i' < ncol (bmx D k))%N by apply: (sub i'); rewrite inE si' orbT.
have /andP[jn p1] := (epivE j DW RG kD il).1 E.
have /andP[_ p2] := (epivE j DW RG kD il').1 (esym E').
have /(congr1 val)/= Ei := @pivot_inj _ _ _ _ (Ordinal il) (Ordinal il') (Ordinal jn) a b c p1 p2.
by move: ni; rewrite Ei si'.
Qed.

(** births of dimension k+1 and deaths from dimension k are the (k+1)-cells *)
Lemma births_deaths (D : seq cmat) RC k : chain_wf D -> rfgood D RC -> (k.+1 < size D)%N ->
  perm_eq (brows D k.+1 ++ pmap (epiv (rc_p2c RC) k) (brows D k)) (iota 0 (ncol (bmx D k.+1))).
Proof.
move=> DW RG kD; have kD' := ltnW kD.
have PC j : pcol (mx (bmx1 D k)) j = pcol (mx (bmx D k.+1)) j.
  have [_ _ DD] := DW; have [En _] := DD k kD; by rewrite /bmx1 -En; case: (bmx D k.+1).
apply: uniq_perm; rewrite ?iota_uniq // ?cat_uniq ?uniq_brows ?uniq_deaths //.
  rewrite andTb andbT; apply/hasPn => j; rewrite mem_deaths // PC => /andP[_ p].
  by apply/negP => h; move: (h : j \in brows D k.+1); rewrite mem_brows p.
move=> j; rewrite mem_cat mem_deaths // mem_brows PC mem_iota add0n leq0n /=.
by case: (pcol _ j); rewrite ?andbT ?andbF ?orbF.
Qed.

Lemma death_inds_E val perms p2c k permuted s :
  pmap (@pp_death_ind V) [seq mkpair v0 inf val perms p2c k permuted i | i <- s] =
  [seq (if permuted then j else nth 0%N (nth [::] perms k.+1) j) | j <- pmap (epiv p2c k) s].
Proof. by elim: s => //= i s ->; case: (epiv p2c k i). Qed.

Lemma map_perm_iota p : is_perm p -> perm_eq [seq nth 0%N p i | i <- iota 0 (size p)] (iota 0 (size p)).
Proof. by move=> P; rewrite -/(mkseq _ _) mkseq_nth. Qed.

Lemma map_choose (permuted : bool) p s : (forall i, i \in s -> (i < size p)%N) ->
  is_perm p -> perm_eq s (iota 0 (size p)) ->
  perm_eq [seq (if permuted then i else nth 0%N p i) | i <- s] (iota 0 (size p)).
Proof.
move=> H P E; case: permuted; first by rewrite map_id.
by apply: perm_trans (perm_map _ E) _; apply: map_perm_iota.
Qed.

Lemma pairs_partition (D : seq cmat) RC val perms k permuted :
  chain_wf D -> rfgood D RC -> perms_ok D perms -> vals_ok D val -> (k.+1 < size D)%N ->
  exists ps ps1, [/\ persistence_pairs inf (RFCC RC val perms) k permuted = Ok ps,
    persistence_pairs inf (RFCC RC val perms) k.+1 permuted = Ok ps1 &
    perm_eq ([seq pp_birth_ind p | p <- ps1] ++ pmap (@pp_death_ind V) ps) (iota 0 (ncol (bmx D k.+1)))].
Proof.
move=> DW RG PO VO kD; have kD' := ltnW kD; have [Pk sk] := PO.2 _ kD.
exists [seq mkpair v0 inf val perms (rc_p2c RC) k permuted i | i <- brows D k],
       [seq mkpair v0 inf val perms (rc_p2c RC) k.+1 permuted i | i <- brows D k.+1].
split; [exact: pairsE DW RG PO VO kD' | exact: pairsE DW RG PO VO kD |].
rewrite death_inds_E -map_comp /= -map_cat -sk; apply: map_choose => //.
  by move=> i; rewrite (perm_mem (births_deaths DW RG kD)) mem_iota sk.
by rewrite sk births_deaths.
Qed.

Lemma pairs_bottom (D : seq cmat) RC val perms permuted :
  chain_wf D -> rfgood D RC -> perms_ok D perms -> vals_ok D val -> mx (bmx D 0) = 0 ->
  exists ps, persistence_pairs inf (RFCC RC val perms) 0 permuted = Ok ps /\
    perm_eq [seq pp_birth_ind p | p <- ps] (iota 0 (ncol (bmx D 0))).
Proof.
move=> DW RG PO VO Z; have kD : (0 < size D)%N by case: DW.
have [Pk sk] := PO.2 _ kD.
eexists; split; first exact: pairsE DW RG PO VO kD.
have -> : [seq i <- iota 0 (ncol (bmx D 0)) | ~~ pcol (mx (bmx D 0)) i] = iota 0 (ncol (bmx D 0)).
  apply/all_filterP/allP => j; rewrite mem_iota add0n => /andP[_ jn].
  rewrite Z; apply/existsP => -[i].
  have z a b : rll (0 : 'M[F]_(nrow (bmx D 0), ncol (bmx D 0))) a b = 0%N.
    rewrite /rll (_ : lowerleft _ _ _ = 0) ?mxrank0 //.
    by apply/matrixP => x y; rewrite !mxE; case: ifP.
  by rewrite /is_pivot !z.
rewrite -map_comp /= -sk; apply: map_choose => //; by move=> i; rewrite mem_iota.
Qed.

(** values and indices of the pairs agree *)
Lemma pairs_values (D : seq cmat) RC val k ps :
  chain_wf D -> rfgood D RC -> perms_ok D (fsp val) -> vals_ok D val -> (k < size D)%N ->
  persistence_pairs inf (RFCC RC val (fsp val)) k false = Ok ps ->
  all (fun p : ppair V => [&& pp_dim p == k, (pp_birth_ind p < ncol (bmx D k))%N,
     pp_birth p == nth v0 (nth [::] val k) (pp_birth_ind p) &
     if pp_death_ind p is Some j
     then (j < ncol (bmx D k.+1))%N && (pp_death p == nth v0 (nth [::] val k.+1) j)
     else pp_death p == inf]) ps.
Proof.
move=> DW RG PO VO kD; rewrite (pairsE v0 inf false DW RG PO VO kD) => -[<-].
have [Pk sk] := PO.2 _ kD.
rewrite all_map; apply/allP => i; rewrite -/(brows D k) mem_brows => /andP[_ il] /=.
rewrite /mkpair /= eqxx /=; rewrite -{1}sk is_perm_lt ?sk // eqxx /=.
case E: (epiv _ k i) => [j|] //; have [k1 jn] := epiv_lt DW RG kD il E; have [P1 s1] := PO.2 _ k1.
by rewrite eqxx andbT -{1}s1 is_perm_lt ?s1.
Qed.

(** a filtration by subcomplexes: no cell comes before one in its boundary *)
Lemma pairs_monotone (C D : seq cmat) RC val k permuted ps :
  chain_wf C -> chain_wf D -> rfgood D RC -> vals_ok C val -> reordered C D (fsp val) -> (k < size C)%N ->
  (forall i j, (k.+1 < size C)%N -> (i < ncol (bmx C k))%N -> (j < ncol (bmx C k.+1))%N ->
     coef (nth [::] (cols (bmx C k.+1)) j) i != 0 ->
     (nth v0 (nth [::] val k) i <= nth v0 (nth [::] val k.+1) j)%O) ->
  (forall x, (x <= inf)%O) ->
  persistence_pairs inf (RFCC RC val (fsp val)) k permuted = Ok ps ->
  all (fun p : ppair V => (pp_birth p <= pp_death p)%O) ps.
Proof.
move=> CW DW RG VO RO kC MO TI; have PO := fsp_ok v0 VO.
have kD : (k < size D)%N by case: RO => ->.
have nc k' := reordered_ncol k' RO.
have POD := perms_ok_reordered RO PO.
have VOD : vals_ok D val.
  by have [a b] := VO; have [s _] := RO; split; rewrite ?s // => k'; rewrite ?s nc; apply: b.
rewrite (pairsE v0 inf permuted DW RG POD VOD kD) => -[<-].
rewrite all_map; apply/allP => i; rewrite -/(brows D k) mem_brows => /andP[_ il] /=.
case E: (epiv _ k i) => [j|] //.
have [k1 jn] := epiv_lt DW RG kD il E; have /andP[_ pv] := (epivE j DW RG kD il).1 E.
have [U [a b c]] := bmx1_reduction k DW.
have : is_pivot (mx (bmx1 D k)) (Ordinal il) (Ordinal jn) by [].
rewrite (pivot_low _ _ a b c) => /lowP[+ _]; rewrite mxE => H.
have [j' /andP[lt N]] : exists j' : 'I_(ncol (bmx D k.+1)), (j' <= j)%N && (mx (bmx1 D k) (Ordinal il) j' != 0).
  apply/existsP; apply: contraNT H; rewrite negb_exists => /forallP N; apply/eqP; apply: big1 => j' _.
  move: (N j'); case: (leqP j' j) => /= [_ /negPn/eqP ->|lt _]; first by rewrite mul0r.
  by rewrite a ?mulr0.
have [sV VS] := VO; have [sD RE] := RO; rewrite sD in k1.
have [_ _ RK] := RE _ k1.
have jn' : (j' < ncol (bmx C k.+1))%N by rewrite -nc.
have [_ _ CC] := CW; have [En _] := CC k k1.
have il' : (i < nrow (bmx C k.+1))%N by rewrite En -nc.
move: N; rewrite mxE /= RK // => N.
have [Pk sk] := PO.2 _ kC; have [Pk1 sk1] := PO.2 _ k1.
have l1 : (nth 0%N (nth [::] (fsp val) k) i < ncol (bmx C k))%N by rewrite -sk is_perm_lt // sk -En.
have l2 : (nth 0%N (nth [::] (fsp val) k.+1) j' < ncol (bmx C k.+1))%N by rewrite -sk1 is_perm_lt // sk1.
apply: le_trans (MO _ _ k1 l1 l2 N) _.
by rewrite fsp_nth ?sV //; apply: sortperm_le; rewrite // VS // -nc.
Qed.

(** representatives *)
Lemma representative_spec opt (C : seq cmat) val k ps p :
  chain_wf C -> (1 < size C)%N -> aug_const C -> vals_ok C val -> has_basis opt -> (k < size C)%N ->
  forall fc X, fcc_make ltv v0 val C = Ok fc -> rfcc_make O opt fc = Ok X ->
  persistence_pairs inf X k false = Ok ps -> List.In p ps ->
  exists w, [/\ representative X p false = Ok w, sv_wf (ncol (bmx C k)) w,
     mx (bmx C k) *m vec (ncol (bmx C k)) w = 0, coef w (pp_birth_ind p) != 0 &
     forall i, coef w i != 0 -> (nth v0 (nth [::] val k) i <= pp_birth p)%O].
Proof.
move=> CW C2 AC VO hb kC fc X.
have [D [-> RO DW]] := fcc_make_spec v0 CW C2 AC VO => -[<-]; rewrite /rfcc_make /=.
have [X0 [E0 I0 [s1 s2] G0]] := rcc_of_spec opt DW.
have [X1 [E1 sU GU]] := rcc_of_basis DW hb.
rewrite E0 /= => -[<-].
have EX : X0 = X1 by move: E1; rewrite E0 => -[].
rewrite -{}EX {X1 E1} in sU GU.
have RG : rfgood D X0 by [].
have PO := fsp_ok v0 VO; have POD := perms_ok_reordered RO PO.
have nc k' := reordered_ncol k' RO.
have VOD : vals_ok D val.
  by have [a b] := VO; have [s _] := RO; split; rewrite ?s // => k'; rewrite ?s nc; apply: b.
have kD : (k < size D)%N by case: RO => ->.
rewrite (pairsE v0 inf false DW RG POD VOD kD) => -[<-].
rewrite -/(brows D k) => /List.in_map_iff[i [<- Hi]] {p}.
have : i \in brows D k by elim: (brows D k) Hi => //= x s IH [->|/IH h]; rewrite inE ?eqxx ?h ?orbT.
rewrite mem_brows => /andP[npc il].
have [nU mU WU [W [Wu Wd EW NZ]]] := GU k kD.
have [Pk sk] := PO.2 _ kC; have [sV VS] := VO.
have fk : nth [::] (fsp val) k = sortperm ltv v0 (nth [::] val k) by rewrite fsp_nth ?sV.
set p := nth [::] (fsp val) k in Pk sk fk.
have pl : (nth 0%N p i < ncol (bmx C k))%N by rewrite -sk is_perm_lt // sk -nc.
have sz : size (cols (bmx (rc_U X0) k)) = ncol (bmx C k) by case/andP: WU => /eqP -> _; rewrite mU nc.
have wfi : sv_wf (ncol (bmx C k)) (nth [::] (cols (bmx (rc_U X0) k)) i).
  by case/andP: WU => _; rewrite nU nc => /(nth_wf i).
rewrite /representative /= /mkpair /= (oget_nth (CMat 0 0 [::])) ?sU //= -/(bmx _ k).
rewrite (@oget_nth svec [::]) ?sz //= (oget_nth [::]) ?size_map ?sV //= -/p.
rewrite index_uniq ?is_perm_uniq ?sk -?nc // (@oget_nth svec [::]) ?sz -?nc //=.
have [w [E Ww Cw]] := sv_permuteE Pk sk wfi; exists w; rewrite E; split=> //.
- (* cycle *)
  apply/colP => r; rewrite !mxE.
  have [PD sD] := POD.2 _ kD; rewrite -/p in PD sD.
  have [sDC RE] := RO; have [En Em RK] := RE k kC.
  pose z := mx (bmx D k) *m W.
  have Z h : z h (Ordinal il) = 0.
    have := NZ (Ordinal il); have [_ _ [_ _ _ ->]] := G0 k kD => //.
    rewrite -/(pcol _ _) npc => e; by apply: nzcolN; rewrite -e.
  have [r' Hr Er] : exists2 r', (r' < nrow (bmx C k))%N & (if k is k'.+1 then nth 0%N (nth [::] (fsp val) k') r' else r') = r.
    move: (ltn_ord r); move: (nat_of_ord r) kC; clear -CW PO; case: k => [|k'] x kC xl; first by exists x.
    have [_ _ CC] := CW; have [En' _] := CC k' kC; have [P' s'] := PO.2 _ (ltnW kC).
    have rl : (x < size (nth [::] (fsp val) k'))%N by rewrite s' -En'.
    exists (index x (nth [::] (fsp val) k')); last by rewrite is_perm_nth_index.
    by rewrite En' -s' is_perm_index.
  have Hr' : (r' < nrow (bmx D k))%N by rewrite En.
  have := Z (Ordinal Hr'); rewrite /z !mxE => Z0; rewrite -[RHS]Z0.
  pose f (j : 'I_(ncol (bmx D k))) : 'I_(ncol (bmx C k)) := cast_ord (nc k) (pord PD sD j).
  have fi : injective f.
    move=> x y /(congr1 (@nat_of_ord _))/= e; apply/val_inj; apply: (is_perm_inj PD _ _ e); by rewrite sD.
  rewrite (reindex_onto f (fun j => odflt (Ordinal il) [pick x | f x == j])) /=; last first.
    move=> j _; case: pickP => [x /eqP //|] H.
    have [x Ex] := pord_bij PD sD (cast_ord (esym (nc k)) j).
    by move: (H x); rewrite /f Ex cast_ordKV eqxx.
  apply: eq_big => [j|j _].
    by case: pickP => [x /eqP/fi ->|/(_ j)]; rewrite eqxx.
  rewrite !mxE -Er -RK ?ltn_ord //=; last by rewrite -nc.
  by rewrite Cw -?nc // -EW mxE.
- by rewrite Cw -?nc //; have := Wd (Ordinal il); rewrite -EW mxE.
move=> x; case: (ltnP x (ncol (bmx C k))) => xl; last first.
  by have /and3P[_ B _] := Ww; rewrite (coef_ge B xl) eqxx.
have xp : (x < size p)%N by rewrite sk.
rewrite -(is_perm_nth_index Pk xp); set y := index x p.
have yl : (y < ncol (bmx C k))%N by rewrite -sk is_perm_index.
rewrite Cw // => N; rewrite fk; apply: sortperm_le; last by rewrite VS // -nc.
rewrite leqNgt; apply/negP => lt; move: N.
have yl' : (y < ncol (bmx D k))%N by rewrite nc.
by have := Wu (Ordinal yl') (Ordinal il) lt; rewrite -EW mxE /= => ->; rewrite eqxx.
Qed.

End H.
