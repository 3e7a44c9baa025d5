(** C37: remove_extra_cycles and the homology-revealing basis.  C38: sparsify_basis. *)
From mathcomp Require Import all_ssreflect all_algebra zify.
From Verif Require Import Outcome P_Outcome M_SparseVec M_Perm M_ColMatrix M_Reduce M_Homology M_Induced M_Sparsify
  S_Linalg S_Perm S_Homology S_Induced P_SparseVec P_Pairing P_Reduce P_ColMatrix P_Homology P_Betti P_Rep P_Induced P_Cycles P_Sparsify Props_Induced.
Set Implicit Arguments.
Unset Strict Implicit.
Unset Printing Implicit Defensive.
Import GRing.Theory.
Local Open Scope ring_scope.

(** C37. For R = B U with U upper triangular and invertible: the new U is still upper triangular with the same
    diagonal, still gives R, and of the entries above the diagonal that stand in the row of a zero column of R
    at most the topmost one of each column is left *)
Theorem C37_remove_extra_cycles (F : fieldType) (m n : nat) (Rc Uc : seq (svec F)) :
  let R := CMat m n Rc in let U := CMat n n Uc in
  cm_wf R -> cm_wf U -> upper (mx U) -> diagn0 (mx U) ->
  exists Uc', let U' := CMat n n Uc' in
    [/\ remove_extra_cycles (ops_of F) R U = Ok U', cm_wf U',
        upper (mx U') /\ (forall j, mx U' j j = mx U j j),
        forall (B : 'M[F]_(m, n)), mx R = B *m mx U -> mx R = B *m mx U' &
        forall (i k j : 'I_n), (k < j)%N -> col k (mx R) = 0 -> mx U' k j != 0 -> (i < k)%N -> mx U' i j = 0].
Proof.
move=> R U WR WU Uu Ud.
have [Uc' [E UD [W [Wu Wd EW RW]] HT]] := @remove_extra_cyclesE F R U WR WU erefl erefl Uu Ud.
exists Uc' => /=; have [s A _] := UD; have uU := udiag_upper UD.
split=> //.
- by rewrite /cm_wf /= s eqxx.
- by split=> // j; rewrite /mx /= EW diag_mul // Wd mulr1.
- move=> B EB; rewrite [mx (CMat n n Uc')]/mx /= EW mulmxA.
  by rewrite -[mxc n n Uc]/(mx U) -EB; exact/esym/RW.
move=> i k j kj Rk; rewrite !mxE /= => nz ik.
have [h [T [Eu sh Tp]]] := HT j (ltn_ord j).
have /and3P[Sj _ Nj] := nth_wf j A.
have /cm_wfP[sR AR] := WR.
have Rk0 : nth [::] Rc k = [::].
  have Wk := nth_wf k AR; have /and3P[Sk Bk Nk] := Wk.
  apply: (@sv_ext F _ [::]) => // a; rewrite coef_nil; case: (ltnP a m) => am; last by rewrite (coef_ge Bk).
  by move/colP/(_ (Ordinal am)): Rk; rewrite !mxE.
have := coef_neq0_in nz => /mapP[[k' v] pin /= ek]; subst k'.
move: pin; rewrite Eu mem_cat => /orP[ph|/Tp[/= e|/= //]]; last by move: kj; rewrite e ltnn.
case: h Eu sh ph => [//|q [|//]] Eu _; rewrite mem_seq1 => /eqP eq; subst q.
apply: coef0_notin; rewrite /= in_cons negb_or; move: Sj; rewrite Eu /= sv_sorted_cons => /andP[kT _].
rewrite ltn_eqF //=; apply/negP => iT; have /= := allP kT _ iT; move: ik; clear; lia.
Qed.

(** C37, the reading of the doc comment that is false: an entry in the row of a zero column can stay *)
Theorem C37_leftover : exists (R U U' : cmat F2) (k j : nat),
  [/\ cm_wf R, cm_wf U, remove_extra_cycles (ops_of F2) R U = Ok U', (k < j)%N &
      nth [::] (cols R) k = [::] /\ entry U' k j != 0].
Proof.
pose R : cmat F2 := CMat 1 2 [:: [::]; [::]].
pose U : cmat F2 := CMat 2 2 [:: [:: (0%N, 1)]; [:: (0%N, 1); (1%N, 1)]].
exists R, U, U, 0%N, 1%N; split=> //.
split; [by []|by rewrite /entry [nth _ _ _]/= coef_cons coef_cons coef_nil].
Qed.

(** C37. After remove_extra_cycles a reduced chain complex still answers chain_preferred_representative correctly,
    with the same generators and reduced matrices *)
Lemma rcc_remove_factored (F : fieldType) (C : seq (cmat F)) X : chain_wf C -> factored C X ->
  exists2 X', rcc_remove_extra_cycles (ops_of F) X = Ok X' &
    [/\ rc_R X' = rc_R X, rc_I X' = rc_I X, rc_p2c X' = rc_p2c X & factored C X'].
Proof.
move=> CW FX; have [EI [sR sU sp] G] := FX; rewrite /rcc_remove_extra_cycles sR.
have [||U -> [sU' G']] := ofold_iota_ind (g := fun U k => do Rk <- oget (rc_R X) k; do Uk <- oget U k;
                   do Uk' <- remove_extra_cycles (ops_of F) Rk Uk; oset U k Uk') (a := rc_U X) (n := size C)
  (P := fun _ (U : seq (cmat F)) => size U = size C /\
     forall k, (k < size C)%N -> urec (bmx C k) (bmx (rc_R X) k) (bmx U k) (nth [::] (rc_p2c X) k)).
- by split.
- move=> k U kC [s H]; rewrite (oget_nth (CMat 0 0 [::])) ?sR //; cbn [obind].
  rewrite (oget_nth (CMat 0 0 [::])) ?s //; cbn [obind]; rewrite -!/(bmx _ _).
  have := H k kC; case EU: (bmx U k) => [nu cu Uc]; case ER: (bmx (rc_R X) k) => [nr cr Rc].
  move=> [[/= nR cR pg] [/= nU cU WU WR [V [Vu Vd EV RV red]]]]; subst nu cu nr cr.
  rewrite -EV in Vu Vd.
  have [Uc' [/= E UD [W [Wu Wd EW RW]] _]] := @remove_extra_cyclesE F _ _ WR WU erefl erefl Vu Vd.
  rewrite E; cbn [obind]; rewrite (oset_Ok (CMat 0 0 [::])) ?s //; eexists; first by [].
  split; first by rewrite size_set_nth s; apply/maxn_idPr.
  move=> i iC; rewrite /bmx nth_set_nth /=; case: eqP => [->|_]; last exact: H.
  have [s' A _] := UD; rewrite -!/(bmx _ _) ER; split=> //; split=> //=; first by rewrite /cm_wf /= s' eqxx.
  exists (V *m W); rewrite -EV; split=> //.
  + exact: upper_mul.
  + by move=> j; rewrite diag_mul // Wd mulr1.
  by rewrite mulmxA EV -RV; exact/esym/RW.
cbn [obind]; eexists; first by []. by split.
Qed.

Theorem C37_rcc (F : fieldType) opt (C : seq (cmat F)) : opt = ClearingBasis \/ opt = StandardBasis -> chain_wf C ->
  exists X X', [/\ rcc_of (ops_of F) opt C = Ok X, rcc_remove_extra_cycles (ops_of F) X = Ok X',
    [/\ rc_R X' = rc_R X, rc_I X' = rc_I X & rc_p2c X' = rc_p2c X] &
    forall k, (k < size C)%N ->
     [/\ forall j, (j < size (gens X' k))%N -> exists v,
           [/\ get_preferred_representative X' j k = Ok v, sv_wf (ncell C k) v & cycle (vec (ncell C k) v)],
         (forall z : 'cV[F]_(ncell C k), cycle z ->
            exists h, homologous z (repmx (ncell C k) X' k *m h) /\
              forall h', homologous z (repmx (ncell C k) X' k *m h') -> h' = h) &
         forall c, sv_wf (ncell C k) c -> exists c',
          [/\ chain_preferred (ops_of F) X' c k = Ok c', sv_wf (ncell C k) c',
              homologous (vec (ncell C k) c') (vec (ncell C k) c) &
              cycle (vec (ncell C k) c) -> exists h, vec (ncell C k) c' = repmx (ncell C k) X' k *m h]]].
Proof.
move=> ho CW; have [X E FX] := rcc_of_factored ho CW; have [X' E' [e1 e2 e3 FX']] := rcc_remove_factored CW FX.
exists X, X'; split=> // k kC; have RX := factored_rep FX'.
split.
- move=> j lj; have [EI sU /(_ k kC)[Uc [EU WU Uu Ud HU]]] := RX.
  have := mem_nth 0%N lj; set i := nth _ _ _; rewrite (gens_filter CW RX kC) mem_filter mem_iota leq0n add0n.
  move=> /andP[/andP[np _] lt]; rewrite /= in lt.
  have /cm_wfP[/= s W] := WU; exists (nth [::] Uc i); split.
  + rewrite /get_preferred_representative (@oget_nth _ (CMat 0 0 [::])) ?sU // -/(bmx _ _) EU; cbn [obind cols].
    rewrite (oget_nth [::]) ?EI ?size_map ?size_iota //; cbn [obind]; rewrite -EI -/(gens X' k).
    by rewrite (oget_nth 0%N) //; cbn [obind]; rewrite (@oget_nth _ [::]) ?s.
  + exact: nth_wf.
  have := HU (Ordinal lt) np => e; apply: etrans e; congr (_ *m _); by apply/colP => a; rewrite !mxE.
- by move=> z; apply: reps_basis RX kC _.
move=> c Wc; have [c' [dc [Ec Wc' Hc Uc Zc]]] := chain_preferredE CW FX' kC Wc.
exists c'; split=> // Z; have Z' := homologous_cycle CW kC (homologous_sym Hc) Z.
rewrite Uc in Z'; have [_ H] := cleared_cycle CW FX' kC Z' Zc.
have gm (j : 'I_(size (gens X' k))) : (nth 0%N (gens X' k) j < ncell C k)%N.
  have := mem_nth 0%N (ltn_ord j); set i := nth _ _ _.
  by rewrite (gens_filter CW (factored_rep FX') kC) mem_filter mem_iota => /andP[_ /andP[_]]; rewrite add0n.
exists (\col_j dc (Ordinal (gm j)) 0); rewrite Uc; apply: H => j i Ei; rewrite mxE.
by congr (dc _ _); apply: val_inj.
Qed.

(** C37. to_hom_basis and from_hom_basis are mutually inverse on k-chains *)
Theorem C37_hom_basis (F : fieldType) opt (C : seq (cmat F)) : opt = ClearingBasis \/ opt = StandardBasis -> chain_wf C ->
  exists X, rcc_of (ops_of F) opt C = Ok X /\
    forall k, (k < size C)%N -> forall c, sv_wf (ncell C k) c ->
      (exists x, [/\ to_hom_basis (ops_of F) X c k = Ok x, sv_wf (ncell C k) x & from_hom_basis (ops_of F) X x k = Ok c]) /\
      (exists x, [/\ from_hom_basis (ops_of F) X c k = Ok x, sv_wf (ncell C k) x & to_hom_basis (ops_of F) X x k = Ok c]).
Proof.
move=> ho CW; have [X E FX] := rcc_of_factored ho CW; exists X; split=> // k kC c Wc.
have [EU nU cU WU [Uu Ud]] := uok FX kC.
have from y : sv_wf (ncell C k) y -> exists z, [/\ gemv (ops_of F) (bmx (rc_U X) k) y = Ok z,
    sv_wf (ncell C k) z & vec (ncell C k) z = umx C X k *m vec (ncell C k) y].
  move=> Wy; have By : sv_below (ncol (bmx (rc_U X) k)) y by rewrite cU; have /and3P[] := Wy.
  by have [z [Ez Wz Hz]] := gemvE WU By; exists z; move: Wz Hz; rewrite /umx /mx nU cU.
rewrite /to_hom_basis /from_hom_basis EU; cbn [obind]; split.
  have [x [Ex Wx Hx]] := solve_umx FX kC Wc; have [z [Ez Wz Hz]] := from x Wx.
  exists x; split=> //; rewrite Ez; congr Ok; apply: (vec_inj Wz Wc); by rewrite Hz.
have [z [Ez Wz Hz]] := from c Wc; have [x [Ex Wx Hx]] := solve_umx FX kC Wz.
exists z; split=> //; rewrite Ex; congr Ok; apply: (vec_inj Wx Wc).
have un : umx C X k \in unitmx by exact: upper_unit.
by rewrite -[LHS](mulKmx un) Hx Hz mulKmx.
Qed.

(** C37: a case with an elimination *)
Theorem C37_nonvacuous : exists (R U U' : cmat F2),
  [/\ cm_wf R, cm_wf U, remove_extra_cycles (ops_of F2) R U = Ok U', entry U 1 2 != 0 & entry U' 1 2 = 0].
Proof.
pose R : cmat F2 := CMat 1 3 [:: [::]; [::]; [::]].
pose U : cmat F2 := CMat 3 3 [:: [:: (0%N, 1)]; [:: (1%N, 1)]; [:: (0%N, 1); (1%N, 1); (2%N, 1)]].
exists R, U; eexists; split; [by []|by []|by vm_compute|..].
  by rewrite /entry [nth _ _ _]/= !coef_cons coef_nil; vm_compute.
by apply/eqP; rewrite /entry [nth _ _ _]/= !coef_cons coef_nil; vm_compute.
Qed.

(** C38. For R = B U with U upper triangular and invertible, sparsify_basis either reads out of bounds or returns
    R', U' with R' = B U' and U' upper triangular with the same diagonal; whatever order the coefficient map uses *)
Theorem C38_sparsify (F : fieldType) (lt : F -> F -> bool) (m n : nat) (Rc Uc : seq (svec F)) :
  let R := CMat m n Rc in let U := CMat n n Uc in
  cm_wf R -> cm_wf U -> upper (mx U) -> diagn0 (mx U) ->
  (exists Rc' Uc', let R' := CMat m n Rc' in let U' := CMat n n Uc' in
    [/\ sparsify_basis (ops_of F) lt R U = Ok (R', U'), cm_wf R', cm_wf U',
        upper (mx U') /\ (forall j, mx U' j j = mx U j j) &
        forall (B : 'M[F]_(m, n)), mx R = B *m mx U -> mx R' = B *m mx U']) \/
  sparsify_basis (ops_of F) lt R U = UB.
Proof.
move=> R U /cm_wfP[/= sR WR] /cm_wfP[/= sU WU] Uu Ud.
have UD := upper_udiag sU WU Uu Ud.
case: (sparsify_basisE lt sR WR UD) => [[R' [U' [E [sR' WR' UD' [W [Wu Wd EU ER]]]]]]|]; last by right.
left; exists R', U' => /=; have [sU' WU' _] := UD'; split=> //.
- by rewrite /cm_wf /= sR' eqxx.
- by rewrite /cm_wf /= sU' eqxx.
- split; first exact: udiag_upper.
  by move=> j; rewrite /mx /= EU diag_mul // Wd mulr1.
move=> B EB; rewrite /mx /= ER EU mulmxA; congr (_ *m _); exact: EB.
Qed.

(** C38, refuted: on the reduction of the edges 23, 02, 03, 13 of a graph the new R is not reduced *)
Definition spB : cmat F2 := CMat 4 4 [:: [:: (2%N, 1); (3%N, 1)]; [:: (0%N, 1); (2%N, 1)]; [:: (0%N, 1); (3%N, 1)]; [:: (1%N, 1); (3%N, 1)]].
Theorem C38_not_reduced : cm_wf spB /\ exists R U p R' U',
  [/\ reduce_standardU (ops_of F2) spB (cm_identity (ops_of F2) 4) = Ok (R, U, p),
      sparsify_basis (ops_of F2) (fun _ _ => false) R U = Ok (R', U') &
      ~ reduced (mxc 4 4 (cols R'))].
Proof.
split; first by vm_compute.
do 5 eexists; split; [by vm_compute|by vm_compute|]; cbn [cols].
move=> H; suff : (1 : 'I_4) = 3 by [].
apply: (H 2); split.
- by rewrite mxE [nth _ _ _]/= !coef_cons coef_nil; vm_compute.
- move=> i lt; have -> : i = 3 by apply: val_inj; case: i lt => -[|[|[|[|//]]]].
  by apply/eqP; rewrite mxE [nth _ _ _]/= !coef_cons coef_nil; vm_compute.
- by rewrite mxE [nth _ _ _]/= !coef_cons coef_nil; vm_compute.
move=> i lt; have -> : i = 3 by apply: val_inj; case: i lt => -[|[|[|[|//]]]].
by apply/eqP; rewrite mxE [nth _ _ _]/= !coef_cons coef_nil; vm_compute.
Qed.

(** C38, refuted: on the reduction of the edges 24, 14, 12, 02 it reads before the beginning of a column *)
Definition spB2 : cmat F2 := CMat 5 4 [:: [:: (2%N, 1); (4%N, 1)]; [:: (1%N, 1); (4%N, 1)]; [:: (1%N, 1); (2%N, 1)]; [:: (0%N, 1); (2%N, 1)]].
Theorem C38_out_of_bounds : cm_wf spB2 /\ exists R U p,
  reduce_standardU (ops_of F2) spB2 (cm_identity (ops_of F2) 4) = Ok (R, U, p) /\
  sparsify_basis (ops_of F2) (fun _ _ => false) R U = UB.
Proof. split; first by vm_compute. by do 3 eexists; split; vm_compute. Qed.
