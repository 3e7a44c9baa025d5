(** C18: divide and conquer reduction, under every schedule of its tasks. *)
From mathcomp Require Import all_ssreflect all_algebra zify.
From Verif Require Import Outcome P_Outcome M_SparseVec M_Perm M_ColMatrix M_Reduce M_Parallel M_Homology
  S_Linalg S_Perm S_Homology P_SparseVec P_Pairing P_Reduce P_Tasks P_Parallel P_Homology Props_Reduction Ex_Reduction.
Set Implicit Arguments.
Unset Strict Implicit.
Unset Printing Implicit Defensive.
Import GRing.Theory.
Local Open Scope ring_scope.

Lemma pivots_exact_eq (F : fieldType) m n (B : 'M[F]_(m, n)) p q : pivots_exact B p -> pivots_exact B q -> p = q.
Proof.
move=> [sp Hp] [sq Hq]; apply: (@eq_from_nth _ None) => [|i]; first by rewrite sp sq.
rewrite sp => li; case E: (nth None p i) => [k|]; first by apply: esym; apply/(Hq i li); apply/(Hp i li).
by case E': (nth None q i) => [k|] //; move: E' E => /(Hq i li) /(Hp i li) ->.
Qed.

Section P.
Variable F : fieldType.
Notation O := (ops_of F).

Lemma glob0 (M : cmat F) mu (U : seq (svec F)) : cm_wf M -> size U = ncol M -> all (sv_wf mu) U ->
  glob (mx M) (mxc mu (ncol M) U) (cols M) U.
Proof.
move=> /andP [/eqP sM WM] sU WU; split=> //; exists 1%:M; rewrite !mulmx1; split=> //; [exact: upper1|exact: diag11].
Qed.

Lemma bdone_rinv m n mu (M0 : 'M[F]_(m, n)) (U0 : 'M[F]_(mu, n)) R U R' U' p nz v :
  bdone M0 U0 0 n R U R' U' p nz -> size v = m /\ (forall i, (i < m)%N -> nth None v i = mfind p i) -> rinv M0 U0 n R' U' v.
Proof.
move=> [[[sR sU] WR WU V] [_ P] _ _ _] [sv Hv]; split=> // i k im; rewrite Hv // P /blk leq0n; split=> -[] //.
Qed.

(** C18. reduce_matrix(M, divide_conquer_flag) on its OpenMP tasks, for every block size and depth.  Every execution can be
    continued until step N and stops there, with the same matrix and the same pivots; on the way there is no data race, no
    bad access and no division by zero.  The matrix is M V with V upper unitriangular, and reduced; the vector returned is
    the one reduce_matrix_standard returns, in whatever order the unordered_map is read. *)
Theorem C18_tasks (M : cmat F) mbs max_depth : cm_wf M ->
  exists R p nz N v, let start := (cols M, dq_prog O mbs max_depth M) in
  [/\ exec N start (R, Ret (p, nz)),
      forall k c, exec k start c -> [/\ (k <= N)%N, ~~ race c.2, k = N -> c = (R, Ret (p, nz)) & (k < N)%N -> exists c', step c c'],
      cm_wf (CMat (nrow M) (ncol M) R) /\ reduced (mxc (nrow M) (ncol M) R),
      exists V, [/\ upper V, diag1 V & mxc (nrow M) (ncol M) R = mx M *m V] &
      (forall en, perm_eq en p -> fill_p2c (nrow M) en = Ok v) /\
      pivots_exact (mx M) v /\ exists R', reduce_standard O M = Ok (R', v)].
Proof.
move=> WM; have /andP [/eqP sM WMa] := WM.
have G := @glob0 M 0 (nseq (ncol M) [::]) WM (size_nseq _ _) _.
have [|R [U' [p [nz [N [E B]]]]]] := p_dq_run mbs max_depth.+1 (leq0n _) (leqnn _) (G _); first by rewrite all_nseq orbT.
have [u lt] := bdone_keys B.
have [v Ev Hv] := fill_spec u lt (perm_refl p).
have I := bdone_rinv B Hv; have [[sR _ _] WR _ [V [Vu Vd RV _]] _] := I.
have f := p_dq_fits F (nrow M).+2 mbs max_depth.+1 (leq0n (ncol M)).
exists R, p, nz, N, v; cbv zeta; split.
- exact: (run_exec [::] f E).
- move=> k c ex; have [le fc Ec] := exec_run [::] f E ex; split=> //.
  + exact: fits_norace fc.
  + move=> ek; subst k; move: Ec; rewrite subnn; case: c ex fc => Mc pc ex fc /= Ec.
    case: (run_progress Ec) => [[r er]|[c st]]; first by move: Ec; rewrite er => -[-> ->].
    by have [n' []] := step_run [::] st fc Ec.
  + move=> lk; case: c ex fc Ec => Mc pc ex fc /= Ec; case: (run_progress Ec) => [[r er]|//].
    by move: Ec; rewrite er => -[_ _]; lia.
- by rewrite /cm_wf /= sR eqxx WR; split=> //; exact: (rinv_reduced I).
- by exists V.
- split.
    move=> en pe; have [v' Ev' [sv' Hv']] := fill_spec u lt pe; rewrite Ev'; congr Ok.
    have [sv Hv1] := Hv; apply: (@eq_from_nth _ None) => [|i]; first by rewrite sv sv'.
    by rewrite sv' => li; rewrite Hv' ?Hv1.
  have [_ _ px _] := rinv_pgood I; split=> //.
  have [R1 [U1 [p1 [E1 _ [_ _ p1x _]]]]] := reduce_standardU_pgood WM (cm_wf_identity F (ncol M)) erefl.
  eexists; rewrite (reduce_standard_proj WM (cm_wf_identity F (ncol M))) // E1; congr (Ok (_, _)).
  exact: pivots_exact_eq p1x px.
Qed.

(** C18. reduce_matrix(M, U, divide_conquer_flag), for every block size above one (it is 1024). *)
Theorem C18_basis (M U : cmat F) mbs (en : map_t -> map_t) : (1 < mbs)%N -> (forall p, perm_eq (en p) p) ->
  cm_wf M -> cm_wf U -> ncol M = ncol U ->
  exists Rc Uc v,
    let R := CMat (nrow M) (ncol M) Rc in let U' := CMat (nrow U) (ncol M) Uc in
    [/\ reduce_dqU O mbs en M U = Ok (R, U', v), cm_wf R /\ cm_wf U',
        exists V, [/\ upper V, diag1 V, mx R = mx M *m V & mx U' = mxc (nrow U) (ncol M) (cols U) *m V],
        reduced (mx R) &
        pivots_exact (mx M) v /\ exists R' U'', reduce_standardU O M U = Ok (R', U'', v)].
Proof.
move=> mb pe WM WU En; have /andP [/eqP sM WMa] := WM; have /andP [/eqP sU WUa] := WU.
have G := glob0 WM (etrans sU (esym En)) WUa.
have ld : (ncol M - 0 <= (ncol M).+2)%N by rewrite subn0; exact: leq_trans (leqnSn _) (leqnSn _).
have [R [U' [p [nz [E B]]]]] := dqU_spec mb (leq0n _) (leqnn _) ld G.
have [u lt] := bdone_keys B; have [v Ev Hv] := fill_spec u lt (pe p); have I := bdone_rinv B Hv.
have [[sR sU' _] WR WU' [V [Vu Vd RV UV]] _] := I; have [_ _ px _] := rinv_pgood I.
exists R, U', v; cbv zeta; split.
- by rewrite /reduce_dqU E; cbn [obind]; rewrite Ev; cbn [obind]; rewrite En.
- by rewrite /cm_wf /= sR sU' !eqxx.
- by exists V.
- exact: (rinv_reduced I).
split=> //; have [R1 [U1 [p1 [E1 _ [_ _ p1x _]]]]] := reduce_standardU_pgood WM WU En.
by do 2 eexists; rewrite E1; congr (Ok (_, _)); exact: pivots_exact_eq p1x px.
Qed.

(** ** partial_reduce_parallel *)
Lemma ppr_fits fuel blocks b bs : fits (blk (b * bs) ((b + blocks) * bs)) (fun _ => True) (ppr_blocks O fuel blocks b bs).
Proof.
elim: blocks b => [|k IH] b; first exact: fits_ret.
have e1 : ((b + k.+1) * bs = b * bs + bs + k * bs)%N by rewrite addnS mulSn mulnDl; lia.
have e2 : (b.+1 * bs = b * bs + bs)%N by rewrite mulSn addnC.
have e3 : ((b.+1 + k) * bs = b * bs + bs + k * bs)%N by rewrite addSnnS.
cbn [ppr_blocks]; apply: (@fits_fork _ _ _ (blk (b * bs) (b.+1 * bs)) (blk (b.+1 * bs) ((b.+1 + k) * bs)) _ (fun _ => True) (fun _ => True)).
- by move=> j; rewrite /blk e1 e2; lia.
- by move=> j; rewrite /blk e1 e2 e3; lia.
- by move=> j; rewrite /blk; lia.
- by apply: p_block_fits => [|r _]; [rewrite mulSn leq_addl|exact: fits_ret].
- exact: IH.
- by move=> *; exact: fits_ret.
Qed.

(** no two columns of the block have the same last nonzero row *)
Definition block_reduced m (R : seq (svec F)) j0 j1 : Prop := forall j j' i, blk j0 j1 j -> blk j0 j1 j' ->
  (i < m)%N -> coef (nth [::] R j) i != 0 -> coef (nth [::] R j') i != 0 ->
  (forall i', (i < i' < m)%N -> coef (nth [::] R j) i' = 0 /\ coef (nth [::] R j') i' = 0) -> j = j'.

Lemma ppr_run m n mu (M0 : 'M[F]_(m, n)) (U0 : 'M[F]_(mu, n)) blocks b bs R U : ((b + blocks) * bs <= n)%N -> glob M0 U0 R U ->
  exists R' U' N, [/\ run (ppr_blocks O m.+2 blocks b bs) R = Ok (R', ([::], [::]), N), glob M0 U0 R' U',
    same (blk (b * bs) ((b + blocks) * bs)) R R' & forall c, (b <= c < b + blocks)%N -> block_reduced m R' (c * bs) (c.+1 * bs)].
Proof.
elim: blocks b R U => [|k IH] b R U le G.
  by exists R, U, 0%N; split=> // c; rewrite addn0; lia.
have e1 : ((b + k.+1) * bs = b * bs + bs + k * bs)%N by rewrite addnS mulSn mulnDl; lia.
have e2 : (b.+1 * bs = b * bs + bs)%N by rewrite mulSn addnC.
have e3 : ((b.+1 + k) * bs = b * bs + bs + k * bs)%N by rewrite addSnnS.
have l01 : (b * bs <= b.+1 * bs)%N by rewrite mulSn leq_addl.
have l1n : (b.+1 * bs <= n)%N by apply: leq_trans le; rewrite leq_mul2r addnS ltnS leq_addr orbT.
have [R1 [U1 [p [nz [E1 B1]]]]] := block_spec l01 l1n G; have [n1 /(_ [::] Ret) H1] := p_cols_run E1; rewrite cats0 in H1.
have [G1 [_ P1] _ s1 _] := B1.
have [|R2 [U2 [N2 [E2 G2 s2 H2]]]] := IH b.+1 R1 U1 _ G1; first by rewrite addSnnS.
exists R2, U2, (n1 + 0 + N2 + 0).+1; split=> //.
- have H1' : run (p_block O m.+2 (b * bs) (b.+1 * bs) Ret) R = Ok (R1, (p, nz), n1 + 0)%N by rewrite /p_block H1.
  by cbn [ppr_blocks run]; rewrite H1'; cbn [obind]; rewrite E2.
- by move=> j nj; rewrite s2 ?s1 //; move: nj; rewrite /blk e1 ?e2 ?e3; clear; lia.
- move=> c /andP [bc ck]; case: (ltngtP b c) bc => // [lt|eb] _; first by apply: H2; rewrite lt addSnnS.
  subst c => j j' i bj bj' im nz1 nz2 Z; have [_ WR _ _] := G1.
  have ne x : blk (b * bs) (b.+1 * bs) x -> nth [::] R2 x = nth [::] R1 x by move=> bx; apply: s2; move: bx; rewrite /blk; lia.
  have L x : sv_wf m (nth [::] R1 x) -> coef (nth [::] R1 x) i != 0 -> (forall i', (i < i' < m)%N -> coef (nth [::] R1 x) i' = 0) -> last_ind (nth [::] R1 x) = Some i.
    move=> /and3P [so be nn] h1 h2; apply/last_ind_spec => //; split=> // i' li'; case: (ltnP i' m) => lm; first by apply: h2; rewrite li'.
    by rewrite (coef_ge be).
  rewrite !ne // in nz1 nz2 Z.
  have h : mfind p i = Some j by apply/P1; split=> //; apply: L => //; [exact: nth_wf|move=> i' /Z []].
  have h' : mfind p i = Some j' by apply/P1; split=> //; apply: L => //; [exact: nth_wf|move=> i' /Z []].
  by move: h; rewrite h' => -[].
Qed.

(** C18. partial_reduce_parallel(M, block_size) with 0 < block_size <= ncol: every schedule ends with the same matrix M V,
    and each block of columns that starts before ncol - block_size is reduced. *)
Theorem C18_partial_reduce (M : cmat F) bs : cm_wf M -> (0 < bs)%N -> (bs <= ncol M)%N ->
  exists R N, let start := (cols M, ppr_prog O M bs) in
  [/\ exec N start (R, Ret ([::], [::])),
      forall k c, exec k start c -> [/\ (k <= N)%N, ~~ race c.2, k = N -> c = (R, Ret ([::], [::])) & (k < N)%N -> exists c', step c c'],
      cm_wf (CMat (nrow M) (ncol M) R),
      exists V, [/\ upper V, diag1 V & mxc (nrow M) (ncol M) R = mx M *m V] &
      forall b, (b * bs < ncol M - bs)%N -> block_reduced (nrow M) R (b * bs) (b.+1 * bs)].
Proof.
case: bs => // bs WM _ le; set B := bs.+1; have /andP [/eqP sM WMa] := WM.
have G := @glob0 M 0 (nseq (ncol M) [::]) WM (size_nseq _ _) _.
set nb := nblocks (ncol M - B) B.
have lnb : ((0 + nb) * B <= ncol M)%N.
  rewrite add0n /nb /nblocks; apply: leq_trans (leq_trunc_div _ _) _; rewrite -/B; move: le; rewrite -/B /B; clear; lia.
have [|R [U [N [E [[sR _] WR _ [V [Vu Vd RV _]]] _ H]]]] := ppr_run lnb (G _); first by rewrite all_nseq orbT.
have f := ppr_fits (nrow M).+2 nb 0 B.
have eP : ppr_prog O M B = ppr_blocks O (nrow M).+2 nb 0 B by rewrite /ppr_prog /B le.
exists R, N; cbv zeta; rewrite eP; split.
- exact: (run_exec [::] f E).
- move=> k c ex; have [le' fc Ec] := exec_run [::] f E ex; split=> //.
  + exact: fits_norace fc.
  + move=> ek; subst k; move: Ec; rewrite subnn; case: c ex fc => Mc pc ex fc /= Ec.
    case: (run_progress Ec) => [[r er]|[c st]]; first by move: Ec; rewrite er => -[-> ->].
    by have [n' []] := step_run [::] st fc Ec.
  + move=> lk; case: c ex fc Ec => Mc pc ex fc /= Ec; case: (run_progress Ec) => [[r er]|//].
    by move: Ec; rewrite er => -[_ _]; lia.
- by rewrite /cm_wf /= sR eqxx WR.
- by exists V.
- move=> b lb; apply: H; rewrite leq0n add0n /nb /nblocks /= leq_divRL //; move: lb; rewrite mulSn /B; clear; lia.
Qed.

(** C18. With block_size > ncol the bound of the loop wraps around and the first block reads past the columns: undefined
    behaviour. *)
Theorem C18_partial_reduce_ub (M : cmat F) bs : cm_wf M -> (ncol M < bs)%N -> run (ppr_prog O M bs) (cols M) = UB.
Proof.
case: bs => // bs WM lt; have /andP [/eqP sM WMa] := WM.
have G := @glob0 M 0 (nseq (ncol M) [::]) WM (size_nseq _ _) _.
have [|R1 [U1 [p [nz [E1 [[[sR _] _ _ _] _ _ _ _]]]]]] := block_spec (leq0n _) (leqnn _) (G _); first by rewrite all_nseq orbT.
have [n1 H1] := p_cols_run E1; rewrite subn0 in H1.
rewrite /ppr_prog leqNgt lt; cbn [negb ppr_blocks run]; rewrite /p_block mul0n mul1n subn0.
have -> : iota 0 bs.+1 = iota 0 (ncol M) ++ ncol M :: iota (ncol M).+1 (bs.+1 - (ncol M).+1).
  by rewrite -{1}(subnKC lt) addSnnS iotaD add0n.
by rewrite H1 /= UBoget // sR.
Qed.
End P.

(** A concrete case: the boundary of the triangle over F_2, with blocks of one column, forks three tasks deep. *)
Theorem C18_nonvacuous : let M := tri1 F2 in cm_wf M /\
  exists R p nz N, [/\ run (dq_prog (ops_of F2) 1 1 M) (cols M) = Ok (R, (p, nz), N), (10 < N)%N, p = [:: (2, 1); (1, 0)]%N &
    map size R = [:: 2; 2; 0]%N].
Proof. by split=> //; do 4 eexists; split; [vm_compute; reflexivity| | |]; vm_compute. Qed.
