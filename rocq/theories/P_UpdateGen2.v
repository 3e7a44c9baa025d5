(** update_basis_general: all dimensions. *)
From mathcomp Require Import all_ssreflect all_fingroup all_algebra zify.
From Verif Require Import Outcome P_Outcome RingTac M_SparseVec M_Perm M_ColMatrix M_Reduce M_Homology M_UpdateGen
  S_Linalg S_Homology S_UpdateGen P_SparseVec P_Pairing P_Reduce S_Perm P_Perm P_PermMx P_Homology P_Betti P_Update P_Insert P_Util P_UpdateGen.
Set Implicit Arguments.
Unset Strict Implicit.
Unset Printing Implicit Defensive.
Import GRing.Theory.
Local Open Scope ring_scope.

Section H.
Variable F : fieldType.
Notation O := (ops_of F).
Notation svec := (svec F).
Notation cmat := (cmat F).
Notation p2c_t := (seq (option nat)).
Notation m0 := (CMat 0 0 [::]).
Notation dl UI k := (nth [::] (ui_del UI) k).
Notation ad UI k := (nth [::] (ui_add UI) k).
Notation pm UI k := (nth [::] (ui_perm UI) k).

Lemma general_permE (UI : uinfo) k n : (k < size (ui_del UI))%N -> (k < size (ui_perm UI))%N ->
  subset_list (dl UI k) n -> is_perm (pm UI k) -> (size (pm UI k) + size (dl UI k))%N = n ->
  exists q, [/\ general_perm UI k n = Ok q, is_perm q, size q = n,
    forall i, (i < size (pm UI k))%N -> nth 0%N q i = nth 0%N (without (dl UI k) n) (nth 0%N (pm UI k) i) &
    forall j, (j < size (dl UI k))%N -> nth 0%N q (size (pm UI k) + j) = nth 0%N (dl UI k) j].
Proof.
move=> ld lp S P sn; have [so al] := S; rewrite /general_perm (oget_nth [::]) //=.
have -> : (if dl UI k is [::] then identity_perm n else perm_to_the_end (dl UI k) n) = without (dl UI k) n ++ dl UI k.
  have [E _] := perm_to_the_endE so al; case e: (dl UI k) E => [|x l] //= _.
  by rewrite cats0 /without filter_predT.
rewrite (oget_nth [::]) //=.
have le : (size (pm UI k) <= n)%N by rewrite -sn leq_addr.
have [PE sE NE] := extension_permE P le.
have [Ed Pd] := perm_to_the_endE so al; rewrite -/(without _ _) in Ed.
have sw : size (without (dl UI k) n) = size (pm UI k) by rewrite size_without_sub // -sn addnK.
have sd : size (without (dl UI k) n ++ dl UI k) = n by rewrite size_cat sw.
rewrite (apply_permE 0%N) ?sd ?sE //; last first.
  by apply/allP => i; rewrite is_perm_mem // sE.
rewrite drop_oversize ?sd // cats0; eexists; split; first by [].
- apply: is_permP; rewrite ?size_map ?sE.
    rewrite map_inj_in_uniq ?is_perm_uniq // => x y; rewrite !is_perm_mem // sE -Ed => lx ly.
    by apply: (is_perm_inj Pd); rewrite Ed sd.
  apply/allP => x /mapP [y]; rewrite is_perm_mem // sE => ly ->.
  by rewrite -[X in (_ < X)%N]sd -Ed; apply: is_perm_lt => //; rewrite Ed sd.
- by rewrite size_map.
- move=> i li; have ln : (i < n)%N by exact: leq_trans li le.
  rewrite (nth_map 0%N) ?sE // NE // li nth_cat sw is_perm_lt //.
- move=> j lj; have ln : (size (pm UI k) + j < n)%N by rewrite -sn ltn_add2l.
  rewrite (nth_map 0%N) ?sE // NE // ltnNge leq_addr /= nth_cat sw ltnNge leq_addr /=.
  by rewrite addKn.
Qed.

(** the permutations used by step 1 *)
Definition gperms (UI : uinfo) (C : seq cmat) : seq (seq nat) :=
  [seq if general_perm UI k (ncol (bmx C k)) is Ok q then q else [::] | k <- iota 0 (size C)].

Lemma gpermsE UI (C C' : seq cmat) k : describes UI C C' -> (k < size C)%N ->
  let q := nth [::] (gperms UI C) k in
  [/\ general_perm UI k (ncol (bmx C k)) = Ok q, is_perm q, size q = ncol (bmx C k),
    forall i, (i < size (pm UI k))%N -> nth 0%N q i = nth 0%N (origin UI C k) i &
    forall j, (j < size (dl UI k))%N -> nth 0%N q (size (pm UI k) + j) = nth 0%N (dl UI k) j].
Proof.
move=> [[sC _] sM [s1 s2 s3 s4] H _] kC q; have [S _ P En _] := H k kC.
have l1 : (k < size (ui_del UI))%N by rewrite s1.
have l2 : (k < size (ui_perm UI))%N by rewrite s2.
have [q' [E P' s' n1 n2]] := general_permE l1 l2 S P En.
have eq : q = q' by rewrite /q /gperms (nth_map 0%N) ?size_iota // nth_iota // add0n E.
by rewrite eq; split=> // i li; rewrite n1 // /origin (nth_map 0%N).
Qed.

Lemma gperms_ok UI (C C' : seq cmat) : describes UI C C' -> perms_ok C (gperms UI C).
Proof.
move=> D; split; first by rewrite size_map size_iota.
by move=> k kC; have [_ P s _ _] := gpermsE D kC.
Qed.

(** step 1 *)
Lemma step1 UI (C C' : seq cmat) (X : rcc F) : chain_wf C -> (1 < size C)%N -> describes UI C C' -> factored C X ->
  exists U1 R1, ofold (general_permute UI) (rc_U X, rc_R X) (iota 0 (ui_maxdim UI).+1) = Ok (U1, R1) /\
    pinv C (gperms UI C) (rc_U X) (rc_R X) (size C) (U1, R1).
Proof.
move=> CW C2 D [sR sU sp G].
have [_ sM _ _ _] := D; rewrite -sM.
have [||[U1 R1] E1 I1] := ofold_iota_ind (P := fun k st => pinv C (gperms UI C) (rc_U X) (rc_R X) k st)
  (n := size C) (a := (rc_U X, rc_R X)) (g := general_permute UI).
- split=> //= l lC; have [Rc [Uc [[eR eU] [WR WU] _ _ _]]] := G l lC.
  rewrite /bmx in eR eU; rewrite eR eU; split=> //=.
    have -> : (0 < l < 0)%N = false by lia.
    by rewrite mul1mx.
  have -> : (0 < l <= 0)%N = false by lia.
  by rewrite mul1mx.
- move=> k st kC I.
  have [st' E' I'] := permute_matrices_step CW (gperms_ok D) C2 kC I.
  exists st' => //; rewrite -E' /general_permute.
  have [_ s2 Hk] := I; have [_ [_ cR _] _ _] := Hk k kC.
  rewrite (oget_nth m0) ?s2 //=; rewrite cR.
  have [-> _ _ _ _] := gpermsE D kC; cbn [obind].
  by rewrite (oget_nth [::]) //= size_map size_iota.
by exists U1, R1.
Qed.

Lemma zero_mul_unit m n (A : 'M[F]_(m, n)) (V : 'M[F]_n) : V \in unitmx -> A *m V = 0 -> A = 0.
Proof. by move=> un e; rewrite -(mulmxK un A) e mul0mx. Qed.

Definition sing0 (C' : seq cmat) (U : cmat) : Prop :=
  [/\ nrow U = ncol (bmx C' 0), ncol U = ncol (bmx C' 0) & forall j, entry U (ncol (bmx C' 0)).-1 j = 0].

Theorem update_general_spec W UI (C C' : seq cmat) (X : rcc F) :
  chain_wf C -> chain_wf C' -> (1 < size C)%N -> no_bd0 C -> no_bd0 C' -> describes UI C C' -> factored C X ->
  exists Y, [/\ update_basis_general O true W UI X = Ok Y,
     rc_I Y = [seq hinds C' k | k <- iota 0 (size C)],
     [/\ size (rc_R Y) = size C, size (rc_U Y) = size C & size (rc_p2c Y) = size C],
     forall k, (k < size C)%N -> grec (bmx C' k) (bmx (rc_R Y) k) (nth [::] (rc_p2c Y) k) &
     (forall k, (k < size C)%N -> (0 < k)%N \/ ad UI 0 = [::] ->
       urec (bmx C' k) (bmx (rc_R Y) k) (bmx (rc_U Y) k) (nth [::] (rc_p2c Y) k)) /\
     (ad UI 0 <> [::] -> (ncol (bmx C' 0) < W)%N -> sing0 C' (bmx (rc_U Y) 0))].
Proof.
move=> CW CW' C2 Z Z' D FX; have [U1 [R1 [E1 I1]]] := step1 CW C2 D FX.
rewrite /update_basis_general E1; cbn [obind].
have [[sC nr0] sM [s1 s2 s3 s4] HD HB] := D; rewrite -sM.
have [sU1 sR1 H1] := I1; have [sRX sUX spX GX] := FX.
have Wk k := chain_wf_nth k CW'.
have PO := gperms_ok D; have [_ Hp] := PO.
have [_ _ BB] := CW; have [_ _ BB'] := CW'.
have [||[[U2 R2] p2] E2 [[sU2 sR2 sp2] G2 K2 S2 _]] := ofold_iota_ind
  (P := fun k (st : seq cmat * seq cmat * seq p2c_t) =>
    let: (U, R, p) := st in
    [/\ [/\ size U = size C, size R = size C & size p = size C],
      (forall l, (l < size C)%N -> (l < k)%N -> grec (bmx C' l) (nth m0 R l) (nth [::] p l)),
      (forall l, (l < size C)%N -> (l < k)%N -> (0 < l)%N \/ ad UI 0 = [::] ->
        urec (bmx C' l) (nth m0 R l) (nth m0 U l) (nth [::] p l)),
      ((0 < k)%N -> ad UI 0 <> [::] -> (ncol (bmx C' 0) < W)%N -> sing0 C' (nth m0 U 0)) &
      (forall l, (l < size C)%N -> (k <= l)%N -> nth m0 R l = nth m0 R1 l /\ nth m0 U l = nth m0 U1 l)])
  (n := size C) (a := (U1, R1, rc_p2c X)) (g := general_step O true W UI).
- by split.
- move=> k [[U R] p] kC [[a1 a2 a3] a4 a4' a5 a6]; rewrite /general_step.
  rewrite (oget_nth m0) ?a1 // (oget_nth m0) ?a2 //; cbn [obind].
  have [-> ->] := a6 k kC (leqnn k).
  have [[n1 c1 W1] [n2 c2 W2] EU ER] := H1 k kC; rewrite /= in n1 c1 W1 n2 c2 W2 EU ER.
  have [Rc [Uc [[eR eU] [WR WU] [fac _] [up0 dg0] _]]] := GX k kC.
  rewrite /bmx in eR eU; rewrite eR eU /= in EU ER.
  have [Sdel Sadd Pm En En'] := HD k kC.
  have ldel : (size (dl UI k) <= ncol (bmx C k))%N by rewrite -En leq_addl.
  have EN : (ncol (bmx C k) - size (dl UI k) + size (ad UI k))%N = ncol (bmx C' k) by rewrite -En' -En addnK.
  have [Pq sq] := Hp k kC.
  have un : mxc (ncol (bmx C k)) (ncol (bmx C k)) (cols (nth m0 U1 k)) \in unitmx.
    rewrite EU unitmx_mul (upper_unit up0 dg0) andbT; case: ifP => _; last exact: unitmx1.
    by rewrite unitmx_tr permmx_unit.
  have [k0|k0] := posnP k.
    subst k; cbn [obind].
    have ZR : forall i j, entry (nth m0 R1 0) i j = 0.
      have Z1 : mxc (nrow (bmx C 0)) (ncol (bmx C 0)) (cols (nth m0 R1 0)) = 0.
        rewrite ER /= mul1mx [LHS]fac (_ : mx (bmx C 0) = 0) ?mul0mx //.
        by apply/matrixP => i j; rewrite !mxE; exact: Z.
      move=> i j; rewrite /entry; have /andP [/eqP sz wf] := W2.
      have [li|li] := ltnP i (nrow (bmx C 0)); last by rewrite (coef_ge (m := nrow (nth m0 R1 0))) ?n2 //; rewrite -?n2; have /and3P [] := nth_wf j wf.
      have [lj|lj] := ltnP j (ncol (bmx C 0)); last by rewrite nth_default ?coef_nil // sz c2.
      by have /matrixP /(_ (Ordinal li) (Ordinal lj)) := Z1; rewrite !mxE.
    have [U3 [R3 [U4 [R4 [U5 [R5 [e1 e2 e3 e4 [g1 g2 g3]]]]]]]] :=
      step_zero W W1 W2 n1 c1 n2 c2 un ZR ldel EN (esym nr0) Z'.
    rewrite e1; cbn [obind]; rewrite (oget_nth [::]) ?s1 //; cbn [obind]; rewrite e2; cbn [obind].
    rewrite (oget_nth [::]) ?s3 //; cbn [obind]; rewrite e3 e4; cbn [obind].
    rewrite (oset_Ok m0) ?a1 //; cbn [obind]; rewrite (oset_Ok m0) ?a2 //; cbn [obind]; rewrite (oset_Ok [::]) ?a3 //; cbn [obind].
    eexists; first by [].
    split; rewrite ?size_set_nth ?a1 ?a2 ?a3.
    + by split; apply/maxn_idPr.
    + by move=> l lC; rewrite ltnS leqn0 => /eqP ->; rewrite !nth_setE.
    + by move=> l lC; rewrite ltnS leqn0 => /eqP -> [//|a0]; rewrite !nth_setE; exact: g2.
    + by move=> _ an LW; rewrite !nth_setE; exact: g3.
    + by move=> l lC lk; rewrite !nth_setE gtn_eqF //; apply: a6.
  destruct k as [|k]; first by []. clear k0.
  have kC' : (k < size C)%N by exact: ltnW.
  have [nrk _] := BB k kC; have [nrk' _] : nrow (bmx C' k.+1) = ncol (bmx C' k) /\ True by split=> //; apply: (BB' k _).1; rewrite sC.
  have [Sdelp Saddp Pmp Enp En'p] := HD k kC'.
  have [b1 b2 b3 b4 b5] := HB k kC.
  have [Pq' sq'] := Hp k kC'.
  have [_ _ _ q1 q2] := gpermsE D kC; have [_ _ _ q1' q2'] := gpermsE D kC'.
  set q := nth [::] (gperms UI C) k.+1 in Pq sq q1 q2 *; set q' := nth [::] (gperms UI C) k in Pq' sq' q1' q2' *.
  pose a i j := entry (bmx C k.+1) (nth 0%N q' i) (nth 0%N q j).
  have so : size (origin UI C k) = size (pm UI k) by rewrite size_map.
  have so1 : size (origin UI C k.+1) = size (pm UI k.+1) by rewrite size_map.
  have Ec : (ncol (bmx C k.+1) - size (dl UI k.+1))%N = size (pm UI k.+1) by rewrite -En addnK.
  have Er : (nrow (bmx C k.+1) - size (dl UI k))%N = size (pm UI k) by rewrite nrk -Enp addnK.
  have fac1 : mxc (nrow (bmx C k.+1)) (ncol (bmx C k.+1)) (cols (nth m0 R1 k.+1)) =
     (\matrix_(i, j) a i j) *m mxc (ncol (bmx C k.+1)) (ncol (bmx C k.+1)) (cols (nth m0 U1 k.+1)).
    rewrite ER EU /= kC (ltnW kC) /=.
    have -> : mxc (nrow (bmx C k.+1)) (ncol (bmx C k.+1)) Rc = mx (bmx C k.+1) *m mxc (ncol (bmx C k.+1)) (ncol (bmx C k.+1)) Uc by exact: fac.
    rewrite !mulmxA; congr (_ *m _).
    have -> : (\matrix_(i, j) a i j : 'M_(nrow (bmx C k.+1), ncol (bmx C k.+1))) =
      (permmx F (nrow (bmx C k.+1)) q')^T *m mx (bmx C k.+1) *m permmx F (ncol (bmx C k.+1)) q.
      apply/matrixP => i j; rewrite (permmx_col Pq sq).
      have sq'' : size q' = nrow (bmx C k.+1) by rewrite nrk.
      rewrite -permmx_ipl // !mxE (bigD1 (pord Pq' sq'' i)) //= big1 ?addr0 => [|h ne]; last first.
        rewrite mxE; case: eqP => [E|_]; last by rewrite mul0r.
        case/eqP: ne; apply/val_inj => /=; rewrite E nth_ipl_nth // sq''; exact: ltn_ord.
      by rewrite mxE /= ipl_nth ?sq'' // eqxx mul1r mxE /=.
    by rewrite -!mulmxA permmx_multr // mulmx1.
  have X1 : (size (dl UI k) <= nrow (bmx C k.+1))%N by rewrite nrk -Enp leq_addl.
  have X2 : (nrow (bmx C k.+1) - size (dl UI k) + size (ad UI k))%N = nrow (bmx C' k.+1) by rewrite Er nrk' En'p.
  have X3 : subset_list (ad UI k) (nrow (bmx C' k.+1)) by rewrite nrk'.
  have P1 i : (i < size (pm UI k))%N -> nth 0%N (place UI C' k) i = up (ad UI k) i.
    by move=> li; rewrite /place; apply: nth_place li => //.
  have P2 i : (i < size (pm UI k.+1))%N -> nth 0%N (place UI C' k.+1) i = up (ad UI k.+1) i.
    by move=> li; rewrite /place; apply: nth_place li => //.
  have X4 : forall i j, (i < nrow (bmx C k.+1) - size (dl UI k))%N -> (j < ncol (bmx C k.+1) - size (dl UI k.+1))%N ->
    entry (bmx C' k.+1) (up (ad UI k) i) (up (ad UI k.+1) j) = a i j.
    by move=> i j; rewrite Ec Er => li lj; rewrite /a q1 // q1' // -P1 // -P2 // b1 ?so ?so1.
  have X5 : forall x j, x \in ad UI k -> (j < ncol (bmx C k.+1) - size (dl UI k.+1))%N -> entry (bmx C' k.+1) x (up (ad UI k.+1) j) = 0.
    by move=> x j xa; rewrite Ec => lj; rewrite -P2 // b2 ?so1.
  have X6 : forall i j, (nrow (bmx C k.+1) - size (dl UI k) <= i < nrow (bmx C k.+1))%N ->
     (j < ncol (bmx C k.+1) - size (dl UI k.+1))%N -> a i j = 0.
    move=> i j; rewrite Ec Er nrk => /andP [li lm] lj; rewrite /a q1 //.
    have ld : (i - size (pm UI k) < size (dl UI k))%N by move: li lm Enp; clear; lia.
    rewrite -(subnKC li) q2' // b3 ?so1 //; exact: mem_nth.
  have X7 : forall j, (j < size (nth [::] (ui_bd UI) k.+1))%N -> subset_list (nth [::] (nth [::] (ui_bd UI) k.+1) j) (nrow (bmx C' k.+1)) /\
     forall i, entry (bmx C' k.+1) i (nth 0%N (ad UI k.+1) j) = (i \in nth [::] (nth [::] (ui_bd UI) k.+1) j)%:R.
    by move=> j lj; rewrite nrk'; exact: b5.
  have [U3 [R3 [U4 [R4 [R4' [U5 [R5 [R6 [U6 [p6 [e1 e2 [e3 e3'] e4 g]]]]]]]]]]] :=
    step_pos W1 W2 n1 c1 n2 c2 un fac1 (Wk k.+1) ldel X1 EN X2 Sadd X3 X4 X5 X6 b4 X7.
  rewrite e1; cbn [obind]; rewrite (oget_nth [::]) ?s1 //; cbn [obind].
  rewrite (oget_nth [::]) ?s1 //; cbn [obind]; rewrite e2; cbn [obind].
  rewrite (oget_nth [::]) ?s3 //; cbn [obind]; rewrite e3; cbn [obind].
  rewrite (oget_nth [::]) ?s3 //; cbn [obind]; rewrite (oget_nth [::]) ?s4 //; cbn [obind].
  rewrite e3'; cbn [obind]; rewrite e4; cbn [obind].
  rewrite (oset_Ok m0) ?a1 //; cbn [obind]; rewrite (oset_Ok m0) ?a2 //; cbn [obind]; rewrite (oset_Ok [::]) ?a3 //; cbn [obind].
  eexists; first by [].
  split; rewrite ?size_set_nth ?a1 ?a2 ?a3.
  + by split; apply/maxn_idPr.
  + move=> l lC lk; rewrite !nth_setE; case: (l =P k.+1) => [->|ne]; first by case: g.
    by apply: a4 => //; lia.
  + move=> l lC lk h; rewrite !nth_setE; case: (l =P k.+1) => [->|ne] //.
    by apply: a4' => //; lia.
  + by move=> _ an LW; rewrite !nth_setE; apply: a5.
  + by move=> l lC lk; rewrite !nth_setE gtn_eqF //; apply: a6 => //; lia.
rewrite E2; cbn [obind]; rewrite (set_indices_spec CW') ?sC //; last first.
  by move=> k kC; exact: G2.
cbn [obind]; eexists; split; [by [] | by [] | by [] | |].
  by move=> k kC; exact: G2.
split=> [k kC h|]; [exact: K2 | apply: S2; lia].
Qed.

End H.
