(** update_reduction2 and permute_basis. *)
From mathcomp Require Import all_ssreflect all_fingroup all_algebra zify.
From Verif Require Import Outcome P_Outcome RingTac M_SparseVec M_Perm M_ColMatrix M_Reduce M_Homology
  S_Linalg S_Homology P_SparseVec P_Pairing P_Reduce S_Perm P_Perm P_PermMx P_Homology P_Betti.
Set Implicit Arguments.
Unset Strict Implicit.
Unset Printing Implicit Defensive.
Import GRing.Theory.
Local Open Scope ring_scope.

Section H.
Variable F : fieldType.
Notation O := (ops_of F).
Notation svec := (svec F).
Notation cmat := (cmat F).
Notation p2c_t := (seq (option nat)).
Notation m0 := (CMat 0 0 [::]).

(** a reduced invertible matrix has a pivot in every row *)
Lemma reduced_unit_low n (U : 'M[F]_n) : reduced U -> U \in unitmx ->
  forall i, exists j, is_low U i j.
Proof.
move=> red un i.
have nz j : nzcol U j.
  have : [set j | nzcol U j] = setT.
    apply/eqP; rewrite eqEcard subsetT cardsT card_ord -rank_reduced //=.
    by move: un; rewrite -row_full_unit /row_full => /eqP ->; apply: leqnn.
  by move/setP/(_ j); rewrite !inE.
pose f j : 'I_n := odflt j [pick k | lowb U k j].
have fP j : is_low U (f j) j.
  rewrite /f; case: pickP => [k /lowP //|N]; have /nzcolP[k /lowP L] := nz j.
  by have := N k; rewrite L.
have inj : injective f by move=> j j' E; apply: (red (f j)); [|rewrite E]; apply: fP.
have [g fK gK] := injF_bij inj.
by exists (g i); rewrite -{1}(gK i); apply: fP.
Qed.

Lemma swap_colsE (A : cmat) j k : cm_wf A -> (j < ncol A)%N -> (k < ncol A)%N ->
  exists cs, [/\ swap_cols j k A = Ok (CMat (nrow A) (ncol A) cs),
     cm_wf (CMat (nrow A) (ncol A) cs) &
     forall l, nth [::] cs l = if l == j then nth [::] (cols A) k
                               else if l == k then nth [::] (cols A) j else nth [::] (cols A) l].
Proof.
move=> /andP[/eqP sA W] lj lk; rewrite /swap_cols (oget_nth [::]) ?sA //= (oget_nth [::]) ?sA //=.
rewrite (oset_Ok [::]) ?sA //= (oset_Ok [::]) ?size_set_nth ?(maxn_idPr _) ?sA //=.
eexists; split; first by [].
  rewrite /cm_wf /= !size_set_nth (maxn_idPr _) ?size_set_nth ?(maxn_idPr _) ?sA ?eqxx //=.
  apply: set_nth_wf; rewrite ?size_set_nth ?(maxn_idPr _) ?sA //; last exact: nth_wf.
  by apply: set_nth_wf; rewrite ?sA //; apply: nth_wf.
move=> l; rewrite nth_set_nth /=; case: (l =P k) => [->|_].
  by case: eqP => [->|].
by rewrite nth_set_nth /=.
Qed.

Lemma swap_cols_mx m n (cs cs' : seq svec) (j k : 'I_n) :
  (forall l, nth [::] cs' l = if l == j :> nat then nth [::] cs k
                               else if l == k :> nat then nth [::] cs j else nth [::] cs l) ->
  mxc m n cs' = mxc m n cs *m tperm_mx j k.
Proof.
move=> H; rewrite -xcolE; apply/matrixP => i l; rewrite !mxE H !val_eqE.
case: tpermP => [->|->|]; rewrite ?eqxx //.
  by case: eqP => [->|].
by move/eqP/negbTE => -> /eqP/negbTE ->.
Qed.

(** invariant of the sorting loop *)
Definition sinv m n (B : 'M[F]_(m, n)) (j : nat) (U R : cmat) (p : p2c_t) : Prop :=
  [/\ [/\ nrow U = n, ncol U = n & cm_wf U], [/\ nrow R = m, ncol R = n & cm_wf R],
      mxc m n (cols R) = B *m mxc n n (cols U),
      [/\ size p = n,
        (forall i, (i < n)%N -> exists k, [/\ (k < n)%N, nth None p i = Some k &
                      last_ind (nth [::] (cols U) k) = Some i]) &
        (forall k, (k < n)%N -> exists i, [/\ (i < n)%N, nth None p i = Some k &
                      last_ind (nth [::] (cols U) k) = Some i])] &
      forall i, (i < j)%N -> nth None p i = Some i].

Lemma sort_stepE m n (B : 'M[F]_(m, n)) j U R p : (j < n)%N -> sinv B j U R p ->
  exists2 st, sort_step (U, R, p) j = Ok st & sinv B j.+1 st.1.1 st.1.2 st.2.
Proof.
move=> jn [[nU cU WU] [nR cR WR] ER [sp Hi Hk] Hj]; rewrite /sort_step.
rewrite (oget_nth None) ?sp //=.
have [k [kn Ek Lk]] := Hi j jn; rewrite Ek.
case: eqP => [[E]|ne].
  exists (U, R, p) => //; split=> // i; rewrite ltnS leq_eqVlt => /orP[/eqP ->|]; last exact: Hj.
  by rewrite Ek E.
have /andP[/eqP sU aU] := WU.
rewrite (oget_nth [::]) ?sU ?cU //=.
have [pj [pjn Epj Lpj]] := Hk j jn.
have uj0 : nth [::] (cols U) j <> [::] by move=> E; rewrite E in Lpj.
have Wj : sv_wf (nrow U) (nth [::] (cols U) j) by apply: nth_wf.
have [i0 [v [-> Li0 _ _ _]]] := lastnz_spec Wj uj0.
move: Li0; rewrite Lpj => -[Ei0]; subst i0; cbn [obind].
have kU : (k < ncol U)%N by rewrite cU.
have jU : (j < ncol U)%N by rewrite cU.
have kR : (k < ncol R)%N by rewrite cR.
have jR : (j < ncol R)%N by rewrite cR.
have [cu [-> Wu Nu]] := swap_colsE WU kU jU; have [cr [-> Wr Nr]] := swap_colsE WR kR jR.
cbn [obind]; rewrite (oset_Ok None) ?sp //=.
rewrite (oset_Ok None) ?size_set_nth ?(maxn_idPr _) ?sp //=.
eexists; first by [].
have nkj : k <> j by move=> E; apply: ne; rewrite E.
have npj : pj <> j by move=> E; apply: ne; rewrite -Ek -{1}E Epj.
split=> //=.
- rewrite (@swap_cols_mx m n _ _ (Ordinal kn) (Ordinal jn) Nr) ER.
  by rewrite (@swap_cols_mx n n _ _ (Ordinal kn) (Ordinal jn) Nu) mulmxA.
- split; first by rewrite !size_set_nth sp (maxn_idPr _) ?(maxn_idPr _).
    move=> i li; rewrite !nth_setE; case: (i =P pj) => [->|nei].
      by exists k; split=> //; rewrite Nu eqxx.
    case: (i =P j) => [->|nij].
      by exists j; split=> //; rewrite Nu eqxx; case: eqP => // E; case: nkj.
    have [l [ln El Ll]] := Hi i li; exists l; split=> //; rewrite Nu.
    case: eqP => [E|_]; first by case: nij; move: Ll; rewrite E Lk => -[].
    by case: eqP => [E|_] //; case: nei; move: Ll; rewrite E Lpj => -[].
  move=> l ln; rewrite Nu; case: (l =P k) => [->|nlk].
    by exists pj; split=> //; rewrite nth_set_nth /= eqxx.
  case: (l =P j) => [->|nlj].
    by exists j; split=> //; rewrite !nth_setE eqxx; case: eqP => // E; case: npj.
  have [i [li Ei Li]] := Hk l ln; exists i; split=> //; rewrite !nth_setE.
  case: eqP => [E|_]; first by case: nlj; move: Ei; rewrite E Epj => -[].
  by case: eqP => [E|_] //; case: nlk; move: Ei; rewrite E Ek => -[].
- move=> i; rewrite !nth_setE ltnS leq_eqVlt => /orP[/eqP ->|ij].
    by rewrite eqxx; case: eqP => // /esym.
  rewrite (ltn_eqF ij); case: eqP => [E|_]; last exact: Hj.
  by exfalso; move: (Hj i ij); rewrite E Epj => -[E2]; rewrite E E2 ltnn in ij.
Qed.

(** update_reduction2 on an invertible U with R = B U *)
Theorem update_reduction2_spec (B U R : cmat) : cm_wf B -> cm_wf U -> cm_wf R ->
  nrow U = ncol B -> ncol U = ncol B -> nrow R = nrow B -> ncol R = ncol B ->
  mxc (ncol B) (ncol B) (cols U) \in unitmx ->
  mxc (nrow B) (ncol B) (cols R) = mx B *m mxc (ncol B) (ncol B) (cols U) ->
  exists U' R' p, update_reduction2 O U R = Ok (U', R', p) /\ urec B R' U' p.
Proof.
move=> WB WU WR nU cU nR cR un ER.
rewrite /update_reduction2.
have En : ncol U = ncol R by rewrite cU cR.
have [U1 [R1 [p1 [-> I1]]]] := reduce_standardU_rinv WU WR En.
cbn [obind]; rewrite nU cU nR cR in I1 *.
have red1 := rinv_reduced I1.
case: I1 => [[sU1 sR1 sp1]] WU1 WR1 [V1 [u1 d1 EU1 ER1]] Hp1.
have un1 : mxc (ncol B) (ncol B) U1 \in unitmx.
  by rewrite EU1 unitmx_mul un /= upper_unit // ; apply: diag1_n0.
have low1 := reduced_unit_low red1 un1.
pose st1 := (CMat (ncol B) (ncol B) U1, CMat (nrow B) (ncol B) R1, p1).
have [||[[U2 R2] p2] E2 S2] := ofold_iota_ind (P := fun j (st : cmat * cmat * p2c_t) =>
    sinv (mx B) j st.1.1 st.1.2 st.2) (n := ncol B) (a := st1) (g := @sort_step F).
- have HL i : (i < ncol B)%N -> exists k, [/\ (k < ncol B)%N, nth None p1 i = Some k &
                      last_ind (nth [::] U1 k) = Some i].
    move=> li; have [k Lk] := low1 (Ordinal li); exists k.
    have LL : last_ind (nth [::] U1 k) = Some (i : nat).
      by apply/(last_ind_low (Ordinal li) (j := k)) => //; apply: nth_wf.
    by split=> //; apply/Hp1.
  split=> //=.
  + by split=> //; rewrite /cm_wf /= sU1 eqxx.
  + by split=> //; rewrite /cm_wf /= sR1 eqxx.
  + by rewrite ER1 ER -mulmxA EU1.
  + split=> // k kn.
    have nz : nzcol (mxc (ncol B) (ncol B) U1) (Ordinal kn).
      apply: contraT => /nzcolN Z.
      have : mxc (ncol B) (ncol B) U1 *m delta_mx (Ordinal kn) (0 : 'I_1) = 0.
        by rewrite -colE; apply/colP => i; rewrite mxE Z mxE.
      move/(congr1 (mulmx (invmx (mxc (ncol B) (ncol B) U1)))).
      rewrite mulKmx // mulmx0 => /matrixP/(_ (Ordinal kn) 0); rewrite !mxE !eqxx /= => /eqP.
      by rewrite oner_eq0.
    move/nzcolP: nz => [i Li]; exists i.
    have LL : last_ind (nth [::] U1 k) = Some (i : nat).
      by apply/(last_ind_low i (j := Ordinal kn)) => //; apply: nth_wf.
    by split=> //; apply/Hp1.
- by move=> j [[U' R'] p'] jn S; apply: sort_stepE.
rewrite E2; cbn [obind]; case: S2 => /= [[nU2 cU2 WU2] [nR2 cR2 WR2] ER2 [sp2 Hi2 Hk2] Hj2].
have En2 : ncol R2 = ncol U2 by rewrite cR2 cU2.
have [R3 [U3 [p3 [-> I3 PG3]]]] := reduce_standardU_pgood WR2 WU2 En2.
cbn [obind]; do 3 eexists; split; first by [].
have low2 (j : 'I_(ncol B)) : is_low (mxc (ncol B) (ncol B) (cols U2)) j j.
  apply/last_ind_low; first by have /andP[_ +] := WU2; rewrite nU2; apply: nth_wf.
  by have [k [_ +]] := Hi2 j (ltn_ord j); rewrite Hj2 // => -[<-].
have u2 : upper (mxc (ncol B) (ncol B) (cols U2)) by move=> i j ji; case: (low2 j) => _ ->.
have d2 : diagn0 (mxc (ncol B) (ncol B) (cols U2)) by move=> j; case: (low2 j).
rewrite nR2 cR2 nU2 in I3 PG3; rewrite nR2 cR2 nU2 cU2.
have red3 := rinv_reduced I3.
case: I3 => [[sR3 sU3 sp3]] WR3 WU3 [V3 [u3 d3 ER3 EU3]] Hp3.
rewrite ER2 in PG3 ER3.
split.
  split=> //=; exact: pgood_mul_upper u2 d2 PG3.
split=> //=; try by rewrite /cm_wf /= ?sU3 ?sR3 ?cU2 eqxx.
exists (mxc (ncol B) (ncol B) (cols U2) *m V3); split=> //.
- exact: upper_mul.
- by apply: diagn0_mul => //; apply: diag1_n0.
- by rewrite ER3 mulmxA.
Qed.

(** ** permute_basis *)
Notation pk perms k := (nth [::] perms k).

Lemma nth_setm (s : seq cmat) i x j : nth m0 (set_nth m0 s i x) j = if j == i then x else nth m0 s j.
Proof. exact: nth_setE. Qed.

Definition pinv (C : seq cmat) (perms : seq (seq nat)) (U0 R0 : seq cmat) (k : nat)
  (st : seq cmat * seq cmat) : Prop :=
  [/\ size st.1 = size C, size st.2 = size C &
   forall l, (l < size C)%N ->
    [/\ [/\ nrow (nth m0 st.1 l) = ncol (bmx C l), ncol (nth m0 st.1 l) = ncol (bmx C l) & cm_wf (nth m0 st.1 l)],
        [/\ nrow (nth m0 st.2 l) = nrow (bmx C l), ncol (nth m0 st.2 l) = ncol (bmx C l) & cm_wf (nth m0 st.2 l)],
        mxc (ncol (bmx C l)) (ncol (bmx C l)) (cols (nth m0 st.1 l)) =
         (if (0 < l < k)%N then (permmx F (ncol (bmx C l)) (pk perms l))^T else 1%:M)
         *m mxc (ncol (bmx C l)) (ncol (bmx C l)) (cols (nth m0 U0 l)) &
        mxc (nrow (bmx C l)) (ncol (bmx C l)) (cols (nth m0 st.2 l)) =
         (if (0 < l <= k)%N then (permmx F (nrow (bmx C l)) (pk perms l.-1))^T else 1%:M)
         *m mxc (nrow (bmx C l)) (ncol (bmx C l)) (cols (nth m0 R0 l))]].

Lemma pinv_rows (C : seq cmat) perms k (A : cmat) : is_perm (pk perms k) -> size (pk perms k) = nrow A ->
  cm_wf A ->
  exists cs, [/\ permute_rows (ipl (pk perms k)) A = Ok (CMat (nrow A) (ncol A) cs),
     cm_wf (CMat (nrow A) (ncol A) cs) &
     mxc (nrow A) (ncol A) cs = (permmx F (nrow A) (pk perms k))^T *m mxc (nrow A) (ncol A) (cols A)].
Proof.
move=> P s W; have [|cs [E Wc Ec]] := permute_rowsE (is_perm_ipl P) _ W; first by rewrite size_ipl.
by exists cs; split=> //; rewrite Ec permmx_ipl.
Qed.

Lemma permute_matrices_step C perms U0 R0 k st : chain_wf C -> perms_ok C perms ->
  (1 < size C)%N -> (k < size C)%N -> pinv C perms U0 R0 k st ->
  exists2 st', (do p <- oget perms k; permute_matrices k p st.1 st.2) = Ok st' &
     pinv C perms U0 R0 k.+1 st'.
Proof.
move=> [_ _ BB] [sp Hp] C2 kC [s1 s2 G].
rewrite (oget_nth [::]) ?sp //=; have [P s] := Hp k kC.
rewrite /permute_matrices inv_permE //=.
have stepU : (0 < k)%N -> exists2 Us, (do Uk <- oget st.1 k; do Uk' <- permute_rows (ipl (pk perms k)) Uk;
     oset st.1 k Uk') = Ok Us & size Us = size C /\
     forall l, (l < size C)%N ->
      [/\ nrow (nth m0 Us l) = ncol (bmx C l), ncol (nth m0 Us l) = ncol (bmx C l), cm_wf (nth m0 Us l) &
        mxc (ncol (bmx C l)) (ncol (bmx C l)) (cols (nth m0 Us l)) =
         (if (0 < l < k.+1)%N then (permmx F (ncol (bmx C l)) (pk perms l))^T else 1%:M)
         *m mxc (ncol (bmx C l)) (ncol (bmx C l)) (cols (nth m0 U0 l))].
  move=> k0; rewrite (oget_nth m0) ?s1 //=; have [[n1 c1 W1] _ E1 _] := G k kC.
  have [|cs [-> Wc Ec]] := @pinv_rows C perms k _ P _ W1; first by rewrite s n1.
  rewrite /= (oset_Ok m0) ?s1 //; eexists; first by [].
  split; first by rewrite size_set_nth s1; apply/maxn_idPr.
  move=> l lC; rewrite nth_setm; have [[n2 c2 W2] _ E2 _] := G l lC.
  case: (l =P k) => [El|ne]; last first.
    split=> //; rewrite E2; congr (_ *m _); congr (if _ then _ else _); apply/idP/idP; lia.
  subst l; split=> //=.
  have -> : (0 < k < k.+1)%N by rewrite k0 /=.
  move: Ec; rewrite n1 c1 => ->; rewrite E1; have -> : (0 < k < k)%N = false by rewrite ltnn andbF.
  by rewrite mul1mx.
have stepR : (k.+1 < size C)%N -> exists2 Rs, (do Rk <- oget st.2 k.+1; do Rk' <- permute_rows (ipl (pk perms k)) Rk;
     oset st.2 k.+1 Rk') = Ok Rs & size Rs = size C /\
     forall l, (l < size C)%N ->
      [/\ nrow (nth m0 Rs l) = nrow (bmx C l), ncol (nth m0 Rs l) = ncol (bmx C l), cm_wf (nth m0 Rs l) &
        mxc (nrow (bmx C l)) (ncol (bmx C l)) (cols (nth m0 Rs l)) =
         (if (0 < l <= k.+1)%N then (permmx F (nrow (bmx C l)) (pk perms l.-1))^T else 1%:M)
         *m mxc (nrow (bmx C l)) (ncol (bmx C l)) (cols (nth m0 R0 l))].
  move=> k1; rewrite (oget_nth m0) ?s2 //=; have [_ [n1 c1 W1] _ E1] := G k.+1 k1.
  have [En _] := BB k k1.
  have [|cs [-> Wc Ec]] := @pinv_rows C perms k _ P _ W1; first by rewrite s n1 En.
  rewrite /= (oset_Ok m0) ?s2 //; eexists; first by [].
  split; first by rewrite size_set_nth s2; apply/maxn_idPr.
  move=> l lC; rewrite nth_setm; have [_ [n2 c2 W2] _ E2] := G l lC.
  case: (l =P k.+1) => [El|ne]; last first.
    split=> //; rewrite E2; congr (_ *m _); congr (if _ then _ else _); apply/idP/idP; lia.
  subst l; split=> //=.
  rewrite leqnn.
  move: Ec; rewrite n1 c1 => ->; rewrite E1; have -> : (0 < k.+1 <= k)%N = false by rewrite ltnn andbF.
  by rewrite mul1mx.
case: (k =P 0)%N => [k0|/eqP k0].
  have [|Rs + [sR GR]] := stepR; first by rewrite k0.
  rewrite k0.
  case: (oget st.2 1) => //= Rk; case: (permute_rows _ _) => //= Rk' -> /=.
  eexists; first by []; split=> //= l lC; have [A1 _ A2 _] := G l lC; have [B1 B2 B3 B4] := GR l lC.
  rewrite k0 in A2 B4 *; split=> //; rewrite A2; congr (_ *m _); congr (if _ then _ else _); apply/idP/idP; lia.
rewrite -lt0n in k0.
have [Us + [sU GU]] := stepU k0.
case: (k =P size st.2 - 1)%N => [Ek|/eqP Ek].
  case: (oget st.1 k) => //= Uk; case: (permute_rows _ _) => //= Uk' -> /=.
  eexists; first by []; split=> //= l lC; have [_ A1 _ A2] := G l lC; have [B1 B2 B3 B4] := GU l lC.
  split=> //; rewrite A2; congr (_ *m _); congr (if _ then _ else _); apply/idP/idP; lia.
case: (oget st.1 k) => //= Uk; case: (permute_rows _ _) => //= Uk' -> /=.
have [|Rs + [sR GR]] := stepR; first by rewrite s2 in Ek; lia.
case: (oget st.2 k.+1) => //= Rk; case: (permute_rows _ _) => //= Rk' -> /=.
eexists; first by []; split=> //= l lC; have [A1 A2 A3 A4] := GU l lC; have [B1 B2 B3 B4] := GR l lC.
by split.
Qed.

Lemma reordered_mx (C C' : seq cmat) perms k : chain_wf C -> perms_ok C perms -> reordered C C' perms ->
  (0 < k < size C)%N ->
  mxc (nrow (bmx C k)) (ncol (bmx C k)) (cols (bmx C' k)) =
  (permmx F (nrow (bmx C k)) (pk perms k.-1))^T *m mx (bmx C k) *m permmx F (ncol (bmx C k)) (pk perms k).
Proof.
move=> [_ _ BB] [sp Hp] [sC H] /andP[k0 kC].
have Ek0 a : (if k is k'.+1 then nth 0%N (pk perms k') a else a) = nth 0%N (pk perms k.-1) a.
  by case: (k) k0.
have [P s] := Hp k kC; have k1C : (k.-1 < size C)%N by lia.
have [P1 s1] := Hp k.-1 k1C.
have k1 : (k.-1.+1 < size C)%N by lia.
have [En _] := BB k.-1 k1; rewrite prednK // in En; rewrite -En in s1.
have [_ _ N] := H k kC; apply/matrixP => i j; rewrite (permmx_col P s).
rewrite -permmx_ipl // !mxE (bigD1 (pord P1 s1 i)) //= big1 ?addr0 => [|h ne]; last first.
  rewrite mxE; case: eqP => [E|_]; last by rewrite mul0r.
  case/eqP: ne; apply/val_inj => /=; rewrite E nth_ipl_nth // s1; exact: ltn_ord.
by rewrite mxE /= ipl_nth ?s1 // eqxx mul1r mxE /= N // Ek0.
Qed.

(** permute_basis maintains the reduction of the reordered complex *)
Theorem permute_basis_spec (C C' : seq cmat) perms (X : rcc F) :
  chain_wf C -> chain_wf C' -> (1 < size C)%N -> aug_const C ->
  perms_ok C perms -> reordered C C' perms ->
  [/\ size (rc_R X) = size C, size (rc_U X) = size C & size (rc_p2c X) = size C] ->
  (forall k, (k < size C)%N ->
     urec (bmx C k) (bmx (rc_R X) k) (bmx (rc_U X) k) (nth [::] (rc_p2c X) k)) ->
  exists Y, [/\ permute_basis O perms X = Ok Y,
     rc_I Y = [seq hinds C' k | k <- iota 0 (size C)],
     [/\ size (rc_R Y) = size C, size (rc_U Y) = size C & size (rc_p2c Y) = size C] &
     forall k, (k < size C)%N ->
       urec (bmx C' k) (bmx (rc_R Y) k) (bmx (rc_U Y) k) (nth [::] (rc_p2c Y) k)].
Proof.
move=> CW CW' C2 AC PO RO [sR sU spX] G; rewrite /permute_basis.
have [sp Hp] := PO; have [sC H] := RO.
rewrite sp.
have [||[U1 R1] E1 [s1 s2 G1]] := ofold_iota_ind (P := fun k st => pinv C perms (rc_U X) (rc_R X) k st)
  (n := size C) (a := (rc_U X, rc_R X))
  (g := fun (st : seq cmat * seq cmat) k => do p <- oget perms k; permute_matrices k p st.1 st.2).
- split=> //= l lC; have [[nR cR _] [nU cU WU WR _]] := G l lC; split=> //.
    have -> : (0 < l < 0)%N = false by lia.
    by rewrite mul1mx.
  have -> : (0 < l <= 0)%N = false by lia.
  by rewrite mul1mx.
- by move=> k st kC I; apply: permute_matrices_step.
rewrite E1; cbn [obind] => /=; rewrite /= in s1 s2 G1.
have Wk k := chain_wf_nth k CW'.
have pre l : (l < size C)%N ->
   [/\ cm_wf (nth m0 U1 l), cm_wf (nth m0 R1 l), nrow (nth m0 U1 l) = ncol (bmx C' l) &
      [/\ ncol (nth m0 U1 l) = ncol (bmx C' l),
       nrow (nth m0 R1 l) = nrow (bmx C' l), ncol (nth m0 R1 l) = ncol (bmx C' l),
       mxc (ncol (bmx C' l)) (ncol (bmx C' l)) (cols (nth m0 U1 l)) \in unitmx &
       mxc (nrow (bmx C' l)) (ncol (bmx C' l)) (cols (nth m0 R1 l)) =
         mx (bmx C' l) *m mxc (ncol (bmx C' l)) (ncol (bmx C' l)) (cols (nth m0 U1 l))]].
  move=> lC; have [[n1 c1 W1] [n2 c2 W2] EU ER] := G1 l lC; have [nn cc NN] := H l lC.
  have [_ [_ _ _ _ [V [Vu Vd EV RV _]]]] := G l lC.
  rewrite /mx nn cc; split=> //; split=> //.
    rewrite EU EV unitmx_mul (upper_unit Vu Vd) andbT; case: ifP => _; last exact: unitmx1.
    by have [P s] := Hp l lC; rewrite unitmx_tr permmx_unit.
  rewrite ER EU EV RV; have [P s] := Hp l lC; case: (posnP l) => [l0|l0].
    subst l; rewrite /= !mul1mx; congr (_ *m _).
    apply/matrixP => i j; rewrite !mxE NN //; apply: AC => //.
    exact: (pord_subproof P s j).
  rewrite /= lC (ltnW lC) /=.
  rewrite (reordered_mx CW PO RO) ?l0 // !mulmxA; congr (_ *m _).
  by rewrite -(mulmxA _ (permmx _ _ _)) permmx_multr // mulmx1.
have [||[[U2 R2] p2] E2 [sU2 sR2 sp2 G2 _]] := ofold_iota_ind
  (P := fun k (st : seq cmat * seq cmat * seq p2c_t) =>
    let: (U, R, p) := st in
    [/\ size U = size C, size R = size C, size p = size C,
      (forall l, (l < size C)%N -> (l < k)%N ->
        urec (bmx C' l) (nth m0 R l) (nth m0 U l) (nth [::] p l)) &
      (forall l, (l < size C)%N -> (k <= l)%N -> nth m0 R l = nth m0 R1 l /\ nth m0 U l = nth m0 U1 l)])
  (n := size C) (a := (U1, R1, rc_p2c X))
  (g := fun (st : seq cmat * seq cmat * seq p2c_t) k =>
                   let: (U, R, p) := st in
                   do Uk <- oget U k; do Rk <- oget R k;
                   do (Uk', Rk', pk') <- update_reduction2 O Uk Rk;
                   do U' <- oset U k Uk'; do R' <- oset R k Rk'; do p' <- oset p k pk';
                   Ok (U', R', p')).
- by [].
- move=> k [[U R] p] kC [a1 a2 a3 a4 a5].
  rewrite (oget_nth m0) ?a1 //= (oget_nth m0) ?a2 //=.
  have [-> ->] := a5 k kC (leqnn k); have [P1 P2 P3 [P4 P5 P6 P7 P8]] := pre k kC.
  have [U' [R' [p' [-> UR]]]] := update_reduction2_spec (Wk k) P1 P2 P3 P4 P5 P6 P7 P8.
  rewrite /= (oset_Ok m0) ?a1 //= (oset_Ok m0) ?a2 //= (oset_Ok [::]) ?a3 //=.
  eexists; first by []; split; rewrite ?size_set_nth ?a1 ?a2 ?a3; try exact/maxn_idPr.
    move=> l lC lk; rewrite !nth_setE; case: (l =P k) => [->|ne] //.
    by apply: a4 => //; lia.
  by move=> l lC lk; rewrite !nth_setE gtn_eqF //; apply: a5 => //; lia.
rewrite E2; cbn [obind]; rewrite (set_indices_spec CW') ?sC //; last first.
  by move=> k kC; case: (G2 k kC kC).
cbn [obind]; eexists; split; [by [] | by [] | by [] |] => k kC; exact: G2.
Qed.

End H.
