(** DG vector spaces, part 13: transposes, is_differential, homology dimensions. *)
From mathcomp Require Import all_ssreflect all_algebra zify.
From Verif Require Import Outcome P_Outcome M_SparseVec M_Perm M_ColMatrix M_Reduce M_Homology M_Persist
  M_Induced M_DG S_Linalg S_Perm S_Homology S_Persist S_DG P_SparseVec P_Pairing P_Reduce P_Perm P_PermMx P_ColMatrix P_Homology P_Betti
  P_Update P_Extra P_Chain P_Sort P_Persist P_Pairs P_UpdFilt P_DG1 P_DG2 P_DG3 P_DG4 P_DG5 P_DG6 P_DG7 P_DG8 P_DG9 P_DG10 P_DG11.
Set Implicit Arguments.
Unset Strict Implicit.
Unset Printing Implicit Defensive.
Import GRing.Theory Order.TTheory.
Local Open Scope ring_scope.

Section A.
Variable F : fieldType.
Notation O := (ops_of F).
Notation cmat := (cmat F).
Notation m0 := (CMat 0 0 [::] : cmat).
Notation Z C := (cm_zero F (ncol (bmx C (size C).-1)) 0).

Lemma is_transpose_mx (B B' : cmat) : is_transpose B B' -> mxc (ncol B) (nrow B) (cols B') = (mx B)^T.
Proof. by move=> [_ n c H]; apply/matrixP => i j; rewrite !mxE H. Qed.

Lemma is_transpose_rank (B B' : cmat) : is_transpose B B' -> \rank (mx B') = \rank (mx B).
Proof.
move=> T; rewrite -(mxrank_tr (mx B)) -(is_transpose_mx T); have [_ n c _] := T.
by case: B' n c {T} => r c' cs /= -> ->.
Qed.

Lemma tr_chain (D D' : seq cmat) : chain_wf D -> size D' = size D ->
  (forall k, (k < size D)%N -> is_transpose (bmx D k) (bmx D' k)) -> chain_wf (rev D').
Proof.
move=> [s W H] s' HA; split; first by rewrite size_rev s'.
  rewrite all_rev; apply/(all_nthP m0) => k; rewrite s' => /HA[]; by rewrite bmxE.
rewrite size_rev s' => k k1; rewrite !bmx_rev ?s' //; last exact: ltnW.
have l1 : (size D - k.+2 < size D)%N by move: k1; clear; lia.
have e : (size D - k.+1)%N = (size D - k.+2).+1 by move: k1; clear; lia.
have l2 : ((size D - k.+2).+1 < size D)%N by move: k1; clear; lia.
rewrite e; move: (size D - k.+2)%N l1 l2 {e k1} => a l1 l2.
have [nr Z] := H a l2; have A1 := HA _ l1; have A2 := HA _ l2.
have [_ e1 e2 _] := A1; have [_ e3 e4 _] := A2.
rewrite e4 e1 nr e3 e2; split=> //.
have M1 := is_transpose_mx A1; have M2 := is_transpose_mx A2.
move: M2 Z; rewrite M1; case: (bmx D a.+1) nr => r c cs /= er; subst r => -> Z.
by rewrite -trmx_mul Z trmx0.
Qed.

Lemma dg_of_chain m deg (aug : bool) (C : seq cmat) : deg = -1 \/ deg = 1 -> chain_wf C -> size C = m.+1 ->
  (aug -> edges_cancel C) ->
  exists2 D0, dg_of O C deg aug = Ok (DG deg D0) & size D0 = m.+2 /\ chain_wf (hord deg D0) /\
    (forall k, (k <= m.+1)%N -> \rank (mx (bmx D0 k)) = brank (augment aug C) k) /\
    (forall k, (k <= m)%N -> ncol (bmx D0 (dg_ix deg k)) = ncol (bmx C k)).
Proof.
move=> Hd CW sC EC; have AW := augment_chain CW EC; have s0 : (0 < size C)%N by rewrite sC.
have sA : size (augment aug C) = size C by apply: size_augment.
have lz : Z C = cm_zero F (ncol (bmx (augment aug C) (size (augment aug C)).-1)) 0.
  by rewrite sA augment_ncol.
have ZW : chain_wf (rcons (augment aug C) (Z C)) by rewrite lz; apply: rcons_chain.
have rk k : (k <= m.+1)%N -> \rank (mx (bmx (rcons (augment aug C) (Z C)) k)) = brank (augment aug C) k.
  move=> km; rewrite /brank bmx_rcons sA sC; case: (ltnP k m.+1) => // k1.
  have -> : k = m.+1 by move: km k1; clear; lia.
  rewrite eqxx [bmx (augment aug C) _]/bmx nth_default ?sA ?sC //.
  have z (a : nat) (A : 'M[F]_(a, 0)) : \rank A = 0%N by apply/eqP; rewrite -leqn0 rank_leq_col.
  by rewrite !z.
have [D0 E0 [sD0 W0 n1 n2 n3]] := dg_of_spec Hd CW sC EC.
have eT : (-1 == -1 :> int) = true by [].
have eF : (1 == -1 :> int) = false by [].
exists D0 => //; split=> //; case: Hd => dE; subst deg.
  move: (E0); rewrite dg_of_hom // => -[eD]; rewrite eT in n2; rewrite /hord /dg_ix eT -eD; split=> //; split=> //.
  by move=> k km; rewrite eD; apply: n2.
have [D E [sD HT]] := dg_of_coh aug CW; move: (E); rewrite E0 => -[eD]; subst D0.
rewrite sC in sD; have {}HT k : (k <= m.+1)%N -> is_transpose (bmx (rcons (augment aug C) (Z C)) k) (bmx D k).
  by move=> km; apply: HT; rewrite sC.
rewrite eF in n1; rewrite /hord /dg_ix eF; split; last first.
  by split=> // k km; rewrite (is_transpose_rank (HT k km)) rk.
apply: (tr_chain ZW); first by rewrite size_rcons sA sC.
by move=> k kl; apply: HT; move: kl; rewrite size_rcons sA sC.
Qed.

Lemma cm_is_zeroE (A : cmat) : cm_wf A -> cm_is_zero A = (mx A == 0).
Proof.
move=> WA; have /cm_wfP[s W] := WA; apply/idP/eqP => [/(all_nthP [::]) H|Z0].
  apply/matrixP => i j; rewrite !mxE; have : nth [::] (cols A) j = [::].
    by apply/eqP; rewrite -size_eq0; apply: H; rewrite s.
  by move=> ->; rewrite coef_nil.
apply/(all_nthP [::]) => j; rewrite s => jn; rewrite size_eq0; apply/eqP.
have W' := nth_wf j W.
have /and3P[S' _ N'] := W'; apply: sv_ext => // i; rewrite coef_nil.
case: (ltnP i (nrow A)) => im; first by move/matrixP/(_ (Ordinal im) (Ordinal jn)): Z0; rewrite !mxE.
by have /and3P[_ B _] := W'; apply: (coef_ge B).
Qed.

Lemma is_diffE (A B : cmat) : cm_wf A -> cm_wf B -> nrow B = ncol A -> 
  mx A *m mxc (ncol A) (ncol B) (cols B) = 0 ->
  (do P <- gemm O A B; Ok (cm_is_zero P)) = Ok true.
Proof.
move=> WA WB e H; have [cs [-> W M]] := gemmE WA WB (esym e); cbn [obind].
rewrite cm_is_zeroE //; congr Ok; apply/eqP; exact: etrans M H.
Qed.

(** the dimensions reported by hdim *)
Lemma rd_hdimE m opt deg (D : seq cmat) : deg = -1 \/ deg = 1 -> size D = m.+2 -> chain_wf (hord deg D) ->
  exists2 X, rdg_of O opt (DG deg D) = Ok X & rd_degree X = deg /\
  forall k, (k <= m)%N -> exists2 h, rd_hdim X k = Ok h &
    (h + \rank (mx (bmx D k)) + \rank (mx (bmx D k.+1)) = ncol (bmx D (dg_ix deg k)))%N.
Proof.
move=> Hd sD DW; have [X [EX dX IX GX]] := rdg_of_spec opt Hd sD DW; exists X => //; split=> // k km.
rewrite /rd_hdim dX IX /dg_inds /dg_ix.
have eT : (-1 == -1 :> int) = true by [].
have eF : (1 == -1 :> int) = false by [].
case: Hd => dE; rewrite dE ?eT ?eF; rewrite dE /hord ?eT ?eF in DW.
  rewrite (oget_nth [::]) ?size_rcons ?size_map ?size_iota; last exact: leqW.
  rewrite nth_rcons size_map size_iota ltnS km (nth_map 0%N) ?size_iota // nth_iota // add0n.
  cbn [obind]; eexists; first by [].
  by apply: hinds_count; rewrite // sD; apply: leqW.
have -> : forall l : seq (seq nat), oget ([::] :: l) k.+1 = oget l k by [].
rewrite (oget_nth [::]) ?size_map ?size_iota //.
rewrite (nth_map 0%N) ?size_iota // nth_iota // add0n.
cbn [obind]; eexists; first by [].
have kD : (m - k < size (rev D))%N by rewrite size_rev sD; clear; lia.
have k1 : ((m - k).+1 < size D)%N by rewrite sD; clear; lia.
have := hinds_count DW kD; rewrite /brank !bmx_rev ?sD //; last by clear; lia.
have -> : (m.+2 - (m - k).+1)%N = k.+1 by move: km; clear; lia.
have -> : (m.+2 - (m - k).+2)%N = k by move: km; clear; lia.
  by rewrite -addnA [(\rank _ + \rank _)%N]addnC addnA.
by clear; lia.
Qed.

(** the columns without a pivot *)
Lemma free_count (B : cmat) : cm_wf B ->
  (size [seq j <- iota 0 (ncol B) | ~~ pcol (mx B) j] + \rank (mx B) = ncol B)%N.
Proof.
move=> W; have CW : chain_wf [:: B] by split=> //=; rewrite W.
have := hinds_count CW (isT : (0 < 1)%N); rewrite /hinds /brank.
have -> : bmx [:: B] 1 = m0 by [].
have -> : bmx [:: B] 0 = B by [].
have -> : \rank (mx m0) = 0%N by apply/eqP; rewrite -leqn0 rank_leq_col.
rewrite addn0 => H; refine (etrans _ H); congr (size _ + _)%N; apply: eq_filter => j.
suff -> : prow (mx m0) j = false by rewrite andbT.
by apply/negbTE/negP => /existsP[[]].
Qed.

Lemma rank_reord m deg (D D' : seq cmat) qs k : dgp m deg D qs -> dgr m deg D D' qs ->
  \rank (mx (bmx D' k)) = \rank (mx (bmx D k)) /\ ncol (bmx D' k) = ncol (bmx D k).
Proof.
move=> DP [sD' DR]; have := DR k; case: ifP => [kr|_ ->] // [_ n c H]; split=> //.
have [a1 a2] := dgp_r DP kr; have [b1 b2] := dgp_c DP kr.
move: n c H a1 b1; case: (bmx D k) (bmx D' k) => r c cs [r' c' cs'] /= e1 e2; subst r' c' => H a1 b1.
apply: (rank_reindex (P := a2) (s := esym a1) (Q := b2) (s' := esym b1)) => i j.
by rewrite !mxE; exact: H.
Qed.
End A.
