(** DG vector spaces, part 5: the differentials of DGVectorSpace(X, degree) and of its reordering. *)
From mathcomp Require Import all_ssreflect all_algebra zify.
From Verif Require Import Outcome P_Outcome M_SparseVec M_Perm M_ColMatrix M_Reduce M_Homology M_Persist
  M_Induced M_DG S_Linalg S_Perm S_Homology S_DG P_SparseVec P_Pairing P_Reduce P_Perm P_PermMx P_ColMatrix P_Homology P_Betti
  P_Update P_Chain P_UpdFilt P_DG1 P_DG2 P_DG3 P_DG4.
Set Implicit Arguments.
Unset Strict Implicit.
Unset Printing Implicit Defensive.
Import GRing.Theory.
Local Open Scope ring_scope.

Section A.
Variable F : fieldType.
Notation O := (ops_of F).
Notation cmat := (cmat F).
Notation m0 := (CMat 0 0 [::] : cmat).
Notation p2c_t := (seq (option nat)).

Lemma size_augment aug (C : seq cmat) : size (augment aug C) = size C.
Proof. by case: C. Qed.
Lemma augment_S aug (C : seq cmat) k : bmx (augment aug C) k.+1 = bmx C k.+1.
Proof. by case: C. Qed.
Lemma augment_ncol aug (C : seq cmat) k : ncol (bmx (augment aug C) k) = ncol (bmx C k).
Proof. by case: k => [|k]; rewrite ?augment_S //; case: C => //= C0 Bs; case: aug. Qed.

Lemma wf_zero m n : cm_wf (cm_zero F m n).
Proof. by rewrite /cm_wf /= size_nseq eqxx all_nseq orbT. Qed.
Lemma wf_fill1 n : cm_wf (CMat 1 n (nseq n [:: (0%N, 1 : F)])).
Proof. by rewrite /cm_wf /= size_nseq eqxx all_nseq /sv_wf /= oner_neq0 !orbT. Qed.
Lemma augment_wf0 aug (C : seq cmat) : cm_wf (bmx (augment aug C) 0).
Proof. case: C => [|C0 Bs]; first by []. case: aug; [exact: wf_fill1 | exact: (wf_zero 0)]. Qed.

Lemma augment_const aug (C : seq cmat) : aug_const (augment aug C).
Proof.
move=> i j j'; rewrite augment_ncol => jn jn'; case: C jn jn' => // C0 Bs jn jn'.
by case: aug => /=; rewrite !nth_nseq jn jn'.
Qed.

Lemma augment_chain (aug : bool) (C : seq cmat) : chain_wf C -> (aug -> edges_cancel C) -> chain_wf (augment aug C).
Proof.
move=> CW EC; have [s W H] := CW; split; first by rewrite size_augment.
  apply/(all_nthP m0) => -[|k]; first by rewrite bmxE => _; apply: augment_wf0.
  by rewrite bmxE augment_S => _; apply: chain_wf_nth.
rewrite size_augment => -[|k] k1; rewrite !augment_S ?augment_ncol; last exact: H.
have [nr _] := H 0%N k1; split=> //.
case: aug EC => EC; last by case: (C) s => // C0 Bs _; apply/matrixP => -[].
have {EC} := EC isT; rewrite /edges_cancel nr => EC.
apply/matrixP => i j; rewrite !mxE -[RHS](EC j) //; apply: eq_bigr => l _; rewrite !mxE.
have -> : coef (nth [::] (cols (bmx (augment true C) 0)) l) i = 1; last by rewrite mul1r.
case: (C) s l i {k1 nr H W CW EC j} => // C0 Bs _ l i /=; rewrite nth_nseq ltn_ord.
have -> : nat_of_ord i = 0%N by move: (ltn_ord i) => /=; move: (nat_of_ord i); clear; lia.
by rewrite /coef big_mkcond big_seq1 eqxx.
Qed.

(** the last differential of the homological complex *)
Notation Z C := (cm_zero F (ncol (bmx C (size C).-1)) 0).

Lemma rcons_chain (C : seq cmat) : chain_wf C -> chain_wf (rcons C (Z C)).
Proof.
move=> [s W H]; split; first by rewrite size_rcons.
  by rewrite all_rcons W wf_zero.
rewrite size_rcons => k k1; rewrite /bmx !nth_rcons.
have kC : (k < size C)%N by move: k1; clear; lia.
rewrite kC; case: (ltnP k.+1 (size C)) => k2; first exact: H.
have e : k.+1 = size C by move: k2 kC; clear; lia.
rewrite e eqxx -/(bmx C k) /= -e; split=> //.
by apply/matrixP => i -[].
Qed.

Lemma last_bmx (C0 : cmat) Bs : last C0 Bs = bmx (C0 :: Bs) (size (C0 :: Bs)).-1.
Proof. by rewrite /bmx /= -[last _ _]/(last m0 (C0 :: Bs)) -nth_last. Qed.

Lemma dg_of_hom aug (C : seq cmat) : (0 < size C)%N ->
  dg_of O C (-1) aug = Ok (DG (-1) (rcons (augment aug C) (Z C))).
Proof. by case: C => // C0 Bs _; rewrite /dg_of eqxx last_bmx; case: aug. Qed.

Lemma transpose_is (B : cmat) : cm_wf B -> exists2 B', transpose B = Ok B' & is_transpose B B'.
Proof.
move=> W; have [cs [E W' M]] := transposeE W; eexists; first exact: E; split=> //= i j im jn.
by move/matrixP/(_ (Ordinal jn) (Ordinal im)): M; rewrite !mxE.
Qed.

Lemma wf_fill_col n : sv_wf n [seq (i, 1 : F) | i <- iota 0 n].
Proof.
apply/and3P; split.
- by rewrite /sv_sorted -map_comp map_id_in // iota_ltn_sorted.
- by rewrite /sv_below all_map; apply/allP => i; rewrite mem_iota add0n.
- by rewrite /sv_nonzero all_map; apply/allP => i _ /=; rewrite oner_neq0.
Qed.
Lemma coef_fill n j : (j < n)%N -> coef [seq (i, 1 : F) | i <- iota 0 n] j = 1.
Proof.
move=> jn; rewrite /coef big_map -big_filter /=.
by rewrite (filter_pred1_uniq (iota_uniq 0 n)) ?mem_iota // big_seq1.
Qed.

Lemma dg_of_coh aug (C : seq cmat) : chain_wf C ->
  exists2 D, dg_of O C 1 aug = Ok (DG 1 D) & size D = (size C).+1 /\
    forall k, (k <= size C)%N -> is_transpose (bmx (rcons (augment aug C) (Z C)) k) (bmx D k).
Proof.
move=> [s W H]; case: C s W H => // C0 Bs _ W H; rewrite /dg_of.
have -> : (1 == -1 :> int) = false by [].
rewrite eqxx last_bmx.
have {W} W : all (@cm_wf F) Bs by move: W => /= /andP[].
have [|Ts [E sT HT]] := @omapm_exists _ _ (@transpose F) (fun B B' => is_transpose B B') Bs m0 m0.
  by move=> k kB; apply: transpose_is; apply: (all_nthP m0 W).
rewrite E; cbn [obind]; eexists; first by []; split; first by rewrite /= size_rcons sT.
have tz m n : is_transpose (cm_zero F m n) (cm_zero F n m).
  by split=> //=; [apply: wf_zero | move=> i j im jn; rewrite !nth_nseq im jn /coef !big_nil].
case=> [_|k].
  case: aug; last exact: (tz 0%N (ncol C0)).
  split=> //=.
    by rewrite /cm_wf /= andbT; exact: wf_fill_col.
  move=> i j im jn; have -> : i = 0%N by move: im; clear; lia.
  by rewrite nth_nseq jn /= coef_fill // /coef big_mkcond big_seq1 eqxx.
rewrite /= => kB; rewrite /bmx /= !nth_rcons sT; case: (ltnP k (size Bs)) => kb; first exact: HT.
have -> : k = size Bs by move: kb kB; clear; lia.
by rewrite eqxx.
Qed.
End A.
