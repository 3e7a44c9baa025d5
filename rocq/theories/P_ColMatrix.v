(** Products, sums, transposes and blocks of column matrices. *)
From mathcomp Require Import all_ssreflect all_algebra zify.
From Verif Require Import Outcome P_Outcome RingTac M_SparseVec M_Perm M_ColMatrix S_Linalg P_SparseVec
  P_SparseVec2 P_Reduce.
Set Implicit Arguments.
Unset Strict Implicit.
Unset Printing Implicit Defensive.
Import GRing.Theory.
Local Open Scope ring_scope.

Section S.
Variable F : fieldType.
Notation O := (ops_of F).
Notation svec := (svec F).
Notation cmat := (cmat F).

Lemma cm_wfP (A : cmat) : cm_wf A -> size (cols A) = ncol A /\ all (sv_wf (nrow A)) (cols A).
Proof. by move/andP => [/eqP]. Qed.

(** equality of well formed matrices is equality of denotations *)
Lemma cm_ext m n cs cs' : cm_wf (CMat m n cs) -> cm_wf (CMat m n cs') ->
  mxc (F := F) m n cs = mxc m n cs' -> cs = cs'.
Proof.
move=> /cm_wfP[/= s W] /cm_wfP[/= s' W'] E; apply: (@eq_from_nth _ [::]); first by rewrite s s'.
move=> j; rewrite s => jn; have /and3P[S1 B1 N1] := nth_wf j W; have /and3P[S2 B2 N2] := nth_wf j W'.
apply: sv_ext => // i; case: (ltnP i m) => im; last by rewrite (coef_ge B1 im) (coef_ge B2 im).
by move/matrixP/(_ (Ordinal im) (Ordinal jn)): E; rewrite !mxE.
Qed.

Lemma gemv_fold (A : cmat) m x y : size (cols A) = ncol A -> sv_below (ncol A) x ->
  all (sv_wf m) (cols A) -> sv_wf m y ->
  exists z, [/\ ofold (fun y (p : nat * F) => do c <- oget (cols A) p.1; Ok (axpy O p.2 c y)) y x = Ok z,
    sv_wf m z & forall i, coef z i = coef y i + \sum_(p <- x) p.2 * coef (nth [::] (cols A) p.1) i].
Proof.
move=> s; elim: x y => [|p x IH] y B W Wy.
  by exists y; split=> // i; rewrite big_nil addr0.
move: B => /= /andP[pn B]; rewrite (oget_nth [::]) ?s //=.
have Wp := nth_wf p.1 W.
have [z [E Wz Cz]] := IH _ B W (sv_wf_axpy p.2 Wy Wp).
exists z; split=> // i; by rewrite Cz coef_axpy big_cons addrA.
Qed.

Lemma gemvE (A : cmat) x : cm_wf A -> sv_below (ncol A) x ->
  exists z, [/\ gemv O A x = Ok z, sv_wf (nrow A) z & vec (nrow A) z = mx A *m vec (ncol A) x].
Proof.
move=> /cm_wfP[s W] B; have [z [E Wz Cz]] := gemv_fold s B W (isT : sv_wf (nrow A) [::]).
exists z; split=> //; apply/colP => i; rewrite !mxE Cz coef_nil add0r.
rewrite (sum_coef (fun j => coef (nth [::] (cols A) j) i) B); apply: eq_bigr => j _.
by rewrite !mxE mulrC.
Qed.

Lemma gemmE (A B : cmat) : cm_wf A -> cm_wf B -> ncol A = nrow B ->
  exists cs, [/\ gemm O A B = Ok (CMat (nrow A) (ncol B) cs), cm_wf (CMat (nrow A) (ncol B) cs) &
    mxc (nrow A) (ncol B) cs = mx A *m mxc (ncol A) (ncol B) (cols B)].
Proof.
move=> WA /cm_wfP[s W] E.
have [|rs [Er sr G]] := @omapm_exists _ _ (gemv O A)
  (fun c z => sv_wf (nrow A) z /\ vec (nrow A) z = mx A *m vec (ncol A) c) (cols B) [::] [::].
  move=> j js; have /and3P[S1 B1 N1] := nth_wf j W.
  have [|z [Ez Wz Vz]] := gemvE (A := A) (x := nth [::] (cols B) j) WA; first by rewrite E.
  by exists z.
exists rs; rewrite /gemm Er; split=> //.
  rewrite /cm_wf /= sr s eqxx /=; apply/(all_nthP [::]) => j; rewrite sr => jn.
  by have [] := G j jn.
apply/matrixP => i j; rewrite !mxE; have jn : (j < size (cols B))%N by rewrite s.
have [_ /colP/(_ i)] := G j jn; rewrite !mxE => ->; by apply: eq_bigr => k _; rewrite !mxE.
Qed.

Lemma cm_axpy_colsE a (A B : cmat) : cm_wf A -> cm_wf B -> nrow A = nrow B -> ncol A = ncol B ->
  exists cs, [/\ cm_axpy_cols O a A B = Ok (CMat (nrow B) (ncol B) cs), cm_wf (CMat (nrow B) (ncol B) cs) &
    mxc (nrow B) (ncol B) cs = mx B + a *: mxc (nrow B) (ncol B) (cols A)].
Proof.
move=> /cm_wfP[sA WA] /cm_wfP[sB WB] Er Ec; rewrite /cm_axpy_cols.
have [||r -> [sr Wr G]] := @ofold_iota_ind _ (fun cs j => do x <- oget (cols A) j; do y <- oget cs j;
                              oset cs j (axpy O a x y))
  (fun l (cs : seq svec) => [/\ size cs = ncol B, all (sv_wf (nrow B)) cs & forall j i, (j < ncol B)%N ->
      coef (nth [::] cs j) i = coef (nth [::] (cols B) j) i +
         (if (j < l)%N then a * coef (nth [::] (cols A) j) i else 0)]) (ncol A) (cols B).
- by split=> // j i _; rewrite addr0.
- move=> l cs lA [s W G]; have lB : (l < ncol B)%N by rewrite -Ec.
  rewrite (@oget_nth svec [::]) ?sA //= (@oget_nth svec [::]) ?s //= (oset_Ok [::]) ?s //.
  eexists; first by []; split.
  + by rewrite size_set_nth s; apply/maxn_idPr.
  + apply/(all_nthP [::]) => j _; rewrite nth_setE; case: ifP => _; last exact: nth_wf.
    by apply: sv_wf_axpy; [apply: nth_wf | rewrite -Er; apply: nth_wf].
  + move=> j i jB; rewrite nth_setE; case: eqP => [->|/eqP ne].
      by rewrite coef_axpy G // ltnn addr0 ltnSn.
    by rewrite G //; congr (_ + _); rewrite [in RHS]ltnS [in RHS]leq_eqVlt (negbTE ne).
exists r => /=; split=> //; first by rewrite /cm_wf /= sr eqxx.
by apply/matrixP => i j; rewrite !mxE G // Ec ltn_ord.
Qed.

(** ** transpose *)
Lemma transpose_col (t : seq svec) m (c : svec) j : size t = m -> sv_wf m c ->
  all (fun r => all (fun p : nat * F => (p.1 < j)%N) r) t -> all (@sv_sorted F) t -> all (@sv_nonzero F) t ->
  exists t', [/\ ofold (fun t (p : nat * F) => do r <- oget t p.1; oset t p.1 (rcons r (j, p.2))) t c = Ok t',
    size t' = m, all (fun r => sv_wf j.+1 r) t' &
    forall i k, (i < m)%N -> coef (nth [::] t' i) k = coef (nth [::] t i) k + (if k == j then coef c i else 0)].
Proof.
move=> st Wc B S N.
suff H : forall (c0 : svec) t0, sv_wf m c0 -> size t0 = m ->
   (forall i, (i < m)%N -> sv_wf j.+1 (nth [::] t0 i) /\ (i \in [seq p.1 | p <- c0] -> all (fun p : nat * F => (p.1 < j)%N) (nth [::] t0 i))) ->
   exists t', [/\ ofold (fun t (p : nat * F) => do r <- oget t p.1; oset t p.1 (rcons r (j, p.2))) t0 c0 = Ok t',
    size t' = m, all (fun r => sv_wf j.+1 r) t' &
    forall i k, (i < m)%N -> coef (nth [::] t' i) k = coef (nth [::] t0 i) k + (if k == j then coef c0 i else 0)].
  apply: H => // i im; have it : (i < size t)%N by rewrite st.
  have b := all_nthP [::] B i it; split=> [|_ //]; apply/and3P; split.
  - exact: (all_nthP [::] S i it).
  - by apply: sub_all b => p; apply: ltnW.
  - exact: (all_nthP [::] N i it).
elim=> [|p c0 IH] t0 W0 s0 G.
  exists t0; split=> //; last by move=> i k _; rewrite coef_nil; case: ifP; rewrite addr0.
  by apply/(all_nthP [::]) => i; rewrite s0 => /G[].
have /and3P[S0 /= /andP[pm B0] /andP[pn N0]] := W0.
rewrite /= (@oget_nth svec [::]) ?s0 //= (oset_Ok [::]) ?s0 //=.
set t1 := set_nth _ _ _ _.
have s1 : size t1 = m by rewrite size_set_nth s0; apply/maxn_idPr.
have nin : p.1 \notin [seq q.1 | q <- c0].
  move: S0; rewrite sv_sorted_cons => /andP[h _]; apply/negP => /(allP h); by rewrite /= ltnn.
have [Wp /(_ (mem_head _ _)) Bp] := G p.1 pm.
have [||t' [E st' Wt' Ct']] := IH t1 _ s1.
- by apply/and3P; split=> //; apply: sv_sorted_tl S0.
- move=> i im; rewrite nth_setE; case: eqP => [->|ne]; last first.
    by have [a b] := G i im; split=> // h; apply: b; rewrite inE h orbT.
  split; last by move=> h; move: nin; rewrite h.
  have /and3P[a b d] := Wp; rewrite /sv_wf /sv_below /sv_nonzero !all_rcons /= ltnSn pn; apply/and3P; split=> //.
  rewrite /sv_sorted map_rcons -cats1 (sorted_pairwise ltn_trans) pairwise_cat -(sorted_pairwise ltn_trans).
  rewrite -/(sv_sorted _) a /= !andbT; apply/allrelP => x y /mapP[q Hq ->]; rewrite inE => /eqP -> /=.
  exact: (allP Bp).
exists t'; split=> // i k im; rewrite Ct' // nth_setE; case: eqP => [->|/eqP ne].
  rewrite coef_rcons /= -addrA; congr (_ + _); rewrite eq_sym coef_cons eqxx; case: ifP => _; last by rewrite addr0.
  by [].
by rewrite coef_cons (eq_sym p.1) (negbTE ne) add0r.
Qed.

Lemma transposeE (A : cmat) : cm_wf A ->
  exists cs, [/\ transpose A = Ok (CMat (ncol A) (nrow A) cs), cm_wf (CMat (ncol A) (nrow A) cs) &
     mxc (ncol A) (nrow A) cs = (mx A)^T].
Proof.
move=> /cm_wfP[s W]; rewrite /transpose.
have [||r -> [sr Wr G]] := @ofold_iota_ind _ (fun t j => do c <- oget (cols A) j;
   ofold (fun t (p : nat * F) => do r <- oget t p.1; oset t p.1 (rcons r (j, p.2))) t c)
  (fun l (t : seq svec) => [/\ size t = nrow A, all (fun r => sv_wf l r) t &
     forall i k, (i < nrow A)%N -> coef (nth [::] t i) k = if (k < l)%N then coef (nth [::] (cols A) k) i else 0])
  (ncol A) (nseq (nrow A) [::]).
- split; rewrite ?size_nseq //; first by elim: (nrow A).
  by move=> i k im; rewrite nth_nseq im coef_nil.
- move=> l t lA [st Wt Gt]; rewrite (@oget_nth svec [::]) ?s //=.
  have [|||t' [E st' Wt' Ct']] := transpose_col (j := l) st (nth_wf l W).
  + by apply: sub_all Wt => v /and3P[S B N].
  + by apply: sub_all Wt => v /and3P[S B N].
  + by apply: sub_all Wt => v /and3P[S B N].
  exists t' => //; split=> // i k im; rewrite Ct' // Gt // [in RHS]ltnS [in RHS]leq_eqVlt.
  by case: eqP => [->|_] /=; rewrite ?ltnn ?add0r ?addr0.
exists r; split=> //; first by rewrite /cm_wf /= sr eqxx.
by apply/matrixP => i j; rewrite !mxE G ?ltn_ord.
Qed.

(** ** blocks *)
Lemma cm_blockE i0 i1 j0 j1 (A : cmat) : cm_wf A -> (j1 <= ncol A)%N ->
  exists cs, [/\ cm_block i0 i1 j0 j1 A = Ok (CMat (i1 - i0) (j1 - j0) cs), cm_wf (CMat (i1 - i0) (j1 - j0) cs) &
    forall i j, (i < i1 - i0)%N -> (j < j1 - j0)%N ->
      coef (nth [::] cs j) i = coef (nth [::] (cols A) (j0 + j)) (i0 + i)].
Proof.
move=> /cm_wfP[s W] le; rewrite /cm_block.
rewrite (omapm_Ok_eq (g := fun j => sv_block i0 i1 (nth [::] (cols A) j))) /=; last first.
  move=> j; rewrite mem_iota => h; rewrite (@oget_nth svec [::]) //= s; move: h le; clear; lia.
eexists; split; first by [].
  rewrite /cm_wf /= size_map size_iota eqxx /=; apply/allP => c /mapP[j _ ->].
  have /and3P[S B N] := nth_wf j W; have [a b c' _] := sv_blockE i0 i1 S.
  by apply/and3P; split=> //; apply: c'.
move=> i j il jl; rewrite (nth_map 0%N) ?size_iota // nth_iota //.
have /and3P[S B N] := nth_wf (j0 + j) W; have [_ _ _ ->] := sv_blockE i0 i1 S.
by rewrite il.
Qed.

(** what set_block really does: row i1 of the affected columns is lost *)
Lemma cm_set_blockE i0 i1 j0 j1 (B A : cmat) : cm_wf A -> cm_wf B ->
  (i0 <= i1)%N -> (i1 <= nrow A)%N -> (j0 <= j1)%N -> (j1 <= ncol A)%N -> nrow B = (i1 - i0)%N -> ncol B = (j1 - j0)%N ->
  exists cs, [/\ cm_set_block i0 i1 j0 j1 B A = Ok (CMat (nrow A) (ncol A) cs), cm_wf (CMat (nrow A) (ncol A) cs) &
    forall i j, (j < ncol A)%N ->
      coef (nth [::] cs j) i =
      if (j0 <= j < j1)%N then
        if (i < i0)%N then coef (nth [::] (cols A) j) i
        else if (i < i1)%N then coef (nth [::] (cols B) (j - j0)) (i - i0)
        else if (i == i1)%N then 0 else coef (nth [::] (cols A) j) i
      else coef (nth [::] (cols A) j) i].
Proof.
move=> /cm_wfP[sA WA] /cm_wfP[sB WB] le0 lei le1 le nB mB; rewrite /cm_set_block.
pose f := (fun (cs : seq svec) (j : nat) => do c <- oget cs j; do b <- oget (cols B) (j - j0);
  oset cs j (sv_set_block i0 i1 b c)).
rewrite -/f.
suff [r -> [sr G]] : exists2 r, ofold f (cols A) (iota j0 (j1 - j0)) = Ok r &
   size r = ncol A /\ forall j, (j < ncol A)%N -> nth [::] r j =
     if (j0 <= j < j0 + (j1 - j0))%N then sv_set_block i0 i1 (nth [::] (cols B) (j - j0)) (nth [::] (cols A) j)
     else nth [::] (cols A) j.
  exists r; split=> //; last first.
    move=> i j jA; rewrite G // subnKC //; case: ifP => // h.
    have /and3P[S _ _] := nth_wf j WA; have /and3P[S' B' _] := nth_wf (j - j0) WB.
    by have [_ ->] := sv_set_blockE S S' le0 (eq_ind _ (fun x => sv_below x _) B' _ nB).
  rewrite /cm_wf /= sr eqxx; apply/(all_nthP [::]) => j; rewrite sr => jA; rewrite G //.
  case: ifP => _; last exact: nth_wf.
  by apply: sv_wf_set_block; rewrite ?le0 // -?nB; apply: nth_wf.
have : (j1 - j0 <= ncol B)%N by rewrite mB.
have : (j0 + (j1 - j0) <= ncol A)%N by rewrite subnKC.
elim: (j1 - j0)%N => [|d IH] leA leB.
  exists (cols A) => //; split=> // j jA; by rewrite addn0 ltnNge andbN.
have [|r E [s G]] := IH _ (ltnW leB); first by move: leA; clear; lia.
have l1 : (j0 + d < ncol A)%N by move: leA; clear; lia.
rewrite -addn1 iotaD ofold_cat E /= /f (@oget_nth svec [::]) ?s //= addKn (@oget_nth svec [::]) ?sB //=.
rewrite (oset_Ok [::]) ?s //=; eexists; first by [].
split; first by rewrite size_set_nth s; apply/maxn_idPr.
move=> j jA; rewrite nth_setE; case: eqP => [->|/eqP ne].
  by rewrite leq_addr addn1 addnS ltnSn /= G // ltnn andbF addKn.
by rewrite G //; congr (if _ then _ else _); move: ne; clear; lia.
Qed.

End S.
