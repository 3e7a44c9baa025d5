(** Pivots, clearing, compression and Betti numbers. *)
From mathcomp Require Import all_ssreflect all_algebra zify.
From Verif Require Import Outcome P_Outcome RingTac M_SparseVec M_Perm M_ColMatrix M_Reduce M_Homology
  S_Linalg S_Homology P_SparseVec P_Pairing P_Reduce.
Set Implicit Arguments.
Unset Strict Implicit.
Unset Printing Implicit Defensive.
Import GRing.Theory.
Local Open Scope ring_scope.

Section H.
Variable F : fieldType.
Notation O := (ops_of F).
Notation svec := (svec F).
Notation cmat := (cmat F).

(** ** red_col is the projection of red_colU *)
Lemma red_col_proj fuel R (U : seq svec) p j : (j < size U)%N -> (size R <= size U)%N ->
  red_col O fuel R p j = omap (fun r => (r.1.1, r.2)) (red_colU O fuel R U p j).
Proof.
elim: fuel R U p => //= fuel IH R U p jU le.
case Ec: (oget R j) => [c| | |] //=; case: c Ec => [//|q c] Ec; cbn [obind].
case El: (lastnz (q :: c)) => [[i v]| | |] //=.
case Ep: (oget p i) => [e| | |] //=.
case: e Ep => [k|] Ep /=; last by case: (oset p i (Some j)).
case Ek: (oget R k) => [ck| | |] //=; have [kR _] := oget_Ok [::] Ek.
case: (lastnz ck) => [[? w]| | |] //=; case: (odiv O v w) => [a| | |] //=.
have [jR _] := oget_Ok [::] Ec.
rewrite (oset_Ok [::] _ jR) /= (oget_nth [::] jU) /= (oget_nth [::]) /=; last exact: leq_trans kR le.
rewrite (oset_Ok [::] _ jU) /= -IH ?size_set_nth //; last by rewrite !(maxn_idPr _) //; lia.
by rewrite leq_max jU orbT.
Qed.

Lemma reduce_standard_proj (M U : cmat) : cm_wf M -> cm_wf U -> ncol M = ncol U ->
  reduce_standard O M = omap (fun r => (r.1.1, r.2)) (reduce_standardU O M U).
Proof.
move=> /andP[/eqP sM _] /andP[/eqP sU _] En; rewrite /reduce_standard /reduce_standardU.
have -> : (ncol M != ncol U) = false by rewrite En eqxx.
set f := fun st j => red_colU O _ _ _ _ _; set g := fun st j => red_col O _ _ _ _.
suff H l st : all (fun j => j < size st.1.2)%N l -> (size st.1.1 <= size st.1.2)%N ->
   ofold g (st.1.1, st.2) l = omap (fun r => (r.1.1, r.2)) (ofold f st l).
  rewrite (H (iota 0 (ncol M)) (cols M, cols U, nseq (nrow M) None)) /=; last by lia.
    by case: (ofold f _ _) => [[[? ?] ?]| | |].
  by apply/allP => j; rewrite mem_iota; lia.
elim: l st => [|j l IH] [[R U'] p] //= /andP[jU aU] le.
have -> : g (R, p) j = omap (fun r => (r.1.1, r.2)) (f (R, U', p) j) by apply: red_col_proj.
case E: (f (R, U', p) j) => [[[R2 U2] p2]| | |] //=; rewrite /f in E; cbn [fst snd] in E.
suff [sR sU'] : size R2 = size R /\ size U2 = size U'.
  by rewrite -(IH (R2, U2, p2)) //= ?sR ?sU'.
move: (nrow M).+2 E => fuel; clear -jU le.
elim: fuel R U' p jU le => //= fuel IH R U p jU le.
case Ec: (oget R j) => [c| | |] //=; case: c Ec => [_ [<- <-] //|q c] Ec; cbn [obind].
case El: (lastnz (q :: c)) => [[i v]| | |] //=.
case Ep: (oget p i) => [e| | |] //=.
case: e Ep => [k|] Ep /=; last by case: (oset p i (Some j)) => //= ? [<- <-].
case Ek: (oget R k) => [ck| | |] //=; have [kR _] := oget_Ok [::] Ek.
case: (lastnz ck) => [[? w]| | |] //=; case: (odiv O v w) => [a| | |] //=.
have [jR _] := oget_Ok [::] Ec.
rewrite (oset_Ok [::] _ jR) /= (oget_nth [::] jU) /= (oget_nth [::]) /=; last exact: leq_trans kR le.
rewrite (oset_Ok [::] _ jU) /= => /IH; rewrite !size_set_nth !(maxn_idPr _) //; apply => //.
Qed.

(** ** What a finished reduction says about pivots *)

(** R, p are a good reduction record of B: p lists the pivots, and column j of R is empty iff
    no pivot lies in column j *)
Definition pgood m n (B : 'M[F]_(m, n)) (R : seq svec) (p : seq (option nat)) : Prop :=
  [/\ size R = n, all (sv_wf m) R, pivots_exact B p &
      forall j, (j < n)%N -> (nth [::] R j == [::]) = ~~ [exists i : 'I_m, is_pivot B i j]].

Lemma rinv_reduced m n mu (M0 : 'M[F]_(m, n)) (U0 : 'M[F]_(mu, n)) R U p :
  rinv M0 U0 n R U p -> reduced (mxc m n R).
Proof.
move=> [_ WR _ _ Hp] i j j' /(last_ind_low i (nth_wf j WR)) L /(last_ind_low i (nth_wf j' WR)) L'.
have E1 := (Hp i j (ltn_ord i)).2 (conj (ltn_ord j) L).
have := (Hp i j' (ltn_ord i)).2 (conj (ltn_ord j') L').
by rewrite E1 => -[/val_inj].
Qed.

Lemma empty_nzcol m n (R : seq svec) (j : 'I_n) : sv_wf m (nth [::] R j) ->
  (nth [::] R j == [::]) = ~~ nzcol (mxc m n R) j.
Proof.
move=> W; apply/eqP/idP => [E|].
  by apply/negP => /existsP[i]; rewrite mxE E coef_nil eqxx.
move=> /nzcolN Z; case E: (nth [::] R j) => [//|q c].
have ne : nth [::] R j <> [::] by rewrite E.
have [i [v [_ _ im cv vn]]] := lastnz_spec W ne.
by move: (Z (Ordinal im)); rewrite mxE /= cv => Ev; rewrite Ev eqxx in vn.
Qed.

Lemma rinv_pgood m n mu (M0 : 'M[F]_(m, n)) (U0 : 'M[F]_(mu, n)) R U p :
  rinv M0 U0 n R U p -> pgood M0 R p.
Proof.
move=> I; have red := rinv_reduced I; move: I => [[sR sU sp] WR WU [V [Vu Vd RV UV]] Hp].
have low i j : lowb (mxc m n R) i j = is_pivot M0 i j.
  exact: (pairing_unique _ _ Vu (diag1_n0 Vd) RV red).
split=> //.
  split=> // i im j; rewrite Hp //; split.
    move=> [jn L]; rewrite jn /= -(low (Ordinal im) (Ordinal jn)); apply/lowP.
    by apply/last_ind_low => //; apply: nth_wf.
  move=> /andP[jn]; rewrite -(low (Ordinal im) (Ordinal jn)) => /lowP L; split=> //.
  by apply/(last_ind_low (Ordinal im) (j := Ordinal jn)) => //; apply: nth_wf.
move=> j jn; rewrite (@empty_nzcol m n _ (Ordinal jn)) ?nth_wf //; congr (~~ _).
apply/nzcolP/existsP => -[i Hi]; exists i.
  by rewrite -(low i (Ordinal jn)); apply/lowP.
by apply/lowP; rewrite low.
Qed.

Lemma cm_wf_identity n : cm_wf (cm_identity O n).
Proof.
rewrite /cm_wf /cm_identity /= size_map size_iota eqxx /=.
by apply/allP => c /mapP[j]; rewrite mem_iota => /andP[_ jn] ->; apply: sv_wf_unit.
Qed.

Lemma mxc_identity n : mxc n n (cols (cm_identity O n)) = 1%:M.
Proof.
apply/matrixP => i j; rewrite !mxE /cm_identity /= (nth_map 0%N) ?size_iota //.
by rewrite nth_iota // add0n coef_unit -val_eqE eq_sym.
Qed.

(** standard reduction with identity start *)
Lemma reduce_standardU_pgood (M U : cmat) : cm_wf M -> cm_wf U -> ncol M = ncol U ->
  exists R U' p,
    [/\ reduce_standardU O M U = Ok (CMat (nrow M) (ncol M) R, CMat (nrow U) (ncol U) U', p),
        rinv (mxc (nrow M) (ncol M) (cols M)) (mxc (nrow U) (ncol M) (cols U)) (ncol M) R U' p &
        pgood (mxc (nrow M) (ncol M) (cols M)) R p].
Proof.
move=> WM WU En; have [R [U' [p [E I]]]] := reduce_standardU_rinv WM WU En.
by exists R, U', p; split=> //; apply: rinv_pgood I.
Qed.

Lemma reduce_standard_pgood (M : cmat) : cm_wf M ->
  exists R p,
    [/\ reduce_standard O M = Ok (CMat (nrow M) (ncol M) R, p),
        (exists U, rinv (mxc (nrow M) (ncol M) (cols M)) (1%:M) (ncol M) R U p) &
        pgood (mxc (nrow M) (ncol M) (cols M)) R p].
Proof.
move=> WM; have [R [U' [p [E I P]]]] := reduce_standardU_pgood WM (cm_wf_identity (ncol M)) erefl.
exists R, p; split=> //; last first.
  by exists U'; rewrite mxc_identity in I.
by rewrite (reduce_standard_proj WM (cm_wf_identity (ncol M))) // E.
Qed.

(** every well formed matrix has a reduction *)
Lemma reduction_exists (M : cmat) : cm_wf M ->
  exists V, [/\ upper V, diag1 V & reduced (mxc (nrow M) (ncol M) (cols M) *m V)].
Proof.
move=> WM; have [R [p [_ [U I] _]]] := reduce_standard_pgood WM.
have := rinv_reduced I; case: I => _ _ _ [V [Vu Vd E _]] _ red.
by exists V; rewrite -E.
Qed.

Lemma pivot_low m n (M : 'M[F]_(m, n)) (V : 'M[F]_n) (i : 'I_m) (j : 'I_n) :
  upper V -> diagn0 V -> reduced (M *m V) -> is_pivot M i j = lowb (M *m V) i j.
Proof. by move=> Vu Vd red; rewrite (pairing_unique i j Vu Vd erefl red). Qed.

Lemma is_pivot_mul_upper m n (M : 'M[F]_(m, n)) (V : 'M[F]_n) i j :
  upper V -> diagn0 V -> is_pivot (M *m V) i j = is_pivot M i j.
Proof. by move=> Vu Vd; rewrite /is_pivot !rll_mul_upper. Qed.

(** ** Counting *)
Lemma rank_pivot_cols m n (M : 'M[F]_(m, n)) (V : 'M[F]_n) :
  upper V -> diagn0 V -> reduced (M *m V) ->
  \rank M = #|[set j : 'I_n | [exists i : 'I_m, is_pivot M i j]]|.
Proof.
move=> Vu Vd red; have U1 := upper_unit Vu Vd.
rewrite -(mxrankMfree M (_ : row_free V)) ?row_free_unit // rank_reduced //.
apply: eq_card => j; rewrite !inE; apply/nzcolP/existsP => -[i Hi]; exists i.
  by rewrite (pivot_low _ _ Vu Vd red); apply/lowP.
by apply/lowP; rewrite -pivot_low.
Qed.

Lemma rank_pivot_rows m n (M : 'M[F]_(m, n)) (V : 'M[F]_n) :
  upper V -> diagn0 V -> reduced (M *m V) ->
  \rank M = #|[set i : 'I_m | [exists j : 'I_n, is_pivot M i j]]|.
Proof.
move=> Vu Vd red; rewrite (rank_pivot_cols Vu Vd red).
case: (pickP (fun _ : 'I_n => true)) => [j0 _|e]; last first.
  rewrite !eq_card0 // => k; rewrite !inE; try by have := e k.
  by apply/existsP => -[j]; have := e j.
pose f (i : 'I_m) : 'I_n := odflt j0 [pick j : 'I_n | is_pivot M i j].
have fP (i : 'I_m) : [exists j : 'I_n, is_pivot M i j] -> is_pivot M i (f i).
  by rewrite /f => /existsP[j Hj]; case: pickP => [//|/(_ j)]; rewrite Hj.
rewrite -(card_in_imset (f := f) (D := mem [set i : 'I_m | [exists j : 'I_n, is_pivot M i j]])).
  apply: eq_card => j; rewrite !inE; apply/existsP/imsetP.
    move=> [i Hi]; exists i; first by rewrite inE; apply/existsP; exists j.
    have Hf : is_pivot M i (f i) by apply: fP; apply/existsP; exists j.
    move: Hi Hf; rewrite !(pivot_low _ _ Vu Vd red) => /lowP L /lowP L'.
    exact: red L L'.
  by move=> [i]; rewrite inE => /fP H ->; exists i.
move=> i i'; rewrite !inE => /fP H /fP H' E; move: H H'; rewrite E.
by rewrite !(pivot_low _ _ Vu Vd red) => /lowP L /lowP; apply: low_unique L.
Qed.

(** consecutive boundaries: pivot rows of B2 are not pivot columns of B1 *)
Lemma pivots_disjoint m n q (B1 : 'M[F]_(m, n)) (B2 : 'M[F]_(n, q)) V1 V2 (i : 'I_n) :
  B1 *m B2 = 0 -> upper V1 -> diagn0 V1 -> reduced (B1 *m V1) ->
  upper V2 -> diagn0 V2 -> reduced (B2 *m V2) ->
  [exists j : 'I_q, is_pivot B2 i j] -> ~~ [exists h : 'I_m, is_pivot B1 h i].
Proof.
move=> BB u1 d1 r1 u2 d2 r2 /existsP[j].
rewrite (pivot_low _ _ u2 d2 r2) => L; have := pivot_zero_col BB u1 d1 r1 L.
apply: contra => /existsP[h]; rewrite (pivot_low _ _ u1 d1 r1) => /lowP L'.
by apply/nzcolP; exists h.
Qed.

(** ** extract_basis_indices *)
Lemma extract_basis_indicesE (Rk : cmat) (p : seq (option nat)) :
  size (cols Rk) = ncol Rk -> size p = ncol Rk ->
  extract_basis_indices Rk p =
  Ok [seq j <- iota 0 (ncol Rk) | (nth [::] (cols Rk) j == [::]) && ~~ isSome (nth None p j)].
Proof.
move=> sR sp; rewrite /extract_basis_indices.
have [||r -> ->] := ofold_iota_ind (P := fun n r => r = [seq j <- iota 0 n |
   (nth [::] (cols Rk) j == [::]) && ~~ isSome (nth None p j)]) (n := ncol Rk) (a := [::])
  (g := fun Is j => do c <- oget (cols Rk) j;
      if c is [::] then
        do e <- oget p j; Ok (if e is Some _ then Is else rcons Is j)
      else Ok Is) => //.
move=> j a jn ->; rewrite -[j.+1]addn1 iotaD add0n filter_cat.
rewrite (oget_nth [::]) ?sR //= (oget_nth None) ?sp //=.
case: (nth [::] (cols Rk) j) => [|q c] /=; last by eexists; [by [] | rewrite cats0].
case: (nth None p j) => [e|] /=; first by eexists; [by [] | rewrite cats0].
by eexists; [by [] | rewrite cats1].
Qed.

Lemma extract_basis_indices_topE (Rk : cmat) : size (cols Rk) = ncol Rk ->
  extract_basis_indices_top Rk = Ok [seq j <- iota 0 (ncol Rk) | nth [::] (cols Rk) j == [::]].
Proof.
move=> sR; rewrite /extract_basis_indices_top.
have [||r -> ->] := ofold_iota_ind (P := fun n r => r = [seq j <- iota 0 n |
   (nth [::] (cols Rk) j == [::])]) (n := ncol Rk) (a := [::])
  (g := fun Is j => do c <- oget (cols Rk) j; Ok (if c is [::] then rcons Is j else Is)) => //.
move=> j a jn ->; rewrite -[j.+1]addn1 iotaD add0n filter_cat.
rewrite (oget_nth [::]) ?sR //=.
case: (nth [::] (cols Rk) j) => [|q c] /=; last by eexists; [by [] | rewrite cats0].
by eexists; [by [] | rewrite cats1].
Qed.

Lemma size_filter_iota n (P : pred nat) :
  size [seq j <- iota 0 n | P j] = #|[set j : 'I_n | P j]|.
Proof.
rewrite -val_enum_ord size_filter count_map -size_filter cardsE cardE /enum_mem.
rewrite -filter_predI; congr size; apply: eq_filter => j /=.
by rewrite inE andbT.
Qed.

End H.
