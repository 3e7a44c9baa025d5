(** The ColumnMatrix operations in terms of the matrices they denote. *)
From mathcomp Require Import all_ssreflect all_fingroup all_algebra zify.
From Verif Require Import Outcome P_Outcome RingTac M_SparseVec M_Perm M_ColMatrix S_Linalg S_Perm P_SparseVec
  P_SparseVec2 P_Reduce P_Perm P_PermMx P_Homology P_Chain P_ColMatrix P_Solve Props_Linalg M_Fact S_Fact.
Set Implicit Arguments.
Unset Strict Implicit.
Unset Printing Implicit Defensive.
Import GRing.Theory.
Local Open Scope ring_scope.

Section S.
Variable F : fieldType.
Notation O := (ops_of F).
Notation svec := (svec F).
Notation cmat := (cmat F).

Lemma den_inj m n (A : cmat) (M M' : 'M[F]_(m, n)) : den A M -> den A M' -> M = M'.
Proof. by move=> [_ _ _ <-] [_ _ _ <-]. Qed.

Lemma den_intro (A : cmat) : cm_wf A -> den A (mx A).
Proof. by []. Qed.

Lemma den_mk m n cs : size cs = n -> all (sv_wf m) cs -> den (CMat m n cs) (mxc (F := F) m n cs).
Proof. by move=> s W; split=> //; apply/andP; rewrite /= s eqxx. Qed.

Lemma den_eq m n (A B : cmat) (M : 'M[F]_(m, n)) : den A M -> den B M -> A = B.
Proof.
case: A => am an ac [/= WA eA eA' MA]; case: B => bm bn bc [/= WB eB eB' MB]; subst am an bm bn.
congr CMat; apply: cm_ext WA WB _; by rewrite MA MB.
Qed.

Lemma den_gemm m n p (A B : cmat) (M : 'M[F]_(m, n)) (N : 'M[F]_(n, p)) : den A M -> den B N ->
  exists2 C, gemm O A B = Ok C & den C (M *m N).
Proof.
case: A => am an ac [/= WA eA eA' MA]; case: B => bm bn bc [/= WB eB eB' MB]; subst am an bm bn.
have [cs [E W Mc]] := gemmE WA WB erefl; exists (CMat m p cs) => //; split=> //=.
by rewrite Mc /mx /= MA MB.
Qed.

Lemma den_transpose m n (A : cmat) (M : 'M[F]_(m, n)) : den A M ->
  exists2 C, transpose A = Ok C & den C M^T.
Proof.
case: A => am an ac [/= WA eA eA' MA]; subst am an.
have [cs [E W Mc]] := transposeE WA; exists (CMat n m cs) => //; split=> //=.
by rewrite Mc /mx /= MA.
Qed.

Lemma den_identity n : den (cm_identity O n) (1%:M : 'M[F]_n).
Proof. by split=> //; [apply: cm_wf_identity | apply: mxc_identity]. Qed.

Lemma den_u_inv n (A : cmat) (U : 'M[F]_n) : den A U -> upper U -> diagn0 U ->
  exists2 C, u_inv O A = Ok C & den C (invmx U).
Proof.
case: A => am an ac [/= WA eA eA' MA] u d; subst am an.
have [||cs /= [E W M1 M2]] := @C10_u_inv F (CMat n n ac) WA erefl; rewrite /= ?MA //.
rewrite MA in M1 M2; have [uU _] := mulmx1_unit M1.
exists (CMat n n cs) => //; split=> //=.
by rewrite -[LHS]mulmx1 -(mulmxV uU) mulmxA M2 mul1mx.
Qed.
Lemma den_l_inv n (A : cmat) (U : 'M[F]_n) : den A U -> lower U -> diagn0 U ->
  exists2 C, l_inv O A = Ok C & den C (invmx U).
Proof.
case: A => am an ac [/= WA eA eA' MA] u d; subst am an.
have [||cs /= [E W M1 M2]] := @C10_l_inv F (CMat n n ac) WA erefl; rewrite /= ?MA //.
rewrite MA in M1 M2; have [uU _] := mulmx1_unit M1.
exists (CMat n n cs) => //; split=> //=.
by rewrite -[LHS]mulmx1 -(mulmxV uU) mulmxA M2 mul1mx.
Qed.

Lemma sv_JE m (v : svec) : sv_wf m v -> sv_wf m (sv_J m v) /\ forall i, (i < m)%N -> coef (sv_J m v) i = coef v (m - 1 - i).
Proof.
move=> W; set p := [seq (m - 1 - i)%N | i <- iota 0 m].
have np i : (i < m)%N -> nth 0%N p i = (m - 1 - i)%N by move=> im; rewrite (nth_map 0%N) ?size_iota // nth_iota.
have sp : size p = m by rewrite size_map size_iota.
have P : is_perm p.
  rewrite /is_perm sp; apply: uniq_perm; rewrite ?iota_uniq //.
    rewrite map_inj_in_uniq ?iota_uniq // => a b; rewrite !mem_iota; lia.
  move=> x; rewrite mem_iota; apply/mapP/idP => [[i]|xm].
    by rewrite mem_iota => im ->; lia.
  by exists (m - 1 - x)%N; rewrite ?mem_iota; lia.
have [w [E Ww C]] := sv_permuteE P sp W.
have e : w = sv_J m v.
  move: E; rewrite /sv_permute; case: ifP => // _ [<-]; congr (sv_sort _).
  have /and3P[_ B _] := W; apply/eq_in_map => q qv; rewrite np //; exact: (allP B).
rewrite -e; split=> // i im.
have jm : (m - 1 - i < m)%N by lia.
rewrite -(C _ jm) np //; congr (coef _ _); lia.
Qed.

Lemma den_J_left m n (A : cmat) (M : 'M[F]_(m, n)) : den A M -> den (J_left A) (\matrix_(i, j) M (rev_ord i) j).
Proof.
case: A => am an ac [/= /cm_wfP[/= s W] eA eA' MA]; rewrite {}eA' in s *; rewrite {}eA in W *.
have -> : \matrix_(i, j) M (rev_ord i) j = mxc m n [seq sv_J m c | c <- ac].
  apply/matrixP => i j; rewrite -MA !mxE (nth_map [::]) ?s //.
  have [_ ->] := sv_JE (nth_wf j W); last exact: ltn_ord.
  by congr (coef _ _); rewrite /=; lia.
rewrite /J_left /=; apply: den_mk; first by rewrite size_map.
by rewrite all_map; apply/allP => c cin /=; have [] := sv_JE (allP W c cin).
Qed.

Lemma den_J_right m n (A : cmat) (M : 'M[F]_(m, n)) : den A M ->
  exists2 C, J_right A = Ok C & den C (\matrix_(i, j) M i (rev_ord j)).
Proof.
case: A => am an ac [/= /cm_wfP[/= s W] eA eA' MA]; rewrite {}eA' in s *; rewrite {}eA in W *; rewrite /J_right /=.
have H0 : m = m /\ n = n by [].
have [|j B jn [r1 r2 r3 r4]|C E [C1 C2 C3 C4]] := @ofold_iota_ind _ (fun (A : cmat) j => swap_cols j (ncol A - 1 - j) A)
  (fun k (B : cmat) => [/\ nrow B = m, ncol B = n, size (cols B) = n &
     forall j, (j < n)%N -> nth [::] (cols B) j = nth [::] ac (if (j < k)%N || (n - k <= j)%N then n - 1 - j else j)%N])
  (n %/ 2) (CMat m n ac).
- by split=> // j jn; rewrite ltn0 /= subn0 leqNgt jn.
- have jn2 : (j + j < n - 1)%N.
    by move: jn (leq_trunc_div n 2); move: (n %/ 2)%N => q; lia.
  have j1 : (j < n)%N by lia.
  have j2 : (n - 1 - j < n)%N by lia.
  rewrite /swap_cols r2 (oget_nth [::]) ?r3 // (oget_nth [::]) ?r3 //= (oset_Ok [::]) ?r3 //=.
  rewrite (oset_Ok [::]) ?size_set_nth ?r3 /=; last exact: leq_trans j2 (leq_maxr _ _).
  eexists; first by []; split=> //=.
    by rewrite !size_set_nth r3 /maxn; do 2?case: ifP; lia.
  move=> k kn; rewrite !nth_set_nth /= nth_set_nth /=.
  case: eqP => [->|ne1].
    rewrite r4 //; congr (nth _ _ _); rewrite ifF; last by lia.
    by rewrite ifT; lia.
  case: eqP => [->|ne2].
    rewrite r4 //; congr (nth _ _ _); rewrite ifF; last by lia.
    by rewrite ifT; lia.
  by rewrite r4 //; congr (nth _ _ _); have -> : ((k < j) || (n - j <= k))%N = ((k < j.+1) || (n - j.+1 <= k))%N by lia.
exists C => //; case: C E C1 C2 C3 C4 => cm cn cc E /= -> -> C3 C4 {E}.
have C5 j : (j < n)%N -> nth [::] cc j = nth [::] ac (n - 1 - j).
  move=> jn; rewrite C4 //; case: ifP => // h; congr (nth _ _ _).
  by move: (divn_eq n 2) (ltn_pmod n (isT : 0 < 2)%N) h; move: (n %/ 2)%N (n %% 2)%N => q r; lia.
have -> : \matrix_(i, j) M i (rev_ord j) = mxc m n cc.
  by apply/matrixP => i j; rewrite -MA !mxE C5 //=; congr (coef (nth _ _ _) _); lia.
apply: den_mk => //; apply/(all_nthP [::]) => j; rewrite C3 => jn; rewrite C5 //; exact: nth_wf.
Qed.

Lemma den_J_conj m n (A : cmat) (M : 'M[F]_(m, n)) : den A M ->
  exists2 C, J_conj A = Ok C & den C (revmx M).
Proof.
move/den_J_left/den_J_right => [C E D]; exists C => //.
have -> // : revmx M = \matrix_(i, j) (\matrix_(i0, j0) M (rev_ord i0) j0) i (rev_ord j).
by apply/matrixP => i j; rewrite !mxE.
Qed.

Lemma revmxK m n (M : 'M[F]_(m, n)) : revmx (revmx M) = M.
Proof. by apply/matrixP => i j; rewrite !mxE !rev_ordK. Qed.
Lemma revmxM m n p (M : 'M[F]_(m, n)) (N : 'M[F]_(n, p)) : revmx (M *m N) = revmx M *m revmx N.
Proof.
apply/matrixP => i j; rewrite !mxE (reindex_inj rev_ord_inj) /=; apply: eq_bigr => k _.
by rewrite !mxE.
Qed.
Lemma revmx_tr m n (M : 'M[F]_(m, n)) : (revmx M)^T = revmx M^T.
Proof. by apply/matrixP => i j; rewrite !mxE. Qed.
Lemma revmx1 n : revmx (1%:M : 'M[F]_n) = 1%:M.
Proof. by apply/matrixP => i j; rewrite !mxE (inj_eq rev_ord_inj). Qed.

(** shapes under transposition and reversal *)
Lemma upper_tr n (L : 'M[F]_n) : upper L^T <-> lower L.
Proof. by split=> H i j lt; have := H j i lt; rewrite mxE. Qed.
Lemma lower_tr n (L : 'M[F]_n) : lower L^T <-> upper L.
Proof. by split=> H i j lt; have := H j i lt; rewrite mxE. Qed.
Lemma diag1_tr n (L : 'M[F]_n) : diag1 L^T <-> diag1 L.
Proof. by split=> H i; have := H i; rewrite mxE. Qed.
Lemma uupper_tr n (L : 'M[F]_n) : uupper L^T <-> ulower L.
Proof. by split=> -[a b]; split; (exact/upper_tr || exact/diag1_tr). Qed.
Lemma ulower_tr n (L : 'M[F]_n) : ulower L^T <-> uupper L.
Proof. by split=> -[a b]; split; (exact/lower_tr || exact/diag1_tr). Qed.
Lemma upper_rev n (L : 'M[F]_n) : lower L -> upper (revmx L).
Proof. by move=> H i j lt; rewrite mxE; apply: H => /=; have := ltn_ord i; have := ltn_ord j; lia. Qed.
Lemma lower_rev n (L : 'M[F]_n) : upper L -> lower (revmx L).
Proof. by move=> H i j lt; rewrite mxE; apply: H => /=; have := ltn_ord i; have := ltn_ord j; lia. Qed.
Lemma diag1_rev n (L : 'M[F]_n) : diag1 L -> diag1 (revmx L).
Proof. by move=> H i; rewrite mxE. Qed.
Lemma diagn0_rev n (L : 'M[F]_n) : diagn0 L -> diagn0 (revmx L).
Proof. by move=> H i; rewrite mxE. Qed.
Lemma diagn0_tr n (L : 'M[F]_n) : diagn0 L -> diagn0 L^T.
Proof. by move=> H i; rewrite mxE. Qed.
Lemma uupper_rev n (L : 'M[F]_n) : ulower L -> uupper (revmx L).
Proof. by move=> [? ?]; split; [apply: upper_rev|apply: diag1_rev]. Qed.
Lemma ulower_rev n (L : 'M[F]_n) : uupper L -> ulower (revmx L).
Proof. by move=> [? ?]; split; [apply: lower_rev|apply: diag1_rev]. Qed.
Lemma diag1n0 n (L : 'M[F]_n) : diag1 L -> diagn0 L.
Proof. by move=> H i; rewrite H oner_eq0. Qed.

Lemma permmx_tr n (P : 'M[F]_n) : is_permmx P -> is_permmx P^T.
Proof. by move=> [s ->]; exists (s^-1)%g; rewrite tr_perm_mx. Qed.
Lemma permmx_rev n (P : 'M[F]_n) : is_permmx P -> is_permmx (revmx P).
Proof.
move=> [s ->]; exists (perm (@rev_ord_inj n) * s * perm (@rev_ord_inj n))%g.
apply/matrixP => i j; rewrite !mxE !permM !permE; congr (_%:R).
by rewrite -[in RHS](inj_eq (@rev_ord_inj n)) rev_ordK.
Qed.
Lemma permmx_mul_tr n (P : 'M[F]_n) : is_permmx P -> P *m P^T = 1%:M /\ P^T *m P = 1%:M.
Proof. by move=> [s ->]; rewrite tr_perm_mx -!perm_mxM mulgV mulVg perm_mx1. Qed.

Lemma pivotmx_tr m n (E : 'M[F]_(m, n)) : pivotmx E -> pivotmx E^T.
Proof. by move=> [h1 h2]; split=> [i j j'|i i' j]; rewrite !mxE; [apply: h2|apply: h1]. Qed.
Lemma pivotmx_rev m n (E : 'M[F]_(m, n)) : pivotmx E -> pivotmx (revmx E).
Proof.
move=> [h1 h2]; split=> [i j j'|i i' j]; rewrite !mxE => a b; apply: rev_ord_inj; [exact: h1 a b|exact: h2 a b].
Qed.
Lemma EU_tr m n (E : 'M[F]_(m, n)) : shape_EL E -> shape_EU E^T.
Proof.
move=> [h1 h2]; split; first exact: pivotmx_tr.
by move=> i i' j'; rewrite mxE => a /(h2 _ _ _ a) [j lt b]; exists j; rewrite ?mxE.
Qed.
Lemma EL_tr m n (E : 'M[F]_(m, n)) : shape_EU E -> shape_EL E^T.
Proof.
move=> [h1 h2]; split; first exact: pivotmx_tr.
by move=> i i' j'; rewrite mxE => a /(h2 _ _ _ a) [j lt b]; exists j; rewrite ?mxE.
Qed.
Lemma rev_lt n (i j : 'I_n) : (rev_ord i < rev_ord j)%N = (j < i)%N.
Proof. by rewrite /=; have := ltn_ord i; have := ltn_ord j; lia. Qed.
Lemma EUhat_rev m n (E : 'M[F]_(m, n)) : shape_EL E -> shape_EUhat (revmx E).
Proof.
move=> [h1 h2]; split; first exact: pivotmx_rev.
move=> i' j j'; rewrite mxE => a; rewrite -rev_lt => /(h2 _ _ _ a) [i lt b]; exists (rev_ord i).
  by rewrite -rev_lt rev_ordK.
by rewrite mxE rev_ordK.
Qed.
Lemma EL_rev m n (E : 'M[F]_(m, n)) : shape_EUhat E -> shape_EL (revmx E).
Proof.
move=> [h1 h2]; split; first exact: pivotmx_rev.
move=> i' j j'; rewrite mxE => a; rewrite -rev_lt => /(h2 _ _ _ a) [i lt b]; exists (rev_ord i).
  by rewrite -rev_lt rev_ordK.
by rewrite mxE rev_ordK.
Qed.
Lemma ELhat_rev m n (E : 'M[F]_(m, n)) : shape_EU E -> shape_ELhat (revmx E).
Proof.
move=> [h1 h2]; split; first exact: pivotmx_rev.
move=> i i' j'; rewrite mxE => a; rewrite -rev_lt => /(h2 _ _ _ a) [j lt b]; exists (rev_ord j).
  by rewrite -rev_lt rev_ordK.
by rewrite mxE rev_ordK.
Qed.
Lemma EU_rev m n (E : 'M[F]_(m, n)) : shape_ELhat E -> shape_EU (revmx E).
Proof.
move=> [h1 h2]; split; first exact: pivotmx_rev.
move=> i i' j'; rewrite mxE => a; rewrite -rev_lt => /(h2 _ _ _ a) [j lt b]; exists (rev_ord j).
  by rewrite -rev_lt rev_ordK.
by rewrite mxE rev_ordK.
Qed.

End S.
