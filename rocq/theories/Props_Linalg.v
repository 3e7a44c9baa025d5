(** Properties C05-C12: sparse vectors and column matrices.  Read with S_Linalg.v and S_Perm.v. *)
From mathcomp Require Import all_ssreflect all_algebra zify.
From Verif Require Import Outcome P_Outcome M_SparseVec M_Perm M_ColMatrix S_Linalg S_Perm P_SparseVec
  P_SparseVec2 P_Reduce P_Perm P_PermMx P_Homology P_Chain P_ColMatrix P_Solve.
Set Implicit Arguments.
Unset Strict Implicit.
Unset Printing Implicit Defensive.
Import GRing.Theory.
Local Open Scope ring_scope.

(** C05. y.axpy(a, x): entries y_i + a x_i, sorted, in range, no zeros stored. *)
Theorem C05_axpy (F : fieldType) (a : F) (x y : svec F) m : sv_sorted x -> sv_sorted y ->
  let r := axpy (ops_of F) a x y in
  [/\ sv_sorted r,
      forall i, coef r i = coef y i + a * coef x i,
      sv_below m x -> sv_below m y -> sv_below m r &
      sv_nonzero x -> sv_nonzero y -> sv_nonzero r].
Proof.
move=> Sx Sy r; split; first exact: sv_sorted_axpy.
- move=> i; rewrite /r /axpy is0E; case: eqP => [->|_].
    by rewrite coef_clear_zeros mul0r addr0.
  by case: x {r Sx} => [|p x]; rewrite ?coef_nil ?mulr0 ?addr0 // coef_axpy_merge.
- by move=> Bx By; apply: sv_below_axpy.
- by move=> Nx Ny; apply: sv_nonzero_axpy.
Qed.

(** C05, ranged variant: only the entries first <= i < last of x are added *)
Theorem C05_axpy_range (F : fieldType) (a : F) (x y : svec F) first last m : sv_wf m x -> sv_wf m y ->
  let r := axpy_range (ops_of F) a x first last y in
  sv_wf m r /\
  forall i, coef r i = coef y i + (if (first <= i < last)%N then a * coef x i else 0).
Proof.
move=> Wx Wy r; split; first exact: sv_wf_axpy_range.
by move=> i; have /and3P[S _ _] := Wx; rewrite /r coef_axpy_range.
Qed.

(** C06 *)
Theorem C06_getval (F : fieldType) (v : svec F) i : sv_sorted v ->
  getval (ops_of F) v i = coef v i /\
  (forall u, (i, u) \in v -> getval (ops_of F) v i = u) /\
  (i \notin [seq p.1 | p <- v] -> getval (ops_of F) v i = 0).
Proof.
move=> S; rewrite getvalE //; split=> //; split; last exact: coef0_notin.
by move=> u H; have := coef_in S H.
Qed.

Theorem C06_dot (F : fieldType) (v w : svec F) m : sv_sorted v -> sv_sorted w -> sv_below m v ->
  dot (ops_of F) v w = \sum_(i < m) coef v i * coef w i.
Proof. exact: dotE. Qed.

Theorem C06_scale (F : fieldType) (v : svec F) a m : sv_wf m v ->
  sv_wf m (sv_scale (ops_of F) v a) /\ forall i, coef (sv_scale (ops_of F) v a) i = coef v i * a.
Proof. by move=> W; split=> [|i]; rewrite ?coef_sv_scale 1?mulrC //; apply: sv_wf_scale. Qed.

Theorem C06_add (F : fieldType) (v w : svec F) m : sv_wf m v -> sv_wf m w ->
  sv_wf m (sv_add (ops_of F) v w) /\ forall i, coef (sv_add (ops_of F) v w) i = coef v i + coef w i.
Proof. by move=> Wv Ww; split=> [|i]; [apply: sv_wf_axpy | apply: coef_sv_add]. Qed.

Theorem C06_clear_zeros (F : fieldType) (v : svec F) : sv_sorted v ->
  let r := clear_zeros (ops_of F) v in
  [/\ sv_sorted r, sv_nonzero r & forall i, coef r i = coef v i].
Proof.
move=> S r; split; [exact: sv_sorted_filter | exact: sv_nonzero_clear | exact: coef_clear_zeros].
Qed.

Theorem C06_select (F : fieldType) (v : svec F) ks : sorted ltn ks -> sv_sorted v ->
  let r := select v ks in
  [/\ sv_sorted r, sv_below (size ks) r, sv_nonzero v -> sv_nonzero r &
      forall i, (i < size ks)%N -> coef r i = coef v (nth 0%N ks i)].
Proof. exact: selectE. Qed.

Theorem C06_eq (F : fieldType) (v w : svec F) : sv_sorted v -> sv_nonzero v -> sv_sorted w -> sv_nonzero w ->
  (sv_eqb (ops_of F) v w <-> forall i, coef v i = coef w i).
Proof.
move=> Sv Nv Sw Nw; rewrite sv_eqbE; split=> [/eqP -> //|H]; apply/eqP; exact: sv_ext.
Qed.

(** C07 *)
Theorem C07_gemv (F : fieldType) (A : cmat F) x : cm_wf A -> sv_below (ncol A) x ->
  exists z, [/\ gemv (ops_of F) A x = Ok z, sv_wf (nrow A) z & vec (nrow A) z = mx A *m vec (ncol A) x].
Proof. exact: gemvE. Qed.

Theorem C07_gemm (F : fieldType) (A B : cmat F) : cm_wf A -> cm_wf B -> ncol A = nrow B ->
  exists cs, let C := CMat (nrow A) (ncol B) cs in
    [/\ gemm (ops_of F) A B = Ok C, cm_wf C &
        mx C = mx A *m mxc (ncol A) (ncol B) (cols B)].
Proof. exact: gemmE. Qed.

Theorem C07_add (F : fieldType) (A B : cmat F) : cm_wf A -> cm_wf B -> nrow A = nrow B -> ncol A = ncol B ->
  exists cs, let C := CMat (nrow B) (ncol B) cs in
    [/\ cm_add (ops_of F) A B = Ok C, cm_wf C &
        mx C = mxc (nrow B) (ncol B) (cols A) + mx B].
Proof.
move=> WA WB Er Ec; have [cs [E W M]] := cm_axpy_colsE 1 WA WB Er Ec.
by exists cs; split=> //; rewrite /mx /= M scale1r addrC.
Qed.

Theorem C07_identity (F : fieldType) (A : cmat F) : cm_wf A ->
  mx (cm_identity (ops_of F) (ncol A)) = 1%:M /\
  gemm (ops_of F) A (cm_identity (ops_of F) (ncol A)) = Ok A /\
  gemm (ops_of F) (cm_identity (ops_of F) (nrow A)) A = Ok A.
Proof.
move=> W; split; first exact: mxc_identity.
split.
  have [cs [E Wc M]] := gemmE W (cm_wf_identity F (ncol A)) erefl.
  rewrite E; case: A W E Wc M => m n cA W E Wc; rewrite mxc_identity mulmx1 => M.
  by rewrite /= (cm_ext Wc W M).
have [cs [E Wc M]] := gemmE (cm_wf_identity F (nrow A)) W erefl.
rewrite E; case: A W E Wc M => m n cA W E Wc; rewrite [mx _]mxc_identity mul1mx => M.
by rewrite /= (cm_ext Wc W M).
Qed.

Theorem C07_assoc (F : fieldType) (A B C : cmat F) : cm_wf A -> cm_wf B -> cm_wf C ->
  ncol A = nrow B -> ncol B = nrow C ->
  (do AB <- gemm (ops_of F) A B; gemm (ops_of F) AB C) = (do BC <- gemm (ops_of F) B C; gemm (ops_of F) A BC) /\
  is_ok (do AB <- gemm (ops_of F) A B; gemm (ops_of F) AB C).
Proof.
case: A B C => [m n cA] [n' p cB] [p' q cC] WA WB WC /= En Ep; subst n' p'.
have [x [-> Wx Mx]] := gemmE WA WB erefl; have [y [-> Wy My]] := gemmE WB WC erefl.
have [z [Ez Wz Mz]] := gemmE Wx WC erefl; have [t [Et Wt Mt]] := gemmE WA Wy erefl.
rewrite /= Ez Et; split=> //; congr (Ok (CMat _ _ _)); apply: cm_ext Wz Wt _.
by rewrite Mz Mt /mx /= Mx My mulmxA.
Qed.

(** C08. operator- returns the negated difference: A - B is B - A *)
Theorem C08_sub (F : fieldType) (A B : cmat F) : cm_wf A -> cm_wf B -> nrow A = nrow B -> ncol A = ncol B ->
  exists cs, let C := CMat (nrow B) (ncol B) cs in
    [/\ cm_sub (ops_of F) A B = Ok C, cm_wf C &
        mx C = mx B - mxc (nrow B) (ncol B) (cols A)].
Proof.
move=> WA WB Er Ec; have [cs [E W M]] := cm_axpy_colsE (-1) WA WB Er Ec.
by exists cs; split=> //; rewrite /mx /= M scaleN1r.
Qed.

(** C08: so subtraction is right exactly when 2(A - B) = 0 *)
Theorem C08_sub_right_iff (F : fieldType) (A B : cmat F) : cm_wf A -> cm_wf B -> nrow A = nrow B -> ncol A = ncol B ->
  exists cs, let C := CMat (nrow B) (ncol B) cs in
    cm_sub (ops_of F) A B = Ok C /\
    (mx C = mxc (nrow B) (ncol B) (cols A) - mx B <->
     2%:R *: (mxc (nrow B) (ncol B) (cols A) - mx B) = 0).
Proof.
move=> WA WB Er Ec; have [cs [E W M]] := C08_sub WA WB Er Ec.
exists cs; split=> //=; rewrite M; set X := mxc _ _ (cols A); set Y := mx B.
rewrite -[Y - X]opprB scaler_nat mulr2n; set Z := X - Y.
split=> [E'|/eqP]; first by rewrite -{1}E' addNr.
by rewrite addr_eq0 => /eqP {2}->.
Qed.

(** C09 *)
Theorem C09_transpose (F : fieldType) (A : cmat F) : cm_wf A ->
  exists cs, let C := CMat (ncol A) (nrow A) cs in
   [/\ transpose A = Ok C, cm_wf C, mx C = (mx A)^T & transpose C = Ok A].
Proof.
case: A => m n cA W; have [cs [E Wc M]] := transposeE W; exists cs; split=> //.
have [ds [E' Wd M']] := transposeE Wc; rewrite E' /=; congr (Ok (CMat _ _ _)).
by apply: (cm_ext Wd W); rewrite M' /mx /= M trmxK.
Qed.

(** C10. On an upper triangular U: u_solve returns x with U x = y, or throws and then a diagonal entry is zero *)
Theorem C10_u_solve (F : fieldType) (U : cmat F) y : cm_wf U -> nrow U = ncol U ->
  upper (mxc (ncol U) (ncol U) (cols U)) -> sv_wf (ncol U) y ->
  (exists z, [/\ u_solve (ops_of F) U y = Ok z, sv_wf (ncol U) z &
                 mxc (ncol U) (ncol U) (cols U) *m vec (ncol U) z = vec (ncol U) y]) \/
  (u_solve (ops_of F) U y = Throw /\ ~ diagn0 (mxc (ncol U) (ncol U) (cols U))).
Proof.
move=> /cm_wfP[s W] E up Wy; rewrite E in W.
case: (u_solveE W s up Wy erefl) => [H|[T [j jn Z]]]; [by left | right; split=> //].
by move/(_ (Ordinal jn)); rewrite mxE Z eqxx.
Qed.

Theorem C10_u_inv (F : fieldType) (U : cmat F) : cm_wf U -> nrow U = ncol U ->
  let n := ncol U in let mU := mxc n n (cols U) in
  upper mU -> diagn0 mU ->
  exists cs, let V := CMat n n cs in
    [/\ u_inv (ops_of F) U = Ok V, cm_wf V, mU *m mx V = 1%:M & mx V *m mU = 1%:M].
Proof.
move=> WU E n mU up dn; have [s W] := cm_wfP WU; rewrite E in W.
have [|cs [Ec Wc M]] := @solve_mat F (u_solve (ops_of F) U) U (cm_identity (ops_of F) n) n (cm_wf_identity F n) erefl.
  move=> y Wy; case: (u_solveE W s up Wy erefl) => // -[_ [j jn Z]].
  by have := dn (Ordinal jn); rewrite mxE Z eqxx.
have M1 : mU *m mxc n n cs = 1%:M by rewrite M -[RHS]mxc_identity.
exists cs; split=> //; last exact: mulmx1C.
by rewrite /u_inv /u_solve_mat E Ec.
Qed.

Theorem C10_l_solve (F : fieldType) (L : cmat F) y : cm_wf L -> nrow L = ncol L ->
  let n := ncol L in let mL := mxc n n (cols L) in
  lower mL -> diagn0 mL -> sv_wf n y ->
  exists z, [/\ l_solve (ops_of F) L y = Ok z, sv_wf n z & mL *m vec n z = vec n y].
Proof.
move=> /cm_wfP[s W] E n mL lo dn Wy; rewrite E in W.
exact: (l_solveE W s E lo dn Wy).
Qed.

Theorem C10_l_inv (F : fieldType) (L : cmat F) : cm_wf L -> nrow L = ncol L ->
  let n := ncol L in let mL := mxc n n (cols L) in
  lower mL -> diagn0 mL ->
  exists cs, let V := CMat n n cs in
    [/\ l_inv (ops_of F) L = Ok V, cm_wf V, mL *m mx V = 1%:M & mx V *m mL = 1%:M].
Proof.
move=> WL E n mL lo dn; have [s W] := cm_wfP WL; rewrite E in W.
have [|cs [Ec Wc M]] := @solve_mat F (l_solve (ops_of F) L) L (cm_identity (ops_of F) n) n (cm_wf_identity F n) erefl.
  by move=> y Wy; apply: (l_solveE W s E lo dn Wy).
have M1 : mL *m mxc n n cs = 1%:M by rewrite M -[RHS]mxc_identity.
exists cs; split=> //; last exact: mulmx1C.
by rewrite /l_inv /l_solve_mat E Ec.
Qed.

(** C10 refuted for l_solve when a diagonal entry is missing: it returns, without throwing, a vector that is
    not a solution (L = [0 0; 1 1], y = e_0; no solution exists) *)
Theorem C10_l_solve_refuted : exists (L : cmat F2) y z,
  [/\ cm_wf L, nrow L = ncol L /\ lower (mxc (ncol L) (ncol L) (cols L)), sv_wf (ncol L) y,
      l_solve (ops_of F2) L y = Ok z &
      mxc (ncol L) (ncol L) (cols L) *m vec (ncol L) z <> vec (ncol L) y].
Proof.
pose L : cmat F2 := CMat 2 2 [:: [:: (1%N, 1)]; [:: (1%N, 1)]].
pose y : svec F2 := [:: (0%N, 1)].
have : is_ok (l_solve (ops_of F2) L y) by vm_compute.
case E: (l_solve (ops_of F2) L y) => [z| | |] // _.
exists L, y, z; split=> //; first split=> //.
  by case=> [[|[|i]] li] [[|[|j]] lj] //= _; rewrite mxE /coef /= !big_cons big_nil.
move/colP/(_ (Ordinal (isT : 0 < 2)%N)); rewrite !mxE !big_ord_recl big_ord0 !mxE.
by rewrite /coef /= !big_cons !big_nil /= !mul0r !add0r addr0 => /eqP; rewrite eq_sym oner_eq0.
Qed.

(** C11 *)
Theorem C11_permute_rows (F : fieldType) p (A : cmat F) : is_perm p -> size p = nrow A -> cm_wf A ->
  exists A', [/\ permute_rows p A = Ok A', cm_wf A', nrow A' = nrow A, ncol A' = ncol A &
    forall i j, (i < nrow A)%N -> (j < ncol A)%N -> entry A' (nth 0%N p i) j = entry A i j].
Proof.
move=> P s W; have [A' [E W' nr nc H]] := permute_rows_spec P s W erefl.
exists A'; split=> // i j im jn; rewrite -[entry _ _ _]/(ent _ _ _) H ?is_perm_lt -?s //.
  by rewrite ipl_nth // s.
by rewrite is_perm_lt // s.
Qed.

Theorem C11_ipermute_cols (F : fieldType) p (A : cmat F) : is_perm p -> size p = ncol A -> cm_wf A ->
  exists A', [/\ ipermute_cols p A = Ok A', cm_wf A', nrow A' = nrow A, ncol A' = ncol A &
    forall i j, (i < nrow A)%N -> (j < ncol A)%N -> entry A' i j = entry A i (nth 0%N p j)].
Proof. by move=> P s W; have [A' H] := ipermute_cols_spec P s W erefl; exists A'. Qed.

Theorem C11_permute_cols (F : fieldType) p (A : cmat F) : is_perm p -> size p = ncol A -> cm_wf A ->
  exists A', [/\ permute_cols p A = Ok A', cm_wf A', nrow A' = nrow A, ncol A' = ncol A &
    forall i j, (i < nrow A)%N -> (j < ncol A)%N -> entry A' i (nth 0%N p j) = entry A i j].
Proof.
move=> P s W; have [A' [E W' nr nc H]] := permute_cols_spec P s W erefl.
exists A'; split=> // i j im jn; rewrite -[entry _ _ _]/(ent _ _ _) H //.
  by rewrite ipl_nth // s.
by rewrite -s is_perm_lt // s.
Qed.

(** the two column permutations undo each other *)
Theorem C11_cols_inverse (F : fieldType) p (A : cmat F) : is_perm p -> size p = ncol A -> cm_wf A ->
  (do A' <- ipermute_cols p A; permute_cols p A') = Ok A /\
  (do A' <- permute_cols p A; ipermute_cols p A') = Ok A.
Proof.
case: A => m n cA P /= s W; have sq := s.
have [c1 [E1 W1 M1]] := ipermute_colsE (A := CMat m n cA) P s W.
have [c2 [E2 W2 M2]] := permute_colsE (A := CMat m n cA) P s W.
rewrite E1 E2 /=.
have [d1 [F1 X1 N1]] := permute_colsE (A := CMat m n c1) P s W1.
have [d2 [F2 X2 N2]] := ipermute_colsE (A := CMat m n c2) P s W2.
rewrite F1 F2; split; congr (Ok (CMat _ _ _)).
  by apply: (cm_ext X1 W); rewrite N1 /= M1 -mulmxA permmx_multr // mulmx1.
by apply: (cm_ext X2 W); rewrite N2 /= M2 -mulmxA permmx_trmul // mulmx1.
Qed.

Lemma insert_colperm_perm n k : (k < n)%N -> is_perm (insert_colperm n k).
Proof.
move=> kn; have sz : size (insert_colperm n k) = n by rewrite size_map size_iota.
apply: is_permP; rewrite ?sz.
  rewrite map_inj_in_uniq ?iota_uniq // => i j; rewrite !mem_iota /= => ilt jlt.
  case: (i =P k) => a; case: (j =P k) => b; case: (ltnP k i) => c; case: (ltnP k j) => d;
    move: a b c d kn ilt jlt; clear; lia.
apply/allP => i /mapP[j]; rewrite mem_iota /= => jlt ->.
by case: (j =P k) => a; case: (ltnP k j) => b; move: a b kn jlt; clear; lia.
Qed.

(** C11: insert_column(index, v) inserts v and keeps the other columns in order *)
Theorem C11_insert_column (F : fieldType) k v (A : cmat F) : cm_wf A -> sv_wf (nrow A) v -> (k <= ncol A)%N ->
  insert_column k v A = Ok (CMat (nrow A) (ncol A).+1 (take k (cols A) ++ v :: drop k (cols A))).
Proof.
case: A => m n cA /cm_wfP[/= s W] Wv kn; rewrite /insert_column /ipermute_cols /append_column [ncol _]/= [nrow _]/= [cols _]/=.
have P := insert_colperm_perm (kn : k < n.+1)%N.
have sp : size (insert_colperm n.+1 k) = n.+1 by rewrite size_map size_iota.
rewrite (apply_iperm_swapE [::] P) ?size_rcons ?s ?sp // /obind; congr (Ok (CMat _ _ _)).
apply: (@eq_from_nth _ [::]).
  by rewrite size_map sp size_cat /= size_take size_drop s; case: ltnP; move: kn; clear; lia.
move=> j; rewrite size_map sp => jn; rewrite (nth_map 0%N) ?sp // (nth_map 0%N) ?size_iota // nth_iota // add0n.
rewrite nth_rcons nth_cat size_take s.
have szk : (if k < n then k else n)%N = k by case: ltnP => //; move: kn; clear; lia.
rewrite szk; case: eqP => [->|ne].
  by rewrite subn1 /= ltnn eqxx ltnn subnn.
case: (ltnP k j) => kj.
  have -> : (j - 1 < n)%N by move: kj jn; clear; lia.
  have -> : (j < k)%N = false by move: kj; clear; lia.
  case E: (j - k)%N => [|l]; first by move: E kj; clear; lia.
  by rewrite /= nth_drop; congr nth; move: E kj; clear; lia.
have jk : (j < k)%N by move: kj ne; clear; lia.
by rewrite jk (leq_trans jk kn) nth_take.
Qed.

(** C11: insert_column(index) (a zero column) is wrong: it uses the inverse permutation *)
Theorem C11_insert_zero_column_refuted : exists (A : cmat F2) k A',
  [/\ cm_wf A, (k <= ncol A)%N, insert_zero_column k A = Ok A' &
      cols A' <> take k (cols A) ++ [::] :: drop k (cols A)].
Proof.
exists (CMat 2 2 [:: [:: (0%N, 1)]; [:: (1%N, 1)]]), 0%N, (CMat 2 3 [:: [:: (1%N, 1)]; [::]; [:: (0%N, 1)]]).
by split=> //; vm_compute.
Qed.

(** C11: what insert_column(index) does: columns before index stay, column index goes last, the zero column is
    put last but one, the columns in between move one to the left *)
Theorem C11_insert_zero_column (F : fieldType) k (A : cmat F) : cm_wf A -> (k < ncol A)%N ->
  insert_zero_column k A =
    Ok (CMat (nrow A) (ncol A).+1
         (take k (cols A) ++ drop k.+1 (cols A) ++ [:: [::]; nth [::] (cols A) k])).
Proof.
case: A => m n cA /cm_wfP[/= s W] kn; rewrite /insert_zero_column /permute_cols /append_column [ncol _]/= [nrow _]/= [cols _]/=.
have P := insert_colperm_perm (ltnW kn : k < n.+1)%N.
have sp : size (insert_colperm n.+1 k) = n.+1 by rewrite size_map size_iota.
rewrite (apply_perm_swapE [::] P) ?size_rcons ?s ?sp // /obind; congr (Ok (CMat _ _ _)).
set r := _ ++ _.
have sr : size r = n.+1.
  by rewrite /r !size_cat /= size_take size_drop s kn; move: kn; clear; lia.
apply: (@eq_from_nth _ [::]); first by rewrite size_map size_ipl sp sr.
move=> j; rewrite size_map size_ipl sp => jn; rewrite (nth_map 0%N) ?size_ipl ?sp //.
set i := nth 0%N (ipl _) j.
have il : (i < n.+1)%N by rewrite -sp -size_ipl is_perm_lt ?is_perm_ipl // size_ipl sp.
have Ej : j = nth 0%N (insert_colperm n.+1 k) i by rewrite /i nth_ipl_nth // sp.
rewrite (nth_map 0%N) ?size_iota // nth_iota // add0n in Ej.
rewrite /r nth_rcons !nth_cat size_take size_drop s kn.
move: Ej; case: eqP => [ik|ne].
  move=> Ej; rewrite ik kn; subst j; rewrite subn1 /=.
  have -> : (n < k)%N = false by move: kn; clear; lia.
  have -> : (n - k < n - k.+1)%N = false by move: kn; clear; lia.
  by have -> : (n - k - (n - k.+1) = 1)%N by move: kn; clear; lia.
case: (ltnP k i) => ki Ej.
  have -> : (j < k)%N = false by move: Ej ki; clear; lia.
  case: (ltnP i n) => ni.
    have -> : (j - k < n - k.+1)%N by move: Ej ki ni kn; clear; lia.
    by rewrite nth_drop; congr nth; move: Ej ki; clear; lia.
  have E : i = n by move: ni il; clear; lia.
  rewrite E eqxx; have -> : (j - k < n - k.+1)%N = false by move: Ej E ki kn; clear; lia.
  by have -> : (j - k - (n - k.+1) = 0)%N by move: Ej E ki kn; clear; lia.
have jk : (j < k)%N by move: Ej ki ne; clear; lia.
by rewrite jk -Ej (ltn_trans jk kn) nth_take.
Qed.

(** C12 *)
Theorem C12_block (F : fieldType) i0 i1 j0 j1 (A : cmat F) : cm_wf A -> (j1 <= ncol A)%N ->
  exists cs, let C := CMat (i1 - i0) (j1 - j0) cs in
  [/\ cm_block i0 i1 j0 j1 A = Ok C, cm_wf C &
    forall i j, (i < i1 - i0)%N -> (j < j1 - j0)%N -> entry C i j = entry A (i0 + i) (j0 + j)].
Proof. exact: cm_blockE. Qed.

(** C12: set_block writes B into the block, but also erases row i1 of the touched columns *)
Theorem C12_set_block (F : fieldType) i0 i1 j0 j1 (B A : cmat F) : cm_wf A -> cm_wf B ->
  (i0 <= i1)%N -> (i1 <= nrow A)%N -> (j0 <= j1)%N -> (j1 <= ncol A)%N ->
  nrow B = (i1 - i0)%N -> ncol B = (j1 - j0)%N ->
  exists cs, let C := CMat (nrow A) (ncol A) cs in
    [/\ cm_set_block i0 i1 j0 j1 B A = Ok C, cm_wf C,
        cm_block i0 i1 j0 j1 C = Ok B &
    forall i j, (j < ncol A)%N ->
      entry C i j =
        if (j0 <= j < j1)%N && (i0 <= i < i1)%N then entry B (i - i0) (j - j0)
        else if (j0 <= j < j1)%N && (i == i1)%N then 0 else entry A i j].
Proof.
move=> WA WB l0 li l1 le nB mB; have [cs [E W H]] := cm_set_blockE WA WB l0 li l1 le nB mB.
exists cs; split=> //.
  have [ds [E' W' H']] := cm_blockE i0 i1 j0 W le.
  rewrite E'; case: B WB nB mB E H => mB nB cB WB /= e1 e2 E H; subst mB nB.
  congr (Ok (CMat _ _ _)); apply: (cm_ext W' WB); apply/matrixP => i j; rewrite !mxE H' //=.
  have hj : (j0 <= j0 + j < j1)%N by rewrite leq_addr -ltn_subRL ltn_ord.
  have hi : (i0 + i < i1)%N by rewrite -ltn_subRL ltn_ord.
  have /andP[_ hj'] := hj.
  rewrite H; last exact: (leq_trans hj' le).
  by rewrite hj hi ltnNge leq_addr /= !addKn.
move=> i j jn; rewrite /entry /= H //; case: (j0 <= j < j1)%N => //=.
by case: (ltnP i i0) => a //=; rewrite ifN // neq_ltn (leq_trans a l0).
Qed.

(** C12 refuted: an entry outside the block changes *)
Theorem C12_set_block_refuted : exists (A B C : cmat F2) i0 i1 j0 j1 i j,
  [/\ cm_wf A /\ cm_wf B, (i0 <= i1 <= nrow A)%N && (j0 <= j1 <= ncol A)%N && (nrow B == i1 - i0)%N && (ncol B == j1 - j0)%N,
      cm_set_block i0 i1 j0 j1 B A = Ok C, ~~ (i0 <= i < i1)%N && (i < nrow A)%N && (j < ncol A)%N &
      entry C i j <> entry A i j].
Proof.
exists (CMat 2 1 [:: [:: (0%N, 1); (1%N, 1)]]), (CMat 1 1 [:: [:: (0%N, 1)]]), (CMat 2 1 [:: [:: (0%N, 1)]]).
exists 0%N, 1%N, 0%N, 1%N, 1%N, 0%N; split=> //.
by rewrite /entry /coef /= !big_cons !big_nil /=; move/eqP; vm_compute.
Qed.
