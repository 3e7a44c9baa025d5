(** Row and column permutations of sparse matrices as permutation matrices. *)
From mathcomp Require Import all_ssreflect all_algebra zify.
From Verif Require Import Outcome P_Outcome RingTac M_SparseVec M_Perm M_ColMatrix
  S_Linalg P_SparseVec P_Pairing P_Reduce S_Perm P_Perm.
Set Implicit Arguments.
Unset Strict Implicit.
Unset Printing Implicit Defensive.
Import GRing.Theory.
Local Open Scope ring_scope.

Section H.
Variable F : fieldType.
Notation O := (ops_of F).
Notation svec := (svec F).
Notation cmat := (cmat F).
Implicit Types p : seq nat.

Lemma sv_permuteE m p (v : svec) : is_perm p -> size p = m -> sv_wf m v ->
  exists w, [/\ sv_permute p v = Ok w, sv_wf m w &
              forall i, (i < m)%N -> coef w (nth 0%N p i) = coef v i].
Proof.
move=> P sp /and3P[S B N]; rewrite /sv_permute.
have -> : all (fun q : nat * F => (q.1 < size p)%N) v by rewrite sp.
eexists; split; first by []. 2: {
  move=> i im; rewrite /sv_sort (coef_perm (w := [seq (nth 0%N p q.1, q.2) | q <- v])); last first.
    by rewrite perm_sort.
  rewrite /coef big_map [LHS]big_seq_cond [RHS]big_seq_cond; apply: eq_big => //= q.
  case: (boolP (q \in v)) => //= Hq; apply/eqP/eqP => [|-> //].
  by apply: is_perm_inj; rewrite ?sp //; apply: (allP B). }
set w := [seq _ | _ <- _].
have pw : perm_eq (sv_sort w) w by rewrite perm_sort.
apply/and3P; split.
- rewrite /sv_sorted ltn_sorted_uniq_leq; apply/andP; split.
    rewrite (perm_uniq (perm_map fst pw)) /w -map_comp.
    have -> : [seq (fst \o (fun q : nat * F => (nth 0%N p q.1, q.2))) i | i <- v] =
              [seq nth 0%N p i | i <- [seq q.1 | q <- v]] by rewrite -map_comp.
    rewrite map_inj_in_uniq; first exact: inds_uniq.
    move=> i j /mapP[q Hq ->] /mapP[r Hr ->]; apply: is_perm_inj => //; rewrite sp; exact: (allP B).
  rewrite sorted_map; apply: (@sort_sorted _ (fun a b : nat * F => (a.1 <= b.1)%N)) => a b.
  exact: leq_total.
- rewrite /sv_below (perm_all _ pw) all_map; apply/allP => q Hq /=; rewrite -sp.
  by apply: is_perm_lt => //; rewrite sp; apply: (allP B).
- by rewrite /sv_nonzero (perm_all _ pw) all_map; apply/allP => q Hq /=; apply: (allP N).
Qed.

(** permutation matrix: column j has its one in row p[j] *)
Definition permmx n p : 'M[F]_n := \matrix_(i, j) ((i : nat) == nth 0%N p j)%:R.

Lemma pord_subproof n p (P : is_perm p) (s : size p = n) (i : 'I_n) : (nth 0%N p i < n)%N.
Proof. by case: _ / s i => i; apply: is_perm_lt. Qed.
Definition pord n p (P : is_perm p) (s : size p = n) (i : 'I_n) : 'I_n := Ordinal (pord_subproof P s i).

Lemma permmx_row n p (P : is_perm p) (s : size p = n) q (A : 'M[F]_(n, q)) i j :
  (permmx n p *m A) (pord P s i) j = A i j.
Proof.
rewrite mxE (bigD1 i) //= mxE eqxx mul1r big1 ?addr0 // => k ne.
rewrite mxE; case: eqP => [/= E|_]; last by rewrite mul0r.
case/eqP: ne; apply/val_inj; apply: (is_perm_inj P); rewrite ?s //.
all: exact: ltn_ord.
Qed.

Lemma pord_bij n p (P : is_perm p) (s : size p = n) i : exists k, pord P s k = i.
Proof.
have li : (index (i : nat) p < n)%N by rewrite -[X in (_ < X)%N]s is_perm_index // s.
by exists (Ordinal li); apply/val_inj; rewrite /= is_perm_nth_index // s.
Qed.

Lemma permmx_col n p (P : is_perm p) (s : size p = n) q (A : 'M[F]_(q, n)) i j :
  (A *m permmx n p) i j = A i (pord P s j).
Proof.
rewrite mxE (bigD1 (pord P s j)) //= mxE eqxx mulr1 big1 ?addr0 // => k ne.
rewrite mxE; case: eqP => [/= E|_]; last by rewrite mulr0.
by case/eqP: ne; apply/val_inj.
Qed.

Lemma permmx_trmul n p : is_perm p -> size p = n -> (permmx n p)^T *m permmx n p = 1%:M.
Proof.
move=> P s; apply/matrixP => i j; rewrite (permmx_col P s) !mxE /= -val_eqE /=.
congr (_%:R); congr (nat_of_bool _); apply/eqP/eqP => [E|-> //].
by apply/esym; apply: (is_perm_inj P); rewrite ?s.
Qed.
Lemma permmx_multr n p : is_perm p -> size p = n -> permmx n p *m (permmx n p)^T = 1%:M.
Proof. by move=> P s; apply: mulmx1C; apply: permmx_trmul. Qed.
Lemma permmx_unit n p : is_perm p -> size p = n -> permmx n p \in unitmx.
Proof. by move=> P s; case: (mulmx1_unit (permmx_trmul P s)). Qed.
Lemma permmx_ipl n p : is_perm p -> size p = n -> permmx n (ipl p) = (permmx n p)^T.
Proof.
move=> P s; apply/matrixP => i j; rewrite !mxE; congr (nat_of_bool _)%:R.
rewrite nth_ipl ?s //; apply/eqP/eqP => [->|->]; first by rewrite is_perm_nth_index // s.
by rewrite index_uniq ?s // is_perm_uniq.
Qed.

Lemma permute_rowsE p (A : cmat) : is_perm p -> size p = nrow A -> cm_wf A ->
  exists cs, [/\ permute_rows p A = Ok (CMat (nrow A) (ncol A) cs),
     cm_wf (CMat (nrow A) (ncol A) cs) &
     mxc (nrow A) (ncol A) cs = permmx (nrow A) p *m mxc (nrow A) (ncol A) (cols A)].
Proof.
move=> P s /andP[/eqP sA W].
have [|cs [E sc G]] := @omapm_exists _ _ (sv_permute p) (fun v w => sv_wf (nrow A) w /\
   forall i, (i < nrow A)%N -> coef w (nth 0%N p i) = coef v i) (cols A) [::] [::].
  move=> j lt; have [w [E1 E2 E3]] := sv_permuteE P s (nth_wf j W).
  by exists w.
rewrite /permute_rows E /=; exists cs; split=> //.
  rewrite /cm_wf /= sc sA eqxx /=; apply/(all_nthP [::]) => j; rewrite sc => lt.
  by have [] := G j lt.
apply/matrixP => i j; have [k <-] := pord_bij P s i; rewrite permmx_row !mxE /=.
by have [_ ->] := G j (eq_ind_r (fun l => j < l)%N (ltn_ord j) sA).
Qed.

Lemma ipermute_colsE p (A : cmat) : is_perm p -> size p = ncol A -> cm_wf A ->
  exists cs, [/\ ipermute_cols p A = Ok (CMat (nrow A) (ncol A) cs),
     cm_wf (CMat (nrow A) (ncol A) cs) &
     mxc (nrow A) (ncol A) cs = mxc (nrow A) (ncol A) (cols A) *m permmx (ncol A) p].
Proof.
move=> P s /andP[/eqP sA W]; rewrite /ipermute_cols.
rewrite (apply_iperm_swapE [::] P) ?s //=; eexists; split; first by [].
  rewrite /cm_wf /= size_map s eqxx all_map /=; apply/allP => i Hi /=; exact: nth_wf.
apply/matrixP => i j; rewrite (permmx_col P s) !mxE /= (nth_map 0%N) // s //.
Qed.

Lemma permute_colsE p (A : cmat) : is_perm p -> size p = ncol A -> cm_wf A ->
  exists cs, [/\ permute_cols p A = Ok (CMat (nrow A) (ncol A) cs),
     cm_wf (CMat (nrow A) (ncol A) cs) &
     mxc (nrow A) (ncol A) cs = mxc (nrow A) (ncol A) (cols A) *m (permmx (ncol A) p)^T].
Proof.
move=> P s /andP[/eqP sA W]; rewrite /permute_cols.
rewrite (apply_perm_swapE [::] P) ?s //=; eexists; split; first by [].
  rewrite /cm_wf /= size_map size_ipl s eqxx all_map /=; apply/allP => i Hi /=; exact: nth_wf.
have P' := is_perm_ipl P; have s' : size (ipl p) = ncol A by rewrite size_ipl.
by rewrite -permmx_ipl //; apply/matrixP => i j; rewrite (permmx_col P' s') !mxE /= (nth_map 0%N) ?s'.
Qed.

End H.
