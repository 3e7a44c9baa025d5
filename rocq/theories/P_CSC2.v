(** CSCMatrix: entries of the results. *)
From mathcomp Require Import all_ssreflect all_algebra zify.
From Verif Require Import Outcome M_SparseVec M_Perm M_Sorted M_ColMatrix M_CSC M_CSC2 S_Perm S_Linalg S_CSC P_Outcome P_Perm P_Trie P_SparseVec P_Sort P_Util P_SumReduce P_CSC.
Set Implicit Arguments.
Unset Strict Implicit.
Unset Printing Implicit Defensive.

Import GRing.Theory.

Section F.
Variable F : fieldType.
Let O := ops_of F.
Implicit Types (A B : csc F) (cs : seq (svec F)) (c : svec F).

Lemma scol_perm c : perm_eq (scol (0%R : F) c) c.
Proof.
pose p := sortperm (fun a b => a < b) 0 (unzip1 c).
have e : scol (0%R : F) c = [seq nth (0, 0%R) c i | i <- p].
  rewrite /scol -/p; have al : all (fun i => i < size c) p.
    by apply/allP => i; rewrite (is_perm_mem _ (sperm_perm _)) size_sperm size_map.
  elim: (p) al => //= i l IH /andP [lt al]; rewrite -IH // /unzip1 /unzip2 !(nth_map (0, 0%R)) //; by case: (nth _ c i).
rewrite e; have pp : perm_eq p (iota 0 (size c)) by have := sperm_perm (unzip1 c); rewrite /is_perm size_sperm size_map.
apply: perm_trans (perm_map _ pp) _; by rewrite -/(mkseq _ _) mkseq_nth.
Qed.

Lemma scol_sorted c : sorted leq (unzip1 (scol (0%R : F) c)).
Proof.
rewrite /scol unzip1_zip ?size_map //; apply/(sortedP 0) => i; rewrite size_map size_sperm => lt.
rewrite !(nth_map 0) ?size_sperm ?(ltnW lt) //.
by have := @sortperm_le _ Order.NatOrder.orderType 0 (unzip1 c) i i.+1 (leqnSn i) lt.
Qed.

(** ** gemm and sum *)
Section Build.
Variables (m n : nat) (fill : nat -> seq nat * seq F -> outcome (seq nat * seq F)) (g : nat -> svec F).
Hypothesis fillE : forall j s, j < n -> fill j s = Ok (s.1 ++ unzip1 (g j), s.2 ++ unzip2 (g j)).
Let step := fun (st : seq nat * (seq nat * seq F)) j =>
      do s <- fill j st.2; do off <- oget st.1 j; do s' <- sort_sum_reduce O s.1 s.2 off; Ok (rcons st.1 (size s'.1), s').

Lemma build_prefix k : k <= n -> (forall j, j < k -> g j != [::]) ->
  exists cs, [/\ ofold step ([:: 0], ([::], [::])) (iota 0 k) = Ok (ptrs cs, (unzip1 (flatten cs), unzip2 (flatten cs))), size cs = k &
    forall j, j < k -> [/\ coef (nth [::] cs j) =1 coef (g j), sorted ltn (unzip1 (nth [::] cs j)) &
      all (fun x => x != 0%R) (unzip2 (nth [::] cs j))]].
Proof.
elim: k => [|k IH] le ne; first by exists [::].
have [cs [E sz H]] := IH (ltnW le) (fun j h => ne j (ltnW h)).
rewrite -addn1 iotaD add0n ofold_cat E; cbn [obind iota ofold]; rewrite /step fillE //; cbn [obind fst snd].
rewrite (oget_nth 0) ?size_ptrs ?sz // ptrs_nth ?sz // take_oversize ?sz //; cbn [obind].
have gk : 0 < size (g k) by rewrite lt0n size_eq0 ne.
have [||i2 [v2 [-> s2 so nz co]]] := @sort_sum_reduceE F (unzip1 (flatten cs) ++ unzip1 (g k)) (unzip2 (flatten cs) ++ unzip2 (g k)) (size (flatten cs)).
- by rewrite !size_cat !size_map.
- by rewrite size_cat !size_map -[X in X < _]addn0 ltn_add2l.
cbn [obind fst snd].
rewrite !(@drop_size_cat _ (size (flatten cs))) ?size_map // in co; rewrite zip_unzip in co.
rewrite !(@take_size_cat _ (size (flatten cs))) ?size_map //.
exists (rcons cs (zip i2 v2)); rewrite size_rcons addn1 sz; split=> //.
  have ef : flatten (rcons cs (zip i2 v2)) = flatten cs ++ zip i2 v2 by rewrite -cats1 flatten_cat /= cats0.
  rewrite ptrs_rcons ef /unzip1 /unzip2 !map_cat -/unzip1 -/unzip2 unzip1_zip ?unzip2_zip ?s2 //.
  by rewrite !size_cat size_map size_zip s2 minnn.
move=> j; rewrite ltnS leq_eqVlt nth_rcons sz => /orP [/eqP ->|lt].
  by rewrite ltnn eqxx unzip1_zip ?unzip2_zip ?s2.
by rewrite lt; exact: H.
Qed.

Lemma build_ok : (forall j, j < n -> g j != [::]) ->
  exists cs, [/\ csc_build O m n fill = Ok (pack m cs), size cs = n &
    forall j, j < n -> [/\ coef (nth [::] cs j) =1 coef (g j), sorted ltn (unzip1 (nth [::] cs j)) &
      all (fun x => x != 0%R) (unzip2 (nth [::] cs j))]].
Proof.
move=> ne; have [cs [E sz H]] := build_prefix (leqnn n) ne; exists cs; split=> //.
by rewrite /csc_build -/step E; cbn [obind]; rewrite /pack sz.
Qed.

Lemma build_empty j : j < n -> g j = [::] -> csc_build O m n fill = UB.
Proof.
move=> lt e; have : exists k, (k < n) && (g k == [::]) by exists j; rewrite lt e eqxx.
case/ex_minnP => k /andP [kn /eqP gk] mn.
have [|cs [E sz H]] := build_prefix (ltnW kn).
  move=> i ik; apply/negP => h; have := mn i; rewrite (ltn_trans ik kn) h => /(_ isT); by rewrite leqNgt ik.
have en : n = k + (n - k.+1).+1 by move: kn; clear; lia.
rewrite /csc_build -/step en iotaD add0n ofold_cat E; cbn [obind iota ofold]; rewrite {1}/step fillE //; cbn [obind fst snd].
rewrite (oget_nth 0) ?size_ptrs ?sz // ptrs_nth ?sz // take_oversize ?sz //; cbn [obind].
have := @sort_sum_reduce_empty F (unzip1 (flatten cs)) (unzip2 (flatten cs)).
by rewrite gk !cats0 !size_map => /(_ _ erefl erefl) ->.
Qed.

Lemma build_lt cs : (forall j, j < n -> all (fun p => p.1 < m) (g j)) -> size cs = n ->
  (forall j, j < n -> [/\ coef (nth [::] cs j) =1 coef (g j), sorted ltn (unzip1 (nth [::] cs j)) &
      all (fun x => x != 0%R) (unzip2 (nth [::] cs j))]) -> csc_wf (pack m cs).
Proof.
move=> gl sz H; apply: pack_wf; apply/(all_nthP [::]) => j; rewrite sz => lt; have [co so nz] := H j lt.
apply/allP => p pi; case: (ltnP p.1 m) => // le; exfalso.
have z : coef (g j) p.1 = 0%R.
  rewrite /coef big_seq_cond big_pred0 // => q; apply/negP => /andP [qi /eqP e].
  by have := allP (gl j lt) q qi; rewrite e ltnNge le.
rewrite -co in z.
have u : uniq (unzip1 (nth [::] cs j)) by apply: sorted_uniq so; [exact: ltn_trans|exact: ltnn].
have : coef (nth [::] cs j) p.1 = p.2.
  move: u pi; clear; elim: (nth [::] cs j) => //= q l IH /andP [ni u]; rewrite inE coef_cons => /orP [/eqP ->|pi].
    rewrite eqxx /coef big_seq_cond big_pred0 ?addr0 // => r; apply/negP => /andP [ri /eqP e].
    by case/negP: ni; rewrite -e; exact: map_f.
  case: eqP => [e|_]; last by rewrite add0r IH.
  by case/negP: ni; rewrite e; exact: map_f.
rewrite z => e; have := allP nz p.2; rewrite -e eqxx => h; suff : false by []; by apply: h; rewrite e; exact: map_f.
Qed.
End Build.

(** the loops *)
Lemma push_loop (f : F -> F) s c : ofold (fun s p => Ok (push2 s p.1 (f p.2))) s c =
  Ok (s.1 ++ unzip1 [seq (p.1, f p.2) | p <- c], s.2 ++ unzip2 [seq (p.1, f p.2) | p <- c]).
Proof.
elim: c s => [|p c IH] [s1 s2]; cbn [ofold map unzip1 unzip2 fst snd]; first by rewrite !cats0.
by cbn [obind]; rewrite IH /push2 /= !cat_rcons.
Qed.
Definition gemm_col A B j : svec F := flatten [seq [seq (p.1, (q.2 * p.2)%R) | p <- csc_col A q.1] | q <- csc_col B j].
Lemma gemm_fill A B j s : csc_wf A -> csc_wf B -> c_n A = c_m B -> j < c_n B ->
  csc_loop B j (fun s k v => csc_loop A k (fun s r a => Ok (push2 s r (fmul O v a))) s) s =
  Ok (s.1 ++ unzip1 (gemm_col A B j), s.2 ++ unzip2 (gemm_col A B j)).
Proof.
move=> wA wB e lt; rewrite csc_loopE // /gemm_col; have := col_lt wB lt.
elim: (csc_col B j) s => [|q c IH] [s1 s2] /=; first by rewrite !cats0.
move=> /andP [qm al]; rewrite csc_loopE // ?e //; rewrite (push_loop (fun x => q.2 * x)%R); cbn [obind fst snd].
by rewrite IH //= /unzip1 /unzip2 !map_cat !catA.
Qed.
Lemma gemm_coef A B i j : csc_wf A -> csc_wf B -> c_n A = c_m B -> j < c_n B ->
  coef (gemm_col A B j) i = (\sum_(k < c_n A) csc_entry A i k * csc_entry B k j)%R.
Proof.
move=> wA wB e lt; rewrite /gemm_col /csc_entry; have := col_lt wB lt.
elim: (csc_col B j) => [|q c IH].
  by move=> _; rewrite coef_nil big1 // => k _; rewrite coef_nil mulr0.
cbn [all map flatten] => /andP [qm al]; rewrite coef_cat IH // coef_map_scale.
have -> : (\sum_(k < c_n A) coef (csc_col A k) i * coef (q :: c) k =
   \sum_(k < c_n A) coef (csc_col A k) i * (if q.1 == k then q.2 else 0) + \sum_(k < c_n A) coef (csc_col A k) i * coef c k)%R.
  by rewrite -big_split /=; apply: eq_bigr => k _; rewrite coef_cons mulrDr.
congr (_ + _)%R; rewrite -e in qm; rewrite (bigD1 (Ordinal qm)) //= eqxx big1 => [|k nk].
  by rewrite addr0 mulrC.
case: eqP => [h|_]; last by rewrite mulr0.
by case/negP: nk; apply/eqP; apply: val_inj.
Qed.
End F.
