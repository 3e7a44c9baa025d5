(** C41: CSCMatrix. *)
From mathcomp Require Import all_ssreflect all_algebra zify.
From Verif Require Import Outcome M_SparseVec M_Perm M_Sorted M_ColMatrix M_CSC M_CSC2 S_Perm S_Linalg S_CSC P_Outcome P_Perm P_Trie P_SparseVec P_Sort P_Util P_SumReduce P_CSC P_CSC2.
Set Implicit Arguments.
Unset Strict Implicit.
Unset Printing Implicit Defensive.

Import GRing.Theory.

Section F.
Variable F : fieldType.
Let O := ops_of F.
Implicit Types (A B : csc F) (cs : seq (svec F)) (c : svec F).

Lemma nth_ccols A j : j < c_n A -> nth [::] (ccols A) j = csc_col A j.
Proof. by move=> lt; rewrite nth_mkseq. Qed.
Lemma size_ccols A : size (ccols A) = c_n A. Proof. by rewrite size_mkseq. Qed.

(** The constructor: on data that describe an m x n matrix it succeeds, keeps all entries and sorts every column by row. *)
Theorem C41_make m n colptr rowind (vals : seq F) : csc_wf (CSC m n colptr rowind vals) ->
  exists A, [/\ csc_make m n colptr rowind vals = Ok A, csc_wf A, c_m A = m /\ c_n A = n,
    forall i j, j < n -> csc_entry A i j = csc_entry (CSC m n colptr rowind vals) i j &
    forall j, j < n -> sorted leq (csc_rows A j) /\ perm_eq (csc_col A j) (csc_col (CSC m n colptr rowind vals) j)].
Proof.
set A0 := CSC _ _ _ _ _ => wf; have lt := ccols_lt wf; have sz := size_ccols A0.
have nc j : j < n -> csc_col (pack m (map (scol (0%R : F)) (ccols A0))) j = scol (0%R : F) (csc_col A0 j).
  move=> jn; have jc : j < size (ccols A0) by rewrite sz.
  by rewrite pack_col ?(size_map _ (ccols A0)) // (nth_map [::]) // nth_ccols.
exists (pack m (map (scol (0%R : F)) (ccols A0))); split.
- by rewrite /csc_make -/A0 [in LHS](unpack wf) (csc_sortE (0%R : F)).
- apply: pack_wf; apply/allP => c /mapP [c0 /(allP lt) al ->]; apply/allP => p; rewrite (perm_mem (scol_perm c0)); exact: (allP al).
- by split=> //; rewrite [LHS](size_map _ (ccols A0)) sz.
- by move=> i j jn; rewrite /csc_entry nc //; apply: coef_perm; exact: scol_perm.
- by move=> j jn; rewrite /csc_rows nc //; split; [exact: scol_sorted|exact: scol_perm].
Qed.

(** getval(i, j): the entry, when no row is stored twice in column j; 0 is returned for an entry that is not stored.  A
    column out of range is undefined behaviour. *)
Theorem C41_getval A i j : csc_wf A ->
  if j < c_n A then uniq (csc_rows A j) -> csc_getval 0%R A i j = Ok (csc_entry A i j)
  else csc_getval 0%R A i j = UB.
Proof.
move=> wf; case: ltnP => [lt u|le]; last first.
  rewrite /csc_getval; have [s0 _ _ _ _] := wf.
  have -> : oget (c_colptr A) j.+1 = UB by rewrite /oget drop_oversize // s0.
  by rewrite /oget; case: (drop _ _).
rewrite csc_getvalE //; congr Ok; rewrite /csc_entry /coef -big_filter; move: u; rewrite /csc_rows.
elim: (csc_col A j) => [|p c IH]; first by rewrite big_nil.
move=> /= /andP [ni u]; case: eqP => [e|_]; last exact: IH.
rewrite big_cons big_filter big_seq_cond big_pred0 ?addr0 // => q; apply/negP => /andP [qi /eqP eq].
by case/negP: ni; rewrite e -eq; exact: map_f.
Qed.

(** ** submatrix *)
Definition selp (prow : seq (option nat)) c : svec F := pmap (fun p => if nth None prow p.1 is Some q then Some (q, p.2) else None) c.
Lemma sub_loop prow s c : all (fun p => p.1 < size prow) c ->
  ofold (fun s p => sub_step prow s p.1 p.2) s c = Ok (s.1 ++ unzip1 (selp prow c), s.2 ++ unzip2 (selp prow c)).
Proof.
elim: c s => [|p c IH] [s1 s2] /=; first by rewrite !cats0.
move=> /andP [lt al]; rewrite {1}/sub_step (oget_nth None) //; cbn [obind].
by case: (nth None prow p.1) => [q|]; cbn [obind]; rewrite IH //= ?cat_rcons.
Qed.

Lemma sub_fold M (col : nat -> nat) prow l : csc_wf M -> size prow = c_m M -> all (fun k => col k < c_n M) l ->
  forall cs, ofold (fun st j => do s <- csc_loop M (col j) (@sub_step F prow) st.2; Ok (rcons st.1 (size s.1), s))
    (ptrs cs, (unzip1 (flatten cs), unzip2 (flatten cs))) l =
  let cs' := cs ++ [seq selp prow (csc_col M (col j)) | j <- l] in Ok (ptrs cs', (unzip1 (flatten cs'), unzip2 (flatten cs'))).
Proof.
move=> wf sp; elim: l => [|j l IH] /=; first by move=> _ cs; rewrite cats0.
move=> /andP [lt al] cs; rewrite csc_loopE // sub_loop; last by rewrite sp; exact: col_lt.
cbn [obind fst snd]; have := IH al (rcons cs (selp prow (csc_col M (col j)))).
have ef c : flatten (rcons cs c) = flatten cs ++ c by rewrite -cats1 flatten_cat /= cats0.
rewrite ptrs_rcons cat_rcons ef /unzip1 /unzip2 !map_cat -/unzip1 -/unzip2 => <-.
by rewrite !size_cat !size_map.
Qed.

Lemma selp_coef rind m prow c i : all (fun x => x < m) rind -> uniq rind -> partial_perm rind m = Ok prow ->
  i < size rind -> coef (selp prow c) i = coef c (nth 0 rind i).
Proof.
move=> al u E li; have [r [Er sr H1 H2]] := partial_permE u al; move: Er; rewrite E => -[e]; rewrite -{r}e in sr H1 H2.
have key x : nth None prow x = Some i <-> x = nth 0 rind i.
  split=> [h|->]; last exact: H1.
  case: (boolP (x \in rind)) => xi; last by move: h; rewrite H2.
  by move: h; rewrite -{1}(nth_index 0 xi) H1 ?index_mem // => -[<-]; rewrite nth_index.
elim: c => [|p c IH]; first by rewrite !coef_nil.
rewrite coef_cons -IH /=; case E2: (nth None prow p.1) => [q|] /=.
  rewrite coef_cons /=; congr (_ + _)%R; case: eqP => [e|ne]; case: eqP => // h.
    by case: h; apply/key; rewrite E2 e.
  by case: ne; have /key := h; rewrite E2 => -[].
case: eqP => [/key|]; by [rewrite E2|rewrite add0r].
Qed.
Lemma selp_lt rind m prow c : all (fun x => x < m) rind -> uniq rind -> partial_perm rind m = Ok prow ->
  all (fun p => p.1 < size rind) (selp prow c).
Proof.
move=> al u E; have [r [Er sr H1 H2]] := partial_permE u al; move: Er; rewrite E => -[e]; rewrite -{r}e in sr H1 H2.
apply/allP => p; rewrite mem_pmap => /mapP [q qi].
case E2: (nth None prow q.1) => [k|] //= -[->] /=.
case: (boolP (q.1 \in rind)) => xi; last by move: E2; rewrite H2.
by move: E2; rewrite -{1}(nth_index 0 xi) H1 ?index_mem // => -[<-]; rewrite index_mem.
Qed.

(** submatrix(rind, cind), distinct rows: entry (i, j) is the entry (rind[i], cind[j]). *)
Theorem C41_submatrix rind cind A : csc_wf A -> uniq rind -> all (fun i => i < c_m A) rind -> all (fun j => j < c_n A) cind ->
  exists B, [/\ csc_submatrix rind cind A = Ok B, csc_wf B, c_m B = size rind /\ c_n B = size cind &
    forall i j, i < size rind -> j < size cind -> csc_entry B i j = csc_entry A (nth 0 rind i) (nth 0 cind j)].
Proof.
move=> wf u al ac; have [prow [E sp _ _]] := partial_permE u al.
exists (pack (size rind) [seq selp prow (csc_col A j) | j <- cind]); split.
- rewrite /csc_submatrix E; cbn [obind]; have := sub_fold (col := id) wf sp ac [::]; rewrite /ptrs /= => ->; cbn [obind fst snd].
  by rewrite /pack /ptrs !size_map.
- by apply: pack_wf; apply/allP => c /mapP [j _ ->]; exact: selp_lt E.
- by split=> //; exact: size_map.
- move=> i j li lj; rewrite /csc_entry pack_col ?size_map // (nth_map 0) //; exact: selp_coef E li.
Qed.

(** block_select ignores which columns are asked for: it gives the first columns; the columns cind[j] only when
    cind = 0, 1, 2, ....  Asking for more columns than there are is undefined behaviour. *)
Theorem C41_block_select rind prow cind A : csc_wf A -> uniq rind -> all (fun i => i < c_m A) rind ->
  partial_perm rind (c_m A) = Ok prow ->
  if size cind <= c_n A then exists B, [/\ csc_block_select cind prow (size rind) A = Ok B, csc_wf B, c_m B = size rind /\ c_n B = size cind &
    forall i j, i < size rind -> j < size cind -> csc_entry B i j = csc_entry A (nth 0 rind i) j]
  else csc_block_select cind prow (size rind) A = UB.
Proof.
move=> wf u al E; have [r [Er sp _ _]] := partial_permE u al; move: Er; rewrite E => -[e]; rewrite -{r}e in sp.
case: leqP => le.
  have ac : all (fun j => j < c_n A) (iota 0 (size cind)).
    by apply/allP => j; rewrite mem_iota add0n => h; exact: leq_trans h le.
  exists (pack (size rind) [seq selp prow (csc_col A j) | j <- iota 0 (size cind)]); split.
  - rewrite /csc_block_select; have := sub_fold (col := id) wf sp ac [::]; rewrite /ptrs /= => ->; cbn [obind fst snd].
    by rewrite /pack /ptrs !size_map !size_iota.
  - by apply: pack_wf; apply/allP => c /mapP [j _ ->]; exact: selp_lt E.
  - by split=> //; rewrite [LHS]size_map size_iota.
  - move=> i j li lj; rewrite /csc_entry pack_col ?size_map ?size_iota // (nth_map 0) ?size_iota // nth_iota // add0n.
    exact: selp_coef E li.
have en : size cind = c_n A + (size cind - (c_n A).+1).+1 by move: (size cind) le => q; clear; lia.
rewrite /csc_block_select en iotaD add0n ofold_cat.
have ac : all (fun j => j < c_n A) (iota 0 (c_n A)) by apply/allP => j; rewrite mem_iota add0n.
have := sub_fold (col := id) wf sp ac [::]; rewrite /ptrs /= => ->; cbn [obind iota ofold fst snd].
by rewrite csc_loop_out.
Qed.

(** ** product and sums *)
Definition no_empty n (g : nat -> svec F) := forall j, j < n -> g j != [::].

Lemma build_res m n fill (g : nat -> svec F) (e : nat -> nat -> F) :
  (forall j s, j < n -> fill j s = Ok (s.1 ++ unzip1 (g j), s.2 ++ unzip2 (g j))) ->
  (forall j, j < n -> g j != [::]) -> (forall j, j < n -> all (fun p => p.1 < m) (g j)) ->
  (forall i j, j < n -> coef (g j) i = e i j) ->
  exists C, [/\ csc_build O m n fill = Ok C, csc_wf C, c_m C = m /\ c_n C = n,
    forall j, j < n -> sorted ltn (csc_rows C j) /\ all (fun p => p.2 != 0%R) (csc_col C j) &
    forall i j, j < n -> csc_entry C i j = e i j].
Proof.
move=> H1 H2 H3 H4; have [cs [E sz H]] := build_ok m H1 H2; exists (pack m cs); split=> //.
- exact: build_lt H3 sz H.
- move=> j lt; have [_ so nz] := H j lt; rewrite /csc_rows pack_col ?sz //; split=> //.
  by rewrite /unzip2 all_map in nz.
- by move=> i j lt; have [co _ _] := H j lt; rewrite /csc_entry pack_col ?sz // co H4.
Qed.

(** gemm / operator*: if every column of the result gets at least one product, the result is the matrix product, with
    sorted columns and no stored zeros. *)
Theorem C41_gemm A B : csc_wf A -> csc_wf B -> c_n A = c_m B ->
  (forall j, j < c_n B -> exists k, k \in csc_rows B j /\ csc_rows A k != [::]) ->
  exists C, [/\ csc_gemm O A B = Ok C, csc_wf C, c_m C = c_m A /\ c_n C = c_n B,
    forall j, j < c_n B -> sorted ltn (csc_rows C j) /\ all (fun p => p.2 != 0%R) (csc_col C j) &
    forall i j, j < c_n B -> csc_entry C i j = (\sum_(k < c_n A) csc_entry A i k * csc_entry B k j)%R].
Proof.
move=> wA wB e ne; apply: (build_res (g := gemm_col A B)).
- by move=> j s lt; exact: gemm_fill.
- move=> j /ne [k [/mapP [q qi ek] nk]]; apply/negP => /eqP z.
  have : size [seq (p.1, (q.2 * p.2)%R) | p <- csc_col A q.1] <= size (gemm_col A B j).
    rewrite /gemm_col size_flatten /seq.shape -map_comp sumnE big_map (big_rem q) //=; exact: leq_addr.
  by rewrite z size_map leqn0 size_eq0 -ek; move: nk; rewrite /csc_rows; case: (csc_col A k).
- move=> j lt; rewrite /gemm_col all_flatten all_map; apply/allP => q qi /=; rewrite all_map; apply: (sub_all (a1 := fun p => p.1 < c_m A)) => //.
  by apply: col_lt => //; rewrite e; exact: (allP (col_lt wB lt)).
- by move=> i j lt; exact: gemm_coef.
Qed.

(** otherwise the product reads past the end of an array *)
Theorem C41_gemm_empty A B j : csc_wf A -> csc_wf B -> c_n A = c_m B -> j < c_n B ->
  (forall k, k \in csc_rows B j -> csc_rows A k = [::]) -> csc_gemm O A B = UB.
Proof.
move=> wA wB e lt H; apply: (@build_empty F _ _ _ (gemm_col A B) _ j lt).
  by move=> i s li; exact: gemm_fill.
rewrite /gemm_col; move: H; rewrite /csc_rows; elim: (csc_col B j) => //= q c IH H; rewrite IH ?cats0.
  by have := H q.1 (mem_head _ _); case: (csc_col A q.1).
by move=> k kc; apply: H; rewrite inE kc orbT.
Qed.

Definition sum_col (f : F -> F) A B j : svec F := csc_col B j ++ [seq (p.1, f p.2) | p <- csc_col A j].
Lemma sum_fill (f : F -> F) A B j s : csc_wf A -> csc_wf B -> c_n A = c_n B -> j < c_n B ->
  (do s1 <- csc_loop B j (fun s r v => Ok (push2 s r v)) s; csc_loop A j (fun s r v => Ok (push2 s r (f v))) s1) =
  Ok (s.1 ++ unzip1 (sum_col f A B j), s.2 ++ unzip2 (sum_col f A B j)).
Proof.
move=> wA wB e lt; rewrite csc_loopE // (push_loop id); cbn [obind]; rewrite csc_loopE ?e // push_loop /=.
by rewrite /sum_col /unzip1 /unzip2 !map_cat !catA -[in RHS](@map_id _ (csc_col B j)) -!map_comp.
Qed.

(** sum(alpha, A, B, C): C = alpha A + B, if no column is empty in both *)
Theorem C41_axpy alpha A B : csc_wf A -> csc_wf B -> c_n A = c_n B -> c_m A = c_m B ->
  (forall j, j < c_n B -> csc_rows A j != [::] \/ csc_rows B j != [::]) ->
  exists C, [/\ csc_axpy O alpha A B = Ok C, csc_wf C, c_m C = c_m A /\ c_n C = c_n B,
    forall j, j < c_n B -> sorted ltn (csc_rows C j) /\ all (fun p => p.2 != 0%R) (csc_col C j) &
    forall i j, j < c_n B -> csc_entry C i j = (alpha * csc_entry A i j + csc_entry B i j)%R].
Proof.
move=> wA wB en em ne; apply: (build_res (g := sum_col (fun x => alpha * x)%R A B)).
- by move=> j s lt; exact: sum_fill.
- move=> j /ne; rewrite /sum_col /csc_rows => -[]; case: (csc_col A j) => [|? ?]; case: (csc_col B j) => //.
- move=> j lt; rewrite /sum_col all_cat all_map em col_lt //=; apply: (sub_all (a1 := fun p => p.1 < c_m A)).
    by move=> p; rewrite em.
  by apply: col_lt => //; rewrite en.
- by move=> i j lt; rewrite /sum_col coef_cat coef_map_scale addrC.
Qed.
(** sum(A, B, C): C = A + B *)
Theorem C41_sum A B : csc_wf A -> csc_wf B -> c_n A = c_n B -> c_m A = c_m B ->
  (forall j, j < c_n B -> csc_rows A j != [::] \/ csc_rows B j != [::]) ->
  exists C, [/\ csc_sum O A B = Ok C, csc_wf C, c_m C = c_m A /\ c_n C = c_n B,
    forall j, j < c_n B -> sorted ltn (csc_rows C j) /\ all (fun p => p.2 != 0%R) (csc_col C j) &
    forall i j, j < c_n B -> csc_entry C i j = (csc_entry A i j + csc_entry B i j)%R].
Proof.
move=> wA wB en em ne; apply: (build_res (g := sum_col id A B)).
- by move=> j s lt; exact: (sum_fill id).
- move=> j /ne; rewrite /sum_col /csc_rows => -[]; case: (csc_col A j) => [|? ?]; case: (csc_col B j) => //.
- move=> j lt; rewrite /sum_col all_cat all_map em col_lt //=; apply: (sub_all (a1 := fun p => p.1 < c_m A)).
    by move=> p; rewrite em.
  by apply: col_lt => //; rewrite en.
- move=> i j lt; rewrite /sum_col coef_cat addrC; congr (_ + _)%R.
  by rewrite -[RHS](@mul1r F) -coef_map_scale; congr coef; apply: eq_map => -[a b] /=; rewrite mul1r.
Qed.
(** a column empty in both: undefined behaviour, for both *)
Theorem C41_sum_empty alpha A B j : csc_wf A -> csc_wf B -> c_n A = c_n B -> j < c_n B ->
  csc_rows A j = [::] -> csc_rows B j = [::] -> csc_sum O A B = UB /\ csc_axpy O alpha A B = UB.
Proof.
move=> wA wB en lt hA hB.
have z (f : F -> F) : sum_col f A B j = [::].
  by move: hA hB; rewrite /sum_col /csc_rows; case: (csc_col A j) => //; case: (csc_col B j).
split; [apply: (@build_empty F _ _ _ (sum_col id A B) _ j lt)|apply: (@build_empty F _ _ _ (sum_col (fun x => alpha * x)%R A B) _ j lt)] => //.
  by move=> i s li; exact: (sum_fill id).
by move=> i s li; exact: sum_fill.
Qed.
End F.

(** Non-vacuity, over the rationals: a 2 x 2 matrix with unsorted columns, its square, a product with an empty column, and
    block_select taking the wrong column. *)
Definition ex_csc : csc [fieldType of rat] := CSC 2 2 [:: 0; 2; 3] [:: 1; 0; 1] [:: 5%:R; 7%:R; 11%:R]%R.
Theorem C41_nonvacuous :
  [/\ csc_wf ex_csc,
      csc_make 2 2 [:: 0; 2; 3] [:: 1; 0; 1] [:: 5%:R; 7%:R; 11%:R : rat]%R =
        Ok (CSC 2 2 [:: 0; 2; 3] [:: 0; 1; 1] [:: 7%:R; 5%:R; 11%:R : rat]%R),
      (forall j, j < c_n ex_csc -> exists k, k \in csc_rows ex_csc j /\ csc_rows ex_csc k != [::]),
      csc_gemm (ops_of [fieldType of rat]) ex_csc ex_csc = Ok (CSC 2 2 [:: 0; 2; 3] [:: 0; 1; 1] [:: 49%:R; 90%:R; 121%:R : rat]%R) &
      csc_block_select [:: 1] [:: Some 0; Some 1] 2 ex_csc = Ok (CSC 2 1 [:: 0; 2] [:: 1; 0] [:: 5%:R; 7%:R : rat]%R)].
Proof.
split; try by vm_compute.
by case=> [|[|j]] // _; [exists 0|exists 1].
Qed.
