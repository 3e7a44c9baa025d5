(** CSCMatrix: the arrays as a list of columns. *)
From mathcomp Require Import all_ssreflect all_algebra zify.
From Verif Require Import Outcome M_SparseVec M_Perm M_Sorted M_ColMatrix M_CSC M_CSC2 S_Perm S_Linalg S_CSC P_Outcome P_Perm P_Trie P_Util P_SumReduce.
Set Implicit Arguments.
Unset Strict Implicit.
Unset Printing Implicit Defensive.

Section P.
Variable T : Type.
Implicit Types (A : csc T) (cs : seq (svec T)) (c : svec T).

Lemma all_flatten (R : Type) (P : pred R) (l : seq (seq R)) : all P (flatten l) = all (all P) l.
Proof. by elim: l => //= x l IH; rewrite all_cat IH. Qed.

Definition ptrs cs : seq nat := mkseq (fun j => size (flatten (take j cs))) (size cs).+1.
Arguments ptrs : simpl never.
Definition pack m cs : csc T := CSC m (size cs) (ptrs cs) (unzip1 (flatten cs)) (unzip2 (flatten cs)).
Definition ccols A := mkseq (csc_col A) (c_n A).

Lemma ptrs_nth cs j : j <= size cs -> nth 0 (ptrs cs) j = size (flatten (take j cs)).
Proof. by move=> le; rewrite nth_mkseq. Qed.
Lemma size_ptrs cs : size (ptrs cs) = (size cs).+1. Proof. by rewrite size_mkseq. Qed.
Lemma ptrs_rcons cs c : ptrs (rcons cs c) = rcons (ptrs cs) (size (flatten (rcons cs c))).
Proof.
rewrite /ptrs size_rcons mkseqS take_oversize ?size_rcons //; congr rcons.
apply/eq_in_map => j; rewrite mem_iota add0n => /andP [_ le]; rewrite -cats1 takel_cat //.
Qed.
Lemma take_nth_cat cs j : j < size cs -> take j.+1 cs = rcons (take j cs) (nth [::] cs j).
Proof. exact: take_nth. Qed.

Lemma zip_flat cs : zip (unzip1 (flatten cs)) (unzip2 (flatten cs)) = flatten cs. Proof. exact: zip_unzip. Qed.

Lemma split_flat cs j : j < size cs ->
  flatten cs = flatten (take j cs) ++ nth [::] cs j ++ flatten (drop j.+1 cs).
Proof.
by move=> lt; rewrite -{1}(cat_take_drop j cs) flatten_cat (drop_nth [::] lt).
Qed.

Lemma pack_col m cs j : j < size cs -> csc_col (pack m cs) j = nth [::] cs j.
Proof.
move=> lt; rewrite /csc_col. cbn [pack c_colptr c_rowind c_val]. rewrite zip_flat !ptrs_nth ?(ltnW lt) //.
rewrite take_nth_cat // -cats1 flatten_cat /= cats0.
by rewrite (split_flat lt) catA take_size_cat // drop_size_cat.
Qed.
Lemma pack_ccols m cs : ccols (pack m cs) = cs.
Proof.
apply: (@eq_from_nth _ [::]); rewrite ?size_mkseq // => j lt; rewrite nth_mkseq // pack_col //.
Qed.

Lemma pack_wf m cs : all (all (fun p => p.1 < m)) cs -> csc_wf (pack m cs).
Proof.
move=> al; split; cbn [pack c_colptr c_rowind c_val c_m c_n]; first by rewrite size_ptrs.
- by rewrite ptrs_nth // take0.
- apply/(sortedP 0) => j; rewrite size_ptrs ltnS => lt; rewrite !ptrs_nth ?(ltnW lt) // take_nth_cat // -cats1 flatten_cat size_cat.
  exact: leq_addr.
- rewrite -nth_last size_ptrs [_.+1.-1]/= ptrs_nth // take_size /unzip1 /unzip2 !size_map //.
- by rewrite /unzip1 all_map all_flatten.
Qed.

Lemma wf_ptr A j : csc_wf A -> j <= c_n A -> flatten (mkseq (csc_col A) j) = take (nth 0 (c_colptr A) j) (zip (c_rowind A) (c_val A)).
Proof.
move=> [s0 p0 so [l0 sv] _]; elim: j => [|j IH] lt; first by rewrite p0 take0.
rewrite mkseqS -cats1 flatten_cat /= cats0 IH ?(ltnW lt) // /csc_col.
have le : nth 0 (c_colptr A) j <= nth 0 (c_colptr A) j.+1 by move/(sortedP 0): so; apply; rewrite s0.
by rewrite -{1}(take_take le) cat_take_drop.
Qed.

Lemma wf_flat A : csc_wf A -> flatten (ccols A) = zip (c_rowind A) (c_val A).
Proof.
move=> wf; rewrite /ccols wf_ptr //; have [s0 p0 so [l0 sv] _] := wf.
rewrite take_oversize //; rewrite -nth_last s0 /= in l0; by rewrite l0 size_zip sv minnn.
Qed.

Lemma unpack A : csc_wf A -> A = pack (c_m A) (ccols A).
Proof.
move=> wf; have [s0 p0 so [l0 sv] _] := wf; rewrite /pack wf_flat // unzip1_zip ?unzip2_zip ?sv // size_mkseq.
have -> : ptrs (ccols A) = c_colptr A.
  apply: (@eq_from_nth _ 0); first by rewrite size_ptrs size_mkseq s0.
  move=> j; rewrite size_ptrs size_mkseq ltnS => le; rewrite ptrs_nth ?size_mkseq //.
  have -> : take j (ccols A) = mkseq (csc_col A) j by rewrite /ccols /mkseq -map_take take_iota (minn_idPl le).
  rewrite wf_ptr // size_takel // size_zip sv minnn; rewrite -l0 -nth_last s0 /=.
  by apply: (sorted_leq_nth leq_trans leqnn 0 so); rewrite ?inE ?s0 ?ltnS.
by case: A {wf s0 p0 so l0 sv}.
Qed.

Lemma ccols_lt A : csc_wf A -> all (all (fun p => p.1 < c_m A)) (ccols A).
Proof.
move=> wf; rewrite -all_flatten wf_flat //; have [_ _ _ [_ sv] al] := wf.
have e : c_rowind A = unzip1 (zip (c_rowind A) (c_val A)) by rewrite unzip1_zip // sv.
by rewrite e all_map in al.
Qed.
Lemma col_lt A j : csc_wf A -> j < c_n A -> all (fun p => p.1 < c_m A) (csc_col A j).
Proof.
move=> wf lt; have := ccols_lt wf; rewrite all_map => /allP; apply; by rewrite mem_iota add0n.
Qed.

Lemma read_range (S : Type) (f : S -> nat -> T -> outcome S) (X Y c : svec T) s :
  ofold (fun s k => do r <- oget (unzip1 (X ++ c ++ Y)) k; do v <- oget (unzip2 (X ++ c ++ Y)) k; f s r v) s (iota (size X) (size c))
  = ofold (fun s p => f s p.1 p.2) s c.
Proof.
elim: c X s => [|[r v] c IH] X s //; cbn [size iota ofold].
have e1 : oget (unzip1 (X ++ ((r, v) :: c) ++ Y)) (size X) = Ok r by rewrite /unzip1 map_cat /=; apply: oget_mid; rewrite size_map.
have e2 : oget (unzip2 (X ++ ((r, v) :: c) ++ Y)) (size X) = Ok v by rewrite /unzip2 map_cat /=; apply: oget_mid; rewrite size_map.
rewrite e1 e2; cbn [obind fst snd]; case: (f s r v) => [s'| | |] //; cbn [obind].
by have := IH (rcons X (r, v)) s'; rewrite size_rcons cat_rcons.
Qed.

Lemma csc_loopE (S : Type) A j (f : S -> nat -> T -> outcome S) s : csc_wf A -> j < c_n A ->
  csc_loop A j f s = ofold (fun s p => f s p.1 p.2) s (csc_col A j).
Proof.
move=> wf lt; rewrite (unpack wf); move: (ccols A) (esym (size_mkseq (csc_col A) (c_n A)) : c_n A = size (ccols A)) => cs e.
rewrite e in lt => {e}; rewrite pack_col // /csc_loop /= !(oget_nth 0) ?size_ptrs ?ltnS ?(ltnW lt) //; cbn [obind].
rewrite !ptrs_nth ?(ltnW lt) // take_nth_cat // -cats1 flatten_cat /= cats0 size_cat addKn (split_flat lt).
exact: read_range.
Qed.
Lemma csc_loop_out (S : Type) A j (f : S -> nat -> T -> outcome S) s : csc_wf A -> c_n A <= j -> csc_loop A j f s = UB.
Proof.
move=> [s0 _ _ _ _] le; rewrite /csc_loop.
have -> : oget (c_colptr A) j.+1 = UB by rewrite /oget drop_oversize // s0.
by rewrite /oget; case: (drop _ _).
Qed.

(** getval *)
Lemma scan_range (z : T) (X Y c : svec T) i A : c_rowind A = unzip1 (X ++ c ++ Y) -> c_val A = unzip2 (X ++ c ++ Y) ->
  csc_scan A z i (iota (size X) (size c)) = Ok (if [seq p <- c | p.1 == i] is p :: _ then p.2 else z).
Proof.
move=> e1 e2; elim: c X e1 e2 => [|[r v] c IH] X e1 e2 //; cbn [size iota csc_scan].
have -> : oget (c_rowind A) (size X) = Ok r by rewrite e1 /unzip1 map_cat /=; apply: oget_mid; rewrite size_map.
cbn [obind filter fst]; case: eqP => [_|ne].
  by rewrite e2 /unzip2 map_cat /=; apply: oget_mid; rewrite size_map.
by have := IH (rcons X (r, v)); rewrite size_rcons cat_rcons; apply.
Qed.
Lemma csc_getvalE (z : T) A i j : csc_wf A -> j < c_n A ->
  csc_getval z A i j = Ok (if [seq p <- csc_col A j | p.1 == i] is p :: _ then p.2 else z).
Proof.
move=> wf lt; rewrite (unpack wf); move: (ccols A) (esym (size_mkseq (csc_col A) (c_n A)) : c_n A = size (ccols A)) => cs e.
rewrite e in lt => {e}; rewrite pack_col // /csc_getval; cbn [pack c_colptr].
rewrite !(oget_nth 0) ?size_ptrs ?ltnS ?(ltnW lt) //; cbn [obind].
rewrite !ptrs_nth ?(ltnW lt) // take_nth_cat // -cats1 flatten_cat /= cats0 size_cat addKn.
by apply: scan_range; rewrite /= (split_flat lt).
Qed.

(** the constructor sorts every column *)
Variable t0 : T.
Definition scol c : svec T := let p := sortperm (fun a b => a < b) 0 (unzip1 c) in
  zip [seq nth 0 (unzip1 c) i | i <- p] [seq nth t0 (unzip2 c) i | i <- p].
Lemma size_scol c : size (scol c) = size c.
Proof.
rewrite /scol size_zip !size_map.
have := size_sperm (unzip1 c); rewrite size_map => ->; exact: minnn.
Qed.

Lemma sort_colE m (l1 : seq (svec T)) c l2 :
  csc_sort_col (pack m (l1 ++ c :: l2)) (size l1) = Ok (pack m (l1 ++ scol c :: l2)).
Proof.
have lt : size l1 < size (l1 ++ c :: l2) by rewrite size_cat /=; move: (size l1) (size l2); clear; lia.
rewrite /csc_sort_col; cbn [pack c_colptr c_m c_n c_rowind c_val].
rewrite !(oget_nth 0) ?size_ptrs ?ltnS ?(ltnW lt) //; cbn [obind].
rewrite !ptrs_nth ?(ltnW lt) // take_size_cat // take_nth_cat // nth_cat ltnn subnn take_size_cat //=.
rewrite -cats1 flatten_cat /= cats0 size_cat addKn !flatten_cat /=.
have e0 : ptrs (l1 ++ scol c :: l2) = ptrs (l1 ++ c :: l2).
  rewrite /ptrs !size_cat /=; apply/eq_in_map => i _; rewrite !take_cat; case: ltnP => // le.
  rewrite !flatten_cat !size_cat; congr addn; case: (i - size l1) => //= k; by rewrite !size_cat size_scol.
rewrite /unzip1 /unzip2 !map_cat -/unzip1 -/unzip2.
have := @range_sort_ok T t0 (unzip1 (flatten l1)) (unzip2 (flatten l1)) (unzip1 c) (unzip2 c) (unzip1 (flatten l2)) (unzip2 (flatten l2)).
rewrite !size_map => /(_ erefl erefl) ->; cbn [obind fst snd]; congr Ok.
rewrite /pack e0 !size_cat /= !flatten_cat /= /unzip1 /unzip2 !map_cat -/unzip1 -/unzip2.
by rewrite [in RHS]/scol unzip1_zip ?size_map // unzip2_zip ?size_map.
Qed.

Lemma csc_sortE m cs : csc_sort (pack m cs) = Ok (pack m (map scol cs)).
Proof.
have H : forall l1 l2, ofold (@csc_sort_col T) (pack m (l1 ++ l2)) (iota (size l1) (size l2)) = Ok (pack m (l1 ++ map scol l2)).
  move=> l1 l2; elim: l2 l1 => [|c l2 IH] l1 //; cbn [size iota ofold]; rewrite sort_colE; cbn [obind].
  by have := IH (rcons l1 (scol c)); rewrite size_rcons !cat_rcons.
by have := H [::] cs.
Qed.
End P.
