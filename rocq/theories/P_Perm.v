(** Permutation utilities. *)
From mathcomp Require Import all_ssreflect zify.
From Verif Require Import Outcome P_Outcome M_Perm S_Perm.
Set Implicit Arguments.
Unset Strict Implicit.
Unset Printing Implicit Defensive.

Section P.
Implicit Types p q : seq nat.

Lemma is_perm_uniq p : is_perm p -> uniq p.
Proof. by move/perm_uniq => ->; apply: iota_uniq. Qed.
Lemma is_perm_mem p i : is_perm p -> (i \in p) = (i < size p).
Proof. by move/perm_mem => ->; rewrite mem_iota. Qed.
Lemma is_perm_lt p i : is_perm p -> i < size p -> nth 0 p i < size p.
Proof. by move=> P lt; rewrite -is_perm_mem // mem_nth. Qed.
Lemma is_perm_index p i : is_perm p -> i < size p -> index i p < size p.
Proof. by move=> P lt; rewrite index_mem is_perm_mem. Qed.
Lemma is_perm_nth_index p i : is_perm p -> i < size p -> nth 0 p (index i p) = i.
Proof. by move=> P lt; rewrite nth_index // is_perm_mem. Qed.
Lemma is_perm_inj p i j : is_perm p -> i < size p -> j < size p -> nth 0 p i = nth 0 p j -> i = j.
Proof. by move=> P li lj E; apply/eqP; rewrite -(nth_uniq 0 li lj (is_perm_uniq P)) E. Qed.
Lemma is_permP p : uniq p -> all (fun i => i < size p) p -> is_perm p.
Proof.
move=> U A; apply: uniq_perm => //; first exact: iota_uniq.
have sub : {subset p <= iota 0 (size p)} by move=> i /(allP A); rewrite mem_iota.
by have [] := uniq_min_size U sub; rewrite ?size_iota.
Qed.
Lemma is_perm_iota n : is_perm (iota 0 n). Proof. by rewrite /is_perm size_iota. Qed.

Definition ipl p : seq nat := [seq index i p | i <- iota 0 (size p)].
Lemma size_ipl p : size (ipl p) = size p. Proof. by rewrite size_map size_iota. Qed.
Lemma nth_ipl p i : i < size p -> nth 0 (ipl p) i = index i p.
Proof. by move=> lt; rewrite (nth_map 0) ?size_iota // nth_iota. Qed.
Lemma is_perm_ipl p : is_perm p -> is_perm (ipl p).
Proof.
move=> P; apply: is_permP; last first.
  by apply/allP => i /mapP[j]; rewrite mem_iota add0n size_ipl => /andP[_ lt] ->; apply: is_perm_index.
rewrite map_inj_in_uniq ?iota_uniq // => i j; rewrite !mem_iota !add0n => /andP[_ li] /andP[_ lj] E.
by rewrite -(is_perm_nth_index P li) E is_perm_nth_index.
Qed.
Lemma ipl_nth p i : is_perm p -> i < size p -> nth 0 (ipl p) (nth 0 p i) = i.
Proof. by move=> P lt; rewrite nth_ipl ?is_perm_lt // index_uniq // is_perm_uniq. Qed.
Lemma nth_ipl_nth p i : is_perm p -> i < size p -> nth 0 p (nth 0 (ipl p) i) = i.
Proof. by move=> P lt; rewrite nth_ipl // is_perm_nth_index. Qed.

Lemma inv_permE p : is_perm p -> inv_perm p = Ok (ipl p).
Proof.
move=> P; rewrite /inv_perm.
have [||r -> [s N]] := ofold_iota_ind (P := fun k (v : seq nat) =>
    size v = size p /\ forall i, i < size p -> index i p < k -> nth 0 v i = index i p)
  (n := size p) (a := nseq (size p) 0)
  (g := fun inv j => do i <- oget p j; oset inv i j).
- by split=> //; rewrite size_nseq.
- move=> j v lt [s N]; rewrite (oget_nth 0 lt) /=.
  have ltp := is_perm_lt P lt.
  rewrite (oset_Ok 0) ?s //; eexists; first by []; split.
    by rewrite size_set_nth s; apply/maxn_idPr.
  move=> i li Hi; rewrite nth_set_nth /=; case: eqP => [->|ne].
    by rewrite index_uniq // is_perm_uniq.
  apply: N => //; move: Hi; rewrite ltnS leq_eqVlt => /orP[/eqP E|//].
  by case: ne; rewrite -E is_perm_nth_index.
congr Ok; apply: (@eq_from_nth _ 0); rewrite ?size_ipl // s => i li.
by rewrite nth_ipl // N // is_perm_index.
Qed.
End P.

Section Apply.
Variables (A : Type) (d0 : A).
Implicit Types (d : seq A) (p : seq nat).

Lemma apply_permE p d : all (fun i => i < size d) p -> size p <= size d ->
  apply_perm p d = Ok ([seq nth d0 d i | i <- p] ++ drop (size p) d).
Proof.
move=> B s; rewrite /apply_perm (omapm_Ok_eq (g := nth d0 d)) /= ?s //.
by move=> i /(allP B) lt; rewrite (oget_nth d0).
Qed.

Lemma apply_iperm_swapE p d : is_perm p -> size d = size p ->
  apply_iperm_swap d0 p d = Ok [seq nth d0 d i | i <- p].
Proof.
move=> P s; rewrite /apply_iperm_swap.
have [||[t e] -> [s1 s2 N]] := ofold_iota_ind (P := fun k (st : seq A * seq A) =>
    [/\ size st.1 = size p, size st.2 = size p &
     forall i, i < size p ->
       (i < k -> nth d0 st.1 i = nth d0 d (nth 0 p i)) /\
       (k <= i -> nth d0 st.2 (nth 0 p i) = nth d0 d (nth 0 p i))])
  (n := size p) (a := (nseq (size d) d0, d))
  (g := fun st i => do pi <- oget p i; swap_between st i pi).
- by split=> //=; rewrite ?size_nseq.
- move=> k [t e] lk [/= s1 s2 N]; rewrite (oget_nth 0 lk) /=.
  have lp := is_perm_lt P lk.
  rewrite (oget_nth d0) ?s1 //= (oget_nth d0) ?s2 //= (oset_Ok d0) ?s1 //= (oset_Ok d0) ?s2 //=.
  eexists; first by []; split; rewrite /= ?size_set_nth ?s1 ?s2; try exact/maxn_idPr.
  move=> i li; have [N1 N2] := N i li; have [_ Nk] := N k lk; rewrite !nth_set_nth /=; split.
    rewrite ltnS leq_eqVlt; case: eqP => [->|ne] /=; first by rewrite Nk.
    exact: N1.
  move=> ki; rewrite ifN ?N2 //; first exact: ltnW.
  by apply/eqP => /(is_perm_inj P li lk); lia.
rewrite /=.
have [||[t' e'] -> [s3 s4 N']] := ofold_iota_ind (P := fun k (st : seq A * seq A) =>
    [/\ size st.1 = size p, size st.2 = size p &
     forall i, i < size p ->
       (i < k -> nth d0 st.2 i = nth d0 d (nth 0 p i)) /\
       (k <= i -> nth d0 st.1 i = nth d0 d (nth 0 p i))])
  (n := size p) (a := (t, e))
  (g := fun st i => swap_between st i i).
- by split=> //= i li; split=> // _; have [N1 _] := N i li; apply: N1.
- move=> k [t' e'] lk [/= s3 s4 N'].
  rewrite (oget_nth d0) ?s3 //= (oget_nth d0) ?s4 //= (oset_Ok d0) ?s3 //= (oset_Ok d0) ?s4 //=.
  eexists; first by []; split; rewrite /= ?size_set_nth ?s3 ?s4; try exact/maxn_idPr.
  move=> i li; have [N1 N2] := N' i li; have [_ Nk] := N' k lk; rewrite !nth_set_nth /=; split.
    rewrite ltnS leq_eqVlt; case: eqP => [->|ne] /=; first by rewrite Nk.
    exact: N1.
  by move=> ki; rewrite ifN ?N2 //; lia.
rewrite /=; congr Ok; apply: (@eq_from_nth _ d0); rewrite ?size_map // /= in s4 *; rewrite s4 => i li.
by rewrite (nth_map 0) //; have [N1 _] := N' i li; apply: N1.
Qed.

Lemma apply_perm_swapE p d : is_perm p -> size d = size p ->
  apply_perm_swap d0 p d = Ok [seq nth d0 d i | i <- ipl p].
Proof.
move=> P s; rewrite /apply_perm_swap.
have [||[t e] -> [s1 s2 N]] := ofold_iota_ind (P := fun k (st : seq A * seq A) =>
    [/\ size st.1 = size p, size st.2 = size p &
     forall i, i < size p ->
       (i < k -> nth d0 st.1 (nth 0 p i) = nth d0 d i) /\
       (k <= i -> nth d0 st.2 i = nth d0 d i)])
  (n := size p) (a := (nseq (size d) d0, d))
  (g := fun st i => do pi <- oget p i; swap_between st pi i).
- by split=> //=; rewrite ?size_nseq.
- move=> k [t e] lk [/= s1 s2 N]; rewrite (oget_nth 0 lk) /=.
  have lp := is_perm_lt P lk.
  rewrite (oget_nth d0) ?s1 //= (oget_nth d0) ?s2 //= (oset_Ok d0) ?s1 //= (oset_Ok d0) ?s2 //=.
  eexists; first by []; split; rewrite /= ?size_set_nth ?s1 ?s2; try exact/maxn_idPr.
  move=> i li; have [N1 N2] := N i li; have [_ Nk] := N k lk; rewrite !nth_set_nth /=; split.
    rewrite ltnS leq_eqVlt; case: (i =P k) => [->|ne] /=; first by rewrite eqxx Nk.
    by move=> ik; rewrite ifN ?N1 //; apply/eqP => /(is_perm_inj P li lk).
  by move=> ki; rewrite ifN ?N2 //; lia.
rewrite /=.
have [||[t' e'] -> [s3 s4 N']] := ofold_iota_ind (P := fun k (st : seq A * seq A) =>
    [/\ size st.1 = size p, size st.2 = size p &
     forall i, i < size p ->
       (i < k -> nth d0 st.2 i = nth d0 d (index i p)) /\
       (k <= i -> nth d0 st.1 i = nth d0 d (index i p))])
  (n := size p) (a := (t, e))
  (g := fun st i => swap_between st i i).
- split=> //= i li; split=> // _; have li' := is_perm_index P li; have [N1 _] := N _ li'.
  by rewrite -[in LHS](is_perm_nth_index P li); apply: N1.
- move=> k [t' e'] lk [/= s3 s4 N'].
  rewrite (oget_nth d0) ?s3 //= (oget_nth d0) ?s4 //= (oset_Ok d0) ?s3 //= (oset_Ok d0) ?s4 //=.
  eexists; first by []; split; rewrite /= ?size_set_nth ?s3 ?s4; try exact/maxn_idPr.
  move=> i li; have [N1 N2] := N' i li; have [_ Nk] := N' k lk; rewrite !nth_set_nth /=; split.
    rewrite ltnS leq_eqVlt; case: eqP => [->|ne] /=; first by rewrite Nk.
    exact: N1.
  by move=> ki; rewrite ifN ?N2 //; lia.
rewrite /=; congr Ok; apply: (@eq_from_nth _ d0); rewrite ?size_map ?size_iota // /= in s4 *; rewrite s4 => i li.
by rewrite (nth_map 0) ?size_ipl // nth_ipl //; have [N1 _] := N' i li; apply: N1.
Qed.
End Apply.
