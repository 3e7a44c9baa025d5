(** The chain complex with one column per interval: matrix entries; it is a chain complex that maps to the original one. *)
From mathcomp Require Import all_ssreflect all_algebra zify.
From Verif Require Import Outcome P_Outcome M_SparseVec M_ColMatrix S_Linalg S_Homology S_Induced M_Zigzag S_Zigzag
  S_ZigzagFilt M_ZigzagFilt P_SparseVec P_SparseVec2 P_Reduce P_ColMatrix P_Betti P_ZF1 P_ZF2 P_ZF3.
Set Implicit Arguments.
Unset Strict Implicit.
Unset Printing Implicit Defensive.
Import GRing.Theory Order.Theory.
Local Open Scope ring_scope.

(** relabelling the indices of a column *)
Lemma sv_relabel (F : fieldType) m m' (g : nat -> nat) (c : svec F) : sv_wf m c ->
  (forall p q, p \in c -> q \in c -> g p.1 = g q.1 -> p.1 = q.1) -> (forall p, p \in c -> (g p.1 < m')%N) ->
  sv_wf m' (sv_sort [seq (g p.1, p.2) | p <- c]) /\
  forall i, coef (sv_sort [seq (g p.1, p.2) | p <- c]) i = \sum_(p <- c | g p.1 == i) p.2.
Proof.
move=> /and3P[S B N] gi gl; set w := [seq _ | _ <- _].
have pw : perm_eq (sv_sort w) w by rewrite perm_sort.
split; last by move=> i; rewrite (coef_perm pw) /coef /w big_map.
apply/and3P; split.
- rewrite /sv_sorted ltn_sorted_uniq_leq; apply/andP; split.
    rewrite (perm_uniq (perm_map fst pw)) /w -map_comp.
    rewrite map_inj_in_uniq; first by apply: (@map_uniq _ _ fst); exact: inds_uniq.
    move=> p q pc qc /= e; have e1 := gi p q pc qc e.
    have := coef_in S pc; have := coef_in S qc; rewrite e1 => e2 e3; move: e1 e2 e3; clear.
    by case: p q => [i x] [j y] /= -> -> ->.
  rewrite sorted_map; apply: (@sort_sorted _ (fun a b : nat * F => (a.1 <= b.1)%N)) => a b.
  exact: leq_total.
- by rewrite /sv_below (perm_all _ pw) all_map; apply/allP => q Hq /=; apply: gl.
- by rewrite /sv_nonzero (perm_all _ pw) all_map; apply/allP => q Hq /=; apply: (allP N).
Qed.

Section S.
Variable F : fieldType.
Variable disp : unit.
Variable A : orderType disp.
Variable a0 : A.
Notation iv := (A * A)%type.
Notation svec := (svec F).
Variable C : seq (cmat F).
Variable val : seq (seq (seq iv)).
Notation ivs := (ivs val).
Notation ivn := (ivn a0 val).
Hypothesis CW : chain_wf C.
Hypothesis FO : filtration_ok a0 C val.
Hypothesis nb0 : no_bd0 C.
Notation nn := (nn val).
Notation tot := (tot val).
Notation Bl := (Bl a0 C val).
Notation copy := (copy_no val).
Notation sel := (sel a0 val).
Definition vv k a : iv := nth (a0, a0) (vl a0 val k) a.
Definition ci k a : nat := nth 0%N (cil val k) a.
Definition C2 := mkseq Bl (size C).
Definition EC k i j : F := entry (bmx C k) i j.

Lemma splitE k a : (a < tot k)%N -> exists i m, [/\ (i < nn k)%N, (m < size (ivs k i))%N, a = copy k i m, ci k a = i & vv k a = ivn k i m].
Proof.
move=> lt; have [i [m [li lm ->]]] := copy_split (fun i li => iv_ne FO li) lt.
by exists i, m; split=> //; [exact: cil_copy|exact: vl_copy].
Qed.
Lemma colwf k j m : (j < nn k.+1)%N -> (m < size (ivs k.+1 j))%N ->
  sv_wf (tot k) (nth [::] (csl a0 C val k.+1) (copy k.+1 j m)) /\
  forall i m', (i < nn k)%N -> (m' < size (ivs k i))%N ->
  coef (nth [::] (csl a0 C val k.+1) (copy k.+1 j m)) (copy k i m') = if m' == sel k j m i then EC k.+1 i j else 0.
Proof.
move=> lj lm; rewrite csl_copy //; last exact: (ncolsz CW FO).
have lk := nn_lt FO lj; have [_ _ /(_ k lk)[er _]] := CW.
have W : sv_wf (nn k) (nth [::] (cols (bmx C k.+1)) j) by rewrite (nnE FO) /ncell -er; apply: col_wf.
rewrite /sel; case: eqP => [_|/eqP m0].
  have /and3P[a b c] := W; split.
    by apply/and3P; split=> //; apply: sub_all b => p lp; apply: leq_trans lp (leq_addr _ _).
  move=> i [|m'] li lm' //; by rewrite copy_noS; apply: (coef_ge b); apply: leq_addr.
set b := (ivn k.+1 j m).1; set c := nth [::] _ j.
have f p : p \in c -> [/\ (p.1 < nn k)%N & (msel a0 val k p.1 b < size (ivs k p.1))%N].
  move=> pc; have n0 := col_face CW pc; split; first exact: (face_lt CW FO lj n0).
  by have [] := selP CW FO lj n0 lm; rewrite /P_ZF3.sel (negbTE m0).
have [|p pc|w1 w2] := @sv_relabel F (nn k) (tot k) (fun i => csel a0 val k i b) c W.
- move=> p q pc qc e; have [p1 p2] := f p pc; have [q1 q2] := f q qc; by have [] := copy_inj p1 q1 p2 q2 e.
- by have [p1 p2] := f p pc; apply: copy_lt.
split=> // i m' li lm'; rewrite w2 /EC /entry -/c /coef.
case: eqP => e.
  rewrite big_seq_cond [RHS]big_seq_cond; apply: eq_bigl => p; case: (boolP (p \in c)) => //= pc; have [p1 p2] := f p pc.
  apply/eqP/eqP => [e2|->]; last by rewrite e.
  by have [] := copy_inj p1 li p2 lm' e2.
rewrite big_seq_cond big1 // => p /andP[pc /eqP e2]; have [p1 p2] := f p pc; have [e3 e4] := copy_inj p1 li p2 lm' e2.
by case: e; rewrite -e4 e3.
Qed.

Lemma bmx2 k : (k < size C)%N -> bmx C2 k = Bl k.
Proof. by move=> lk; rewrite /bmx nth_mkseq. Qed.
Lemma tot0 k : (size C <= k)%N -> tot k = 0%N.
Proof.
move=> ge; have n0 : nn k = 0%N by rewrite /P_ZF3.nn nth_default ?(szv FO).
by rewrite /P_ZF3.tot n0.
Qed.
Lemma ncell2 k : ncell C2 k = tot k.
Proof.
rewrite /ncell; case: (ltnP k (size C)) => lk; first by rewrite bmx2.
by rewrite /bmx nth_default ?size_mkseq // tot0.
Qed.
Lemma entry2 k a c : (a < tot k)%N -> (c < tot k.+1)%N ->
  entry (bmx C2 k.+1) a c = if inside (vv k.+1 c) (vv k a) then EC k.+1 (ci k a) (ci k.+1 c) else 0.
Proof.
move=> la lc; have [i [m' [li lm' -> -> ->]]] := splitE la; have [j [m [lj lm -> -> ->]]] := splitE lc.
have lk := nn_lt FO lj; rewrite bmx2 // /entry; have [_ -> //] := colwf lj lm.
case: (eqVneq (EC k.+1 i j) 0) => [->|n0]; first by case: ifP; case: ifP.
have [s1 s2] := selP CW FO lj n0 lm; case: eqP => [->|ne]; first by rewrite s2.
case: ifP => // ins; case: ne; exact: (inside_uniq FO li lm' s1 (iv_le FO lj lm)).
Qed.
Lemma entry20 i c : (c < tot 0)%N -> entry (bmx C2 0) i c = 0.
Proof.
move=> lc; have [j [m [lj lm -> _ _]]] := splitE lc; have lk := nn_lt FO lj; rewrite bmx2 // /entry.
rewrite csl_copy //; last exact: (ncolsz CW FO).
rewrite (nnE FO) in lj; by case: eqP => _; exact: (nb0 i lj).
Qed.
(** sums over the faces of a copy *)
Lemma sum_sel (h : nat -> F) k j m : (j < nn k.+1)%N -> (m < size (ivs k.+1 j))%N ->
  \sum_(b < tot k) h b * entry (bmx C2 k.+1) b (copy k.+1 j m) =
  \sum_(i < nn k) h (copy k i (sel k j m i)) * EC k.+1 i j.
Proof.
move=> lj lm; have lc := copy_lt lj lm.
have cl (b : 'I_(tot k)) : (ci k b < nn k)%N by have [i [m' [li _ _ -> _]]] := splitE (ltn_ord b).
rewrite (partition_big (fun b => Ordinal (cl b)) xpredT) //; apply: eq_bigr => i _.
have e2 (b : 'I_(tot k)) : Ordinal (cl b) == i -> exists m', [/\ (m' < size (ivs k i))%N, (b : nat) = copy k i m' &
    entry (bmx C2 k.+1) b (copy k.+1 j m) = if m' == sel k j m i then EC k.+1 i j else 0].
  move=> /eqP/(congr1 (@nat_of_ord _)) e; have [i' [m' [li lm' eb ec ev]]] := splitE (ltn_ord b).
  have ei : i' = i by rewrite -ec -e. rewrite ei in lm' eb *; exists m'; split=> //.
  by rewrite bmx2 ?(nn_lt FO lj) // eb /entry; have [_ ->] := colwf lj lm.
case: (eqVneq (EC k.+1 i j) 0) => [z|n0].
  by rewrite z mulr0 big1 // => b /e2[m' [_ _ ->]]; rewrite z if_same mulr0.
have [s1 s2] := selP CW FO lj n0 lm; have lb := copy_lt (ltn_ord i) s1.
rewrite (bigD1 (Ordinal lb)); last by rewrite -val_eqE /= /ci cil_copy.
rewrite big1 => [|b /andP[/e2[m' [lm' eb ->]] ne]].
  have [|m' [lm' eb ->]] := e2 (Ordinal lb); first by rewrite -val_eqE /= /ci cil_copy.
  have [_ e] := copy_inj (ltn_ord i) (ltn_ord i) s1 lm' eb; rewrite -e eqxx; exact: addr0.
by case: eqP => [e|_]; [case/negP: ne; rewrite -val_eqE /= eb e|rewrite mulr0].
Qed.

Lemma C2_wf k : (k < size C)%N -> cm_wf (Bl k).
Proof.
move=> lk; apply/andP; split; first by rewrite /= size_csl.
apply/(all_nthP [::]) => c; rewrite (size_csl CW FO) => lc; have [j [m [lj lm -> _ _]]] := splitE lc.
case: k lk lj lm {lc} => [|k] lk lj lm; last by have [] := colwf lj lm.
rewrite csl_copy //; last exact: (ncolsz CW FO).
by rewrite /P_ZF3.corr if_same; apply: (col_wf CW).
Qed.
Lemma sel_trans k i j m m' a : (j < nn k.+2)%N -> (m < size (ivs k.+2 j))%N -> EC k.+2 i j != 0 -> EC k.+1 a i != 0 ->
  m' = sel k.+1 j m i -> (m' < size (ivs k.+1 i))%N /\ inside (ivn k.+2 j m) (ivn k a (sel k i m' a)).
Proof.
move=> lj lm n1 n2 ->; have [s1 s2] := selP CW FO lj n1 lm; have li := face_lt CW FO lj n1.
have [t1 t2] := selP CW FO li n2 s1; split=> //; move: s2 t2 => /andP[a1 a2] /andP[b1 b2]; apply/andP; split.
  exact: le_trans b1 a1.
exact: le_trans a2 b2.
Qed.
Lemma dd2 k a c : (a < tot k)%N -> (c < tot k.+2)%N -> \sum_(b < tot k.+1) entry (bmx C2 k.+1) a b * entry (bmx C2 k.+2) b c = 0.
Proof.
move=> la lc; have [j [m [lj lm -> _ _]]] := splitE lc; have [a' [n [la' ln ea _ _]]] := splitE la.
rewrite (sum_sel (fun b => entry (bmx C2 k.+1) a b)) //.
have lk := nn_lt FO lj.
have E : \sum_(i < nn k.+1) EC k.+1 a' i * EC k.+2 i j = 0.
  have [_ _ /(_ k.+1 lk)[er /matrixP h]] := CW; have lk1 := nn_lt FO la'.
  have [_ _ /(_ k (ltnW lk))[er1 _]] := CW.
  have lx : (a' < nrow (bmx C k.+1))%N by rewrite er1 -[ncol _]/(ncell C k) -(nnE FO).
  have ly : (j < ncol (bmx C k.+2))%N by rewrite -[ncol _]/(ncell C k.+2) -(nnE FO).
  have := h (Ordinal lx) (Ordinal ly); rewrite !mxE => e; rewrite (nnE FO) -[RHS]e; apply: eq_bigr => i _; by rewrite !mxE.
pose ins := inside (ivn k.+2 j m) (ivn k a' n).
transitivity (ins%:R * \sum_(i < nn k.+1) EC k.+1 a' i * EC k.+2 i j); last by rewrite E mulr0.
rewrite mulr_sumr; apply: eq_bigr => i _.
case: (eqVneq (EC k.+2 i j) 0) => [->|n1]; first by rewrite !mulr0.
have [s1 s2] := selP CW FO lj n1 lm; rewrite mulrA; congr (_ * _).
rewrite bmx2 ?(ltnW lk) // ea /entry; have [_ ->] := colwf (ltn_ord i) s1 => //.
case: (eqVneq (EC k.+1 a' i) 0) => [->|n2]; first by rewrite mulr0 if_same.
have [_ i2] := sel_trans lj lm n1 n2 erefl; have [t1 t2] := selP CW FO (ltn_ord i) n2 s1.
rewrite /ins; case: eqP => [->|ne]; first by rewrite i2 mul1r.
case h : (inside _ _); last by rewrite mul0r.
case: ne; exact: (inside_uniq FO la' ln t1 (iv_le FO lj lm)).
Qed.
Lemma chain_wf2 : chain_wf C2.
Proof.
have [s0 _ _] := CW; split; first by rewrite size_mkseq.
- by apply/(all_nthP (CMat 0 0 [::])) => k; rewrite size_mkseq => lk; rewrite nth_mkseq //; apply: C2_wf.
- move=> k; rewrite size_mkseq => lk; have lk' := ltnW lk; rewrite !bmx2 //; split=> //.
  apply/matrixP => a c; rewrite !mxE; have ec : (c < tot k.+1)%N by [].
  case: k lk lk' a c ec => [|k] lk lk' a c ec.
    rewrite big1 // => b _; have := entry20 a (ltn_ord b); rewrite bmx2 // /entry => e.
    by rewrite mxE e mul0r.
  have := @dd2 k a c (ltn_ord a) ec; rewrite !bmx2 // => e; rewrite -[RHS]e; by apply: eq_bigr => b _; rewrite !mxE.
Qed.
End S.
