(** Dot product, selection, blocks, row swaps, Kronecker products of sparse vectors. *)
From mathcomp Require Import all_ssreflect all_algebra zify.
From Verif Require Import Outcome P_Outcome RingTac M_SparseVec S_Linalg P_SparseVec.
Set Implicit Arguments.
Unset Strict Implicit.
Unset Printing Implicit Defensive.
Import GRing.Theory.
Local Open Scope ring_scope.

Section S.
Variable F : fieldType.
Notation O := (ops_of F).
Notation svec := (svec F).
Notation inds v := [seq p.1 | p <- v].

Lemma sv_wfP m (v : svec) : sv_wf m v -> [/\ sv_sorted v, sv_below m v & sv_nonzero v].
Proof. by move/and3P. Qed.

(** the sum of the entries weighted by f *)
Lemma sum_coef m (v : svec) (f : nat -> F) : sv_below m v ->
  \sum_(p <- v) p.2 * f p.1 = \sum_(i < m) coef v i * f i.
Proof.
elim: v => [|p v IH] /= ; first by rewrite big_nil big1 // => i _; rewrite coef_nil mul0r.
move=> /andP[pm /IH E]; rewrite big_cons E.
rewrite [RHS](eq_bigr (fun i : 'I_m => (if p.1 == i then p.2 else 0) * f i + coef v i * f i)); last first.
  by move=> i _; rewrite coef_cons mulrDl.
rewrite big_split /=; congr (_ + _).
rewrite (bigD1 (Ordinal pm)) //= eqxx big1 ?addr0 // => i ne.
by rewrite ifN ?mul0r // eq_sym; apply: contra ne => /eqP E'; apply/eqP/val_inj.
Qed.

(** ** dot *)
Lemma dot_accE acc (v w : svec) : sv_sorted v -> sv_sorted w ->
  dot_acc O acc v w = acc + \sum_(p <- v) p.2 * coef w p.1.
Proof.
elim: v acc w => [|[i u] v IH] acc w; first by rewrite big_nil addr0.
elim: w acc => [|[j t] w IHw] acc Sv Sw.
  by rewrite /= big1_seq ?addr0 // => p _; rewrite coef_nil mulr0.
have Sv' := sv_sorted_tl Sv; have Sw' := sv_sorted_tl Sw.
have hw : all (ltn j) (inds w) by move: Sw; rewrite sv_sorted_cons => /andP[].
have hv : all (ltn i) (inds v) by move: Sv; rewrite sv_sorted_cons => /andP[].
rewrite [LHS]/=; case: (i =P j) => [E|ne].
  subst j; rewrite IH // big_cons /= coef_head // addrA mulrC; congr (_ + _).
  apply: eq_big_seq => p Hp; congr (_ * _); rewrite coef_cons /= ifN ?add0r //.
  by have /allP/(_ p.1 (map_f _ Hp))/= := hv; rewrite neq_ltn => ->.
case: ifP => [lt|ge].
  rewrite IH // big_cons [X in acc + (_ * X + _)]coef0_notin ?mulr0 ?add0r //=.
  rewrite inE negb_or; apply/andP; split; first exact/eqP.
  by apply/negP => /(allP hw) /=; lia.
have lt : (j < i)%N by move/eqP: ne ge; clear; lia.
rewrite -/(dot_acc O acc ((i, u) :: v) w) IHw //; congr (_ + _); apply: eq_big_seq => p Hp.
rewrite [RHS]/= coef_cons /= ifN ?add0r //.
have : (i <= p.1)%N by move: Hp; rewrite inE => /orP[/eqP ->//|/(map_f fst)/(allP hv)/ltnW].
by move=> h; rewrite neq_ltn (leq_trans lt h).
Qed.

Lemma dotE m (v w : svec) : sv_sorted v -> sv_sorted w -> sv_below m v ->
  dot O v w = \sum_(i < m) coef v i * coef w i.
Proof. by move=> Sv Sw B; rewrite /dot dot_accE // (sum_coef (coef w) B) add0r. Qed.

(** ** selection by a strictly increasing index list *)
Lemma sel_fromE ct ks (v : svec) : sorted ltn ks -> sv_sorted v ->
  sel_from ct ks v = [seq (ct + index p.1 ks, p.2)%N | p <- v & p.1 \in ks].
Proof.
elim: ks ct v => [|k ks IH] ct v.
  move=> _ _ /=; by rewrite (eq_filter (a2 := pred0)) ?filter_pred0 // => p; rewrite in_nil.
move=> Sk; have Sk' := path_sorted Sk.
have hk : all (ltn k) ks by move: Sk; rewrite /= (path_sortedE ltn_trans) => /andP[].
elim: v => [|[i u] v IHv] Sv //.
have Sv' := sv_sorted_tl Sv.
have hv : all (ltn i) (inds v) by move: Sv; rewrite sv_sorted_cons => /andP[].
have shift (w : svec) : all (ltn k) (inds w) ->
   [seq (ct.+1 + index p.1 ks, p.2)%N | p <- w & p.1 \in ks] =
   [seq (ct + index p.1 (k :: ks), p.2)%N | p <- w & p.1 \in k :: ks].
  move=> hw; have E : {in w, (fun p : nat * F => p.1 \in ks) =1 (fun p => p.1 \in k :: ks)}.
    move=> p /(map_f fst)/(allP hw) /= lt; rewrite inE; by case: eqP lt => // ->; rewrite ltnn.
  rewrite (eq_in_filter E); apply/eq_in_map => p; rewrite mem_filter => /andP[_ /(map_f fst)/(allP hw) /= lt].
  by rewrite ifN ?addnS ?addSn // neq_ltn lt.
rewrite [LHS]/=; case: ifP => [lt|ge].
  rewrite IH // shift //=; apply/andP; split=> //.
  by apply/allP => x /(allP hv) /=; apply: ltn_trans.
case: eqP => [E|ne].
  subst k; rewrite IH // [RHS]/= inE eqxx /= eqxx addn0; congr (_ :: _); exact: shift.
rewrite -/(sel_from ct (k :: ks) v) IHv // [RHS]/= inE ifN //=; rewrite negb_or eq_sym.
apply/andP; split; first exact/eqP.
by apply/negP => /(allP hk) /=; move/eqP: ne ge; clear; lia.
Qed.

Lemma selectE ks (v : svec) : sorted ltn ks -> sv_sorted v ->
  [/\ sv_sorted (select v ks), sv_below (size ks) (select v ks),
      sv_nonzero v -> sv_nonzero (select v ks) &
      forall i, (i < size ks)%N -> coef (select v ks) i = coef v (nth 0%N ks i)].
Proof.
move=> Sk Sv; have U : uniq ks := sorted_uniq ltn_trans ltnn Sk.
rewrite /select sel_fromE //.
have E : [seq (0 + index p.1 ks, p.2)%N | p <- v & p.1 \in ks] = [seq (index p.1 ks, p.2) | p <- v & p.1 \in ks].
  by apply: eq_map => p; rewrite add0n.
rewrite {}E; split.
- suff: sorted ltn [seq index x ks | x <- inds [seq p <- v | p.1 \in ks]] by rewrite /sv_sorted -!map_comp.
  have : sorted ltn [seq p.1 | p <- [seq p <- v | p.1 \in ks]] by apply: sv_sorted_filter.
  have : all (fun x => x \in ks) [seq p.1 | p <- [seq p <- v | p.1 \in ks]].
    by apply/allP => x /mapP[p]; rewrite mem_filter => /andP[h _] ->.
  elim: (map _ _) => //= x s IH /andP[xk sk]; rewrite !(path_sortedE ltn_trans) => /andP[h S].
  apply/andP; split; last exact: IH.
  apply/allP => y /mapP[z Hz ->] /=; have zk := allP sk z Hz; have xz := allP h z Hz.
  rewrite ltnNge; apply/negP => le.
  have := sorted_leq_nth leq_trans leqnn 0%N (sub_sorted ltnW Sk) _ _ _ _ le.
  rewrite !nth_index // !inE !index_mem zk xk => /(_ isT isT); move: xz => /=; clear; lia.
- apply/allP => p /mapP[q]; rewrite mem_filter => /andP[h _] -> /=; by rewrite index_mem.
- by move=> N; apply/allP => p /mapP[q]; rewrite mem_filter => /andP[_ h] -> /=; apply: (allP N).
move=> i il; rewrite /coef big_map big_filter_cond [RHS](bigID (fun p => p.1 \in ks)) /=.
rewrite [X in _ = _ + X]big1 ?addr0; last first.
  by move=> p /andP[/eqP ->]; rewrite mem_nth.
apply: eq_bigl => p; rewrite andbC; case: (boolP (p.1 \in ks)) => h; rewrite ?andbF // !andbT.
by apply/eqP/eqP => [<-|->]; rewrite ?nth_index // index_uniq.
Qed.

(** ** block *)
Lemma sv_blockE i0 i1 (v : svec) : sv_sorted v ->
  [/\ sv_sorted (sv_block i0 i1 v), sv_below (i1 - i0) (sv_block i0 i1 v),
      sv_nonzero v -> sv_nonzero (sv_block i0 i1 v) &
      forall i, coef (sv_block i0 i1 v) i = if (i < i1 - i0)%N then coef v (i0 + i) else 0].
Proof.
move=> S; have E := rangeE i0 i1 S; rewrite /sv_block -/(range v i0 i1) E.
have B p : p \in [seq p <- v | (i0 <= p.1 < i1)%N] -> (i0 <= p.1 < i1)%N by rewrite mem_filter => /andP[].
split.
- rewrite /sv_sorted -map_comp.
  have : sorted ltn [seq p.1 | p <- [seq p <- v | (i0 <= p.1 < i1)%N]] by apply: sv_sorted_filter.
  elim: [seq p <- v | _] B => //= p w IH B.
  rewrite !(path_sortedE ltn_trans) => /andP[h S']; apply/andP; split.
    apply/allP => x /mapP[q Hq ->] /=; have := allP h q.1 (map_f _ Hq) => /= lt.
    have := B p (mem_head _ _); have := B q; rewrite inE Hq orbT => /(_ isT); move: lt; clear; lia.
  by apply: IH S' => q Hq; apply: B; rewrite inE Hq orbT.
- by apply/allP => x /mapP[[q1 q2] /B /= b ->] /=; move: b; clear; lia.
- by move=> N; apply/allP => p /mapP[q]; rewrite mem_filter => /andP[_ h] -> /=; apply: (allP N).
move=> i; rewrite /coef big_map big_filter_cond.
case: ifP => [lt|ge]; last first.
  by rewrite big1 // => -[a c] /= /andP[+ /eqP]; move: ge; clear; lia.
apply: eq_bigl => -[a c] /=; apply/andP/eqP => [[b /eqP]|->]; first by move: b; clear; lia.
by split; [move: lt; clear; lia | rewrite addKn].
Qed.

(** ** set_block: erases one row too many *)
Lemma sv_set_blockE i0 i1 (b v : svec) : sv_sorted v -> sv_sorted b -> (i0 <= i1)%N -> sv_below (i1 - i0) b ->
  sv_sorted (sv_set_block i0 i1 b v) /\
  forall i, coef (sv_set_block i0 i1 b v) i =
    if (i < i0)%N then coef v i else if (i < i1)%N then coef b (i - i0)
    else if (i == i1)%N then 0 else coef v i.
Proof.
move=> Sv Sb le Bb; rewrite /sv_set_block /split_ub.
set e := _ ++ _.
have Ee : e = [seq p <- v | (p.1 < i0)%N] ++ [seq p <- v | (i1 < p.1)%N].
  by rewrite /e !split_lb_sorted.
have Se : sv_sorted e.
  rewrite Ee /sv_sorted map_cat; have L := sv_sorted_filter (fun p => (p.1 < i0)%N) Sv.
  have R := sv_sorted_filter (fun p => (i1 < p.1)%N) Sv.
  rewrite /sv_sorted in L R; rewrite (sorted_pairwise ltn_trans) pairwise_cat -!(sorted_pairwise ltn_trans) L R !andbT.
  apply/allrelP => x y /mapP[p] + -> /mapP[q] + ->; rewrite !mem_filter => /andP[h _] /andP[h' _] /=.
  by move: h h' le; clear; lia.
rewrite split_lb_sorted // Ee !filter_cat -!filter_predI.
have z1 : [seq x <- v | predI (fun p : nat * F => (p.1 < i0)%N) (fun p => (i1 < p.1)%N) x] = [::].
  by rewrite (eq_filter (a2 := pred0)) ?filter_pred0 // => -[a c] /=; move: le; clear; lia.
have z2 : [seq x <- v | predI (fun p : nat * F => (i0 <= p.1)%N) (fun p => (p.1 < i0)%N) x] = [::].
  by rewrite (eq_filter (a2 := pred0)) ?filter_pred0 // => -[a c] /=; clear; lia.
rewrite z1 z2 cats0 cat0s.
rewrite (eq_filter (a2 := fun p : nat * F => (p.1 < i0)%N)); last by move=> p /=; rewrite andbb.
rewrite (@eq_filter _ (predI (fun p : nat * F => (i0 <= p.1)%N) _) (fun p : nat * F => (i1 < p.1)%N)); last first.
  by move=> -[a c] /=; move: le; clear; lia.
have L := sv_sorted_filter (fun p => (p.1 < i0)%N) Sv.
have R := sv_sorted_filter (fun p => (i1 < p.1)%N) Sv.
have M : sv_sorted [seq (p.1 + i0, p.2)%N | p <- b].
  suff: sorted ltn [seq (x + i0)%N | x <- inds b] by rewrite /sv_sorted -!map_comp.
  move: Sb; rewrite /sv_sorted; elim: (inds b) => // x s IH; rewrite /= !(path_sortedE ltn_trans).
  move=> /andP[h /IH ->]; rewrite andbT; apply/allP => y /mapP[z /(allP h)/= lt ->]; by rewrite /= ltn_add2r.
split.
  rewrite /sv_sorted !map_cat (sorted_pairwise ltn_trans) !pairwise_cat -!(sorted_pairwise ltn_trans).
  rewrite /sv_sorted in L R M; rewrite L R M !andbT /=; apply/andP; split.
    rewrite allrel_catr; apply/andP; split; apply/allrelP => x y /mapP[p] + ->.
      rewrite mem_filter => /andP[h _] /mapP[q /mapP[r _ ->] ->] /=; move: h; clear; lia.
    rewrite mem_filter => /andP[h _] /mapP[q]; rewrite mem_filter => /andP[h' _] -> /=; move: h h' le; clear; lia.
  apply/allrelP => x y /mapP[p /mapP[r Hr ->] ->] /mapP[q]; rewrite mem_filter => /andP[h' _] -> /=.
  have := allP Bb r Hr; move: h' le; clear; lia.
move=> i; rewrite !coef_cat (coef_filter (fun x => x < i0)%N) (coef_filter (fun x => i1 < x)%N).
have Cb : coef [seq (p.1 + i0, p.2)%N | p <- b] i = if (i0 <= i)%N then coef b (i - i0) else 0.
  rewrite /coef big_map /=; case: ifP => h; last by rewrite big1 // => -[a c] /= /eqP; move: h; clear; lia.
  by apply: eq_bigl => -[a c] /=; apply/eqP/eqP; move: h; clear; lia.
rewrite Cb; case: (ltnP i i0) => h1; rewrite ?add0r.
  by rewrite ifN ?addr0 //; move: h1 le; clear; lia.
case: (ltnP i i1) => h2; first by rewrite ifN ?addr0 //; move: h2; clear; lia.
rewrite (coef_ge Bb) ?add0r; last by move: h1 h2; clear; lia.
by case: (ltngtP i1 i) h2 => // [lt|] _; rewrite ?gtn_eqF.
Qed.

Lemma all_split_lb (P : pred (nat * F)) v i : all P v = all P (split_lb v i).1 && all P (split_lb v i).2.
Proof. by rewrite -all_cat split_lb_cat. Qed.

Lemma sv_wf_set_block m i0 i1 (b v : svec) : sv_wf m v -> sv_wf (i1 - i0) b -> (i0 <= i1 <= m)%N ->
  sv_wf m (sv_set_block i0 i1 b v).
Proof.
move=> /and3P[Sv Bv Nv] /and3P[Sb Bb Nb] /andP[le le'].
have [S _] := sv_set_blockE Sv Sb le Bb.
have G (P Q : pred (nat * F)) : all P v -> all Q b -> (forall p, Q p -> P (p.1 + i0, p.2)%N) ->
    all P (sv_set_block i0 i1 b v).
  move=> Hv Hb H; rewrite /sv_set_block; set e := _ ++ _.
  have He : all P e.
    have /andP[_ h2] : all P (split_lb v i1.+1).1 && all P (split_lb v i1.+1).2 by rewrite -all_split_lb.
    by move: Hv; rewrite /e all_cat (all_split_lb _ v i0) h2 => /andP[-> _].
  move: He; rewrite (all_split_lb _ e i0); case: (split_lb e i0) => x y /= /andP[hx hy].
  rewrite !all_cat hx hy andbT all_map; apply/allP => p /(allP Hb); exact: H.
apply/and3P; split=> //; first by apply: (G _ _ Bv Bb) => -[a c] /=; move: le le'; clear; lia.
exact: (G _ _ Nv Nb).
Qed.

End S.
