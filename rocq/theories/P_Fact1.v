(** axpy(x, coeff, inds): proofs. *)
From mathcomp Require Import all_ssreflect all_algebra zify.
From Verif Require Import Outcome P_Outcome RingTac M_SparseVec M_Perm M_ColMatrix S_Linalg P_SparseVec
  P_SparseVec2 P_Reduce M_Fact.
Set Implicit Arguments.
Unset Strict Implicit.
Unset Printing Implicit Defensive.
Import GRing.Theory.
Local Open Scope ring_scope.

Section S.
Variable F : fieldType.
Notation O := (ops_of F).
Notation svec := (svec F).

Section AI.
Variables (coeff : seq F) (ks : seq nat).
Hypothesis so : sorted ltn ks.
Hypothesis sc : size coeff = size ks.
Hypothesis cn : all (fun c => c != 0) coeff.

Definition hx ii (x : svec) := forall p, p \in x -> forall k, (ii <= k < size ks)%N -> (p.1 <= nth 0%N ks k)%N ->
  exists2 k', (ii <= k' < size ks)%N & nth 0%N ks k' = p.1.

Lemma is_lt a b : (a < b < size ks)%N -> (nth 0%N ks a < nth 0%N ks b)%N.
Proof. by move=> /andP[ab bs]; apply: (sorted_ltn_nth ltn_trans 0%N so) => //; rewrite inE; lia. Qed.

Lemma hx_head ii r v (x : svec) : hx ii ((r, v) :: x) -> (ii < size ks)%N -> (nth 0%N ks ii <= r)%N.
Proof.
move=> H li; rewrite leqNgt; apply/negP => lt.
have [||k' /andP[k1 k2] e] := H (r, v) (mem_head _ _) ii; rewrite ?leqnn ?li //; first exact: (ltnW lt).
case: (ltngtP ii k') k1 => // [k1|k1] _; last by move: lt; rewrite k1 e ltnn.
by have := @is_lt ii k' _; rewrite e /=; lia.
Qed.

Lemma hx_skip ii r v (x : svec) : sv_sorted ((r, v) :: x) -> hx ii ((r, v) :: x) -> (nth 0%N ks ii < r)%N ->
  hx ii.+1 ((r, v) :: x).
Proof.
move=> S H lt p pin k /andP[k1 k2] pk; have ck : (ii <= k < size ks)%N by lia.
have [k' /andP[k3 k4] e] := H p pin k ck pk.
exists k' => //; case: (ltngtP ii k') k3 => // k3 _.
move: pin; rewrite inE => /orP[/eqP ep|pin]; first by move: e lt; rewrite ep -k3 => -> /=; rewrite ltnn.
move: S; rewrite sv_sorted_cons => /andP[/allP/(_ p.1)]; rewrite map_f // => /(_ isT) /= h _.
by move: (ltn_trans lt h); rewrite k3 e ltnn.
Qed.

Lemma hx_next ii r v (x : svec) : sv_sorted ((r, v) :: x) -> hx ii ((r, v) :: x) -> nth 0%N ks ii = r ->
  hx ii.+1 x.
Proof.
move=> S H e0 p pin k /andP[k1 k2] pk.
have ck : (ii <= k < size ks)%N by lia.
have pin' : p \in (r, v) :: x by rewrite inE pin orbT.
have [k' /andP[k3 k4] e] := H p pin' k ck pk.
exists k' => //; case: (ltngtP ii k') k3 => // k3 _.
move: S; rewrite sv_sorted_cons => /andP[/allP/(_ p.1)]; rewrite map_f // => /(_ isT) /= h _.
by move: h; rewrite -e0 k3 e ltnn.
Qed.

Definition add_from ii (x : svec) k : F :=
  if (ii <= k < size ks)%N then nth 0 coeff k * coef x (nth 0%N ks k) else 0.

Lemma coef_lt (x : svec) i : all (ltn i) [seq p.1 | p <- x] -> coef x i = 0.
Proof.
move=> /allP h; apply: coef0_notin; apply/negP => /h; by rewrite /= ltnn.
Qed.
Lemma sorted_hd r v (x : svec) : sv_sorted ((r, v) :: x) -> forall i, (i < r)%N -> coef ((r, v) :: x) i = 0.
Proof.
rewrite sv_sorted_cons /= => /andP[A _] i lt; apply: coef_lt; rewrite /= lt.
by apply: sub_all A => q /=; apply: ltn_trans.
Qed.

Lemma add_skip ii r v (x : svec) k : sv_sorted ((r, v) :: x) -> (nth 0%N ks ii < r)%N ->
  add_from ii ((r, v) :: x) k = add_from ii.+1 ((r, v) :: x) k.
Proof.
move=> S lt; rewrite /add_from; case: (ltngtP ii k) => [lk|lk|e] //=.
by rewrite -e (sorted_hd S lt) mulr0 if_same.
Qed.

Lemma add_next ii r v (x : svec) k : sv_sorted ((r, v) :: x) -> nth 0%N ks ii = r -> (ii < size ks)%N ->
  add_from ii ((r, v) :: x) k = (if ii == k then nth 0 coeff ii * v else 0) + add_from ii.+1 x k.
Proof.
move=> S e li; rewrite /add_from; case: (ltngtP ii k) => [lk|lk|ek] //=; rewrite ?add0r ?addr0 //.
  case: ifP => // lk2; rewrite coef_cons /= ifN ?add0r //; apply/eqP => er.
  by have := @is_lt ii k _; rewrite lk lk2 => /(_ isT); rewrite -er e; lia.
subst k; rewrite li e coef_cons /= eqxx.
by rewrite (@coef_lt x r) ?addr0 //; move: S; rewrite sv_sorted_cons /= => /andP[].
Qed.

Variable n : nat.
Hypothesis sn : (size ks <= n)%N.
Definition tmp_ok ii (t : svec) := sv_wf n t /\ all (fun p : nat * F => (p.1 < ii)%N) t.

Lemma wf_rcons (t : svec) k w : sv_wf n t -> all (fun p : nat * F => (p.1 < k)%N) t -> (k < n)%N -> w != 0 ->
  sv_wf n (rcons t (k, w)).
Proof.
move=> /and3P[S B N] A kn wn; apply/and3P; split; last 2 first.
- by rewrite /sv_below all_rcons /= kn.
- by rewrite /sv_nonzero all_rcons /= wn.
rewrite /sv_sorted map_rcons /= -cats1 sorted_pairwise; last exact: ltn_trans.
rewrite pairwise_cat /= andbT -sorted_pairwise; last exact: ltn_trans.
move: S; rewrite /sv_sorted => ->; rewrite andbT; apply/allrelP => a b /mapP[p pin ->]; rewrite inE => /eqP ->.
exact: (allP A _ pin).
Qed.

Lemma tmp_rcons ii (t : svec) k w : tmp_ok ii t -> (ii <= k)%N -> (k < n)%N -> w != 0 -> tmp_ok k.+1 (rcons t (k, w)).
Proof.
move=> [W A] ik kn wn; have A' : all (fun p : nat * F => (p.1 < k)%N) t by apply: sub_all A => p /=; lia.
split; first exact: wf_rcons.
by rewrite all_rcons /= ltnSn; apply: sub_all A' => p /=; lia.
Qed.
Lemma tmp_S ii (t : svec) : tmp_ok ii t -> tmp_ok ii.+1 t.
Proof. by move=> [W A]; split=> //; apply: sub_all A => p /=; lia. Qed.

Lemma ai_tailE fuel ii (x t : svec) : (size ks - ii <= fuel)%N -> sv_sorted x -> sv_nonzero x -> hx ii x ->
  sv_wf n t -> (((ii < size ks)%N && (x != [::])) -> all (fun p : nat * F => (p.1 < ii)%N) t) ->
  exists z, [/\ ai_tail O fuel coeff ks ii x t = Ok z, sv_wf n z & forall k, coef z k = coef t k + add_from ii x k].
Proof.
elim: fuel ii x t => [|fuel IH] ii [|[r v] x] t lf S N H W A.
- by exists t; split=> // k; rewrite /add_from coef_nil mulr0 if_same addr0.
- have e : (ii < size ks)%N = false by move: lf; clear; lia.
  by exists t; rewrite /= e; split=> // k; rewrite /add_from ifN ?addr0 //; apply/negP => /andP[h1 h2]; move: (leq_ltn_trans h1 h2) => h; lia.
- by exists t; split=> // k; rewrite /add_from coef_nil mulr0 if_same addr0.
have [li|li] := ltnP ii (size ks); last first.
  by exists t; rewrite /= ltnNge li; split=> // k; rewrite /add_from ifN ?addr0 //; apply/negP => /andP[h1 h2]; move: (leq_ltn_trans h1 h2) => h; lia.
rewrite /= li; case: ifP => lt.
  have [||z [E Wz C]] := IH ii.+1 ((r, v) :: x) t _ S N (hx_skip S H lt) W; first by move: lf; clear; lia.
    by move=> _; have /tmp_S[] : tmp_ok ii t by split=> //; apply: A; rewrite li.
  by exists z; split=> // k; rewrite C (add_skip _ S lt).
have e : nth 0%N ks ii = r by have := hx_head H li; lia.
rewrite (oget_nth 0) ?sc //=.
have vn : v != 0 by move: N => /= /andP[].
have Ci : nth 0 coeff ii != 0 by apply: (allP cn); rewrite mem_nth ?sc.
have K : tmp_ok ii t by split=> //; apply: A; rewrite li.
have [W' A'] := tmp_rcons K (leqnn _) (leq_trans li sn) (mulf_neq0 Ci vn).
have Nx : sv_nonzero x by move: N => /= /andP[].
have lf' : (size ks - ii.+1 <= fuel)%N by move: lf; clear; lia.
have [z [E Wz C]] := IH ii.+1 x (rcons t (ii, nth 0 coeff ii * v)) lf' (sv_sorted_tl S) Nx (hx_next S H e) W' (fun _ => A').
exists z; split=> // k; rewrite C (add_next _ S e li) coef_rcons /= addrA; congr (_ + _ + _).
Qed.

Lemma ai_mainE fuel ii (y x t : svec) : (size ks - ii <= fuel)%N -> sv_sorted x -> sv_nonzero x -> hx ii x ->
  sv_wf n y -> all (fun p : nat * F => (ii <= p.1)%N) y -> tmp_ok ii t ->
  exists ii' y' x' t', [/\ ai_main O fuel coeff ks ii y x t = Ok (ii', y', x', t'),
    [/\ sv_sorted x', sv_nonzero x' & hx ii' x'], sv_wf n (t' ++ y'),
    (((ii' < size ks)%N && (x' != [::])) -> all (fun p : nat * F => (p.1 < ii')%N) (t' ++ y')) &
    forall k, coef (t' ++ y') k + add_from ii' x' k = coef t k + coef y k + add_from ii x k].
Proof.
have wcat ii0 (t0 y0 : svec) : tmp_ok ii0 t0 -> sv_wf n y0 -> all (fun p : nat * F => (ii0 <= p.1)%N) y0 -> sv_wf n (t0 ++ y0).
  move=> [/and3P[S1 B1 N1] A1] /and3P[S2 B2 N2] A2; apply/and3P; split; last 2 first.
  - by rewrite /sv_below all_cat; apply/andP.
  - by rewrite /sv_nonzero all_cat; apply/andP.
  rewrite /sv_sorted map_cat sorted_pairwise; last exact: ltn_trans.
  rewrite pairwise_cat -!sorted_pairwise; try exact: ltn_trans.
  move: S1 S2; rewrite /sv_sorted => -> ->; rewrite andbT andbT; apply/allrelP => a b /mapP[p pin ->] /mapP[q qin ->].
  exact: leq_trans (allP A1 _ pin) (allP A2 _ qin).
elim: fuel ii y x t => [|fuel IH] ii y x t lf S N H Wy Ay K.
  exists ii, y, x, t; split=> //.
  - case: y {Wy Ay} => [|[k w] y] //; case: x {S N H} => [|[r v] x] //=.
    by have -> : (ii < size ks)%N = false by move: lf; clear; lia.
  - exact: wcat K Wy Ay.
  - by lia.
  - by move=> k; rewrite coef_cat.
case: y Wy Ay => [|[k w] y] Wy Ay.
  exists ii, [::], x, t; split=> //; rewrite ?cats0; [by case: K|by move=> _; case: K|].
  by move=> k; rewrite coef_nil addr0.
case: x S N H => [|[r v] x] S N H.
  exists ii, ((k, w) :: y), [::], t; split=> //; [exact: wcat K Wy Ay|by rewrite andbF|].
  by move=> k'; rewrite coef_cat.
have [li|li] := ltnP ii (size ks); last first.
  exists ii, ((k, w) :: y), ((r, v) :: x), t; rewrite /= ltnNge li; split=> //; [exact: wcat K Wy Ay|].
  by move=> k'; rewrite coef_cat.
have /= /andP[ik Ay'] := Ay; have /and3P[Sy By Ny] := Wy.
have hd := hx_head H li.
have vn : v != 0 by move: N => /= /andP[].
have Ci : nth 0 coeff ii != 0 by apply: (allP cn); rewrite mem_nth ?sc.
have iin : (ii < n)%N by exact: leq_trans sn.
have Wy' : sv_wf n y.
  apply/and3P; split; first exact: sv_sorted_tl Sy.
  - by move: By => /= /andP[].
  - by move: Ny => /= /andP[].
have Ay1 : all (fun p : nat * F => (k < p.1)%N) y.
  by move: Sy; rewrite sv_sorted_cons /= => /andP[A _]; rewrite -all_inds.
have Nx : sv_nonzero x by move: N => /= /andP[].
have le1 : (size ks - ii.+1 <= fuel)%N by move: lf; clear; lia.
rewrite [ai_main _ _ _ _ _ _ _ _]/= li.
have [/andP[lt1 lt2]|f0] := ifP.
  have [|ii' [y' [x' [t' [E B1 B2 B3 C]]]]] := IH ii.+1 _ _ t le1 S N (hx_skip S H lt2) Wy _ (tmp_S K).
    by rewrite /= lt1; apply: sub_all Ay1 => p /=; apply: ltn_trans lt1.
  by exists ii', y', x', t'; split=> // k'; rewrite C (add_skip _ S lt2).
have [/andP[/eqP e1 lt2]|f1] := ifP.
  subst k; have wn : w != 0 by move: Ny => /= /andP[].
  have [|ii' [y' [x' [t' [E B1 B2 B3 C]]]]] := IH ii.+1 y _ (rcons t (ii, w)) le1 S N (hx_skip S H lt2) Wy' _ (tmp_rcons K (leqnn _) iin wn).
    exact: Ay1.
  exists ii', y', x', t'; split=> // k'; rewrite C (add_skip _ S lt2) coef_rcons coef_cons /=; congr (_ + _).
  by rewrite addrA.
have [/andP[lt1 /eqP e]|f2] := ifP.
  rewrite (oget_nth 0) ?sc //= ifN ?mulf_neq0 //.
  have [|ii' [y' [x' [t' [E B1 B2 B3 C]]]]] := IH ii.+1 ((k, w) :: y) x (rcons t (ii, nth 0 coeff ii * v)) le1 (sv_sorted_tl S) Nx (hx_next S H e) Wy _
     (tmp_rcons K (leqnn _) iin (mulf_neq0 Ci vn)).
    by rewrite /= lt1; apply: sub_all Ay1 => p /=; apply: ltn_trans lt1.
  exists ii', y', x', t'; split=> // k'; rewrite C (add_next _ S e li) coef_rcons /= !addrA; congr (_ + _).
  by rewrite -!addrA; congr (_ + _); rewrite addrC.
have e : nth 0%N ks ii = r.
  move: f0 f1 hd; rewrite eq_sym; move: (nth 0%N ks ii) => q; case: (ltngtP q r) => // _.
  by move: ik; case: (ltngtP ii k).
have e1 : k = ii by move: f2 ik; rewrite e eqxx andbT; case: (ltngtP ii k).
rewrite e1 e !eqxx /= (oget_nth 0) ?sc //=; subst k.
have [|ii' [y' [x' [t' [E B1 B2 B3 C]]]]] := IH ii.+1 y x
   (if nth 0 coeff ii * v + w == 0 then t else rcons t (ii, nth 0 coeff ii * v + w)) le1 (sv_sorted_tl S) Nx (hx_next S H e) Wy' Ay1.
  case: eqP => [_|/eqP nz]; first exact: tmp_S.
  exact: (tmp_rcons K).
exists ii', y', x', t'; split=> // k'; rewrite C (add_next _ S e li) coef_cons /= !addrA; congr (_ + _).
case: eqP => [z|_].
  case: eqP => [_|_]; last by rewrite !addr0.
  rewrite -!addrA; congr (_ + _); rewrite [coef y k' + _]addrC addrA [w + _]addrC z add0r //.
rewrite coef_rcons /=; case: eqP => [_|_]; last by rewrite !addr0.
by rewrite -!addrA; congr (_ + _); rewrite addrC -!addrA; congr (_ + _); rewrite addrC.
Qed.

Lemma axpy_indsE m (x y : svec) : sv_wf m x -> sv_wf n y -> hx 0 x ->
  exists z, [/\ axpy_inds O x coeff ks y = Ok z, sv_wf n z & forall k, coef z k = coef y k + add_from 0 x k].
Proof.
case: x => [|p x] /and3P[S B N] Wy H.
  by exists y; split=> // k; rewrite /add_from coef_nil mulr0 if_same addr0.
have [|||ii' [y' [x' [t' [E [S' N' H'] B2 B3 C]]]]] := @ai_mainE (size ks) 0 y (p :: x) [::] _ S N H Wy; rewrite ?subn0 //.
  by elim: y {Wy} => //= q y ->.
have [|z [Ez Wz Cz]] := @ai_tailE (size ks) ii' x' (t' ++ y') _ S' N' H' B2 B3; first exact: leq_subr.
exists z; split=> //; first by rewrite /axpy_inds E.
by move=> k; rewrite Cz C coef_nil add0r.
Qed.

End AI.
End S.
