(** Proofs about the sparse vector model. *)
From mathcomp Require Import all_ssreflect all_algebra zify.
From Verif Require Import Outcome RingTac M_SparseVec M_Perm M_ColMatrix S_Linalg.
From Coq Require Import Ring Field.
Set Implicit Arguments.
Unset Strict Implicit.
Unset Printing Implicit Defensive.
Import GRing.Theory.
Local Open Scope ring_scope.

Section SV.
Variable F : fieldType.
Notation O := (ops_of F).
Add Field Ff : (F_field_theory F).
Implicit Types (v x y : svec F) (a : F).

Lemma is0E a : is0 O a = (a == 0). Proof. by []. Qed.

Lemma coef_nil i : coef ([::] : svec F) i = 0.
Proof. by rewrite /coef big_nil. Qed.

Lemma coef_cons p v i : coef (p :: v) i = (if p.1 == i then p.2 else 0) + coef v i.
Proof. by rewrite /coef big_cons; case: ifP => //; rewrite add0r. Qed.

Lemma coef_cat v w i : coef (v ++ w) i = coef v i + coef w i.
Proof. by rewrite /coef big_cat. Qed.

Lemma coef_rcons v p i : coef (rcons v p) i = coef v i + (if p.1 == i then p.2 else 0).
Proof. by rewrite -cats1 coef_cat coef_cons coef_nil addr0. Qed.

Lemma coef_map_scale a v i : coef [seq (p.1, a * p.2) | p <- v] i = a * coef v i.
Proof.
elim: v => [|p v IH]; first by rewrite !coef_nil mulr0.
by rewrite /= !coef_cons /= IH; case: ifP; rewrite mulrDr ?mulr0.
Qed.

Lemma coef_perm v (w : svec F) : perm_eq v w -> coef v =1 coef w.
Proof. by move=> H i; rewrite /coef (perm_big _ H). Qed.

Lemma coef_clear_zeros v i : coef (clear_zeros O v) i = coef v i.
Proof.
elim: v => [|p v IH] //=; rewrite /clear_zeros /=.
case: eqP => [E|_] /=; rewrite !coef_cons -?IH //.
by rewrite E; case: ifP; rewrite add0r.
Qed.

Lemma axpy_merge_nill a x : axpy_merge O a [::] x = [seq (p.1, a * p.2) | p <- x].
Proof. by []. Qed.

Lemma axpy_merge_nilr a y : axpy_merge O a y [::] = y.
Proof. by case: y => [|[i u] y]. Qed.

Lemma axpy_merge_cons a i u y j w x :
  axpy_merge O a ((i, u) :: y) ((j, w) :: x) =
   if i == j then
     let val := a * w + u in
     if val == 0 then axpy_merge O a y x else (i, val) :: axpy_merge O a y x
   else if (i < j)%N then (i, u) :: axpy_merge O a y ((j, w) :: x)
   else (j, a * w) :: axpy_merge O a ((i, u) :: y) x.
Proof. by []. Qed.

Arguments axpy_merge {T} O a y x : simpl never.

(** simultaneous induction along the merge *)
Lemma merge_ind (P : svec F -> svec F -> Prop) :
  (forall x, P [::] x) -> (forall y, P y [::]) ->
  (forall i u y w x, P y x -> P ((i, u) :: y) ((i, w) :: x)) ->
  (forall i u y j w x, (i < j)%N -> P y ((j, w) :: x) -> P ((i, u) :: y) ((j, w) :: x)) ->
  (forall i u y j w x, (j < i)%N -> P ((i, u) :: y) x -> P ((i, u) :: y) ((j, w) :: x)) ->
  forall y x, P y x.
Proof.
move=> H1 H2 H3 H4 H5; elim=> [|[i u] y IHy] //.
elim=> [|[j w] x IHx] //.
case: (ltngtP i j) => [lt|gt|<-]; [exact: H4 | exact: H5 | exact: H3].
Qed.

Lemma coef_axpy_merge a y x i :
  coef (axpy_merge O a y x) i = coef y i + a * coef x i.
Proof.
move: y x; apply: merge_ind => [x|y|k u y w x IH|k u y j w x lt IH|k u y j w x lt IH].
- by rewrite axpy_merge_nill coef_map_scale coef_nil add0r.
- by rewrite axpy_merge_nilr coef_nil mulr0 addr0.
- rewrite axpy_merge_cons eqxx /=; case: eqP => E.
  + rewrite IH !coef_cons /=; case: eqP => _; rewrite ?add0r //.
    have -> : u = - (a * w) by rewrite -(addr0 (- _)) -E; fring F.
    fring F.
  + rewrite !coef_cons /= IH; case: eqP => _; fring F.
- by rewrite axpy_merge_cons ltn_eqF // lt !coef_cons /= IH !coef_cons addrA.
- rewrite axpy_merge_cons gtn_eqF // ltnNge ltnW //= !coef_cons /= IH !coef_cons /=.
  by case: (j == i); fring F.
Qed.

Theorem coef_axpy a x y i : coef (axpy O a x y) i = coef y i + a * coef x i.
Proof.
rewrite /axpy is0E; case: eqP => [->|_]; first by rewrite coef_clear_zeros mul0r addr0.
case: x => [|p x]; first by rewrite coef_nil mulr0 addr0.
exact: coef_axpy_merge.
Qed.

(** indices *)
Notation inds v := [seq p.1 | p <- v].

Lemma sv_sorted_cons p v : sv_sorted (p :: v) = all (ltn p.1) (inds v) && sv_sorted v.
Proof. by rewrite /sv_sorted /= (path_sortedE ltn_trans). Qed.

Lemma sv_sorted_tl p v : sv_sorted (p :: v) -> sv_sorted v.
Proof. by rewrite sv_sorted_cons => /andP[]. Qed.

Lemma merge_inds_all (P : pred nat) a y x :
  all P (inds y) -> all P (inds x) -> all P (inds (axpy_merge O a y x)).
Proof.
move: y x; apply: merge_ind => [x|y|k u y w x IH|k u y j w x lt IH|k u y j w x lt IH] Hy Hx.
- by rewrite axpy_merge_nill -map_comp.
- by rewrite axpy_merge_nilr.
- rewrite axpy_merge_cons eqxx /=; move: Hy Hx => /= /andP[Hk Hy] /andP[_ Hx].
  by case: ifP => _ /=; rewrite ?Hk IH.
- rewrite axpy_merge_cons ltn_eqF // lt /=; move: Hy => /= /andP[-> Hy].
  exact: IH.
- rewrite axpy_merge_cons gtn_eqF // ltnNge ltnW //=; move: Hx => /= /andP[-> Hx].
  exact: IH.
Qed.

Lemma sv_sorted_axpy_merge a y x :
  sv_sorted y -> sv_sorted x -> sv_sorted (axpy_merge O a y x).
Proof.
move: y x; apply: merge_ind => [x|y|k u y w x IH|k u y j w x lt IH|k u y j w x lt IH] Hy Hx.
- by rewrite axpy_merge_nill /sv_sorted -map_comp.
- by rewrite axpy_merge_nilr.
- move: Hy Hx; rewrite axpy_merge_cons eqxx /= !sv_sorted_cons => /andP[Hk Hy] /andP[Hj Hx].
  by case: ifP => _; rewrite ?sv_sorted_cons /= IH // andbT; apply: merge_inds_all.
- move: Hy; rewrite axpy_merge_cons ltn_eqF // lt sv_sorted_cons => /andP[Hk Hy].
  rewrite sv_sorted_cons IH // andbT; apply: merge_inds_all => //=.
  rewrite lt /=; move: Hx; rewrite sv_sorted_cons => /andP[Hx _].
  by apply: sub_all Hx => z /= Hz; apply: ltn_trans Hz.
- rewrite axpy_merge_cons gtn_eqF // ltnNge ltnW //=.
  move: Hx; rewrite sv_sorted_cons => /andP[Hk Hx].
  rewrite sv_sorted_cons IH // andbT; apply: merge_inds_all => //=.
  rewrite lt /=; move: Hy; rewrite sv_sorted_cons => /andP[Hy _].
  by apply: sub_all Hy => z /= Hz; apply: ltn_trans Hz.
Qed.

Lemma sv_nonzero_axpy_merge a y x : a != 0 ->
  sv_nonzero y -> sv_nonzero x -> sv_nonzero (axpy_merge O a y x).
Proof.
move=> Ha; move: y x.
apply: merge_ind => [x|y|k u y w x IH|k u y j w x lt IH|k u y j w x lt IH] Hy Hx.
- rewrite axpy_merge_nill /sv_nonzero all_map; apply: sub_all Hx => p /= Hp.
  by rewrite mulf_neq0.
- by rewrite axpy_merge_nilr.
- rewrite axpy_merge_cons eqxx; move: Hy Hx => /= /andP[Hk Hy] /andP[_ Hx].
  by case: ifP => E /=; rewrite ?E IH.
- rewrite axpy_merge_cons ltn_eqF // lt /=; move: Hy => /= /andP[-> Hy]; exact: IH.
- rewrite axpy_merge_cons gtn_eqF // ltnNge ltnW //=; move: Hx => /= /andP[Hw Hx].
  by rewrite mulf_neq0 //=; apply: IH.
Qed.

Lemma all_inds (P : pred nat) v : all P (inds v) = all (fun p : nat * F => P p.1) v.
Proof. by rewrite all_map. Qed.

Lemma sv_sorted_filter (P : pred (nat * F)) v : sv_sorted v -> sv_sorted [seq p <- v | P p].
Proof.
rewrite /sv_sorted => H; apply: (subseq_sorted ltn_trans) H.
by apply: map_subseq; apply: filter_subseq.
Qed.

Lemma all_filter_sub (Q P : pred (nat * F)) v : all Q v -> all Q [seq p <- v | P p].
Proof.
elim: v => //= p v IH /andP[Hp /IH Hv]; by case: ifP => //= _; rewrite Hp.
Qed.

Lemma sv_sorted_axpy a x y : sv_sorted y -> sv_sorted x -> sv_sorted (axpy O a x y).
Proof.
rewrite /axpy; case: ifP => _ Hy Hx; first exact: sv_sorted_filter.
by case: x Hx => // p x Hx; apply: sv_sorted_axpy_merge.
Qed.

Lemma sv_below_axpy a m x y : sv_below m y -> sv_below m x -> sv_below m (axpy O a x y).
Proof.
rewrite /axpy; case: ifP => _ Hy Hx; first exact: all_filter_sub.
case: x Hx => // p x Hx; rewrite /sv_below -(all_inds (fun i => i < m)%N).
by apply: merge_inds_all; rewrite all_inds.
Qed.

Lemma sv_nonzero_clear v : sv_nonzero (clear_zeros O v).
Proof. by rewrite /sv_nonzero /clear_zeros; apply: filter_all. Qed.

Lemma sv_nonzero_axpy a x y : sv_nonzero y -> sv_nonzero x -> sv_nonzero (axpy O a x y).
Proof.
rewrite /axpy is0E; case: eqP => [_|/eqP Ha] Hy Hx; first exact: sv_nonzero_clear.
by case: x Hx => // p x Hx; apply: sv_nonzero_axpy_merge.
Qed.

Lemma sv_wf_axpy a m x y : sv_wf m y -> sv_wf m x -> sv_wf m (axpy O a x y).
Proof.
move=> /and3P[S1 B1 N1] /and3P[S2 B2 N2].
by rewrite /sv_wf sv_sorted_axpy ?sv_below_axpy ?sv_nonzero_axpy.
Qed.

(** lookups *)
Lemma coef0_notin v i : i \notin inds v -> coef v i = 0.
Proof.
elim: v => [|p v IH]; first by rewrite coef_nil.
by rewrite /= inE negb_or coef_cons eq_sym => /andP[/negbTE -> /IH ->]; rewrite addr0.
Qed.

Lemma coef_head p v : sv_sorted (p :: v) -> coef (p :: v) p.1 = p.2.
Proof.
rewrite sv_sorted_cons coef_cons eqxx => /andP[H _].
by rewrite coef0_notin ?addr0 //; apply/negP => /(allP H) /=; rewrite ltnn.
Qed.

Lemma coef_in v p : sv_sorted v -> p \in v -> coef v p.1 = p.2.
Proof.
elim: v => [|q v IH] // S; rewrite inE => /orP[/eqP ->|Hp]; first exact: coef_head.
rewrite coef_cons (IH (sv_sorted_tl S) Hp).
move: S; rewrite sv_sorted_cons => /andP[/allP H _].
have /= := H p.1 (map_f _ Hp); by move=> /ltn_eqF ->; rewrite add0r.
Qed.

Lemma coef_neq0_in v i : coef v i != 0 -> i \in inds v.
Proof. by apply: contraR => /coef0_notin ->. Qed.

Lemma coef_neq0 v i : sv_sorted v -> sv_nonzero v -> (coef v i != 0) = (i \in inds v).
Proof.
move=> S N; apply/idP/idP; first exact: coef_neq0_in.
move=> /mapP[p Hp ->]; rewrite (coef_in S Hp); exact: (allP N).
Qed.

Lemma coef_ge m v i : sv_below m v -> (m <= i)%N -> coef v i = 0.
Proof.
move=> B le; apply: coef0_notin; apply/negP => /mapP[p Hp E].
by have /= := allP B _ Hp; rewrite -E ltnNge le.
Qed.

(** extensionality: well formed vectors with the same entries are equal *)
Lemma inds_uniq v : sv_sorted v -> uniq (inds v).
Proof. by apply: sorted_uniq; [apply: ltn_trans | move=> n; rewrite /= ltnn]. Qed.

Lemma sv_ext v w : sv_sorted v -> sv_nonzero v -> sv_sorted w -> sv_nonzero w ->
  coef v =1 coef w -> v = w.
Proof.
move=> Sv Nv Sw Nw E.
have Ei : inds v = inds w.
  apply: (@irr_sorted_eq _ ltn) => //; [exact: ltn_trans | by move=> n; rewrite /= ltnn |].
  by move=> i; rewrite -!coef_neq0 // E.
elim: v w Sv Nv Sw Nw E Ei => [|[i u] v IH] [|[j t] w] //= Sv /andP[Nu Nv] Sw /andP[Nt Nw] E [Eij Ei].
subst j; have := E i; rewrite (coef_head Sv) (coef_head Sw) /= => ->; congr (_ :: _).
apply: IH => //; [exact: sv_sorted_tl Sv | exact: sv_sorted_tl Sw |].
move=> k; have := E k; rewrite !coef_cons /=; case: eqP => [E0 _|_].
  subst k; move: Sv Sw; rewrite !sv_sorted_cons /= => /andP[/allP Hv _] /andP[/allP Hw _].
  have nv : i \notin inds v by apply/negP => /Hv /=; rewrite ltnn.
  have nw : i \notin inds w by apply/negP => /Hw /=; rewrite ltnn.
  by rewrite !coef0_notin.
by rewrite !add0r.
Qed.

(** split at an index *)
Lemma split_lb_cat v i : (split_lb v i).1 ++ (split_lb v i).2 = v.
Proof.
elim: v => //= p v IH; case: ifP => // _.
by move: IH; case: (split_lb v i) => a b /= ->.
Qed.

Lemma split_lb_sorted v i : sv_sorted v ->
  split_lb v i = ([seq p <- v | (p.1 < i)%N], [seq p <- v | (i <= p.1)%N]).
Proof.
elim: v => //= p v IH S; rewrite (IH (sv_sorted_tl S)) ltnNge.
case: leqP => //= le; move: S; rewrite sv_sorted_cons => /andP[/allP H _].
congr pair; first by rewrite (eq_in_filter (a2 := pred0)) ?filter_pred0 // => q Hq;
  have /= := H _ (map_f _ Hq); rewrite ltnNge; move=> lt; apply/negbTE; rewrite -leqNgt; lia.
rewrite (eq_in_filter (a2 := predT)) ?filter_predT // => q Hq.
by have /= := H _ (map_f _ Hq); lia.
Qed.

Lemma coef_filter (P : pred nat) v i :
  coef [seq p <- v | P p.1] i = if P i then coef v i else 0.
Proof.
elim: v => [|p v IH]; first by rewrite /= coef_nil; case: ifP.
rewrite /=; case: ifP => Hp; rewrite !coef_cons IH.
  by case: eqP => [<-|_]; [rewrite Hp | rewrite !add0r; case: ifP].
by case: eqP => [E|_]; rewrite ?add0r //; subst i; rewrite Hp.
Qed.

Lemma getvalE v i : sv_sorted v -> getval O v i = coef v i.
Proof.
move=> S; rewrite /getval split_lb_sorted //=.
have E : coef v i = coef [seq p <- v | (i <= p.1)%N] i by rewrite coef_filter leqnn.
have S' : sv_sorted [seq p <- v | (i <= p.1)%N] by apply: sv_sorted_filter.
have A : all (fun p : nat * F => (i <= p.1)%N) [seq p <- v | (i <= p.1)%N] by apply: filter_all.
rewrite E; move: S' A; case: [seq p <- v | (i <= p.1)%N] => [|p r] S' A; first by rewrite coef_nil.
case: eqP => [<-|ne]; first by rewrite coef_head.
rewrite coef0_notin //= inE negb_or; apply/andP; split; first by apply/eqP => ?; apply: ne.
apply/negP => Hi; move: S'; rewrite sv_sorted_cons => /andP[/allP /(_ _ Hi) /= + _].
by move: A => /= /andP[]; lia.
Qed.

Lemma rangeE x f l : sv_sorted x -> range x f l = [seq p <- x | (f <= p.1 < l)%N].
Proof.
move=> S; rewrite /range !split_lb_sorted ?sv_sorted_filter //= -filter_predI.
by apply: eq_filter => p /=; rewrite andbC.
Qed.

Lemma coef_axpy_range a x f l y i : sv_sorted x ->
  coef (axpy_range O a x f l y) i = coef y i + (if (f <= i < l)%N then a * coef x i else 0).
Proof.
move=> S; rewrite /axpy_range is0E; case: eqP => [->|_].
  by rewrite mul0r; case: ifP; rewrite addr0.
have E : coef (range x f l) i = if (f <= i < l)%N then coef x i else 0.
  by rewrite rangeE // (coef_filter (fun k => f <= k < l)%N).
have -> : (if (f <= i < l)%N then a * coef x i else 0) = a * coef (range x f l) i.
  by rewrite E; case: ifP; rewrite ?mulr0.
case: (range x f l) {E} => [|p r]; first by rewrite coef_nil mulr0 addr0.
exact: coef_axpy_merge.
Qed.

Lemma sv_sorted_range x f l : sv_sorted x -> sv_sorted (range x f l).
Proof. by move=> S; rewrite rangeE //; apply: sv_sorted_filter. Qed.

Lemma sv_wf_axpy_range a x f l y m :
  sv_wf m y -> sv_wf m x -> sv_wf m (axpy_range O a x f l y).
Proof.
move=> Wy Wx; rewrite /axpy_range is0E; case: eqP => // /eqP Ha.
case E: (range x f l) => [|p r] //; rewrite -E.
have Wr : sv_wf m (range x f l).
  move: Wx => /and3P[S B N]; rewrite /sv_wf sv_sorted_range // rangeE //.
  by rewrite /sv_below /sv_nonzero !all_filter_sub.
move: Wy Wr => /and3P[S1 B1 N1] /and3P[S2 B2 N2].
rewrite /sv_wf sv_sorted_axpy_merge // sv_nonzero_axpy_merge // andbT /=.
by rewrite /sv_below -(all_inds (fun i => i < m)%N); apply: merge_inds_all; rewrite all_inds.
Qed.

Lemma coef_sv_scale v a i : coef (sv_scale O v a) i = a * coef v i.
Proof.
rewrite /sv_scale is0E; case: eqP => [->|_]; first by rewrite coef_nil mul0r.
rewrite -coef_map_scale; congr coef; apply: eq_map => p /=; by rewrite mulrC.
Qed.

Lemma sv_wf_scale m v a : sv_wf m v -> sv_wf m (sv_scale O v a).
Proof.
rewrite /sv_scale is0E; case: eqP => // /eqP Ha /and3P[S B N].
apply/and3P; split; first by rewrite /sv_sorted -map_comp.
  by rewrite /sv_below all_map.
by rewrite /sv_nonzero all_map; apply: sub_all N => p /= Hp; rewrite mulf_neq0.
Qed.

Lemma coef_sv_add v w i : coef (sv_add O v w) i = coef v i + coef w i.
Proof. by rewrite /sv_add coef_axpy mul1r. Qed.

Lemma sv_eqbE v w : sv_eqb O v w = (v == w).
Proof.
elim: v w => [|[i u] v IH] [|[j t] w] //=; rewrite IH.
by rewrite eqseq_cons xpair_eqE.
Qed.

Lemma coef_unit j i : coef (sv_unit O j) i = (j == i)%:R.
Proof. by rewrite /sv_unit coef_cons coef_nil addr0 /=; case: (j == i). Qed.

Lemma sv_wf_unit m j : (j < m)%N -> sv_wf m (sv_unit O j).
Proof. by move=> lt; rewrite /sv_wf /sv_sorted /sv_below /sv_nonzero /= lt oner_neq0. Qed.

End SV.
