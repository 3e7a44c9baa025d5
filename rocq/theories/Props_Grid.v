(** C56: triangulations and cubical complexes of grids. *)
From mathcomp Require Import all_ssreflect all_algebra zify.
From Verif Require Import Outcome M_Simplicial M_Cubical M_Product M_Grid S_Simplicial S_Cubical P_Outcome P_Trie P_Simplicial P_ScOps P_ScBuild P_Cubical P_CubeOps P_Product P_Grid Props_Simplicial Props_Cubical.
Set Implicit Arguments.
Unset Strict Implicit.
Unset Printing Implicit Defensive.

(** ** specification *)
(** strictly increasing sequences of grid points in the product order *)
Definition chain2 (q : seq (nat * nat)) : bool := sorted (fun u v => [&& u.1 <= v.1, u.2 <= v.2 & u != v]) q.
Definition chain3 (q : seq (nat * nat * nat)) : bool :=
  sorted (fun u v => [&& u.1.1 <= v.1.1, u.1.2 <= v.1.2, u.2 <= v.2 & u != v]) q.
(** row-major numbers of the points *)
Definition number2 (n : nat) (q : seq (nat * nat)) : seq nat := [seq n * v.1 + v.2 | v <- q].
Definition number3 (n2 n3 : nat) (q : seq (nat * nat * nat)) : seq nat := [seq n2 * n3 * v.1.1 + n3 * v.1.2 + v.2 | v <- q].
(** all points of q lie in the cube [i,i'] x [j,j'] x [k,k'] *)
Definition lies_in (q : seq (nat * nat * nat)) i i' j j' k k' : bool :=
  all (fun v => [&& i <= v.1.1 <= i', j <= v.1.2 <= j' & k <= v.2 <= k']) q.

Lemma number3E n2 n3 q : number3 n2 n3 q = map (idxp n2 n3) q.
Proof. by apply: eq_map => v; rewrite /idxp /idx3 mulnDr addnC; congr (_ + _); rewrite addnC; congr (_ + _); rewrite [n2 * n3]mulnC -mulnA [v.1.1 * n2]mulnC. Qed.
Lemma new_empty m t : t != [::] -> ~ contains (sc_new m) t.
Proof. by move=> n0 h; have := (contains_iff (inv_new m) n0).1 h. Qed.
Lemma dec1E n : 0 < n -> dec1 n = Ok n.-1. Proof. by case: n. Qed.

(** the row-major number is injective on the grid *)
Theorem C56_index n1 n2 n3 i j k i' j' k' : i < n1 -> j < n2 -> k < n3 -> j' < n2 -> k' < n3 ->
  idx3 i j k n2 n3 < n1 * n2 * n3 /\ (idx3 i j k n2 n3 = idx3 i' j' k' n2 n3 -> [/\ i = i', j = j' & k = k']).
Proof.
have U a b a' b' n : a < n -> a' < n -> a + n * b = a' + n * b' -> a = a' /\ b = b'.
  move=> la la' e; have p : 0 < n by apply: leq_ltn_trans la.
  have /(congr1 (fun x => x %% n)) := e; rewrite ![_ + n * _]addnC ![n * _]mulnC !modnMDl !modn_small // => ea; split=> //.
  by move: e => /eqP; rewrite ea eqn_add2l eqn_mul2l => /orP [/eqP n0|/eqP //]; rewrite n0 in p.
move=> li lj lk lj' lk'; split.
  rewrite /idx3 [_ * n3]mulnC; apply: (@leq_trans (n3 * (j + i * n2).+1)); first by rewrite mulnS ltn_add2r.
  rewrite leq_mul2l; apply/orP; right; apply: (@leq_trans (i.+1 * n2)); first by rewrite mulSn ltn_add2r.
  by rewrite leq_mul2r li orbT.
rewrite /idx3 => e; have [ek] := U _ _ _ _ _ lk lk' e; rewrite ![_ * n2]mulnC => /(U _ _ _ _ _ lj lj') [ej ei].
by [].
Qed.

Lemma six_adds X n2 n3 i j k : built X ->
  exists2 X', six X n2 n3 i i.+1 j j.+1 k k.+1 = Ok X' & adds X (bl n2 n3 (i, j, k) (i.+1, j.+1, k.+1)) X'.
Proof.
move=> bX; rewrite /bl /degen /= !(ltn_eqF (ltnSn _)); exact: addrs_adds.
Qed.

(** C56, Freudenthal(n1, n2, n3) *)
Theorem C56_Freudenthal3 n1 n2 n3 : 0 < n1 -> 0 < n2 -> 0 < n3 ->
  exists2 F, Freudenthal3 n1 n2 n3 = Ok F & built F /\
    forall t, t != [::] -> contains F t <-> exists q i j k,
      [/\ t = number3 n2 n3 q, chain3 q, lies_in q i i.+1 j j.+1 k k.+1 & [/\ i.+1 < n1, j.+1 < n2 & k.+1 < n3]].
Proof.
move=> p1 p2 p3; rewrite /Freudenthal3 !dec1E //.
have [|F E [bF ct]] := @loop3_adds (fun i j k X => six X n2 n3 i i.+1 j j.+1 k k.+1) (fun i j k => bl n2 n3 (i, j, k) (i.+1, j.+1, k.+1)) 0 n1.-1 0 n2.-1 0 n3.-1 _ _ (built_new 3).
  by move=> i j k X bX; exact: six_adds.
exists F; [exact: E|split=> // t n0]; rewrite (ct t n0).
have ub i j k : unitbox (i, j, k) (i.+1, j.+1, k.+1) by rewrite /unitbox /= !leqnn !leqnSn.
split=> [[/(new_empty n0)//|[s /mem_fl3 [i [j [k [hi hj hk hs]]]] st]]|[q [i [j [k [-> c l [hi hj hk]]]]]]].
  have [q [c al ->]] := (bl_iff t p2 p3 (ub i j k)).1 (ex_intro2 _ _ s hs st).
  by exists q, i, j, k; split; [rewrite number3E|exact: c|exact: al|split; lia].
right; have [|s hs st] := (bl_iff (number3 n2 n3 q) p2 p3 (ub i j k)).2.
  by exists q; split=> //; exact: number3E.
by exists s => //; apply/mem_fl3; exists i, j, k; split=> //; lia.
Qed.

(** C56, the box [i0,i1) x [j0,j1) x [k0,k1): the chains inside the unit squares parallel to the axes and the unit cubes of the box *)
Theorem C56_FreudenthalBox n1 n2 n3 i0 i1 j0 j1 k0 k1 : 0 < n2 -> 0 < n3 -> 0 < i1 -> 0 < j1 -> 0 < k1 ->
  exists2 F, FreudenthalBox n1 n2 n3 i0 i1 j0 j1 k0 k1 = Ok F & built F /\
    forall t, t != [::] -> contains F t <-> exists q i i' j j' k k',
      [/\ t = number3 n2 n3 q, chain3 q, lies_in q i i' j j' k k',
          [/\ i0 <= i <= i', i' < i1, j0 <= j <= j', j' < j1 & k0 <= k <= k' /\ k' < k1] &
          [/\ i' <= i.+1, j' <= j.+1, k' <= k.+1 & 1 < (i' - i) + (j' - j) + (k' - k)]].
Proof.
move=> p2 p3 pi pj pk; rewrite /FreudenthalBox !dec1E //.
pose gij i j k := bl n2 n3 (i, j, k) (i.+1, j.+1, k); pose gjk i j k := bl n2 n3 (i, j, k) (i, j.+1, k.+1).
pose gik i j k := bl n2 n3 (i, j, k) (i.+1, j, k.+1); pose g6 i j k := bl n2 n3 (i, j, k) (i.+1, j.+1, k.+1).
match goal with |- context [loop3 i0 _ j0 _ k0 _ ?f (sc_new 3)] => have [|F1 E1 a1] := @loop3_adds f gij i0 i1.-1 j0 j1.-1 k0 k1 _ _ (built_new 3) end.
  by move=> i j k X bX; rewrite /gij /bl /degen /= eqxx !(ltn_eqF (ltnSn _)); exact: addrs_adds.
rewrite E1; cbn [obind].
match goal with |- context [loop3 i0 (Ok i1) j0 _ k0 _ ?f F1] => have [||F2 E2 a2] := @loop3_adds f gjk i0 i1 j0 j1.-1 k0 k1.-1 F1 end.
- by move=> i j k X bX; rewrite /gjk /bl /degen /= eqxx !(ltn_eqF (ltnSn _)); exact: addrs_adds.
- by case: a1.
rewrite E2; cbn [obind].
match goal with |- context [loop3 i0 _ j0 (Ok j1) k0 _ ?f F2] => have [||F3 E3 a3] := @loop3_adds f gik i0 i1.-1 j0 j1 k0 k1.-1 F2 end.
- by move=> i j k X bX; rewrite /gik /bl /degen /= eqxx !(ltn_eqF (ltnSn _)); exact: addrs_adds.
- by case: a2.
rewrite E3; cbn [obind].
have [||F E a4] := @loop3_adds (fun i j k X => six X n2 n3 i i.+1 j j.+1 k k.+1) g6 i0 i1.-1 j0 j1.-1 k0 k1.-1 F3.
- by move=> i j k X bX; exact: six_adds.
- by case: a3.
have [bF ct] := adds_cat (adds_cat (adds_cat a1 a2) a3) a4.
exists F; [exact: E|split=> // t n0]; rewrite (ct t n0).
have mk i i' j j' k k' : unitbox (i, j, k) (i', j', k') -> (exists2 s, s \in bl n2 n3 (i, j, k) (i', j', k') & subseq t (sort leq s)) <->
    exists q, [/\ chain3 q, lies_in q i i' j j' k k' & t = number3 n2 n3 q].
  by move=> ub; rewrite (bl_iff t p2 p3 ub); split=> -[q [h1 h2 h3]]; exists q; split=> //; rewrite ?number3E // -number3E.
split.
  case=> [/(new_empty n0)//|[s]]; rewrite !mem_cat => hs st.
  have [i [i' [j [j' [k [k' [ub r1 r2 hs']]]]]]] : exists i i' j j' k k', [/\ unitbox (i, j, k) (i', j', k'),
      [/\ i0 <= i <= i', i' < i1, j0 <= j <= j', j' < j1 & k0 <= k <= k' /\ k' < k1],
      [/\ i' <= i.+1, j' <= j.+1, k' <= k.+1 & 1 < (i' - i) + (j' - j) + (k' - k)] & s \in bl n2 n3 (i, j, k) (i', j', k')].
    case/orP: hs => [/orP [/orP []|]|] /mem_fl3 [i [j [k [hi hj hk hs]]]].
    - exists i, i.+1, j, j.+1, k, k; split=> //; [rewrite /unitbox /=; lia|split; try lia; split; lia|split; lia].
    - exists i, i, j, j.+1, k, k.+1; split=> //; [rewrite /unitbox /=; lia|split; try lia; split; lia|split; lia].
    - exists i, i.+1, j, j, k, k.+1; split=> //; [rewrite /unitbox /=; lia|split; try lia; split; lia|split; lia].
    - exists i, i.+1, j, j.+1, k, k.+1; split=> //; [rewrite /unitbox /=; lia|split; try lia; split; lia|split; lia].
  have [q [h1 h2 h3]] := (mk _ _ _ _ _ _ ub).1 (ex_intro2 _ _ s hs' st).
  by exists q, i, i', j, j', k, k'.
move=> [q [i [i' [j [j' [k [k' [e c l [hi hi' hj hj' [hk hk']] [ui uj uk d]]]]]]]]]; right.
have ub : unitbox (i, j, k) (i', j', k') by rewrite /unitbox /=; lia.
have [|s hs st] := (mk _ _ _ _ _ _ ub).2; first by exists q.
exists s => //; rewrite !mem_cat.
have X1 : i' = i \/ i' = i.+1 by lia.
have X2 : j' = j \/ j' = j.+1 by lia.
have X3 : k' = k \/ k' = k.+1 by lia.
case: X1 => ei; [|case: X2 => ej; [|case: X3 => ek]].
- have ej : j' = j.+1 by lia.
  have ek : k' = k.+1 by lia.
  by subst i' j' k'; apply/orP; left; apply/orP; left; apply/orP; right; apply/mem_fl3; exists i, j, k; split; try lia; exact: hs.
- have ek : k' = k.+1 by lia.
  by subst i' j' k'; apply/orP; left; apply/orP; right; apply/mem_fl3; exists i, j, k; split; try lia; exact: hs.
- by subst i' j' k'; apply/orP; left; apply/orP; left; apply/orP; left; apply/mem_fl3; exists i, j, k; split; try lia; exact: hs.
by subst i' j' k'; apply/orP; right; apply/mem_fl3; exists i, j, k; split; try lia; exact: hs.
Qed.

(** C56, Freudenthal(m, n) *)
Theorem C56_Freudenthal2 m n : 0 < m -> 0 < n ->
  exists2 F, Freudenthal2 m n = Ok F & built F /\
    forall t, t != [::] -> contains F t <-> exists q i j,
      [/\ t = number2 n q, chain2 q, all (fun v => (i <= v.1 <= i.+1) && (j <= v.2 <= j.+1)) q & i.+1 < m /\ j.+1 < n].
Proof.
move=> pm pn; rewrite /Freudenthal2 !dec1E //; cbn [obind].
pose g i j := [seq [seq idx2 v.1 v.2 n | v <- p] | p <- stairs 4 [:: i; i.+1] [:: j; j.+1]].
match goal with |- context [loop 0 m.-1 ?f (sc_new 2)] => set ff := f end.
have [|F E [bF ct]] := @adds_fold _ ff (fun i => flatten [seq g i j | j <- iota 0 (n.-1 - 0)]) (iota 0 (m.-1 - 0)) (sc_new 2) _ (built_new 2).
  move=> i X _ bX; apply: adds_fold bX => j Z _ bZ; rewrite /g /=; exact: addrs_adds.
exists F; [exact: E|split=> // t n0]; rewrite (ct t n0).
have s2 a : sorted ltn [:: a; a.+1] by rewrite /= ltnSn.
have in2 (a b : nat) : (a \in [:: b; b.+1]) = (b <= a <= b.+1) by rewrite !inE; lia.
have wi i j q : within [:: i; i.+1] [:: j; j.+1] q = all (fun v => (i <= v.1 <= i.+1) && (j <= v.2 <= j.+1)) q.
  by apply: eq_all => v; rewrite !in2.
have num q i j : all (fun v => (i <= v.1 <= i.+1) && (j <= v.2 <= j.+1)) q -> [seq idx2 v.1 v.2 n | v <- q] = number2 n q.
  by move=> _; apply: eq_map => v; rewrite /idx2 addnC.
have so q : sorted plt q -> sorted ltn (number2 n q).
  move=> c; apply: (@sorted_map_in _ _ plt ltn _ q predT) c (all_predT _) => -[a b] [c d] _ _ /and3P [/= h1 h2 ne].
  case: (ltnP a c) => l; first by rewrite -addSn; apply: leq_add h2; rewrite ltn_mul2l pn.
  have ea : a = c by lia.
  by rewrite ea ltn_add2l ltn_neqAle h2 andbT; apply: contraNneq ne => ->; rewrite ea.
have gE i j : g i j = [seq number2 n p | p <- stairs 4 [:: i; i.+1] [:: j; j.+1]].
  by apply/eq_map => p; apply: eq_map => v; rewrite /idx2 addnC.
have srt i j p : p \in stairs 4 [:: i; i.+1] [:: j; j.+1] -> sort leq (number2 n p) = number2 n p.
  move=> hp; apply: (sorted_sort leq_trans); apply: (@sub_sorted _ ltn); first by move=> x y /ltnW.
  by apply: so; have [] := stairs_chain (s2 i) (s2 j) hp.
split.
  case=> [/(new_empty n0)//|[s /flattenP [? /mapP [i hi ->]] /flattenP [? /mapP [j hj ->]]]].
  rewrite gE => /mapP [p hp ->]; rewrite (srt _ _ _ hp) => /subseqP [msk _ ->].
  move: hi hj; rewrite !mem_iota => hi hj; have [c w _ _] := stairs_chain (s2 i) (s2 j) hp.
  exists (mask msk p), i, j; split; [by rewrite /number2 map_mask| | |lia].
    exact: (subseq_sorted plt_trans (mask_subseq _ _) c).
  by rewrite -wi; apply/allP => v /(mem_subseq (mask_subseq _ _)); exact: (allP w).
move=> [q [i [j [-> c al [hi hj]]]]]; right.
have [|p hp sq] := @stairs_all 4 [:: i; i.+1] [:: j; j.+1] q (s2 i) (s2 j) isT isT isT c; first by rewrite wi.
exists (number2 n p); last by rewrite (srt _ _ _ hp); exact: map_subseq.
apply/flattenP; eexists; first by apply/mapP; exists i; [rewrite mem_iota; lia|reflexivity].
apply/flattenP; eexists; first by apply/mapP; exists j; [rewrite mem_iota; lia|reflexivity].
by rewrite gE; exact: map_f.
Qed.

(** ** cubical grids *)
Lemma cnew_empty D t : 0 < D -> size t = (2 * D)%N -> ~ ccontains (cc_new D) t.
Proof. by move=> p st h; have := (ccontains_iff (cinv_new D) p st).1 h. Qed.

Theorem C56_Cube2 m n : 0 < m -> 0 < n ->
  exists2 X, Cube2 m n = Ok X & [/\ cc_built X, cc_maxdim X = 2 &
    forall t, size t = 4 -> ccontains X t <-> exists i j, is_subcube 2 t [:: i; i.+1; j; j.+1] /\ i.+1 < m /\ j.+1 < n].
Proof.
move=> pm pn; rewrite /Cube2 !dec1E //; cbn [obind].
match goal with |- context [loop 0 m.-1 ?f (cc_new 2)] => set ff := f end.
have [|X E [bX eX ct]] := @cadds_fold 2 _ ff (fun i => flatten [seq [:: [:: i; i.+1; j; j.+1]] | j <- iota 0 (n.-1 - 0)]) (iota 0 (m.-1 - 0)) (cc_new 2) _ (ccb_new 2) erefl.
  move=> i X _ bX eX; apply: cadds_fold eX => // j Z _ bZ eZ; apply: cadds1 => //.
  by split=> // -[|[|i']] // _; rewrite /lo /hi /= leqnn leqnSn.
exists X; [exact: E|split=> // t st]; rewrite (ct t st); split.
  case=> [/(@cnew_empty 2 t isT st)//|[s /flattenP [? /mapP [i hi ->]] /flattenP [? /mapP [j hj ->]]]].
  by rewrite inE => /eqP -> h; exists i, j; split=> //; move: hi hj; rewrite !mem_iota; lia.
move=> [i [j [h [hi hj]]]]; right; exists [:: i; i.+1; j; j.+1] => //.
apply/flattenP; eexists; first by apply/mapP; exists i; [rewrite mem_iota; lia|reflexivity].
apply/flattenP; eexists; first by apply/mapP; exists j; [rewrite mem_iota; lia|reflexivity].
by rewrite inE.
Qed.

Lemma cube3 i i' j j' k k' : i <= i' <= i.+1 -> j <= j' <= j.+1 -> k <= k' <= k.+1 -> is_cube 3 [:: i; i'; j; j'; k; k'].
Proof. by move=> h1 h2 h3; split=> // -[|[|[|i0]]]. Qed.

Theorem C56_Cube3 n1 n2 n3 : 0 < n1 -> 0 < n2 -> 0 < n3 ->
  exists2 X, Cube3 n1 n2 n3 = Ok X & [/\ cc_built X, cc_maxdim X = 3 &
    forall t, size t = 6 -> ccontains X t <-> exists i j k,
      is_subcube 3 t [:: i; i.+1; j; j.+1; k; k.+1] /\ [/\ i.+1 < n1, j.+1 < n2 & k.+1 < n3]].
Proof.
move=> p1 p2 p3; rewrite /Cube3 !dec1E //.
have [|X E [bX eX ct]] := @loop3_cadds 3 (fun i j k X => caddr X [:: i; i.+1; j; j.+1; k; k.+1]) (fun i j k => [:: [:: i; i.+1; j; j.+1; k; k.+1]]) 0 n1.-1 0 n2.-1 0 n3.-1 _ _ (ccb_new 3) erefl.
  by move=> i j k X bX eX; apply: cadds1 => //; apply: cube3; lia.
exists X; [exact: E|split=> // t st]; rewrite (ct t st); split.
  case=> [/(@cnew_empty 3 t isT st)//|[s /mem_fl3 [i [j [k [hi hj hk]]]]]]; rewrite inE => /eqP -> h.
  by exists i, j, k; split=> //; split; lia.
move=> [i [j [k [h [hi hj hk]]]]]; right; exists [:: i; i.+1; j; j.+1; k; k.+1] => //.
by apply/mem_fl3; exists i, j, k; rewrite inE; split=> //; lia.
Qed.

Theorem C56_CubeBox i0 i1 j0 j1 k0 k1 : 0 < i1 -> 0 < j1 -> 0 < k1 ->
  exists2 X, CubeBox i0 i1 j0 j1 k0 k1 = Ok X & [/\ cc_built X, cc_maxdim X = 3 &
    forall t, size t = 6 -> ccontains X t <-> exists i i' j j' k k',
      [/\ is_subcube 3 t [:: i; i'; j; j'; k; k'],
          [/\ i0 <= i <= i', i' < i1, j0 <= j <= j', j' < j1 & k0 <= k <= k' /\ k' < k1] &
          [/\ i' <= i.+1, j' <= j.+1, k' <= k.+1 & 1 < (i' - i) + (j' - j) + (k' - k)]]].
Proof.
move=> pi pj pk; rewrite /CubeBox !dec1E //.
pose gij i j k := [:: [:: i; i.+1; j; j.+1; k; k]]; pose gjk i j k := [:: [:: i; i; j; j.+1; k; k.+1]].
pose gik i j k := [:: [:: i; i.+1; j; j; k; k.+1]]; pose g6 i j k := [:: [:: i; i.+1; j; j.+1; k; k.+1]].
match goal with |- context [loop3 i0 _ j0 _ k0 _ ?f (cc_new 3)] => have [|F1 E1 a1] := @loop3_cadds 3 f gij i0 i1.-1 j0 j1.-1 k0 k1 _ _ (ccb_new 3) erefl end.
  by move=> i j k X bX eX; apply: cadds1 => //; apply: cube3; lia.
rewrite E1; cbn [obind].
match goal with |- context [loop3 i0 (Ok i1) j0 _ k0 _ ?f F1] => have [|||F2 E2 a2] := @loop3_cadds 3 f gjk i0 i1 j0 j1.-1 k0 k1.-1 F1 end.
- by move=> i j k X bX eX; apply: cadds1 => //; apply: cube3; lia.
- by case: a1.
- by case: a1.
rewrite E2; cbn [obind].
match goal with |- context [loop3 i0 _ j0 (Ok j1) k0 _ ?f F2] => have [|||F3 E3 a3] := @loop3_cadds 3 f gik i0 i1.-1 j0 j1 k0 k1.-1 F2 end.
- by move=> i j k X bX eX; apply: cadds1 => //; apply: cube3; lia.
- by case: a2.
- by case: a2.
rewrite E3; cbn [obind].
have [|||F E a4] := @loop3_cadds 3 (fun i j k X => caddr X [:: i; i.+1; j; j.+1; k; k.+1]) g6 i0 i1.-1 j0 j1.-1 k0 k1.-1 F3.
- by move=> i j k X bX eX; apply: cadds1 => //; apply: cube3; lia.
- by case: a3.
- by case: a3.
have [bF eF ct] := cadds_cat (cadds_cat (cadds_cat a1 a2) a3) a4.
exists F; [exact: E|split=> // t st]; rewrite (ct t st); split.
  case=> [/(@cnew_empty 3 t isT st)//|[s]]; rewrite !mem_cat => hs h.
  case/orP: hs => [/orP [/orP []|]|] /mem_fl3 [i [j [k [hi hj hk]]]]; rewrite inE => /eqP es; rewrite es in h.
  - exists i, i.+1, j, j.+1, k, k; split=> //; split; try lia; split; lia.
  - exists i, i, j, j.+1, k, k.+1; split=> //; split; try lia; split; lia.
  - exists i, i.+1, j, j, k, k.+1; split=> //; split; try lia; split; lia.
  - exists i, i.+1, j, j.+1, k, k.+1; split=> //; split; try lia; split; lia.
move=> [i [i' [j [j' [k [k' [h [hi hi' hj hj' [hk hk']] [ui uj uk d]]]]]]]]; right.
exists [:: i; i'; j; j'; k; k'] => //; rewrite !mem_cat.
have X1 : i' = i \/ i' = i.+1 by lia.
have X2 : j' = j \/ j' = j.+1 by lia.
have X3 : k' = k \/ k' = k.+1 by lia.
case: X1 => ei; [|case: X2 => ej; [|case: X3 => ek]].
- have ej : j' = j.+1 by lia.
  have ek : k' = k.+1 by lia.
  by subst i' j' k'; apply/orP; left; apply/orP; left; apply/orP; right; apply/mem_fl3; exists i, j, k; split; try lia; exact: mem_head.
- have ek : k' = k.+1 by lia.
  by subst i' j' k'; apply/orP; left; apply/orP; right; apply/mem_fl3; exists i, j, k; split; try lia; exact: mem_head.
- by subst i' j' k'; apply/orP; left; apply/orP; left; apply/orP; left; apply/mem_fl3; exists i, j, k; split; try lia; exact: mem_head.
by subst i' j' k'; apply/orP; right; apply/mem_fl3; exists i, j, k; split; try lia; exact: mem_head.
Qed.
