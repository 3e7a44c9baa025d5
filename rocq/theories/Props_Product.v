(** C55: TriangulatedProduct. *)
From mathcomp Require Import all_ssreflect all_algebra zify.
From Verif Require Import Outcome M_Simplicial M_SimplicialMap M_Product S_Simplicial S_SimplicialMap P_Outcome P_Trie P_Simplicial P_ScOps P_ScBuild P_Product Props_Simplicial Props_SimplicialMap Props_MayerVietoris.
Set Implicit Arguments.
Unset Strict Implicit.
Unset Printing Implicit Defensive.

(** ** specification *)
(** vertices are listed in increasing order, without repetition *)
Definition increasing (X : scx) : Prop := forall s, contains X s -> sorted ltn s.
(** q is a strictly increasing sequence of points of N x N in the product order *)
Definition chain2 (q : seq (nat * nat)) : bool := sorted (fun u v => [&& u.1 <= v.1, u.2 <= v.2 & u != v]) q.
(** the vertices of the product *)
Definition points (n : nat) (q : seq (nat * nat)) : seq nat := [seq v.1 + n * v.2 | v <- q].

Lemma chain2E q : chain2 q = sorted plt q. Proof. by []. Qed.
Lemma pointsE n q : points n q = map (pind n) q. Proof. by []. Qed.

Lemma points_sorted n q : sorted plt q -> all (fun v => v.1 < n) q -> sorted ltn (map (pind n) q).
Proof.
case: q => // v q; elim: q v => //= w q IH v /andP [/and3P [h1 h2 h3] h4] /and3P [h5 h6 h7].
rewrite IH ?h4 ?h6 // andbT /pind /prod_ind; case: (ltngtP v.2 w.2) h2 => // h _.
  by apply: (@leq_trans (n + n * v.2)); [rewrite ltn_add2r|rewrite -mulnS; apply: leq_trans (leq_addl _ _); rewrite leq_mul2l h orbT].
by rewrite h ltn_add2r ltn_neqAle h1 andbT; apply: contraNneq h3 => e; apply/eqP; case: (v) (w) e h => a b [c d] /= -> ->.
Qed.

Lemma subseq_map_inv (A B : eqType) (f : A -> B) (p : seq A) t : subseq t (map f p) -> exists2 q, subseq q p & t = map f q.
Proof. by case/subseqP => m sm ->; exists (mask m p); [exact: mask_subseq|rewrite map_mask]. Qed.

Lemma new_empty m t : t != [::] -> ~ contains (sc_new m) t.
Proof. by move=> n0 h; have := (contains_iff (inv_new m) n0).1 h. Qed.

Definition gl n (a b : seq nat) : seq (seq nat) := [seq map (pind n) p | p <- stairs (size a + size b) a b].

Lemma product_adds clX X clY Y maxdim n : inv clX X -> inv clY Y -> 0 < sc_dims X -> 0 < sc_dims Y -> exists XY L,
  [/\ TriangulatedProduct X Y maxdim n = Ok XY, adds (sc_new maxdim) L XY &
      forall s, s \in L <-> exists a b, [/\ a \in clX (size a).-1, b \in clY (size b).-1, (size a).-1 + (size b).-1 <= maxdim & s \in gl n a b]].
Proof.
move=> ivX ivY dX0 dY0; rewrite /TriangulatedProduct (ncell_ok ivY dY0); cbn [obind].
pose g2 dX dY := flatten [seq flatten [seq gl n (nth [::] (clX dX) i) (nth [::] (clY dY) j) | j <- iota 0 (size (clY dY))] | i <- iota 0 (size (clX dX))].
pose g1 dim dX := if ((sc_dims X).-1 < dX) || ((sc_dims Y).-1 < dim - dX) then [::] else g2 dX (dim - dX).
pose g0 dim := flatten [seq g1 dim dX | dX <- iota 0 dim.+1].
match goal with |- context [ofold ?f (sc_new maxdim) _] => set ff := f end.
have [|XY E aa] := @adds_fold _ ff g0 (iota 0 maxdim.+1) (sc_new maxdim) _ (built_new maxdim); last first.
  exists XY, (flatten [seq g0 b | b <- iota 0 maxdim.+1]); split; [exact: E|exact: aa|] => s; split.
    move=> /flattenP [l /mapP [dim]]; rewrite mem_iota add0n ltnS => ldim -> /flattenP [l1 /mapP [dX]].
    rewrite mem_iota add0n ltnS => ldX -> ; rewrite /g1; case: ifP => // /norP [h1 h2].
    move=> /flattenP [l2 /mapP [i]]; rewrite mem_iota add0n => li -> /flattenP [l3 /mapP [j]]; rewrite mem_iota add0n => lj -> hs.
    have ai := mem_nth [::] li; have bj := mem_nth [::] lj; have sa := cl_size ivX ai; have sb := cl_size ivY bj.
    by exists (nth [::] (clX dX) i), (nth [::] (clY (dim - dX)) j); split; rewrite ?sa ?sb //= subnKC.
  move=> [a [b [ai bi ld hs]]]; set dX := (size a).-1 in ai ld; set dY := (size b).-1 in bi ld.
  have lX : dX < sc_dims X by rewrite ltnNge; apply/negP => h; case: ivX ai => _ _ _ Ci _; rewrite Ci.
  have lY : dY < sc_dims Y by rewrite ltnNge; apply/negP => h; case: ivY bi => _ _ _ Ci _; rewrite Ci.
  apply/flattenP; exists (g0 (dX + dY)); first by apply: map_f; rewrite mem_iota add0n ltnS.
  apply/flattenP; exists (g1 (dX + dY) dX); first by apply: map_f; rewrite mem_iota add0n ltnS leq_addr.
  rewrite /g1 addKn ifN; last by rewrite negb_or -!leqNgt -(ltnS dX) -(ltnS dY) (prednK dX0) (prednK dY0) lX lY.
  apply/flattenP; eexists; first by apply/mapP; exists (index a (clX dX)); [rewrite mem_iota add0n index_mem|reflexivity].
  apply/flattenP; eexists; first by apply/mapP; exists (index b (clY dY)); [rewrite mem_iota add0n index_mem|reflexivity].
  by rewrite !nth_index.
move=> dim Z _ bZ; rewrite /ff; apply: adds_fold bZ => dX Z1 _ bZ1; cbv zeta; rewrite /g1; case: ifP => [_|/norP [h1 h2]].
  by exists Z1 => //; exact: adds0.
have lX : dX < sc_dims X by rewrite -(prednK dX0) ltnS leqNgt.
have lY : dim - dX < sc_dims Y by rewrite -(prednK dY0) ltnS leqNgt.
rewrite (ncell_ok ivX lX); cbn [obind]; apply: adds_fold bZ1 => i Z2; rewrite mem_iota add0n => li bZ2.
rewrite (ncell_ok ivY lY); cbn [obind]; apply: adds_fold bZ2 => j Z3; rewrite mem_iota add0n => lj bZ3.
rewrite (simplex_ok ivX li) (simplex_ok ivY lj); cbn [obind].
have sa := cl_size ivX (mem_nth [::] li); have sb := cl_size ivY (mem_nth [::] lj).
have [|||Z4 E4 a4] := @product_paths_adds (dX + (dim - dX)).+1 Z3 (nth [::] (clX dX) i) (nth [::] (clY (dim - dX)) j) [::] n bZ3.
- by rewrite -size_eq0 sa.
- by rewrite -size_eq0 sb.
- by rewrite sa sb; lia.
exists Z4; rewrite /gl ?sa ?sb ?addSn ?addnS //.
Qed.

(** ** C55: the simplices of the product *)
Theorem C55_product X Y maxdim n : built X -> built Y -> increasing X -> increasing Y -> vertices_in X n ->
  exists2 XY, TriangulatedProduct X Y maxdim n = Ok XY & built XY /\
    forall t, t != [::] -> contains XY t <-> exists q sx sy,
      [/\ t = points n q, chain2 q, contains X sx /\ contains Y sy,
          [/\ sx != [::], sy != [::] & (size sx).-1 + (size sy).-1 <= maxdim] &
          forall v, v \in q -> v.1 \in sx /\ v.2 \in sy].
Proof.
move=> bX bY iX iY vX; have [clX ivX dX] := built_inv bX; have [clY ivY dY] := built_inv bY.
have [XY [L [E [bXY ct] hL]]] := product_adds maxdim n ivX ivY dX dY; exists XY => //; split=> // t n0.
have srt a b p : contains X a -> contains Y b -> a != [::] -> p \in stairs (size a + size b) a b -> sorted ltn (map (pind n) p).
  move=> ca cb na hp; have [c w _ _] := stairs_chain (iX _ ca) (iY _ cb) hp; apply: points_sorted => //.
  by apply/allP => v /(allP w) /andP [va _]; exact: (allP (vX a na ca)).
rewrite (ct t n0); split.
  case=> [/(new_empty n0)//|[s /hL [a [b [ai bi ld /mapP [p hp ->]]]]]].
  have na : a != [::] by case: (a) ai hp => //=; case: (size b).
  have nb : b != [::] by case: (b) bi hp => //= _; case: (a) => //=; case: (size _).
  have ca : contains X a by apply/(contains_iff ivX na).
  have cb : contains Y b by apply/(contains_iff ivY nb).
  rewrite (sorted_sort leq_trans); last by apply: sub_sorted (srt _ _ _ ca cb na hp) => x y /ltnW.
  move=> /subseq_map_inv [q qp ->]; have [c w _ _] := stairs_chain (iX _ ca) (iY _ cb) hp.
  exists q, a, b; split=> //; first by rewrite chain2E; exact: (subseq_sorted plt_trans qp c).
  by move=> v /(mem_subseq qp) /(allP w) /andP.
move=> [q [a [b [-> c [ca cb] [na nb ld] h]]]]; right.
have [||p hp sq] := @stairs_all (size a + size b) a b q (iX _ ca) (iY _ cb) na nb _ c.
- exact: leqnSn.
- by apply/allP => v /h [-> ->].
exists (map (pind n) p).
  apply/hL; exists a, b; split=> //; [exact/(contains_iff ivX na)|exact/(contains_iff ivY nb)|exact: map_f].
rewrite (sorted_sort leq_trans); last by apply: sub_sorted (srt _ _ _ ca cb na hp) => x y /ltnW.
exact: map_subseq.
Qed.

Lemma sub_subseq (u s : seq nat) : sorted ltn u -> sorted ltn s -> {subset u <= s} -> subseq u s.
Proof.
move=> su ss h; have -> : u = [seq x <- s | x \in u]; last exact: filter_subseq.
apply: (irr_sorted_eq ltn_trans ltnn) => //; first by apply: (sorted_filter ltn_trans).
by move=> x; rewrite mem_filter; case: (boolP (x \in u)) => // /h.
Qed.
Lemma undup_sorted (s : seq nat) : sorted leq s -> sorted ltn (undup s).
Proof. by move=> so; rewrite ltn_sorted_uniq_leq undup_uniq; exact: (subseq_sorted leq_trans (undup_subseq s) so). Qed.

(** when nothing is cut off, a set of points is a simplex of the product exactly when it is a chain and both projections are
    simplices; TriangulatedProduct(X, Y) is this complex if the vertices of X are 0, ..., X.ncells(0) - 1 *)
Theorem C55_full X Y n : built X -> built Y -> increasing X -> increasing Y -> sc_ncell X 0 = Ok n -> vertices_in X n ->
  exists2 XY, TriangulatedProduct_full X Y = Ok XY & built XY /\
    forall t, t != [::] -> contains XY t <-> exists q,
      [/\ t = points n q, chain2 q, contains X (undup (unzip1 q)) & contains Y (undup (unzip2 q))].
Proof.
move=> bX bY iX iY En vX; have [XY E [b H]] := C55_product ((sc_dims X).-1 + (sc_dims Y).-1) bX bY iX iY vX.
have [clX ivX dX] := built_inv bX; have [clY ivY dY] := built_inv bY.
exists XY; first by rewrite /TriangulatedProduct_full En; cbn [obind].
split=> // t n0; rewrite (H t n0).
have s1 q : chain2 q -> sorted leq (unzip1 q) by move=> c; rewrite sorted_map; apply: sub_sorted c => u v /and3P [].
have s2 q : chain2 q -> sorted leq (unzip2 q) by move=> c; rewrite sorted_map; apply: sub_sorted c => u v /and3P [].
have nz (q : seq (nat * nat)) : t = points n q -> undup (unzip1 q) != [::] /\ undup (unzip2 q) != [::].
  move=> e; have : 0 < size q by rewrite -(size_map (fun v => v.1 + n * v.2)) -/(points n q) -e lt0n size_eq0.
  by case: q {e} => // v q _; split; apply/eqP => h; [have : v.1 \in undup (unzip1 (v :: q)) by rewrite mem_undup inE eqxx|have : v.2 \in undup (unzip2 (v :: q)) by rewrite mem_undup inE eqxx]; rewrite h.
split=> [[q [sx [sy [e c [cx cy] [nx ny _] h]]]]|[q [e c cx cy]]].
  have [z1 z2] := nz q e; exists q; split=> //.
    apply: (C23_closed bX cx z1); apply: sub_subseq (undup_sorted (s1 q c)) (iX _ cx) _ => x.
    by rewrite mem_undup => /mapP [v /h [hv _] ->].
  apply: (C23_closed bY cy z2); apply: sub_subseq (undup_sorted (s2 q c)) (iY _ cy) _ => x.
  by rewrite mem_undup => /mapP [v /h [_ hv] ->].
have [z1 z2] := nz q e; exists q, (undup (unzip1 q)), (undup (unzip2 q)); split=> //.
  split=> //; apply: leq_add.
    have := (contains_iff ivX z1).1 cx => m; rewrite -ltnS (prednK dX) ltnNge; apply/negP => hh.
    by case: ivX m => _ _ _ Ci _; rewrite Ci.
  have := (contains_iff ivY z2).1 cy => m; rewrite -ltnS (prednK dY) ltnNge; apply/negP => hh.
  by case: ivY m => _ _ _ Ci _; rewrite Ci.
by move=> v vq; rewrite !mem_undup; split; apply: map_f.
Qed.

(** ** examples *)
Definition all_simplices (P : seq nat -> bool) (X : scx) : bool :=
  all (fun k => if sc_ncell X k is Ok n then all (fun i => if sc_simplex X k i is Ok s then P s else true) (iota 0 n) else true) (iota 0 (sc_dims X)).
Lemma all_simplicesP P X s : built X -> all_simplices P X -> contains X s -> s != [::] -> P s.
Proof.
move=> bX al cs n0; have [cl iv _] := built_inv bX.
have si : s \in cl (size s).-1 by apply/(contains_iff iv n0).
have li : index s (cl (size s).-1) < size (cl (size s).-1) by rewrite index_mem.
have lk : (size s).-1 < sc_dims X by rewrite ltnNge; apply/negP => h; case: iv si => _ _ _ Ci _; rewrite Ci.
move: al => /allP /(_ (size s).-1); rewrite mem_iota add0n lk (ncell_ok iv lk) => /(_ isT) /allP /(_ (index s (cl (size s).-1))).
by rewrite mem_iota add0n li (simplex_ok iv li) nth_index // => /(_ isT).
Qed.
Definition ex_edge : scx := ex_add2 [:: 0] [:: 0; 1].
Definition ex_pts02 : scx := ex_add2 [:: 0] [:: 2].
Definition ex_pts01 : scx := ex_add2 [:: 0] [:: 1].
Lemma inc_by X : built X -> all_simplices (sorted ltn) X -> increasing X.
Proof. by move=> b a [//|v s] c; exact: all_simplicesP b a c isT. Qed.
Lemma vin_by X n : built X -> all_simplices (all (gtn n)) X -> vertices_in X n.
Proof. by move=> b a s s0 c; exact: all_simplicesP b a c s0. Qed.

Definition found (r : outcome (option nat)) : bool := if r is Ok (Some _) then true else false.
Lemma find_contains X s : found (sc_find X s) -> contains X s.
Proof. by rewrite /contains /found; case: (sc_find _ _) => // -[i|] // _; exists i. Qed.
Lemma find_none X s : sc_find X s = Ok None -> ~ contains X s.
Proof. by rewrite /contains => -> []. Qed.
Definition isok (r : outcome scx) : bool := if r is Ok _ then true else false.
Lemma okxE r : isok r -> r = Ok (okx r).
Proof. by case: r. Qed.
Lemma pack3 r a b c : isok r -> sc_ncell (okx r) 0 = Ok a -> sc_ncell (okx r) 1 = Ok b -> sc_ncell (okx r) 2 = Ok c ->
  exists2 S, r = Ok S & [/\ sc_ncell S 0 = Ok a, sc_ncell S 1 = Ok b & sc_ncell S 2 = Ok c].
Proof. by case: r => // S _ h1 h2 h3; exists S. Qed.
Lemma pack_find r r1 s : isok r1 -> isok r -> found (sc_find (okx r) s) -> sc_find (okx r1) s = Ok None ->
  exists S1 S, [/\ r1 = Ok S1, r = Ok S, contains S s & ~ contains S1 s].
Proof. by case: r => // S; case: r1 => // S1 _ _ /find_contains h /find_none h1; exists S1, S. Qed.
Lemma pack0 r X Y a b c : isok r -> sc_ncell X 0 = Ok a -> sc_ncell Y 0 = Ok b -> sc_ncell (okx r) 0 = Ok c ->
  exists S, [/\ r = Ok S, sc_ncell X 0 = Ok a, sc_ncell Y 0 = Ok b & sc_ncell S 0 = Ok c].
Proof. by case: r => // S _ h1 h2 h3; exists S. Qed.

(** the hypotheses of C55_full are met by an edge times an edge: two triangles that share the diagonal [0; 3] *)
Theorem C55_edge : [/\ built ex_edge, increasing ex_edge, sc_ncell ex_edge 0 = Ok 2, vertices_in ex_edge 2 &
  exists2 S, TriangulatedProduct_full ex_edge ex_edge = Ok S & [/\ sc_ncell S 0 = Ok 4, sc_ncell S 1 = Ok 5 & sc_ncell S 2 = Ok 2]].
Proof.
have b : built ex_edge := ex_add2_built [:: 0] [:: 0; 1].
have s1 : all_simplices (sorted ltn) ex_edge by clear; vm_cast_no_check (erefl true).
have s2 : all_simplices (all (gtn 2)) ex_edge by clear; vm_cast_no_check (erefl true).
have n0 : sc_ncell ex_edge 0 = Ok 2 by clear; vm_cast_no_check (erefl (Ok 2)).
have k : isok (TriangulatedProduct_full ex_edge ex_edge) by clear; vm_cast_no_check (erefl true).
have e0 : sc_ncell (okx (TriangulatedProduct_full ex_edge ex_edge)) 0 = Ok 4 by clear; vm_cast_no_check (erefl (Ok 4)).
have e1 : sc_ncell (okx (TriangulatedProduct_full ex_edge ex_edge)) 1 = Ok 5 by clear; vm_cast_no_check (erefl (Ok 5)).
have e2 : sc_ncell (okx (TriangulatedProduct_full ex_edge ex_edge)) 2 = Ok 2 by clear; vm_cast_no_check (erefl (Ok 2)).
exact (And5 b (inc_by b s1) n0 (vin_by b s2) (pack3 k e0 e1 e2)).
Qed.
(** maxdim does not give the maxdim-skeleton of the product: with maxdim = 1 the diagonal is missing *)
Theorem C55_skeleton : exists S1 S,
  [/\ TriangulatedProduct ex_edge ex_edge 1 2 = Ok S1, TriangulatedProduct_full ex_edge ex_edge = Ok S, contains S [:: 0; 3] & ~ contains S1 [:: 0; 3]].
Proof.
have k : isok (TriangulatedProduct_full ex_edge ex_edge) by clear; vm_cast_no_check (erefl true).
have k1 : isok (TriangulatedProduct ex_edge ex_edge 1 2) by clear; vm_cast_no_check (erefl true).
have F : found (sc_find (okx (TriangulatedProduct_full ex_edge ex_edge)) [:: 0; 3]) by clear; vm_cast_no_check (erefl true).
have G : sc_find (okx (TriangulatedProduct ex_edge ex_edge 1 2)) [:: 0; 3] = Ok None by clear; vm_cast_no_check (erefl (Ok (None : option nat))).
exact (pack_find k1 k F G).
Qed.
(** vertices of X that are not 0, ..., X.ncells(0) - 1 make the default n too small: two points times two points has three vertices *)
Theorem C55_collision : exists S, [/\ TriangulatedProduct_full ex_pts02 ex_pts01 = Ok S, sc_ncell ex_pts02 0 = Ok 2, sc_ncell ex_pts01 0 = Ok 2 & sc_ncell S 0 = Ok 3].
Proof.
have k : isok (TriangulatedProduct_full ex_pts02 ex_pts01) by clear; vm_cast_no_check (erefl true).
have e0 : sc_ncell ex_pts02 0 = Ok 2 by clear; vm_cast_no_check (erefl (Ok 2)).
have e1 : sc_ncell ex_pts01 0 = Ok 2 by clear; vm_cast_no_check (erefl (Ok 2)).
have e2 : sc_ncell (okx (TriangulatedProduct_full ex_pts02 ex_pts01)) 0 = Ok 3 by clear; vm_cast_no_check (erefl (Ok 3)).
exact (pack0 k e0 e1 e2).
Qed.
