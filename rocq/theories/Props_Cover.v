(** C51: covers, diagrams of subsets, and the Nerve and Rips functors. *)
From mathcomp Require Import all_ssreflect all_algebra zify.
From Verif Require Import Outcome M_SparseVec M_ColMatrix M_Sorted M_Simplicial M_SimplicialMap M_Filtration M_Flag M_Nerve M_Landmark M_Functor M_Cover
  S_Simplicial S_SimplicialMap S_Flag P_Outcome P_Util P_ScOps P_Functor P_Flag P_Nerve P_Dims Props_Simplicial Props_Util Props_SimplicialMap Props_Flag Props_Nerve Props_Landmark.
Set Implicit Arguments.
Unset Strict Implicit.
Unset Printing Implicit Defensive.

(** ** sets *)
Lemma foldl_insert s l : sorted ltn s -> sorted ltn (foldl set_insert s l) /\ forall x, (x \in foldl set_insert s l) = (x \in s) || (x \in l).
Proof.
elim: l s => [|i l IH] s so /=; first by split=> // x; rewrite orbF.
have [h1 h2] := IH _ (set_insert_sorted i so); split=> // x; rewrite h2 set_insert_mem inE.
by case: (x == i); case: (x \in s).
Qed.
Theorem C51_set_union s1 s2 : sorted ltn (set_union s1 s2) /\ forall x, (x \in set_union s1 s2) = (x \in s1) || (x \in s2).
Proof.
have [a1 m1] := @foldl_insert [::] s1 isT; have [a2 m2] := foldl_insert s2 a1.
by split=> // x; rewrite m2 m1.
Qed.
Theorem C51_set_intersection a b : sorted ltn a -> sorted ltn b ->
  sorted ltn (set_intersection a b) /\ forall x, (x \in set_intersection a b) = (x \in a) && (x \in b).
Proof. by move=> sa sb; have [] := C31_intersect sa sb. Qed.

(** ** inclusion maps *)
Lemma advance_ok t ct x : x \in t -> advance t ct x = Ok (drop (index x t) t, ct + index x t).
Proof.
elim: t ct => // y t IH ct; rewrite inE eq_sym /=; case: eqP => [->|_] /= h; first by rewrite addn0.
by rewrite IH // addSnnS.
Qed.
Lemma advance_no t ct x : x \notin t -> advance t ct x = UB.
Proof. by elim: t ct => //= y t IH ct; rewrite inE negb_or eq_sym => /andP[-> h]; exact: IH. Qed.
Lemma incl_loop_ok s t u ct : sorted ltn (u ++ t) -> sorted ltn s -> {subset s <= t} -> ct = size u ->
  incl_loop s t ct = Ok [seq index x (u ++ t) | x <- s].
Proof.
elim: s t u ct => //= x s IH t u ct so ss sub ->.
have xt : x \in t by apply: sub; rewrite mem_head.
rewrite advance_ok //=; have ix : index x (u ++ t) = size u + index x t.
  rewrite index_cat ifF //; apply/negP => xu; have := ltn_uniq so; rewrite cat_uniq => /and3P[_ /hasPn/(_ x xt)].
  by rewrite /= xu.
have e : u ++ t = (u ++ take (index x t) t) ++ drop (index x t) t by rewrite -catA cat_take_drop.
rewrite (IH _ (u ++ take (index x t) t)) -?e //= ?ix //.
- exact: path_sorted ss.
- move=> y ys; have xy : x < y by move: ss; rewrite (path_sortedE ltn_trans) => /andP[/allP/(_ y ys)].
  have := sub y; rewrite inE ys orbT => /(_ isT); rewrite -{1}(cat_take_drop (index x t) t) mem_cat => /orP[yt|] //.
  have st : sorted ltn t by apply: subseq_sorted so; [exact: ltn_trans|exact: suffix_subseq].
  exfalso; have lj : index y t < index x t.
    by rewrite -{1}(cat_take_drop (index x t) t) index_cat yt -{2}(size_takel (index_size x t)) index_mem.
  have yt' := mem_take yt; have := sorted_ltn_nth ltn_trans 0 st (index y t) (index x t).
  rewrite !inE !index_mem !nth_index // => /(_ yt' xt lj); move: xy; clear; lia.
- by rewrite size_cat size_takel ?index_size.
Qed.
(** vertex_inclusion_map(s, t) of a set into a larger one: position k of s goes to the position of the same element in t *)
Theorem C51_vertex_inclusion s t : sorted ltn s -> sorted ltn t -> {subset s <= t} ->
  exists i, [/\ vertex_inclusion_map s t = Ok i, size i = size s, sorted ltn i &
    forall k, k < size s -> nth 0 i k < size t /\ nth 0 t (nth 0 i k) = nth 0 s k].
Proof.
move=> ss st sub; exists [seq index x t | x <- s].
rewrite /vertex_inclusion_map (@incl_loop_ok _ _ [::]) // size_map; split=> //.
  elim: s ss sub => // x s IH ss sub /=; rewrite (path_sortedE ltn_trans); apply/andP; split; last first.
    by apply: IH; [exact: path_sorted ss|move=> y ys; apply: sub; rewrite inE ys orbT].
  apply/allP => j /mapP[y ys ->]; have xy : x < y by move: ss; rewrite /= (path_sortedE ltn_trans) => /andP[/allP/(_ y ys)].
  have xt : x \in t by apply: sub; rewrite mem_head.
  have yt : y \in t by apply: sub; rewrite inE ys orbT.
  rewrite ltnNge leq_eqVlt; apply/negP => /orP[/eqP e|l].
    by move: xy; rewrite -(nth_index 0 xt) -e nth_index // ltnn.
  have := sorted_ltn_nth ltn_trans 0 st (index y t) (index x t); rewrite !inE !index_mem !nth_index // => /(_ yt xt l).
  by move: xy; clear; lia.
move=> k lk; have ki : nth 0 s k \in t by apply: sub; exact: mem_nth.
by rewrite (nth_map 0) // index_mem nth_index.
Qed.
(** of a set that is not included: the search runs past the end *)
Theorem C51_vertex_inclusion_outside s t : sorted ltn s -> sorted ltn t -> ~ {subset s <= t} -> vertex_inclusion_map s t = UB.
Proof.
rewrite /vertex_inclusion_map; move: 0 => ct; elim: s t ct => [|x s IH] t ct ss st ns; first by exfalso; apply: ns.
rewrite /=; case: (boolP (x \in t)) => xt; last by rewrite advance_no.
rewrite advance_ok //= IH ?(path_sorted ss) //; first by apply: subseq_sorted st; [exact: ltn_trans|exact: drop_subseq].
by move=> sub; apply: ns => y; rewrite inE => /orP[/eqP -> //|/sub/mem_drop].
Qed.

(** ** the diagram of unions *)
Definition incl (s t : seq nat) : seq nat := [seq index x t | x <- s].
Lemma inclE s t : sorted ltn s -> sorted ltn t -> {subset s <= t} -> vertex_inclusion_map s t = Ok (incl s t).
Proof. by move=> ss st sub; rewrite /vertex_inclusion_map (@incl_loop_ok _ _ [::]). Qed.
Section Path.
Variable S : seq (seq nat).
Hypothesis so : all (sorted ltn) S.
Notation U := (nth [::] S).
Lemma U_sorted i : sorted ltn (U i).
Proof. by case: (ltnP i (size S)) => h; [exact: (allP so _ (mem_nth _ h))|rewrite nth_default]. Qed.
Definition unode (j : nat) : seq nat := if odd j then set_union (U j./2) (U j./2.+1) else U j./2.
Definition uedge (j : nat) : nat * nat := if odd j then (j.+1, j) else (j, j.+1).
Definition udata (j : nat) : seq nat := incl (unode (uedge j).1) (unode (uedge j).2).
Lemma unode_sorted j : sorted ltn (unode j).
Proof. by rewrite /unode; case: odd; [have [] := C51_set_union (U j./2) (U j./2.+1)|exact: U_sorted]. Qed.
Lemma unode_sub j : ~~ odd j -> {subset unode j <= unode j.+1}.
Proof.
move=> oj x; rewrite /unode /= oj (negbTE oj) uphalf_half (negbTE oj) add0n => h.
by have [_ ->] := C51_set_union (U j./2) (U j./2.+1); rewrite h.
Qed.
Lemma unode_sub' j : odd j -> {subset unode j.+1 <= unode j}.
Proof.
move=> oj x; rewrite /unode /= oj uphalf_half oj add1n /= => h.
by have [_ ->] := C51_set_union (U j./2) (U j./2.+1); rewrite h orbT.
Qed.
Lemma uedge_sub j : {subset unode (uedge j).1 <= unode (uedge j).2}.
Proof. by rewrite /uedge; case: ifP => [/unode_sub'|/negbT/unode_sub]. Qed.
Lemma udataE j : vertex_inclusion_map (unode (uedge j).1) (unode (uedge j).2) = Ok (udata j).
Proof. by apply: inclE; [exact: unode_sorted|exact: unode_sorted|exact: uedge_sub]. Qed.

Lemma oget_mkseq (A : Type) (d : A) (f : nat -> A) n i : i < n -> oget (mkseq f n) i = Ok (f i).
Proof. by move=> h; rewrite (oget_nth d) ?size_mkseq // nth_mkseq. Qed.

Definition ust (a b : nat) := Diagram (mkseq unode a) (mkseq udata b) (mkseq uedge b).
Lemma unode_even k : unode (2 * k) = U k. Proof. by rewrite /unode mul2n odd_double doubleK. Qed.
Lemma unode_odd k : unode (2 * k).+1 = set_union (U k) (U k.+1).
Proof. by rewrite /unode mul2n /= odd_double uphalf_double. Qed.
Lemma add_nodeE a b : add_node (ust a b) (unode a) = (ust a.+1 b, a).
Proof. by rewrite /add_node /ust /= size_mkseq mkseqS. Qed.
Lemma add_edgeE a b x y : uedge b = (x, y) -> add_edge (ust a b) x y (udata b) = ust a b.+1.
Proof. by move=> e; rewrite /add_edge /ust /= !mkseqS e. Qed.
Lemma half1 k : (if 0 < k then
      do a <- oget (d_node (ust (2 * k).+1 (2 * k).-1)) (2 * k); do b <- oget (d_node (ust (2 * k).+1 (2 * k).-1)) (2 * k).-1;
      do f <- vertex_inclusion_map a b; Ok (add_edge (ust (2 * k).+1 (2 * k).-1) (2 * k) (2 * k).-1 f)
    else Ok (ust (2 * k).+1 (2 * k).-1)) = Ok (ust (2 * k).+1 (2 * k)).
Proof.
case: k => // k; rewrite [0 < _]/=; rewrite mul2n doubleS [_.+2.-1]/=; cbn [d_node ust].
rewrite (oget_mkseq [::]) //; cbn [obind]; rewrite (oget_mkseq [::]) //; cbn [obind].
have ue : uedge k.*2.+1 = (k.*2.+2, k.*2.+1) by rewrite /uedge /= odd_double.
by have := udataE k.*2.+1; rewrite ue => ->; cbn [obind]; rewrite -(add_edgeE _ ue).
Qed.
Lemma union_stepE k : k < (size S).-1 -> union_step S (ust (2 * k) (2 * k).-1) k = Ok (ust (2 * k.+1) (2 * k.+1).-1).
Proof.
move=> lk; have lk' : k.+1 < size S by move: lk; clear; lia.
rewrite /union_step (oget_nth [::]) ?(ltnW lk') //; cbn [obind]; rewrite -{1}unode_even add_nodeE half1; cbn [obind].
rewrite (ltn_eqF lk) (oget_nth [::]) //; cbn [obind]; rewrite -unode_odd add_nodeE; cbn [d_node ust].
rewrite (oget_mkseq [::]) //; cbn [obind]; rewrite (oget_mkseq [::]) //; cbn [obind].
have ue : uedge (2 * k) = (2 * k, (2 * k).+1) by rewrite /uedge mul2n odd_double.
by have := udataE (2 * k); rewrite ue => ->; cbn [obind]; rewrite (add_edgeE _ ue) mulnS.
Qed.
Lemma union_last k : k.+1 = size S -> union_step S (ust (2 * k) (2 * k).-1) k = Ok (ust (2 * k).+1 (2 * k)).
Proof.
move=> e; rewrite /union_step (oget_nth [::]) -?e //; cbn [obind]; rewrite -{1}unode_even add_nodeE half1; cbn [obind].
by rewrite eqxx.
Qed.
Lemma union_loop k : k < size S -> ofold (union_step S) (Diagram [::] [::] [::]) (iota 0 k) = Ok (ust (2 * k) (2 * k).-1).
Proof.
elim: k => // k IH kS; rewrite -[in iota _ _]addn1 iotaD ofold_cat IH ?(ltnW kS) //; cbn [obind ofold iota].
by rewrite add0n union_stepE //; move: kS; clear; lia.
Qed.
Lemma union_diagramE m : size S = m.+1 -> linear_subset_union_diagram S = Ok (ust (2 * m).+1 (2 * m)).
Proof.
move=> e; rewrite /linear_subset_union_diagram e -[in iota _ _]addn1 iotaD ofold_cat union_loop ?e //; cbn [obind ofold iota].
by rewrite add0n union_last.
Qed.
End Path.

(** linear_subset_union_diagram of m + 1 sets: the sets at the even places, the unions of neighbours between them, and
    2 m edges, each from a set to a union with the inclusion *)
Theorem C51_union_diagram S m : all (sorted ltn) S -> size S = m.+1 ->
  exists D, [/\ linear_subset_union_diagram S = Ok D,
    size (d_node D) = (2 * m).+1 /\ size (d_edata D) = 2 * m,
    (forall i, i <= m -> nth [::] (d_node D) (2 * i) = nth [::] S i),
    (forall i, i < m -> nth [::] (d_node D) (2 * i).+1 = set_union (nth [::] S i) (nth [::] S i.+1)) &
    d_elist D = mkseq (fun j => if odd j then (j.+1, j) else (j, j.+1)) (2 * m) /\
    forall j, j < 2 * m -> vertex_inclusion_map (nth [::] (d_node D) (nth (0, 0) (d_elist D) j).1) (nth [::] (d_node D) (nth (0, 0) (d_elist D) j).2) =
      Ok (nth [::] (d_edata D) j)].
Proof.
move=> so e; exists (ust S (2 * m).+1 (2 * m)); rewrite (union_diagramE so e); split=> //; cbn [ust d_node d_edata d_elist]; rewrite ?size_mkseq //.
- by move=> i im; rewrite nth_mkseq ?unode_even //; move: im; clear; lia.
- by move=> i im; rewrite nth_mkseq ?unode_odd //; move: im; clear; lia.
split=> // j lj; rewrite !(nth_mkseq _ _ lj) -(udataE so j).
by have [h1 h2] : (uedge j).1 < (2 * m).+1 /\ (uedge j).2 < (2 * m).+1; [rewrite /uedge; case: ifP => h /=; move: lj h; clear; lia|rewrite !nth_mkseq].
Qed.
Theorem C51_union_diagram_empty : linear_subset_union_diagram [::] = Ok (Diagram [::] [::] [::]).
Proof. by []. Qed.

(** ** the diagram of intersections *)
Section Inter.
Variable S : seq (seq nat).
Hypothesis so : all (sorted ltn) S.
Notation U := (nth [::] S).
Definition inode (j : nat) : seq nat := if odd j then set_intersection (U j./2) (U j./2.+1) else U j./2.
(** edge j of the list: the target of the odd edges is not where the inclusion goes *)
Definition iedge (j : nat) : nat * nat := if odd j then (j, j.+1./2) else (j.+1, j).
Definition idata (j : nat) : seq nat := if odd j then incl (inode j) (inode j.+1) else incl (inode j.+1) (inode j).
Lemma inode_sorted j : sorted ltn (inode j).
Proof. by rewrite /inode; case: odd; [have [] := C51_set_intersection (U_sorted so j./2) (U_sorted so j./2.+1)|exact: U_sorted]. Qed.
Lemma inode_sub j : ~~ odd j -> {subset inode j.+1 <= inode j}.
Proof.
move=> oj x; rewrite /inode /= oj (negbTE oj) uphalf_half (negbTE oj) add0n.
by have [_ ->] := C51_set_intersection (U_sorted so j./2) (U_sorted so j./2.+1) => /andP[].
Qed.
Lemma inode_sub' j : odd j -> {subset inode j <= inode j.+1}.
Proof.
move=> oj x; rewrite /inode /= oj uphalf_half oj add1n /=.
by have [_ ->] := C51_set_intersection (U_sorted so j./2) (U_sorted so j./2.+1) => /andP[].
Qed.
Definition ist (a b : nat) := Diagram (mkseq inode a) (mkseq idata b) (mkseq iedge b).
Lemma inode_even k : inode (2 * k) = U k. Proof. by rewrite /inode mul2n odd_double doubleK. Qed.
Lemma inode_odd k : inode (2 * k).+1 = set_intersection (U k) (U k.+1).
Proof. by rewrite /inode mul2n /= odd_double uphalf_double. Qed.
Lemma iadd_nodeE a b : add_node (ist a b) (inode a) = (ist a.+1 b, a).
Proof. by rewrite /add_node /ist /= size_mkseq mkseqS. Qed.
Lemma iadd_edgeE a b x y : iedge b = (x, y) -> add_edge (ist a b) x y (idata b) = ist a b.+1.
Proof. by move=> e; rewrite /add_edge /ist /= !mkseqS e. Qed.
Lemma ihalf1 k : (if 0 < k then
      do a <- oget (d_node (ist (2 * k).+1 (2 * k).-1)) (2 * k).-1; do b <- oget (d_node (ist (2 * k).+1 (2 * k).-1)) (2 * k);
      do f <- vertex_inclusion_map a b; Ok (add_edge (ist (2 * k).+1 (2 * k).-1) (2 * k).-1 k f)
    else Ok (ist (2 * k).+1 (2 * k).-1)) = Ok (ist (2 * k).+1 (2 * k)).
Proof.
case: k => // k; rewrite [0 < _]/=; rewrite mul2n doubleS [_.+2.-1]/=; cbn [d_node ist].
rewrite (oget_mkseq [::]) //; cbn [obind]; rewrite (oget_mkseq [::]) //; cbn [obind].
have od : odd k.*2.+1 by rewrite /= odd_double.
have ue : iedge k.*2.+1 = (k.*2.+1, k.+1) by rewrite /iedge od /= doubleK.
rewrite inclE ?inode_sorted //; last exact: inode_sub'.
by cbn [obind]; rewrite -(iadd_edgeE _ ue) /idata od.
Qed.
Lemma inter_stepE k : k < (size S).-1 -> inter_step S (ist (2 * k) (2 * k).-1) k = Ok (ist (2 * k.+1) (2 * k.+1).-1).
Proof.
move=> lk; have lk' : k.+1 < size S by move: lk; clear; lia.
rewrite /inter_step (oget_nth [::]) ?(ltnW lk') //; cbn [obind]; rewrite -{1}inode_even iadd_nodeE ihalf1; cbn [obind].
rewrite (ltn_eqF lk) (oget_nth [::]) //; cbn [obind]; rewrite -inode_odd iadd_nodeE; cbn [d_node ist].
rewrite (oget_mkseq [::]) //; cbn [obind]; rewrite (oget_mkseq [::]) //; cbn [obind].
have od : ~~ odd (2 * k) by rewrite mul2n odd_double.
have ue : iedge (2 * k) = ((2 * k).+1, 2 * k) by rewrite /iedge (negbTE od).
rewrite inclE ?inode_sorted //; last exact: inode_sub.
have -> : incl (inode (2 * k).+1) (inode (2 * k)) = idata (2 * k) by rewrite /idata (negbTE od).
by cbn [obind]; rewrite (iadd_edgeE _ ue) mulnS.
Qed.
Lemma inter_last k : k.+1 = size S -> inter_step S (ist (2 * k) (2 * k).-1) k = Ok (ist (2 * k).+1 (2 * k)).
Proof.
move=> e; rewrite /inter_step (oget_nth [::]) -?e //; cbn [obind]; rewrite -{1}inode_even iadd_nodeE ihalf1; cbn [obind].
by rewrite eqxx.
Qed.
Lemma inter_loop k : k < size S -> ofold (inter_step S) (Diagram [::] [::] [::]) (iota 0 k) = Ok (ist (2 * k) (2 * k).-1).
Proof.
elim: k => // k IH kS; rewrite -[in iota _ _]addn1 iotaD ofold_cat IH ?(ltnW kS) //; cbn [obind ofold iota].
by rewrite add0n inter_stepE //; move: kS; clear; lia.
Qed.
Lemma inter_diagramE m : size S = m.+1 -> linear_cover_intersection_diagram S = Ok (ist (2 * m).+1 (2 * m)).
Proof.
move=> e; rewrite /linear_cover_intersection_diagram e -[in iota _ _]addn1 iotaD ofold_cat inter_loop ?e //; cbn [obind ofold iota].
by rewrite add0n inter_last.
Qed.
End Inter.
(** linear_cover_intersection_diagram of m + 1 sets: the sets at the even places, the intersections of neighbours between them.  The
    even edges are the inclusions of an intersection into the set before it; the odd ones carry the inclusion of the intersection
    into the set after it, but their recorded target is node (j+1)/2, half of the right one *)
Theorem C51_intersection_diagram S m : all (sorted ltn) S -> size S = m.+1 ->
  exists D, [/\ linear_cover_intersection_diagram S = Ok D,
    size (d_node D) = (2 * m).+1 /\ size (d_edata D) = 2 * m,
    (forall i, i <= m -> nth [::] (d_node D) (2 * i) = nth [::] S i),
    (forall i, i < m -> nth [::] (d_node D) (2 * i).+1 = set_intersection (nth [::] S i) (nth [::] S i.+1)) &
    d_elist D = mkseq (fun j => if odd j then (j, j.+1./2) else (j.+1, j)) (2 * m) /\
    forall j, j < 2 * m -> vertex_inclusion_map (nth [::] (d_node D) (if odd j then j else j.+1)) (nth [::] (d_node D) (if odd j then j.+1 else j)) =
      Ok (nth [::] (d_edata D) j)].
Proof.
move=> so e; exists (ist S (2 * m).+1 (2 * m)); rewrite (inter_diagramE so e); split=> //; cbn [ust ist d_node d_edata d_elist]; rewrite ?size_mkseq //.
- by move=> i im; rewrite nth_mkseq ?inode_even //; move: im; clear; lia.
- by move=> i im; rewrite nth_mkseq ?inode_odd //; move: im; clear; lia.
split=> // j lj; rewrite (nth_mkseq _ _ lj) /idata; case: ifP => [|/negbT] oj; rewrite !nth_mkseq ?ltnS ?(ltnW lj) //.
  by rewrite inclE ?inode_sorted //; exact: inode_sub'.
by rewrite inclE ?inode_sorted //; exact: inode_sub.
Qed.
(** so with two or more sets the recorded edges are not the zigzag path *)
Theorem C51_intersection_diagram_wrong S m D : all (sorted ltn) S -> size S = m.+2 -> linear_cover_intersection_diagram S = Ok D ->
  nth (0, 0) (d_elist D) 1 = (1, 1).
Proof. by move=> so e E; have [D' [E' _ _ _ [h _]]] := C51_intersection_diagram so e; move: E'; rewrite E => -[->]; rewrite h mulnS. Qed.
