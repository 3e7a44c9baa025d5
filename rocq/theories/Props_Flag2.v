(** C40 continued: FlagFiltration_extension and CompleteFlagFiltration. *)
From mathcomp Require Import all_ssreflect all_algebra zify.
From Verif Require Import Outcome M_SparseVec M_Perm M_ColMatrix M_CSC M_Sorted M_Simplicial M_Filtration M_Flag S_Perm S_Simplicial S_Filtration S_Flag P_Outcome P_Trie P_Simplicial P_ScOps P_ScBuild P_Util P_Filtration Props_Simplicial Props_Filtration P_Flag P_Flag2 Props_Flag P_Flag3.
Set Implicit Arguments.
Unset Strict Implicit.
Unset Printing Implicit Defensive.

Section C40.
Variable V : eqType.
Variable v0 : V.
Variable le : V -> V -> bool.
Hypothesis le_total : total le.
Hypothesis le_trans : transitive le.
Hypothesis le_anti : antisymmetric le.
Implicit Types (es : seq (fedge V)) (s : seq nat).

(** FlagFiltration_extension, maxdim >= 1: the filtration is that of FlagFiltration, and inds has one entry per simplex.
    For a vertex the entry is the vertex; for the simplex s with index i of dimension d >= 1 the entry inds[d][i] is the
    position, in the sorted edge list, of an edge of s whose value is the value of s. *)
Theorem C40_flag_extension es n maxdim t0 : simple n (pairs_of es) -> 0 < maxdim ->
  exists F inds, [/\ flag_extension v0 le es n maxdim t0 = Ok (F, inds), flag_filtration v0 le es n maxdim t0 = Ok F,
    size inds = maxdim.+1,
    forall d, d <= maxdim -> exists2 ids, oget inds d = Ok ids & sc_ncell (fl_X F) d = Ok (size ids) &
    forall s i, s != [::] -> sc_find (fl_X F) s = Ok (Some i) ->
      exists ids k, [/\ oget inds (size s).-1 = Ok ids, oget ids i = Ok k &
        if size s == 1 then s = [:: k]
        else exists e, [/\ oget (fe_sort le es) k = Ok e, fe_s e \in s, fe_t e \in s & fvalue F s (fe_r e)]]].
Proof.
move=> sm md; have pm : perm_eq (pairs_of (fe_sort le es)) (pairs_of es) by exact: perm_map (fe_sort_perm le es).
have sm' : simple n (pairs_of (fe_sort le es)) by apply: simple_perm sm; rewrite perm_sym.
have [F [inds [E1 E2 [cl [/= iv sz dims fo]]]]] := flagx_ok v0 t0 md sm'.
have [F' [E2' b H]] := flag_loop_ok v0 maxdim t0 sm'.
have e : F' = F by move: E2'; rewrite -/(flag_filtration v0 le es n maxdim t0) E2 => -[].
rewrite e in b H {E2'}; have [bX _ _ cv _] := C28_aligned b.
exists F, inds; split=> //.
- move=> d dm; exists (nth [::] inds d); first by apply: oget_nth; rewrite sz.
  by rewrite fo // size_map (ncell_ok iv) //; apply: leq_trans dims.
- move=> s i s0 fi; have cs : contains (fl_X F) s by exists i.
  have [v fv] := (cv s s0).1 cs; have [[cq zs] ve] := (H s v s0).1 fv.
  have zd : (size s).-1 < maxdim.+1.
    by move: zs s0 md; clear; rewrite /max_vertices -size_eq0; move: (size s) => q; lia.
  have [_ _ _ _ T] := iv; move: fi; rewrite (find_ok T s0); case: ifP => // si [ei].
  exists (nth [::] inds (size s).-1), (lastix (fe_sort le es) s); split.
  + by apply: oget_nth; rewrite sz.
  + rewrite fo // (oget_nth 0) ?size_map -?ei ?index_mem // (nth_map [::]) ?index_mem // nth_index //.
  + case: eqP => s1.
      case: s s1 {s0 cs fv cq zs ve zd si ei} => [|x []] // _; congr [:: _]; apply/esym.
      rewrite /lastix; have : forall e, e \in fe_sort le es -> ~~ inside [:: x] e := single_inside x sm'.
      move: (fe_sort le es) 0 => l; elim: l => // f l IH k /= h; rewrite (negbTE (h f (mem_head _ _))); apply: IH => f2 fl; apply: h.
      by rewrite inE fl orbT.
    have sz2 : 1 < size s by move: s1 s0; case: (s) => [|? []].
    have [e0 [h1 h2 /andP [h3 h4] h5]] := lastix_spec t0 sz2 cq; exists e0; split=> //; first by rewrite (oget_nth e0) // h2.
    by apply/H => //; split.
Qed.

(** FlagFiltration_extension with maxdim = 0 reads inds[1] outside the vector. *)
Theorem C40_flag_extension_dim0 es n t0 F : flag_filtration v0 le es n 0 t0 = Ok F -> flag_extension v0 le es n 0 t0 = UB.
Proof.
rewrite /flag_filtration /flag_loop /flag_extension; case: fl_of => [F0| | |] //; cbn [obind] => H.
have {H} : exists F1, ofold (fun F k => do r <- fl_add v0 F t0 [:: k]; Ok r.1) F0 (iota 0 n) = Ok F1.
  by case: ofold H => [F1| | |] //; exists F1.
case=> F1; suff : forall l F0 inds, size inds = 1 -> ofold (fun F k => do r <- fl_add v0 F t0 [:: k]; Ok r.1) F0 l = Ok F1 ->
  exists2 st, ofold (fun st k => do r <- fl_add v0 st.1 t0 [:: k]; do inds <- ind_push st.2 0 k; Ok (r.1, inds)) (F0, inds) l = Ok st &
    size st.2 = 1.
  move=> H E; have [|st Es sz] := H _ _ (nseq 1 [::]) _ E; first by [].
  by rewrite Es; cbn [obind]; move: sz; case: (st.2) => [|? []].
elim=> [|k l IH] F2 inds sz; first by exists (F2, inds).
cbn [ofold fst snd]; case: fl_add => [r| | |] //; cbn [obind] => E.
case: inds sz => [|v []] // _; rewrite /ind_push /=; apply: IH => //.
Qed.

Lemma emitl_ext nb nb' depth iter spx l : {subset l <= iter} -> (forall k, k \in iter -> nb k = nb' k) ->
  emitl nb depth iter spx l = emitl nb' depth iter spx l.
Proof.
elim: depth iter spx l => [|d IH] iter spx l li H; first by [].
rewrite !emitlE; congr flatten; apply/eq_in_map => k /li ki; congr (_ :: _); rewrite H // /emit.
by apply: IH => // x; rewrite mem_filter => /andP [_]; exact: H.
Qed.

Lemma complete_edgeE es e n maxdim t0 F nbrs F' nbrs' : 1 < maxdim -> finv v0 n maxdim t0 es F nbrs ->
  simple n (pairs_of (rcons es e)) ->
  flag_edge v0 maxdim (F, nbrs) e = Ok (F', nbrs') -> finv v0 n maxdim t0 (rcons es e) F' nbrs' ->
  complete_edge v0 n maxdim (F, nbrs) e = Ok (F', nbrs').
Proof.
move=> m1 fi sm E fi'; have [li lj ij nadj] := step_facts sm; have sz := fi_n fi.
have li' : fe_s e < size nbrs by rewrite sz.
have lj' : fe_t e < size nbrs by rewrite sz.
have [nb [En sn Hn]] := add_nbrsE li' lj' ij.
move: E; rewrite (flag_edgeE fi sm) En /newl m1; cbn [ofold]; rewrite /complete_edge {1}/addt.
rewrite (oget_nth [::] li') (oget_nth [::] lj') En fl_addE [in X in _ -> X]fl_addE sorted_sort; [|exact: leq_trans|exact: sort_sorted leq_total _].
case: fl_add_directed => [r| | |] //; cbn [obind] => E.
have e1 : nb = nbrs' by case: ofold E => [F2| | |] //= [].
have szn : size nb = n by rewrite sn.
rewrite flag_recE //.
- rewrite /emit (emitl_ext (nb' := nth [::] nbrs)) //; move=> k ki; rewrite Hn.
  have := spx_it fi sm; rewrite cat_uniq => /and3P [_ /hasPn /(_ k ki) + _]; rewrite /= mem_sort !inE.
  by case: eqP => //; case: eqP.
- move=> k; rewrite szn => kn; rewrite e1; have [so m] := fi_nb fi' kn; split=> //; rewrite m.
  have [h1 _ _] := sm; rewrite /adjacent orbb; apply/negP => /h1 [_ _] /=; exact.
- exact: it_sorted fi sm.
- by move=> k /(it_lt fi sm); rewrite szn.
- by move: m1; clear; lia.
Qed.

(** CompleteFlagFiltration, maxdim >= 2, edges given by increasing value: the filtration is FlagFiltration's.  The complex
    returned with it is empty: X is copied into F before any simplex is added. *)
Theorem C40_complete_flag es n maxdim t0 : simple n (pairs_of es) -> 1 < maxdim -> fe_sort le es = es ->
  exists F, [/\ flag_filtration v0 le es n maxdim t0 = Ok F, complete_flag v0 es n maxdim t0 = Ok (sc_new maxdim, F) &
    forall s, s != [::] -> ~ contains (sc_new maxdim) s].
Proof.
move=> sm m1 so; rewrite /flag_filtration so.
have [F0 [F1 [E0 X0 E1 b1 H1]]] := flag_verts_ok v0 maxdim t0 (leqnn n).
have fi := finv_start maxdim H1 b1.
have : exists F' nbrs', ofold (flag_edge v0 maxdim) (F1, nseq n [::]) es = Ok (F', nbrs') /\
    ofold (complete_edge v0 n maxdim) (F1, nseq n [::]) es = Ok (F', nbrs').
  clear so E0 E1 H1; move: fi sm; rewrite -[es in simple _ (pairs_of es)]cat0s; move: [::] F1 b1 (nseq n [::]).
  elim: es => [|e es IH] es1 F b nbrs fi; first by exists F, nbrs.
  rewrite -cat_rcons => sm.
  have sm1 : simple n (pairs_of (rcons es1 e)).
    move: sm; rewrite /pairs_of map_cat => -[h1 h2 h3]; split.
    - by move=> p pi; apply: h1; rewrite mem_cat pi.
    - by move: h2; rewrite cat_uniq => /andP [].
    - by move=> p pi; have := h3 p; rewrite !mem_cat pi negb_or => /(_ isT) /andP [].
  have [F2 [nb2 [E fi2]]] := flag_edge_ok fi sm1.
  have [F3 [nb3 [E3 E4]]] := IH _ _ (fi_b fi2) _ fi2 sm; exists F3, nb3.
  by cbn [ofold]; rewrite E (complete_edgeE m1 fi sm1 E fi2); cbn [obind].
case=> F' [nb [E2 E3]]; exists F'; rewrite /flag_loop /complete_flag (maxn_idPl (ltnW m1)) E0 /= E1 /= E2 E3; split=> //.
by move=> s s0 [i]; rewrite /sc_find /sc_new /=; case: s s0.
Qed.
End C40.

(** Non-vacuity: the edges of a triangle.  And with maxdim = 1 the filtration of CompleteFlagFiltration has the triangle. *)
Definition tri_es : seq (fedge nat_eqType) := [:: FEdge 0 1 (1 : nat_eqType); FEdge 0 2 (2 : nat_eqType); FEdge 1 2 (5 : nat_eqType)].
Theorem C40_extension_nonvacuous :
  [/\ simple 3 (pairs_of tri_es), fe_sort leq tri_es = tri_es,
      exists F, flag_extension 0 leq tri_es 3 2 0 = Ok (F, [:: [:: 0; 1; 2]; [:: 0; 1; 2]; [:: 2]]),
      exists2 F, complete_flag 0 tri_es 3 2 0 = Ok (sc_new 2, F) & fvalue F [:: 0; 1; 2] 5 &
      exists2 F, complete_flag 0 tri_es 3 1 0 = Ok (sc_new 1, F) & fvalue F [:: 0; 1; 2] 5].
Proof.
split; try by vm_compute.
- split=> //; first by move=> p; rewrite !inE => /or3P [||] /eqP ->.
  by move=> p; rewrite !inE => /or3P [||] /eqP ->.
- by eexists; vm_compute; reflexivity.
- by eexists; [vm_compute; reflexivity|exists 0; by vm_compute].
- by eexists; [vm_compute; reflexivity|exists 0; by vm_compute].
Qed.
