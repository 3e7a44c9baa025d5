(** FlagFiltration_extension and CompleteFlagFiltration. *)
From mathcomp Require Import all_ssreflect all_algebra zify.
From Verif Require Import Outcome M_SparseVec M_Perm M_ColMatrix M_CSC M_Sorted M_Simplicial M_Filtration M_Flag S_Perm S_Simplicial S_Filtration S_Flag P_Outcome P_Trie P_Simplicial P_ScOps P_ScBuild P_Util P_Filtration Props_Simplicial Props_Filtration P_Flag P_Flag2 Props_Flag.
Set Implicit Arguments.
Unset Strict Implicit.
Unset Printing Implicit Defensive.

(** the emitted simplices are different *)
Lemma uniq_flatten_map (A : eqType) (f : nat -> seq A) l : uniq l -> (forall k, k \in l -> uniq (f k)) ->
  (forall k k' u, k \in l -> k' \in l -> u \in f k -> u \in f k' -> k = k') -> uniq (flatten [seq f k | k <- l]).
Proof.
elim: l => //= k l IH /andP [kl ul] H1 H2; rewrite cat_uniq H1 ?mem_head //= IH //.
- rewrite andbT; apply/hasPn => u /flatten_mapP [k' k'l uk']; apply/negP => uk.
  have ek : k = k' by apply: H2 uk uk'; rewrite ?mem_head // inE k'l orbT.
  by move: kl; rewrite ek k'l.
- by move=> k' k'l; apply: H1; rewrite inE k'l orbT.
- by move=> k' k2 u k'l k2l; apply: H2; rewrite inE ?k'l ?k2l orbT.
Qed.

Lemma emitl_uniq nb depth iter spx l : sorted ltn iter -> uniq (spx ++ iter) -> {subset l <= iter} -> uniq l ->
  uniq (emitl nb depth iter spx l).
Proof.
elim: depth iter spx l => [|d IH] iter spx l si us li ul; rewrite emitlE; apply: uniq_flatten_map => //.
- move=> k k' u kl k'l; rewrite !inE => /eqP -> /eqP e; have := congr1 (perm_eq (rcons spx k)) e.
  rewrite /push_sorted ![perm_eq (rcons spx k) _]perm_sym !perm_sort perm_refl.
  move/esym => pe; have kk : k' \in rcons spx k by rewrite -(perm_mem pe) mem_rcons mem_head.
  move: kk; rewrite mem_rcons inE => /orP [/eqP ->//|ks]; exfalso; move: us; rewrite cat_uniq => /and3P [_ /negP h _].
  by apply: h; apply/hasP; exists k' => //; exact: li.
- move=> k kl; have kit := li _ kl; rewrite cons_uniq; set it := [seq x <- iter | _].
  have nk : k \notin spx.
    by apply/negP => ks; move: us; rewrite cat_uniq => /and3P [_ /negP h _]; apply: h; apply/hasP; exists k.
  have us' : uniq (push_sorted spx k ++ it).
    move: us; rewrite !cat_uniq sort_uniq rcons_uniq nk /= => /and3P [-> h u2]; rewrite filter_uniq // andbT /=.
    apply: contra h => /hasP [x]; rewrite mem_filter => /andP [/andP [_ xk] xi] /=; rewrite mem_sort mem_rcons inE => /orP [/eqP e|xs].
      by move: xk; rewrite e ltnn.
    by apply/hasP; exists x.
  apply/andP; split; last by apply: IH => //; [exact: sorted_filter ltn_trans _ _ si|move: us'; rewrite cat_uniq => /and3P []].
  apply/negP => /emitl_mem [//|w [k' [_ _ _ _ e]]]; have := congr1 size e.
  by rewrite (size_sort _ (push_sorted _ _ ++ _)) size_cat size_rcons => /eqP; rewrite -{1}[size (push_sorted spx k)]addn0 eqn_add2l.
- move=> k k' u kl k'l uk uk'.
  have key q : q \in l -> u \in push_sorted spx q :: emit nb d [seq x <- iter | (x \in nb q) && (x < q)] (push_sorted spx q) ->
      exists w, [/\ sorted ltn (rcons w q), {subset rcons w q <= iter} & u = sort leq (spx ++ rcons w q)].
    move=> ql uq; have : u \in emitl nb d.+1 iter spx [:: q] by rewrite emitlE /= cats0.
    move=> /emitl_mem []; first by move=> x; rewrite inE => /eqP ->; exact: li.
    by move=> w [q' [h1 h2]]; rewrite inE => /eqP e _ ->; exists w; rewrite -e.
  have [w [w1 w2 w3]] := key k kl uk; have [w' [w1' w2' w3']] := key k' k'l uk'.
  have dis x : x \in iter -> x \notin spx.
    by move=> xi; apply/negP => xs; move: us; rewrite cat_uniq => /and3P [_ /negP h _]; apply: h; apply/hasP; exists x.
  have mx v q v' q' : sorted ltn (rcons v q) -> {subset rcons v' q' <= iter} -> sort leq (spx ++ rcons v q) = sort leq (spx ++ rcons v' q') -> q' <= q.
    move=> s1 s2 e; have : q' \in sort leq (spx ++ rcons v q) by rewrite e mem_sort mem_cat mem_rcons mem_head orbT.
    have q'i : q' \in iter by apply: s2; rewrite mem_rcons mem_head.
    rewrite mem_sort mem_cat => /orP [h|]; first by have := dis _ q'i; rewrite h.
    rewrite mem_rcons inE => /orP [/eqP ->//|h]; move: s1; rewrite rcons_ltn => /andP [_ /allP /(_ _ h)]; exact: ltnW.
  by apply/eqP; rewrite eqn_leq (mx _ _ _ _ w1' w2) ?(mx _ _ _ _ w1 w2') // -w3 -w3'.
Qed.

Section X.
Variable V : eqType.
Variable v0 : V.
Implicit Types (F : filt V).

Definition addx t ix (st : filt V * seq (seq nat)) s :=
  do r <- fl_add v0 st.1 t s; do inds <- ind_push st.2 (size s).-1 ix; Ok (r.1, inds).

Lemma flagx_recE fuel st nbrs d maxd iter spx t ix : nbok nbrs -> sorted ltn iter -> (forall k, k \in iter -> k < size nbrs) ->
  d <= maxd -> maxd < d + fuel ->
  flagx_rec v0 fuel st nbrs d maxd iter spx t ix = ofold (addx t ix) st (emit (nth [::] nbrs) (maxd - d) iter spx).
Proof.
elim: fuel st d iter spx => [|fuel IH] st d iter spx nb si ki dm fm; first by exfalso; move: dm fm; clear; lia.
rewrite /emit emitlE ofold_flatten; cbn [flagx_rec]; case: (d =P maxd) => [e|ne].
  rewrite e subnn; apply: ofold_ext => st1 k _; cbn [ofold]; rewrite /addx; case: fl_add => [r| | |] //; cbn [obind]; cbv zeta.
  by case: ind_push.
have -> : maxd - d = (maxd - d.+1).+1 by move: dm ne; clear; lia.
apply: ofold_ext => st1 k kit; cbn [ofold]; rewrite /addx; cbv zeta; case: fl_add => [r| | |] //; cbn [obind].
case: ind_push => [inds| | |] //; cbn [obind].
rewrite (oget_nth [::] (ki _ kit)); cbn [obind]; rewrite tl_k ?ki //; apply: IH => //.
- exact: sorted_filter ltn_trans _ _ si.
- by move=> x; rewrite mem_filter => /andP [_]; exact: ki.
- by move: dm ne; clear; lia.
- by move: dm fm ne; clear; lia.
Qed.

(** a new simplex is appended to the cells of its dimension *)
Lemma add_new cl F t s F' r : inv cl (fl_X F) -> s != [::] -> ~~ (s \isin cl) -> fl_add_directed v0 F t s = Ok (F', r) ->
  r <> None -> inv (upd cl (size s).-1 (rcons (cl (size s).-1) s)) (fl_X F') /\ sc_dims (fl_X F) <= sc_dims (fl_X F').
Proof.
move=> iv n0 ns; rewrite /fl_add_directed; have := add_directed_ok iv n0; cbv zeta; rewrite (negbTE ns); case: ifP => fi.
  move=> [X1 [-> iv1 dm]]; cbn [obind fst snd]; case: (fv_store _ _ _ _ _) => [val| | |] //; cbn [obind] => -[<- _] _; split; [exact: iv1|by rewrite dm leq_maxr].
by move=> ->.
Qed.

(** the list inds follows the cells *)
Definition follows (m : nat) (g : seq nat -> nat) (st : filt V * seq (seq nat)) : Prop :=
  exists cl, [/\ inv cl (fl_X st.1), size st.2 = m, m <= sc_dims (fl_X st.1) & forall d, d < m -> nth [::] st.2 d = [seq g s | s <- cl d]].

Lemma runx_ok m g t ix L F inds : fbuilt v0 F -> follows m g (F, inds) ->
  (forall s, s \in L -> [/\ sorted ltn s, s != [::] & (size s).-1 < m]) ->
  addable (contains (fl_X F)) L -> uniq L -> (forall s, s \in L -> ~ contains (fl_X F) s) -> (forall s, s \in L -> g s = ix) ->
  exists F' inds', [/\ ofold (addx t ix) (F, inds) L = Ok (F', inds'), ofold (addt v0 t) F L = Ok F' & follows m g (F', inds')].
Proof.
elim: L F inds => [|s L IH] F inds b fo so; first by move=> _ _ _ _; exists F, inds.
move=> [fs ad] /= /andP [sL uL] nc gx; have [ss s0 sm] := so s (mem_head _ _); have ids := srt_id ss.
have hf : has_faces (fl_X F) (sort leq s).
  by move=> j js s1; rewrite ids in js s1 *; rewrite skip_rem ?ltn_uniq //; apply: fs => //; exact: mem_nth.
have [F1 [i [E pr fnd H]]] := C28_add t b s0 (or_intror hf); rewrite ids in fnd H.
have b1 : fbuilt v0 F1 := fb_add b E.
have [_ _ _ cv _] := C28_aligned b; have [_ _ _ cv1 _] := C28_aligned b1.
have so' u : u \in L -> [/\ sorted ltn u, u != [::] & (size u).-1 < m] by move=> ul; apply: so; rewrite inE ul orbT.
case: fo => cl [/= iv sz dm0 fol].
have ns : ~~ (s \isin cl) by apply/negP => h; apply: (nc s (mem_head _ _)); apply/(contains_iff iv s0).
have [iv1 dm1] : inv (upd cl (size s).-1 (rcons (cl (size s).-1) s)) (fl_X F1) /\ sc_dims (fl_X F) <= sc_dims (fl_X F1).
  by move: E; rewrite fl_addE ids => E; exact: add_new iv s0 ns E _.
have sm' : (size s).-1 < size inds by rewrite sz.
pose inds1 := set_nth [::] inds (size s).-1 (rcons (nth [::] inds (size s).-1) ix).
have Ei : ind_push inds (size s).-1 ix = Ok inds1.
  by rewrite /ind_push (oget_nth [::] sm') /= (oset_Ok [::] _ sm').
have fo1 : follows m g (F1, inds1).
  exists (upd cl (size s).-1 (rcons (cl (size s).-1) s)); split=> //=; [by rewrite size_set_nth sz; apply/maxn_idPr|exact: leq_trans dm1|].
  move=> d dm; rewrite nth_set_nth /= /upd; case: eqP => [_|_]; last exact: fol.
  by rewrite map_rcons fol // gx ?mem_head.
case: (IH F1 inds1 b1 fo1 so') => //.
- apply: addable_mono ad => u [[j cj]|->]; first by exists j; exact: pr.
  by exists i.
- move=> u ul cu; have [_ u0 _] := so' _ ul; have [v] := (cv1 u u0).1 cu; rewrite H // => -[[e _]|[ne fv]].
    by move: sL; rewrite -e ul.
  by apply: (nc u); [rewrite inE ul orbT|apply/(cv u u0); exists v].
- by move=> u ul; apply: gx; rewrite inE ul orbT.
move=> F' [inds' [E1 E2 fo']]; exists F', inds'; split=> //; cbn [ofold]; rewrite 1?{1}/addx 1?{1}/addt; cbn [fst snd].
  by rewrite E; cbn [obind fst]; rewrite Ei.
by rewrite E.
Qed.

Section Inv.
Variables (n maxdim : nat) (t0 : V).
Hypothesis md : 0 < maxdim.

(** the position of the last edge inside s; for a vertex, the vertex *)
Definition lastix (es : seq (fedge V)) (s : seq nat) : nat :=
  foldl (fun v p => if inside s p.2 then p.1 else v) (head 0 s) (zip (iota 0 (size es)) es).
Lemma lastix_rcons es e s : lastix (rcons es e) s = if inside s e then size es else lastix es s.
Proof.
rewrite /lastix size_rcons -addn1 iotaD add0n -cats1 zip_cat ?size_iota //= cats1 foldl_rcons /=.
by case: ifP.
Qed.

Lemma follows_ext m g g' st : (forall cl, inv cl (fl_X st.1) -> forall d, {in cl d, g =1 g'}) -> follows m g st -> follows m g' st.
Proof.
move=> H [cl [iv sz dm0 fo]]; exists cl; split=> // d dm; rewrite fo //; apply/eq_in_map; exact: H.
Qed.

Lemma flagx_edge_ok es e F inds nbrs : finv v0 n maxdim t0 es F nbrs -> simple n (pairs_of (rcons es e)) ->
  follows maxdim.+1 (lastix es) (F, inds) ->
  exists F' inds' nbrs', [/\ flagx_edge v0 maxdim (F, inds, nbrs) (size es, e) = Ok (F', inds', nbrs'),
    flag_edge v0 maxdim (F, nbrs) e = Ok (F', nbrs') & follows maxdim.+1 (lastix (rcons es e)) (F', inds')].
Proof.
move=> fi sm fo; have [li lj ij nadj] := step_facts sm; have sz := fi_n fi.
set i := fe_s e in li ij nadj *; set j := fe_t e in lj ij nadj *.
have nin s : contains (fl_X F) s -> s != [::] -> ~~ inside s e.
  move=> cs s0; move/(contains_old fi s0): cs => [[_ _ h3] _]; apply/negP => /andP [is' js].
  by have := h3 _ _ is' js ij; exact/negP.
have fo1 : follows maxdim.+1 (lastix (rcons es e)) (F, inds).
  apply: follows_ext fo => cl iv d s sd; rewrite lastix_rcons.
  have e1 : size s = d.+1 by exact: cl_size iv sd.
  have s0 : s != [::] by rewrite -size_eq0 e1.
  have cs : contains (fl_X F) s by apply/(contains_iff iv s0); rewrite e1.
  by rewrite (negbTE (nin _ cs s0)).
have unl : uniq (newl maxdim nbrs e).
  rewrite /newl -/i -/j cons_uniq; set spx := sort leq _; case: ltnP => m1 //.
  have us := spx_it fi sm; have itS := it_sorted fi sm.
  apply/andP; split; last first.
    by apply: emitl_uniq; [exact: itS|exact: us| |exact: ltn_uniq itS].
  apply/negP => /emitl_mem [//|w [k' [_ _ _ _ e']]]; have := congr1 size e'.
  by rewrite (size_sort _ (spx ++ _)) size_cat size_rcons => /eqP; rewrite -{1}[size spx]addn0 eqn_add2l.
have [|||F' [inds' [E1 E2 fo']]] := runx_ok (ix := size es) (fe_r e) (fi_b fi) fo1 _ (newl_addable fi sm) unl _ _.
- move=> s sl; have [[_ z] _ _] := (newl_mem fi sm s).1 sl; have /andP [a b] := newl_sorted fi sm sl; split=> //.
  by move: z md; clear; rewrite /max_vertices; case: (size s) => [|q] /=; lia.
- move=> s sl cs; have /andP [_ s0] := newl_sorted fi sm sl; have [_ a b] := (newl_mem fi sm s).1 sl.
  by have := nin _ cs s0; rewrite /inside a b.
- by move=> s sl; have [_ a b] := (newl_mem fi sm s).1 sl; rewrite lastix_rcons /inside a b.
have li' : i < size nbrs by rewrite sz.
have lj' : j < size nbrs by rewrite sz.
have [nbrs' [En _ _]] := add_nbrsE li' lj' ij.
exists F', inds', nbrs'; split=> //; last by rewrite (flag_edgeE fi sm) E2; cbn [obind]; rewrite -/i -/j En.
rewrite /flagx_edge -/i -/j; move: E1; rewrite /newl -/i -/j; set it := intersect_sorted _ _; set spx := sort leq _.
cbn [ofold]; rewrite {1}/addx; cbn [fst snd]; case: fl_add => [r| | |] //; cbn [obind]; rewrite size_sort [X in ind_push _ X _]/=.
case: ind_push => [inds1| | |] //; cbn [obind].
rewrite (oget_nth [::] li') (oget_nth [::] lj'); cbn [obind]; rewrite -/it.
case: (boolP (it == [::])) => [/eqP it0|itn] /=.
  by rewrite it0 /emit emitlE /= if_same /= => -[-> ->]; rewrite En.
case: ltnP => m1; last by move=> [-> ->] /=; rewrite En.
rewrite flagx_recE //; first by move=> -> /=; rewrite En.
- exact: nbok_inv fi sm.
- exact: it_sorted fi sm.
- by move=> k /(it_lt fi sm); rewrite sz.
- by move: m1; clear; lia.
Qed.

Lemma flagx_edges_ok es1 es2 F inds nbrs : finv v0 n maxdim t0 es1 F nbrs -> simple n (pairs_of (es1 ++ es2)) ->
  follows maxdim.+1 (lastix es1) (F, inds) ->
  exists F' inds' nbrs', [/\ ofold (flagx_edge v0 maxdim) (F, inds, nbrs) (zip (iota (size es1) (size es2)) es2) = Ok (F', inds', nbrs'),
    ofold (flag_edge v0 maxdim) (F, nbrs) es2 = Ok (F', nbrs') & follows maxdim.+1 (lastix (es1 ++ es2)) (F', inds')].
Proof.
elim: es2 es1 F inds nbrs => [|e es2 IH] es1 F inds nbrs fi; first by rewrite cats0 => _ fo; exists F, inds, nbrs.
rewrite -cat_rcons => sm fo.
have sm1 : simple n (pairs_of (rcons es1 e)).
  move: sm; rewrite /pairs_of map_cat => -[h1 h2 h3]; split.
  - by move=> p pi; apply: h1; rewrite mem_cat pi.
  - by move: h2; rewrite cat_uniq => /andP [].
  - by move=> p pi; have := h3 p; rewrite !mem_cat pi negb_or => /(_ isT) /andP [].
have [F1 [nb1 [E fi1]]] := flag_edge_ok fi sm1.
have [F2 [inds2 [nb2 [E1 E2 fo2]]]] := flagx_edge_ok fi sm1 fo.
move: (E); rewrite E2 => -[e1 e2]; rewrite e1 e2 in E1 E2 fo2.
have [F3 [inds3 [nb3 [E3 E4 fo3]]]] := IH _ _ inds2 _ fi1 sm fo2; exists F3, inds3, nb3; split=> //.
  by cbn [size iota zip ofold]; rewrite E1; cbn [obind]; rewrite size_rcons in E3.
by cbn [ofold]; rewrite E; cbn [obind].
Qed.

Lemma flagx_verts_ok m : m <= n -> exists F0 F inds, [/\ fl_of v0 (sc_new maxdim) = Ok F0,
   ofold (fun F k => do r <- fl_add v0 F t0 [:: k]; Ok r.1) F0 (iota 0 m) = Ok F,
   ofold (fun st k => do r <- fl_add v0 st.1 t0 [:: k]; do inds <- ind_push st.2 0 k; Ok (r.1, inds))
                  (F0, nseq maxdim.+1 [::]) (iota 0 m) = Ok (F, inds) & follows maxdim.+1 (lastix [::]) (F, inds)].
Proof.
elim: m => [|m IH] mn.
  have [F0 [F [E0 X0 E1 b H]]] := flag_verts_ok v0 maxdim t0 (leq0n n).
  exists F0, F0, (nseq maxdim.+1 [::]); split=> //; exists (fun _ => [::]); split=> /=; rewrite ?size_nseq //.
  - by rewrite X0; exact: inv_new.
  - by rewrite X0 /sc_dims /sc_new /sc_reserve /= size_nseq.
  -  by move=> d dm; rewrite -[[::] :: _]/(nseq maxdim.+1 [::]) nth_nseq dm.
have [F0 [F [inds [E0 E1 E2 fo]]]] := IH (ltnW mn).
have [F0' [F' [E0' _ E1' b H]]] := flag_verts_ok v0 maxdim t0 (ltnW mn).
have e0 : F0' = F0 by move: E0'; rewrite E0 => -[].
rewrite e0 E1 in E1'; have e1 : F' = F by move: E1' => [].
rewrite e1 in b H; have [_ _ _ cv _] := C28_aligned b.
have nc : ~ contains (fl_X F) [:: m].
  by move=> /(cv [:: m] isT) [v /(H [:: m] v isT) [[k km [e]] _]]; move: km; rewrite e ltnn.
have [|||||F1 [inds1 [Ea Eb fo1]]] := runx_ok (ix := m) (L := [:: [:: m]]) t0 b fo.
- by move=> s; rewrite inE => /eqP ->.
- by split=> // x _.
- by [].
- by move=> s; rewrite inE => /eqP ->.
- by move=> s; rewrite inE => /eqP ->.
exists F0, F1, inds1; rewrite -addn1 iotaD add0n !ofold_cat E1 E2; split=> //.
Qed.

Lemma lastix_spec es s : 1 < size s -> clique n (pairs_of es) s ->
  exists e, [/\ lastix es s < size es, nth e es (lastix es s) = e, inside s e & fe_r e = lastval t0 es s].
Proof.
move=> s1 cl; have := clique_inside cl s1; clear cl; elim/seq.last_ind: es => // es e IH.
rewrite has_rcons lastix_rcons /lastval foldl_rcons; case: ifP => ie /=.
  by move=> _; exists e; rewrite size_rcons nth_rcons ltnn eqxx.
by move=> /IH [f [h1 h2 h3 h4]]; exists f; rewrite size_rcons nth_rcons h1; split=> //; exact: ltnW.
Qed.

Lemma flagx_ok le es : simple n (pairs_of (fe_sort le es)) ->
  exists F inds, [/\ flag_extension v0 le es n maxdim t0 = Ok (F, inds), flag_filtration v0 le es n maxdim t0 = Ok F &
    follows maxdim.+1 (lastix (fe_sort le es)) (F, inds)].
Proof.
move=> sm; have [F0 [F1 [inds1 [E0 E1 E2 fo1]]]] := flagx_verts_ok (leqnn n).
have [F0' [F1' [E0' _ E1' b1 H1]]] := flag_verts_ok v0 maxdim t0 (leqnn n).
have e0 : F0' = F0 by move: E0'; rewrite E0 => -[].
rewrite e0 E1 in E1'; have e1 : F1' = F1 by move: E1' => [].
rewrite e1 in b1 H1; have fi := finv_start maxdim H1 b1.
have [F [inds [nb [E3 E4 fo]]]] := flagx_edges_ok fi sm fo1.
exists F, inds; split=> //; last by rewrite /flag_filtration /flag_loop E0; cbn [obind]; rewrite E1; cbn [obind]; rewrite E4.
rewrite /flag_extension E0; cbn [obind]; rewrite E2; cbn [obind fst snd].
have [cl [_ /= sz _ _]] := fo1; rewrite (oget_nth [::]) ?sz; last by move: md; clear; lia.
by cbn [obind]; rewrite E3.
Qed.
End Inv.
End X.
