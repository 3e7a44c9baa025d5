(** FlagFiltration: the loop over the edges. *)
From mathcomp Require Import all_ssreflect all_algebra zify.
From Verif Require Import Outcome M_Sorted M_Simplicial M_Filtration M_Flag S_Simplicial S_Filtration S_Flag P_Outcome P_Util P_Filtration Props_Simplicial Props_Filtration P_Flag.
Set Implicit Arguments.
Unset Strict Implicit.
Unset Printing Implicit Defensive.

Lemma skip_rem (s : seq nat) j : uniq s -> j < size s -> take j s ++ drop j.+1 s = rem (nth 0 s j) s.
Proof.
elim: s j => [|x s IH] [|j] //= /andP [xs us] js; first by rewrite eqxx drop0.
have -> : (x == nth 0 s j) = false by apply/negP => /eqP e; case/negP: xs; rewrite e mem_nth.
by rewrite IH.
Qed.

Section R.
Variable V : eqType.
Variable v0 : V.
Implicit Types (F : filt V) (s u : seq nat).

Definition addt t F s := do r <- fl_add v0 F t s; Ok r.1.

Lemma run_ok t L F : fbuilt v0 F -> (forall s, s \in L -> sorted ltn s && (s != [::])) ->
  addable (contains (fl_X F)) L ->
  exists F', [/\ ofold (addt t) F L = Ok F', fbuilt v0 F' &
    forall u v, u != [::] -> fvalue F' u v <-> u \in L /\ v = t \/ u \notin L /\ fvalue F u v].
Proof.
elim: L F => [|s L IH] F b so; first by move=> _; exists F; split=> // u v _; split=> [|[[]|[]]] //; right.
move=> [fs ad]; have /andP [ss s0] := so s (mem_head _ _); have ids := srt_id ss.
have hf : has_faces (fl_X F) (sort leq s).
  by move=> j js s1; rewrite ids in js s1 *; rewrite skip_rem ?ltn_uniq //; apply: fs => //; exact: mem_nth.
have [F1 [i [E pr fnd H]]] := C28_add t b s0 (or_intror hf); rewrite ids in fnd H.
have b1 : fbuilt v0 F1 := fb_add b E.
have [_ _ _ cv _] := C28_aligned b; have [_ _ _ cv1 _] := C28_aligned b1.
have so' u : u \in L -> sorted ltn u && (u != [::]) by move=> ul; apply: so; rewrite inE ul orbT.
case: (IH F1 b1 so').
  apply: addable_mono ad => u [[j cj]|->]; first by exists j; exact: pr.
  by exists i.
move=> F' [E' b' H']; exists F'; split=> //; first by rewrite /= /addt E.
move=> u v nu; rewrite H' // H // !inE; case: (boolP (u \in L)) => ul; rewrite ?orbT ?orbF.
  by split=> [[|[]]//|[|[]]//]; left.
split=> [[[]//|[_ [[-> ->]|[ne fu]]]]|[[/eqP -> ->]|[ne fu]]]; rewrite ?eqxx.
- by left.
- by right; split=> //; apply/eqP.
- by right; split=> //; left.
- by right; split=> //; right; split=> //; apply/eqP.
Qed.

(** the recursion is the run over the emitted list *)
Definition nbok (nbrs : seq (seq nat)) := forall k, k < size nbrs -> sorted ltn (nth [::] nbrs k) /\ k \notin nth [::] nbrs k.

Lemma tl_k nbrs k iter : nbok nbrs -> sorted ltn iter -> k \in iter -> k < size nbrs ->
  intersect_sorted_lt k iter (nth [::] nbrs k) = [seq x <- iter | (x \in nth [::] nbrs k) && (x < k)].
Proof.
move=> nb si ki kn; have [sk nk] := nb k kn; rewrite intersect_sorted_ltE // /tl.
case: iter si ki => [|x it] si ki //; case: (nth [::] nbrs k) sk nk => [|y ny] sk nk; rewrite ?cats0 //; case: ifP; rewrite ?cats0 //.
move=> /andP [/eqP xy kx]; exfalso; have : x <= k.
  by move: ki; rewrite inE => /orP [/eqP ->//|ki]; have := allP (order_path_min ltn_trans si) _ ki => /= /ltnW.
by move=> xk; case/negP: nk; rewrite inE -xy eqn_leq kx xk.
Qed.

Lemma flag_recE fuel F nbrs d maxd iter spx t : nbok nbrs -> sorted ltn iter -> (forall k, k \in iter -> k < size nbrs) ->
  d <= maxd -> maxd < d + fuel ->
  flag_rec v0 fuel F nbrs d maxd iter spx t = ofold (addt t) F (emit (nth [::] nbrs) (maxd - d) iter spx).
Proof.
elim: fuel F d iter spx => [|fuel IH] F d iter spx nb si ki dm fm; first by exfalso; move: dm fm; clear; lia.
rewrite /emit emitlE ofold_flatten; cbn [flag_rec]; case: (d =P maxd) => [e|ne].
  rewrite e subnn; apply: ofold_ext => F1 k _ /=; rewrite /addt; case: fl_add => [r| | |] //=.
have -> : maxd - d = (maxd - d.+1).+1 by move: dm ne; clear; lia.
apply: ofold_ext => F1 k kit; cbn [ofold]; rewrite /addt; case: fl_add => [r| | |] //; cbn [obind].
rewrite (oget_nth [::] (ki _ kit)); cbn [obind]; rewrite tl_k ?ki //; apply: IH => //.
- exact: sorted_filter ltn_trans _ _ si.
- by move=> x; rewrite mem_filter => /andP [_]; exact: ki.
- by move: dm ne; clear; lia.
- by move: dm fm ne; clear; lia.
Qed.

(** ** the invariant of the edge loop *)
Section Inv.
Variables (n maxdim : nat) (t0 : V).
Definition inside (s : seq nat) (e : fedge V) := (fe_s e \in s) && (fe_t e \in s).
Definition lastval (es : seq (fedge V)) (s : seq nat) : V := foldl (fun v e => if inside s e then fe_r e else v) t0 es.

Definition fsx (es : seq (fedge V)) s := clique n (pairs_of es) s /\ size s <= max_vertices maxdim.
Record finv (es : seq (fedge V)) F nbrs : Prop := FInv {
  fi_b : fbuilt v0 F;
  fi_n : size nbrs = n;
  fi_nb : forall i, i < n -> sorted ltn (nth [::] nbrs i) /\ forall x, (x \in nth [::] nbrs i) = adjacent (pairs_of es) i x;
  fi_v : forall s v, s != [::] -> fvalue F s v <-> fsx es s /\ v = lastval es s }.

Lemma adjacent_rcons (es : seq (fedge V)) (e : fedge V) x y : adjacent (pairs_of (rcons es e)) x y =
  [|| adjacent (pairs_of es) x y, (x == fe_s e) && (y == fe_t e) | (y == fe_s e) && (x == fe_t e)].
Proof.
rewrite /adjacent /pairs_of map_rcons !mem_rcons !inE !xpair_eqE.
by case: (x == _); case: (y == _); case: (x == _); case: (y == _); case: ((x, y) \in _); case: ((y, x) \in _).
Qed.
Lemma adjacent_sym ps x y : adjacent ps x y = adjacent ps y x.
Proof. by rewrite /adjacent orbC. Qed.

Lemma simple_rcons (es : seq (fedge V)) (e : fedge V) : simple n (pairs_of (rcons es e)) ->
  [/\ simple n (pairs_of es), fe_s e < n, fe_t e < n, fe_s e <> fe_t e & ~~ adjacent (pairs_of es) (fe_s e) (fe_t e)].
Proof.
rewrite /pairs_of map_rcons => -[h1 h2 h3].
have [a b c] : [/\ fe_s e < n, fe_t e < n & fe_s e <> fe_t e] by apply: (h1 (fe_s e, fe_t e)); rewrite mem_rcons mem_head.
move: h2; rewrite rcons_uniq => /andP [h2 h2']; split=> //.
  split=> // p pi; first by apply: h1; rewrite mem_rcons inE pi orbT.
  by have := h3 p; rewrite !mem_rcons !inE pi orbT negb_or => /(_ isT) /andP [].
rewrite /adjacent negb_or h2 /=; have := h3 (fe_s e, fe_t e); rewrite !mem_rcons !inE eqxx /= negb_or => /(_ isT) /andP [] //.
Qed.

Lemma add_nbrsE nbrs i j : i < size nbrs -> j < size nbrs -> i <> j ->
  exists nbrs', [/\ add_nbrs nbrs i j = Ok nbrs', size nbrs' = size nbrs &
    forall k, nth [::] nbrs' k = if k == i then sort leq (rcons (nth [::] nbrs i) j)
                                 else if k == j then sort leq (rcons (nth [::] nbrs j) i) else nth [::] nbrs k].
Proof.
move=> li lj ij; rewrite /add_nbrs (oget_nth [::] li) /= (oset_Ok [::] _ li) /=.
have sz : size (set_nth [::] nbrs i (sort leq (rcons (nth [::] nbrs i) j))) = size nbrs.
  by rewrite size_set_nth; apply/maxn_idPr.
rewrite (oget_nth [::]) ?sz //= (oset_Ok [::]) ?sz //; eexists; split; first by reflexivity.
  by rewrite size_set_nth sz; apply/maxn_idPr.
have ji : (j == i) = false by apply/negP => /eqP e; exact: ij.
move=> k; rewrite !nth_set_nth /= !nth_set_nth /= ji.
by case: (k =P j) => [->|//]; rewrite ji.
Qed.

Lemma clique_sub ps s s' : sorted ltn s' -> {subset s' <= s} -> clique n ps s -> clique n ps s'.
Proof. by move=> so sub [_ h1 h2]; split=> // [x /sub|x y /sub xi /sub yi]; [exact: h1|exact: h2]. Qed.

(** the simplices with both ends of the new edge *)
Definition newl nbrs (e : fedge V) : seq (seq nat) :=
  let spx := sort leq [:: fe_s e; fe_t e] in
  spx :: (if 1 < maxdim then emit (nth [::] nbrs) (maxdim - 2) (intersect_sorted (nth [::] nbrs (fe_s e)) (nth [::] nbrs (fe_t e))) spx else [::]).

Section Step.
Variables (es : seq (fedge V)) (e : fedge V) (F : filt V) (nbrs : seq (seq nat)).
Hypothesis fi : finv es F nbrs.
Hypothesis sm : simple n (pairs_of (rcons es e)).
Let i := fe_s e.
Let j := fe_t e.
Let it := intersect_sorted (nth [::] nbrs i) (nth [::] nbrs j).
Let spx := sort leq [:: i; j].

Lemma step_facts : [/\ i < n, j < n, i <> j & ~~ adjacent (pairs_of es) i j].
Proof. by have [] := simple_rcons sm. Qed.
Lemma not_self k : ~~ adjacent (pairs_of es) k k.
Proof.
have [[h1 _ _] _ _ _ _] := simple_rcons sm.
by rewrite /adjacent orbb; apply/negP => /h1 [_ _] /=.
Qed.
Lemma nbok_inv : nbok nbrs.
Proof. by move=> k; rewrite (fi_n fi) => kn; have [so m] := fi_nb fi kn; rewrite m; split=> //; exact: not_self. Qed.
Lemma it_mem x : (x \in it) = adjacent (pairs_of es) i x && adjacent (pairs_of es) j x.
Proof.
have [li lj _ _] := step_facts; have [s1 m1] := fi_nb fi li; have [s2 m2] := fi_nb fi lj.
by rewrite /it intersect_sortedE // mem_filter m1 m2 andbC.
Qed.
Lemma it_sorted : sorted ltn it.
Proof.
have [li lj _ _] := step_facts; have [s1 m1] := fi_nb fi li; have [s2 m2] := fi_nb fi lj.
by rewrite /it intersect_sortedE //; exact: sorted_filter ltn_trans _ _ s1.
Qed.
Lemma adj_lt x y : adjacent (pairs_of es) x y -> x < n /\ y < n.
Proof. by have [[h1 _ _] _ _ _ _] := simple_rcons sm; rewrite /adjacent => /orP [] /h1 []. Qed.
Lemma it_lt x : x \in it -> x < n.
Proof. by rewrite it_mem => /andP [/adj_lt []]. Qed.
Lemma spx_mem x : (x \in spx) = (x == i) || (x == j).
Proof. by rewrite mem_sort !inE. Qed.
Lemma spx_uniq : uniq spx.
Proof. by have [_ _ ij _] := step_facts; rewrite sort_uniq /= inE andbT; apply/eqP. Qed.
Lemma spx_size : size spx = 2. Proof. by rewrite size_sort. Qed.
Lemma spx_it : uniq (spx ++ it).
Proof.
rewrite cat_uniq spx_uniq (ltn_uniq it_sorted) andbT /=; apply/hasPn => x; rewrite it_mem /= spx_mem => /andP [xi xj].
by rewrite negb_or; apply/andP; split; apply/negP => /eqP h; [move: xi|move: xj]; rewrite h; exact/negP/not_self.
Qed.
(** members of the list: the cliques of the new graph containing both ends *)
Lemma cln_iff w : {subset w <= it} -> cln (nth [::] nbrs) w <-> forall x y, x \in w -> y \in w -> x <> y -> adjacent (pairs_of es) x y.
Proof.
move=> wi; split=> H x y xw yw; last first.
  move=> xy; have [_ ->] := fi_nb fi (it_lt (wi _ yw)); apply: H => // e1; by move: xy; rewrite e1 ltnn.
case: (ltngtP x y) => // h _; have := H _ _ _ _ h.
  by rewrite (fi_nb fi (it_lt (wi _ yw))).2 adjacent_sym; exact.
by rewrite (fi_nb fi (it_lt (wi _ xw))).2; exact.
Qed.

Lemma emit_ij w : sorted ltn w -> {subset w <= it} -> cln (nth [::] nbrs) w ->
  forall ps, (forall x y, adjacent (pairs_of es) x y -> adjacent ps x y) -> 
  (adjacent ps i j -> clique n ps (sort leq (spx ++ w))) /\
  forall x, x \in spx -> clique n ps (sort leq (rem x spx ++ w)).
Proof.
move=> sw wi /(cln_iff wi) cw ps sub; have [li lj ij _] := step_facts.
have uw : uniq (spx ++ w).
  have := spx_it; rewrite !cat_uniq spx_uniq (ltn_uniq sw) andbT /= => /andP [H _].
  by apply: contra H => /hasP [x xw xs]; apply/hasP; exists x => //; exact: wi.
have ai x : x \in w -> adjacent ps i x /\ adjacent ps j x.
  by move=> /wi; rewrite it_mem => /andP [a b]; split; exact: sub.
have ltw x : x \in spx ++ w -> x < n.
  by rewrite mem_cat spx_mem => /orP [/orP [] /eqP ->//|/wi /it_lt].
have big (H : adjacent ps i j) x y : x \in spx ++ w -> y \in spx ++ w -> x <> y -> adjacent ps x y.
  rewrite !mem_cat !spx_mem => /orP [/orP [] /eqP ->|xw] /orP [/orP [] /eqP ->|yw] ne //.
  - by have [] := ai _ yw.
  - by rewrite adjacent_sym.
  - by have [] := ai _ yw.
  - by rewrite adjacent_sym; have [] := ai _ xw.
  - by rewrite adjacent_sym; have [] := ai _ xw.
  - by apply: sub; exact: cw.
split=> [H|x xs].
  by split; [exact: srt_ltn|move=> x; rewrite mem_sort; exact: ltw|move=> x y; rewrite !mem_sort; exact: big].
have ur : uniq (rem x spx ++ w) by rewrite -rem_catl //; exact: rem_uniq.
have subr y : y \in rem x spx ++ w -> y \in spx ++ w by rewrite -rem_catl //; exact: mem_rem.
split; [exact: srt_ltn|by move=> y; rewrite mem_sort => /subr; exact: ltw|move=> y z; rewrite !mem_sort => yi zi ne].
have := yi; have := zi; rewrite !mem_cat => /orP [zs|zw] /orP [ys|yw].
- exfalso; apply: ne; move: ys zs xs; rewrite !mem_rem_uniq ?spx_uniq // !inE !spx_mem => /andP [n1 /orP [] /eqP e1] /andP [n2 /orP [] /eqP e2];
  rewrite e1 e2 // => /orP [] /eqP e3; move: n1 n2; rewrite e1 e2 e3 eqxx //.
- rewrite adjacent_sym; have := mem_rem zs; rewrite spx_mem => /orP [] /eqP ->; first by have [] := ai _ yw.
  by have [] := ai _ yw.
- have := mem_rem ys; rewrite spx_mem => /orP [] /eqP ->; first by have [] := ai _ zw.
  by have [] := ai _ zw.
- by apply: sub; exact: cw.
Qed.

Lemma newl_mem u : u \in newl nbrs e <-> [/\ fsx (rcons es e) u, i \in u & j \in u].
Proof.
have [li lj ij nadj] := step_facts.
have adjr x y : adjacent (pairs_of es) x y -> adjacent (pairs_of (rcons es e)) x y by rewrite adjacent_rcons => ->.
have adjij : adjacent (pairs_of (rcons es e)) i j by rewrite adjacent_rcons !eqxx orbT.
rewrite /newl -/i -/j -/it -/spx inE; split.
  case/orP => [/eqP ->|].
    have [//|//|//|H _] := emit_ij (w := [::]) _ _ _ adjr; move: (H adjij).
    rewrite cats0 sorted_sort; [|exact: leq_trans|exact: sort_sorted leq_total _] => cl.
    split; rewrite ?spx_mem ?eqxx ?orbT //; split=> //; rewrite spx_size /max_vertices; clear; lia.
  case: ltnP => // m1; rewrite /emit => /emitl_mem [//|w [k [sw wi kl [w0 cw] ->]]].
  have [H _] := emit_ij sw wi cw adjr; split; rewrite ?mem_sort ?mem_cat ?spx_mem ?eqxx ?orbT //; split; first exact: H.
  rewrite size_sort size_cat spx_size size_rcons /max_vertices; move: w0 m1; clear; lia.
move=> [[[so lt cq] sz] iu ju].
pose w := [seq x <- u | x \notin spx].
have sw : sorted ltn w by exact: sorted_filter ltn_trans _ _ so.
have ue : u = sort leq (spx ++ w).
  apply: srt_eq => //.
    apply: srt_ltn; rewrite cat_uniq spx_uniq (ltn_uniq sw) andbT /=; apply/hasPn => x; rewrite mem_filter => /andP [] //.
  move=> x; rewrite mem_sort mem_cat mem_filter; case: (boolP (x \in spx)) => //=; rewrite spx_mem.
  by move=> /orP [] /eqP ->; rewrite ?iu ?ju.
have cq' x y : x \in u -> y \in u -> x <> y -> (x \notin spx) || (y \notin spx) -> adjacent (pairs_of es) x y.
  move=> xi yi ne H; have := cq _ _ xi yi ne; rewrite adjacent_rcons -/i -/j => /orP [//|H2]; exfalso; move: H H2.
  by rewrite !spx_mem; do 4 case: eqP => ? //=.
have wi : {subset w <= it}.
  move=> x; rewrite mem_filter => /andP [xs xu]; rewrite it_mem.
  have [xi xj] : x <> i /\ x <> j by move: xs; rewrite spx_mem negb_or => /andP [/eqP ? /eqP ?].
  by rewrite !cq' ?xs ?orbT //; [move=> h; apply: xj|move=> h; apply: xi].
have cw : cln (nth [::] nbrs) w.
  apply/cln_iff => // x y; rewrite !mem_filter => /andP [xs xu] /andP [ys yu] ne; by apply: cq' => //; rewrite xs.
case: (lastP w) ue sw wi cw => [|w' k] ue sw wi cw.
  by rewrite ue cats0 sorted_sort ?eqxx //; [exact: leq_trans|exact: sort_sorted leq_total _].
have sz' : (size w').+3 <= max_vertices maxdim.
  by move: sz; rewrite ue size_sort size_cat spx_size size_rcons.
have m1 : 1 < maxdim by move: sz'; clear; rewrite /max_vertices; lia.
rewrite m1; apply/orP; right; apply/emitl_mem => //; exists w', k; split=> //.
  by apply: wi; rewrite mem_rcons mem_head.
by split=> //; rewrite leq_subRL // add2n; move: sz'; rewrite /max_vertices (maxn_idPl (ltnW m1)).
Qed.

Lemma newl_sorted u : u \in newl nbrs e -> sorted ltn u && (u != [::]).
Proof. by move=> /newl_mem [[[-> _ _] _] iu _]; case: u iu. Qed.

Lemma contains_old u : u != [::] -> contains (fl_X F) u <-> fsx es u.
Proof.
move=> nu; have [_ _ _ cv _] := C28_aligned (fi_b fi); rewrite cv //; split=> [[v /(fi_v fi v nu) []//]|h].
by exists (lastval es u); apply/(fi_v fi).
Qed.

Lemma newl_addable : addable (contains (fl_X F)) (newl nbrs e).
Proof.
have [li lj ij nadj] := step_facts; rewrite /newl -/i -/j -/it -/spx; cbn [addable].
have sizes w x : x \in spx -> size (sort leq (rem x spx ++ w)) = (size w).+1.
  by move=> xs; rewrite size_sort size_cat size_rem // spx_size.
have nn w x : x \in spx -> sort leq (rem x spx ++ w) != [::] by move=> xs; rewrite -size_eq0 sizes.
split.
  move=> x xs _; have [//|//|//|_ H] := emit_ij (w := [::]) _ _ _ (fun x y (h : adjacent (pairs_of es) x y) => h).
  have := H x xs; have := sizes [::] x xs; have := nn [::] x xs; rewrite cats0.
  rewrite srt_id; last by apply: subseq_sorted (rem_subseq _ _) _; [exact: ltn_trans|apply: srt_ltn; rewrite /= inE andbT; apply/eqP].
  by move=> n0 sz cl; apply/contains_old => //; split=> //; rewrite sz.
case: ltnP => // m1; apply: emit_addable.
- exact: it_sorted.
- exact: spx_it.
- by right; rewrite sorted_sort //; [exact: leq_trans|exact: sort_sorted leq_total _].
- move=> w x xs sw w0 wi ws cw; left; apply/contains_old; first exact: nn.
  split; last by rewrite sizes //; move: ws m1; clear; rewrite /max_vertices; move: (size w) => q; lia.
  by have [_ H] := emit_ij sw wi cw (fun x y (h : adjacent (pairs_of es) x y) => h); exact: H.
Qed.

Lemma flag_edgeE : flag_edge v0 maxdim (F, nbrs) e =
  (do F2 <- ofold (addt (fe_r e)) F (newl nbrs e); do nb <- add_nbrs nbrs i j; Ok (F2, nb)).
Proof.
have [li lj ij nadj] := step_facts; have sz := fi_n fi.
have li' : i < size nbrs by rewrite sz.
have lj' : j < size nbrs by rewrite sz.
rewrite /flag_edge -/i -/j -/spx /newl -/i -/j -/it -/spx; cbn [ofold]; rewrite {1}/addt.
case: fl_add => [r| | |] //; cbn [obind]; rewrite (oget_nth [::] li') (oget_nth [::] lj'); cbn [obind]; rewrite -/it.
case: (boolP (it == [::])) => [/eqP it0|itn] /=.
  by rewrite it0 /emit emitlE /= if_same /=.
case: ltnP => m1 //; rewrite flag_recE //.
- exact: nbok_inv.
- exact: it_sorted.
- by move=> k /it_lt; rewrite sz.
- by move: m1; clear; lia.
Qed.

Lemma flag_edge_ok : exists F' nbrs', flag_edge v0 maxdim (F, nbrs) e = Ok (F', nbrs') /\ finv (rcons es e) F' nbrs'.
Proof.
have [li lj ij nadj] := step_facts; have sz := fi_n fi.
have [F' [E b' H]] := run_ok (fe_r e) (fi_b fi) newl_sorted newl_addable.
have li' : i < size nbrs by rewrite sz.
have lj' : j < size nbrs by rewrite sz.
have [nbrs' [En sn Hn]] := add_nbrsE li' lj' ij.
exists F', nbrs'; split.
  by rewrite flag_edgeE E; cbn [obind]; rewrite En.
split=> //; first by rewrite sn.
- move=> k kn; rewrite Hn; have [so m] := fi_nb fi kn.
  have [si mi] := fi_nb fi li; have [sj mj] := fi_nb fi lj.
  case: (k =P i) => [ki|ki]; last case: (k =P j) => [kj|kj].
  + split.
      by apply: srt_ltn; rewrite rcons_uniq mi nadj ltn_uniq.
    move=> x; rewrite mem_sort mem_rcons inE mi adjacent_rcons -/i -/j ki eqxx /=.
    have -> : (i == j) = false by apply/eqP.
    by rewrite andbF orbF orbC.
  + split.
      by apply: srt_ltn; rewrite rcons_uniq mj adjacent_sym nadj ltn_uniq.
    move=> x; rewrite mem_sort mem_rcons inE mj adjacent_rcons -/i -/j kj eqxx /= andbT.
    have -> : (j == i) = false by apply/eqP => h; apply: ij.
    by rewrite /= orbC.
  + split=> // x; rewrite m adjacent_rcons -/i -/j.
    by move/eqP/negbTE: ki => ->; move/eqP/negbTE: kj => ->; rewrite andbF !orbF.
- move=> s v s0; rewrite H // (fi_v fi) //.
  have lv : lastval (rcons es e) s = if (i \in s) && (j \in s) then fe_r e else lastval es s.
    by rewrite /lastval foldl_rcons.
  have old : ~~ ((i \in s) && (j \in s)) -> fsx es s <-> fsx (rcons es e) s.
    move=> nij; split=> -[[h1 h2 h3] h4]; split=> //; split=> // x y xi yi ne; have := h3 _ _ xi yi ne; rewrite adjacent_rcons; first by move=> ->.
    case/orP=> // H1; exfalso; move: nij; rewrite negb_and -/i -/j in H1 *.
    by case/orP: H1 => /andP [/eqP e1 /eqP e2]; rewrite -e1 -e2 xi yi.
  rewrite lv; case: (boolP ((i \in s) && (j \in s))) => ijs.
    have /andP [is' js] := ijs.
    split=> [[[/newl_mem [h _ _] ->]|[/negP h [fs _]]]|[h ->]].
    * by [].
    * exfalso; move: fs => [[_ _ h3] _]; have := h3 _ _ is' js ij; exact/negP.
    * by left; split=> //; apply/newl_mem.
  split=> [[[/newl_mem [_ a b] _]|[_ [fs ->]]]|[fs ->]].
  + by exfalso; move: ijs; rewrite a b.
  + by split=> //; apply/old.
  + right; split; last by split=> //; apply/old.
    by apply/negP => /newl_mem [_ a b]; move: ijs; rewrite a b.
Qed.
End Step.

Lemma flag_edges_ok es1 es2 F nbrs : finv es1 F nbrs -> simple n (pairs_of (es1 ++ es2)) ->
  exists F' nbrs', ofold (flag_edge v0 maxdim) (F, nbrs) es2 = Ok (F', nbrs') /\ finv (es1 ++ es2) F' nbrs'.
Proof.
elim: es2 es1 F nbrs => [|e es2 IH] es1 F nbrs fi; first by rewrite cats0 => _; exists F, nbrs.
rewrite -cat_rcons => sm.
have sm1 : simple n (pairs_of (rcons es1 e)).
  move: sm; rewrite /pairs_of map_cat => -[h1 h2 h3]; split.
  - by move=> p pi; apply: h1; rewrite mem_cat pi.
  - by move: h2; rewrite cat_uniq => /andP [].
  - by move=> p pi; have := h3 p; rewrite !mem_cat pi negb_or => /(_ isT) /andP [].
have [F1 [nb1 [E fi1]]] := flag_edge_ok fi sm1.
by have [F2 [nb2 [E2 fi2]]] := IH _ _ _ fi1 sm; exists F2, nb2; cbn [ofold]; rewrite E; cbn [obind].
Qed.

Lemma flag_verts_ok m : m <= n -> exists F0 F, [/\ fl_of v0 (sc_new maxdim) = Ok F0, fl_X F0 = sc_new maxdim,
   ofold (fun F k => do r <- fl_add v0 F t0 [:: k]; Ok r.1) F0 (iota 0 m) = Ok F, fbuilt v0 F &
   forall s v, s != [::] -> fvalue F s v <-> (exists2 k, k < m & s = [:: k]) /\ v = t0].
Proof.
have [F0 [E0 X0 H0]] := C28_of v0 (built_new maxdim).
have b0 : fbuilt v0 F0 := fb_of (built_new maxdim) E0.
elim: m => [|m IH] mn.
  exists F0, F0; split=> // s v s0; rewrite H0 //; split=> [[h _]|[[k]//]]; exfalso; move: h => [i].
  by rewrite /sc_find /sc_new /=; case: s s0.
have [F0' [F [E0' _ E b H]]] := IH (ltnW mn); have e0 : F0' = F0 by move: E0'; rewrite E0 => -[].
rewrite e0 in E; exists F0.
have hf : has_faces (fl_X F) (sort leq [:: m]) by [].
have [F1 [i [E1 _ _ H1]]] := C28_add t0 b (isT : [:: m] != [::]) (or_intror hf).
exists F1; split=> //.
- by rewrite -addn1 iotaD add0n ofold_cat E /= E1.
- exact: fb_add b E1.
- move=> s v s0; rewrite H1 // H // (_ : sort leq [:: m] = [:: m]) //; split.
    case=> [[-> ->]|[ne [[k km ->] ->]]]; first by split=> //; exists m.
    by split=> //; exists k => //; exact: ltnW.
  case=> [[k km ->] ->]; case: (k =P m) => [->|ne]; first by left.
  right; split; first by case.
  split=> //; exists k => //; by move: km ne; clear; lia.
Qed.

Lemma finv_start F1 : (forall s v, s != [::] -> fvalue F1 s v <-> (exists2 k, k < n & s = [:: k]) /\ v = t0) -> fbuilt v0 F1 ->
  finv [::] F1 (nseq n [::]).
Proof.
move=> H1 b1; split=> //; first by rewrite size_nseq.
  by move=> i li; rewrite nth_nseq li; split.
move=> s v s0; rewrite H1 //; split=> [[[k kn ->] ->]|[[[so lt cq] _] ->]].
  split=> //; split; last by rewrite /max_vertices /=.
  by split=> // [x|x y]; rewrite !inE; [move/eqP->|move=> /eqP -> /eqP ->].
split=> //; case: s s0 so lt cq => [//|x [|y s]] _ so lt cq; first by exists x => //; apply: lt; rewrite mem_head.
have /= /andP [xy _] := so; have := cq x y; rewrite !inE !eqxx /= orbT => /(_ isT isT) H; exfalso.
have /H : x <> y by move=> e; move: xy; rewrite e ltnn.
by [].
Qed.

Lemma flag_loop_ok es : simple n (pairs_of es) -> exists F, [/\ flag_loop v0 es n maxdim t0 = Ok F, fbuilt v0 F &
  forall s v, s != [::] -> fvalue F s v <-> fsx es s /\ v = lastval es s].
Proof.
move=> sm; have [F0 [F1 [E0 _ E1 b1 H1]]] := flag_verts_ok (leqnn n).
have fi := finv_start H1 b1.
have [F2 [nb2 [E2 fi2]]] := flag_edges_ok fi sm.
by exists F2; rewrite /flag_loop E0 /= E1 /= E2; split=> //; [exact: fi_b fi2|exact: fi_v fi2].
Qed.
End Inv.
End R.
