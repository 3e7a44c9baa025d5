(** C40: FlagFiltration, FlagComplex, RipsFiltration and RipsComplex. *)
From mathcomp Require Import all_ssreflect all_algebra zify.
From Verif Require Import Outcome M_Sorted M_Simplicial M_Filtration M_Flag S_Simplicial S_Filtration S_Flag P_Outcome P_Util P_Filtration Props_Simplicial Props_Filtration P_Flag P_Flag2.
Set Implicit Arguments.
Unset Strict Implicit.
Unset Printing Implicit Defensive.

Section Order.
Variable V : eqType.
Variable v0 : V.
Variable le : V -> V -> bool.
Hypothesis le_total : total le.
Hypothesis le_trans : transitive le.
Hypothesis le_anti : antisymmetric le.
Implicit Types (es : seq (fedge V)) (s : seq nat).

Let le_refl v : le v v. Proof. by have := le_total v v; rewrite orbb. Qed.

Lemma fe_total : total (fun a b : fedge V => ~~ fe_lt le b a).
Proof.
move=> a b; rewrite /fe_lt !(eq_sym (fe_r b)) !(eq_sym (fe_s b)).
have := le_total (fe_r a) (fe_r b); case: (fe_r a =P fe_r b) => [->|ne]; rewrite ?le_refl /=.
  by case: (ltngtP (fe_s a) (fe_s b)) => //= _ _; case: (ltngtP (fe_t a) (fe_t b)).
case h1: (le _ _); case h2: (le _ _) => //= _; exfalso; apply: ne; apply: le_anti; by rewrite h1 h2.
Qed.

Lemma fe_sort_le es : sorted (fun a b => le (fe_r a) (fe_r b)) (fe_sort le es).
Proof.
have := sort_sorted fe_total es; rewrite -/(fe_sort le es); apply: sub_sorted => a b; rewrite /fe_lt.
by case: (le (fe_r a) (fe_r b)).
Qed.
Lemma fe_sort_mem es : fe_sort le es =i es. Proof. exact: mem_sort. Qed.
Lemma fe_sort_perm es : perm_eq (fe_sort le es) es. Proof. by apply/permPl; exact: perm_sort. Qed.

Lemma lastval_none t0 es s : (forall e, e \in es -> ~~ inside s e) -> lastval t0 es s = t0.
Proof.
elim/seq.last_ind: es => // es e IH H; rewrite /lastval foldl_rcons (negbTE (H e _)) ?mem_rcons ?mem_head //.
by apply: IH => f fe; apply: H; rewrite mem_rcons inE fe orbT.
Qed.
Lemma lastval_some t0 es s : sorted (fun a b => le (fe_r a) (fe_r b)) es -> has (inside s) es -> largest_edge le es s (lastval t0 es s).
Proof.
have tr : transitive (fun a b : fedge V => le (fe_r a) (fe_r b)) by move=> b a c; exact: le_trans.
elim/seq.last_ind: es => // es e IH; rewrite (sorted_pairwise tr) -cats1 pairwise_cat has_cat /= orbF andbT => /andP [H1 H2] hs.
rewrite /lastval cats1 foldl_rcons; case: (boolP (inside s e)) => ie.
  have /andP [i1 i2] := ie; split; first by exists e; rewrite mem_rcons mem_head.
  move=> f; rewrite mem_rcons inE => /orP [/eqP ->//|fe _ _]; exact: (allrelP H1 f e fe (mem_head _ _)).
move: hs; rewrite (negbTE ie) orbF => hs; rewrite -(sorted_pairwise tr) in H2; have [[f [f1 f2 f3 f4]] g] := IH H2 hs; split.
  by exists f; rewrite mem_rcons inE f1 orbT.
move=> h; rewrite mem_rcons inE => /orP [/eqP ->|hh]; last exact: g.
by move=> a b; exfalso; move: ie; rewrite /inside a b.
Qed.
Lemma largest_unique es s v w : largest_edge le es s v -> largest_edge le es s w -> v = w.
Proof.
by move=> [[e [e1 e2 e3 <-]] he] [[f [f1 f2 f3 <-]] hf]; apply: le_anti; rewrite he ?hf.
Qed.

Lemma simple_perm n ps qs : perm_eq ps qs -> simple n ps -> simple n qs.
Proof.
move=> p [h1 h2 h3]; split; first by move=> q; rewrite -(perm_mem p); exact: h1.
  by rewrite -(perm_uniq p).
by move=> q; rewrite -!(perm_mem p); exact: h3.
Qed.
Lemma clique_mem n ps qs s : ps =i qs -> clique n ps s <-> clique n qs s.
Proof.
by move=> e; split=> -[h1 h2 h3]; split=> // x y xi yi ne; have := h3 x y xi yi ne; rewrite /adjacent !e.
Qed.
Lemma pairs_mem es es' : es =i es' -> pairs_of es =i pairs_of es'.
Proof. by move=> e p; apply/mapP/mapP => -[f fe ->]; exists f; rewrite // ?e // -e. Qed.

(** two different vertices of a clique give an edge inside it; one vertex gives none *)
Lemma clique_inside n es s : clique n (pairs_of es) s -> 1 < size s -> has (inside s) es.
Proof.
case: s => [|x [|y s]] // [so _ cq] _; have /= /andP [xy _] := so.
have ne : x <> y by move=> e; move: xy; rewrite e ltnn.
have := cq x y (mem_head _ _) _ ne; rewrite !inE eqxx orbT => /(_ isT); rewrite /adjacent => /orP [] /mapP [e ee [e1 e2]];
  by apply/hasP; exists e => //; rewrite /inside -e1 -e2 !inE !eqxx ?orbT.
Qed.
Lemma single_inside n es x : simple n (pairs_of es) -> forall e, e \in es -> ~~ inside [:: x] e.
Proof.
move=> [h _ _] e ee; have /= [] := h (fe_s e, fe_t e); first by apply/mapP; exists e.
by move=> _ _ ne; rewrite /inside !inE; apply/negP => /andP [/eqP a /eqP b]; apply: ne; rewrite a b.
Qed.

(** FlagFiltration(edges, n, maxdim, t0), for edges with ends below n, no loops and no edge given twice: every simplex
    finds its faces, so the call succeeds.  The simplices are the cliques with at most maxdim + 1 vertices (but the
    edges are there even for maxdim = 0).  The vertices have value t0, every other simplex has the largest value of its
    edges. *)
Theorem C40_flag_filtration es n maxdim t0 : simple n (pairs_of es) ->
  exists F, [/\ flag_filtration v0 le es n maxdim t0 = Ok F, fbuilt v0 F &
    forall s v, s != [::] -> fvalue F s v <->
      [/\ clique n (pairs_of es) s, size s <= max_vertices maxdim &
          if size s == 1 then v = t0 else largest_edge le es s v]].
Proof.
move=> sm; have pm : perm_eq (pairs_of (fe_sort le es)) (pairs_of es) by exact: perm_map (fe_sort_perm es).
have sm' : simple n (pairs_of (fe_sort le es)) by apply: simple_perm sm; rewrite perm_sym.
have [F [E b H]] := flag_loop_ok v0 maxdim t0 sm'; exists F; split=> // s v s0; rewrite H // /fsx.
have cl : clique n (pairs_of (fe_sort le es)) s <-> clique n (pairs_of es) s by apply: clique_mem; exact: perm_mem.
have lg w : largest_edge le (fe_sort le es) s w <-> largest_edge le es s w.
  have me := fe_sort_mem es; split=> -[[e [e1 e2 e3 e4]] h]; split.
  - by exists e; rewrite -me.
  - by move=> f fi; apply: h; rewrite me.
  - by exists e; rewrite me.
  - by move=> f fi; apply: h; rewrite -me.
case: eqP => s1.
  have -> : lastval t0 (fe_sort le es) s = t0.
    by case: s s1 {s0 cl lg} => [|x []] // _; apply: lastval_none; exact: single_inside sm'.
  by split=> [[[h1 h2] ->]|[h1 h2 ->]]; split=> //; [exact/cl|split=> //; exact/cl].
have sz : 1 < size s by move: s1 s0; case: s {cl lg} => [|x []].
split=> [[[h1 h2] ->]|[h1 h2 h3]].
  split=> //; first exact/cl.
  by apply/lg; apply: lastval_some; [exact: fe_sort_le|exact: clique_inside h1 sz].
have h1' := cl.2 h1; split; first by split.
apply: largest_unique h3 _; apply/lg; apply: lastval_some; [exact: fe_sort_le|exact: clique_inside h1' sz].
Qed.

(** ... and with t0 at most every edge value it is a filtration: no face has a larger value. *)
Theorem C40_flag_monotone es n maxdim t0 F : simple n (pairs_of es) -> (forall e, e \in es -> le t0 (fe_r e)) ->
  flag_filtration v0 le es n maxdim t0 = Ok F -> monotone le F.
Proof.
move=> sm lo E; have [F' [E' b H]] := C40_flag_filtration maxdim t0 sm; move: E'; rewrite E => -[e]; rewrite -e in H.
move=> t u v w u0 ut ft fu; have t0' : t != [::] by apply: contraNneq u0 => et; move: ut; rewrite et subseq0.
have sub : {subset u <= t} by exact: mem_subseq.
move: ft fu; rewrite !H //; move=> [ct zt]; case: (size t =P 1) => st ht [cu zu]; case: (size u =P 1) => su hu.
- by rewrite ht hu.
- by exfalso; have := size_subseq ut; move: st su; case: u u0 {ut sub hu cu zu} => [|x [|y u]] //= _ -> //.
- by rewrite hu; have [[e1 [e2 _ _ <-]] _] := ht; exact: lo.
- have [_ h] := ht; have [[e1 [e2 e3 e4 <-]] _] := hu; apply: h => //; exact: sub.
Qed.
End Order.

(** ** the complex without values *)
Definition mkpair (p : nat * nat) : fedge unit_eqType := FEdge p.1 p.2 tt.
Definition utt := (fun _ _ : unit => true).

Lemma fl_add_sc (V : Type) (v0 : V) F t s F' r : fl_add v0 F t s = Ok (F', r) -> sc_add (fl_X F) s = Ok (fl_X F', r).
Proof. by rewrite /fl_add; case: sc_add => [[X i]| | |] //=; case: fv_store => //= val [<- <-]. Qed.

Lemma ofold_proj (A A' B : Type) (f : A -> B -> outcome A) (f' : A' -> B -> outcome A') (h : A -> A') l a a1 :
  (forall a b a', f a b = Ok a' -> f' (h a) b = Ok (h a')) -> ofold f a l = Ok a1 -> ofold f' (h a) l = Ok (h a1).
Proof.
move=> H; elim: l a => [|b l IH] a /=; first by case=> ->.
by case E: (f a b) => [a'| | |] //=; rewrite (H _ _ _ E) /=; exact: IH.
Qed.

Lemma cflag_recE fuel (F F' : filt unit) nbrs d maxd iter spx : d <= maxd -> maxd < d + fuel ->
  flag_rec (V := unit_eqType) tt fuel F nbrs d maxd iter spx tt = Ok F' ->
  forall fuel', maxd < d + fuel' -> cflag_rec fuel' (fl_X F) nbrs d maxd iter spx = Ok (fl_X F').
Proof.
elim: fuel F F' d iter spx => [|fuel IH] F F' d iter spx dm fm; first by exfalso; move: dm fm; clear; lia.
cbn [flag_rec] => E [|fuel'] fm'; first by exfalso; move: dm fm'; clear; lia.
cbn [cflag_rec]; case: (d =P maxd) E => [e|ne] E.
  apply: ofold_proj E => F1 k F2; case E: fl_add => [[F3 r]| | |] //= [<-].
  by have /= -> := fl_add_sc E.
have dm' : d < maxd by move: dm ne; clear; lia.
rewrite dm'; apply: ofold_proj E => F1 k F2; case E: fl_add => [[F3 r]| | |] //=.
have /= -> := fl_add_sc E; case: oget => //= nk E2; apply: (IH _ _ _ _ _ _ _ E2) => //.
  by move: fm ne; clear; lia.
by move: fm' ne; clear; lia.
Qed.

Lemma sc_add_sort X s : sc_add X (sort leq s) = sc_add X s.
Proof. by rewrite /sc_add sorted_sort //; [exact: leq_trans|exact: sort_sorted leq_total _]. Qed.

Lemma cflag_edgeE maxdim F nbrs p F' nbrs' : flag_edge (V := unit_eqType) tt maxdim (F, nbrs) (mkpair p) = Ok (F', nbrs') ->
  cflag_edge maxdim (fl_X F, nbrs) p = Ok (fl_X F', nbrs').
Proof.
have cs X : maxdim <= 1 -> forall it spx, cflag_rec maxdim.+1 X nbrs 2 maxdim it spx = Ok X by case: maxdim => [|[]].
rewrite /flag_edge /cflag_edge; have hfu : maxdim <= maxdim.+1 by [].
move: (maxdim.+1) hfu cs => fu hfu cs /=; case E: fl_add => [[F1 r]| | |] //=.
have := fl_add_sc E; rewrite sc_add_sort => -> /=; case: oget => //= ni; case: oget => //= nj.
case: (intersect_sorted ni nj != [::]) => /=; last by case: add_nbrs => //= nb [<- <-].
case: (ltnP 1 maxdim) => m1; last first.
  by rewrite cs //=; case: add_nbrs => //= nb [<- <-].
case E2: flag_rec => [F2| | |] //=; rewrite (cflag_recE _ _ E2) //=; try by move: m1 hfu; clear; lia.
by case: add_nbrs => //= nb [<- <-].
Qed.

Lemma cflag_edgesE maxdim l F nbrs F' nbrs' : ofold (flag_edge (V := unit_eqType) tt maxdim) (F, nbrs) [seq mkpair p | p <- l] = Ok (F', nbrs') ->
  ofold (cflag_edge maxdim) (fl_X F, nbrs) l = Ok (fl_X F', nbrs').
Proof.
elim: l F nbrs => [|p l IH] F nbrs; first by case=> -> ->.
cbn [map ofold]; case E: (flag_edge _ _ _ _) => [[F1 nb1]| | |] //; cbn [obind] => E2.
by rewrite (cflag_edgeE E); cbn [obind]; exact: IH.
Qed.

(** FlagComplex(edges, n, maxdim) for a list of pairs without loops and repetitions: the same simplices; the edges may
    come in any order. *)
Theorem C40_flag_complex edges n maxdim : ~~ odd (size edges) -> simple n (edge_pairs edges) ->
  exists X, [/\ flag_complex edges n maxdim = Ok X, built X &
    forall s, s != [::] -> contains X s <-> clique n (edge_pairs edges) s /\ size s <= max_vertices maxdim].
Proof.
move=> od sm; pose es := [seq mkpair p | p <- edge_pairs edges].
have pe : pairs_of es = edge_pairs edges by rewrite /pairs_of /es -map_comp map_id_in // => -[].
rewrite -pe in sm; have [F [E b H]] := flag_loop_ok tt maxdim tt sm.
have [bX _ _ cv _] := C28_aligned b; exists (fl_X F); split=> //; last first.
  move=> s s0; rewrite cv // -pe; split=> [[v /(H s v s0) [h _]]|h]; first exact: h.
  by exists tt; apply/H => //; split=> //; case: (lastval _ _ _).
rewrite /flag_complex (_ : (size edges != 2 * (size edges %/ 2)) = false); last first.
  by rewrite -{1}(odd_double_half (size edges)) (negbTE od) add0n divn2 mul2n eqxx.
move: E; rewrite /flag_loop; case E0: fl_of => [F0| | |] //; cbn [obind].
have X0 : fl_X F0 = sc_new maxdim by have [F0' [E0' e _]] := C28_of tt (built_new maxdim); move: E0'; rewrite E0 => -[->].
case E1: ofold => [F1| | |] //; cbn [obind]; case E2: ofold => [[F2 nb2]| | |] //; cbn [obind fst] => -[e].
rewrite -X0 (_ : ofold _ (fl_X F0) _ = Ok (fl_X F1)); first by cbn [obind]; rewrite (cflag_edgesE E2) -e.
apply: ofold_proj E1 => G k G'; case E3: fl_add => [[G1 r]| | |] //= [<-].
by have -> := fl_add_sc E3.
Qed.

(** an odd number of entries is refused *)
Theorem C40_flag_complex_odd edges n maxdim : odd (size edges) -> flag_complex edges n maxdim = Throw.
Proof.
move=> od; rewrite /flag_complex ifT //; apply/negP => /eqP e; move: od; rewrite e oddM.
by [].
Qed.

(** ** Rips *)
Section Rips.
Variable V : eqType.
Variable v0 z : V.
Variable le : V -> V -> bool.
Hypothesis le_total : total le.
Hypothesis le_trans : transitive le.
Hypothesis le_anti : antisymmetric le.
Variable D : nat -> nat -> V.

Definition lower n := [seq (i, j) | i <- iota 0 n, j <- iota 0 i].
Lemma lower_mem n p : (p \in lower n) = (p.2 < p.1 < n).
Proof.
case: p => x y; apply/allpairsPdep/idP => /= [[i [j [h1 h2 [-> ->]]]]|/andP [h1 h2]].
  by move: h1 h2; rewrite !mem_iota !add0n /= => -> ->.
by exists x, y; rewrite !mem_iota.
Qed.
Lemma lower_uniq n : uniq (lower n).
Proof. by apply: allpairs_uniq_dep => [|i _|]; rewrite ?iota_uniq // => -[a b] [c d] _ _ [-> ->]. Qed.

(** x, y adjacent in the Rips graph *)
Definition within (E : nat -> nat -> V) n rmax (s : seq nat) : Prop :=
  [/\ sorted ltn s, forall x, x \in s -> x < n & forall x y, x \in s -> y \in s -> x < y -> le (E x y) rmax].

Lemma clique_within n ps (E : nat -> nat -> V) rmax s :
  (forall x y, x < y < n -> adjacent ps x y = le (E x y) rmax) -> clique n ps s <-> within E n rmax s.
Proof.
move=> H; split=> -[so lt h]; split=> // x y xs ys; last first.
  by case: (ltngtP x y) => // xy _; [|rewrite adjacent_sym]; rewrite H ?xy ?lt //; exact: h.
by move=> xy; rewrite -H ?xy ?lt //; apply: h => // e; move: xy; rewrite e ltnn.
Qed.

Lemma largest_diameter (es : seq (fedge V)) (E : nat -> nat -> V) s v :
  (forall x y, x \in s -> y \in s -> x < y -> exists e, [/\ e \in es, fe_s e \in s, fe_t e \in s & fe_r e = E x y]) ->
  (forall e, e \in es -> fe_s e \in s -> fe_t e \in s -> exists x y, [/\ x \in s, y \in s, x < y & E x y = fe_r e]) ->
  largest_edge le es s v <-> diameter le E s v.
Proof.
move=> H1 H2; split=> -[[]].
  move=> e [e1 e2 e3 <-] h; have [x [y [xs ys xy e4]]] := H2 e e1 e2 e3; split; first by exists x, y.
  by move=> x' y' xs' ys' xy'; have [f [f1 f2 f3 <-]] := H1 _ _ xs' ys' xy'; exact: h.
move=> x [y [xs ys xy <-]] h; have [e [e1 e2 e3 e4]] := H1 _ _ xs ys xy; split; first by exists e.
by move=> f f1 f2 f3; have [x' [y' [xs' ys' xy' <-]]] := H2 f f1 f2 f3; exact: h.
Qed.

Lemma mat_pairs n rmax : pairs_of (rips_fedges_mat le D n rmax) = [seq (p.2, p.1) | p <- [seq p <- lower n | le (D p.2 p.1) rmax]].
Proof. by rewrite /pairs_of /rips_fedges_mat -map_comp. Qed.
Lemma data_pairs n rmax : perm_eq (pairs_of (rips_fedges_data le D n rmax)) [seq p <- lower n | le (D p.1 p.2) rmax].
Proof.
rewrite /rips_fedges_data /pairs_of; apply: perm_trans; first by apply: perm_map; exact: fe_sort_perm.
by rewrite -map_comp map_id_in // => -[].
Qed.
Lemma lower_simple n (P : pred (nat * nat)) : simple n [seq p <- lower n | P p] /\ simple n [seq (p.2, p.1) | p <- [seq p <- lower n | P p]].
Proof.
have m p : p \in [seq p <- lower n | P p] -> p.2 < p.1 < n by rewrite mem_filter lower_mem => /andP [].
split; split.
- by move=> [x y] /m /= h; split; move: h; clear; lia.
- by apply: filter_uniq; exact: lower_uniq.
- move=> [x y] /m /= h; apply/negP => /m /=; by move: h; clear; lia.
- by move=> p /mapP [[x y] /m /= h ->] /=; split; move: h; clear; lia.
- by rewrite map_inj_uniq ?filter_uniq ?lower_uniq // => -[a b] [c d] /= [-> ->].
- move=> p /mapP [[x y] /m /= h ->] /=; apply/negP => /mapP [[a b] /m /= h2 [e1 e2]]; by move: h h2; rewrite e1 e2; clear; lia.
Qed.

(** RipsFiltration(pdist, rmax, dmax): simplices are the sets of points with all pairwise distances at most rmax; the
    value is the diameter, T(0) for points.  Only the entries pdist(i,j) with i < j are read. *)
Theorem C40_rips_filtration_matrix n rmax dmax :
  exists F, [/\ rips_filtration_mat v0 le z D n rmax dmax = Ok F, fbuilt v0 F &
    forall s v, s != [::] -> fvalue F s v <->
      [/\ within D n rmax s, size s <= max_vertices dmax & if size s == 1 then v = z else diameter le D s v]].
Proof.
have sm : simple n (pairs_of (rips_fedges_mat le D n rmax)) by rewrite mat_pairs; have [] := lower_simple n (fun p => le (D p.2 p.1) rmax).
have [F [E b H]] := C40_flag_filtration v0 le_total le_trans le_anti dmax z sm; exists F; split=> // s v s0; rewrite H //.
have cw : clique n (pairs_of (rips_fedges_mat le D n rmax)) s <-> within D n rmax s.
  apply: clique_within => x y /andP [xy yn]; rewrite mat_pairs /adjacent.
  rewrite (_ : ((y, x) \in _) = false) ?orbF; last first.
    apply/negP => /mapP [[a b'] /=]; rewrite mem_filter lower_mem /= => /andP [_ h] [e1 e2]; by move: h xy; rewrite e1 e2; clear; lia.
  apply/mapP/idP => [[[a b'] /=]|h]; first by rewrite mem_filter => /andP [h _] [-> ->].
  by exists (y, x) => //; rewrite mem_filter lower_mem /= h xy yn.
have me (e : fedge V) : e \in rips_fedges_mat le D n rmax -> [/\ fe_s e < fe_t e < n & fe_r e = D (fe_s e) (fe_t e)].
  by move=> /mapP [[a b'] /=]; rewrite mem_filter lower_mem /= => /andP [_ h] ->.
split=> -[h1 h2 h3]; split=> //; try exact/cw.
all: case: eqP h3 => // _; apply largest_diameter.
all: move: (cw) h1 => [cw1 cw2] h1; have [so lt wi] : within D n rmax s by [apply: cw1|apply: h1].
1,3: move=> x y xs ys xy; exists (FEdge x y (D x y)); split=> //; apply/mapP; exists (y, x) => //.
1,2: by rewrite mem_filter lower_mem /= xy lt // wi.
all: by move=> e /me [/andP [l1 l2] l3] e2 e3; exists (fe_s e), (fe_t e); split.
Qed.

(** RipsFiltration(X, dist, rmax, dmax): the same; dist is called with the larger index first. *)
Theorem C40_rips_filtration_data n rmax dmax :
  exists F, [/\ rips_filtration_data v0 le z D n rmax dmax = Ok F, fbuilt v0 F &
    forall s v, s != [::] -> fvalue F s v <->
      [/\ within (fun x y => D y x) n rmax s, size s <= max_vertices dmax &
          if size s == 1 then v = z else diameter le (fun x y => D y x) s v]].
Proof.
pose E x y := D y x.
have sm : simple n (pairs_of (rips_fedges_data le D n rmax)).
  by apply: simple_perm (_ : perm_eq [seq p <- lower n | le (D p.1 p.2) rmax] _) _; [rewrite perm_sym; exact: data_pairs|have [] := lower_simple n (fun p => le (D p.1 p.2) rmax)].
have [F [EF b H]] := C40_flag_filtration v0 le_total le_trans le_anti dmax z sm; exists F; split=> // s v s0; rewrite H //.
have cw : clique n (pairs_of (rips_fedges_data le D n rmax)) s <-> within E n rmax s.
  apply: clique_within => x y /andP [xy yn]; rewrite /adjacent !(perm_mem (data_pairs n rmax)) !mem_filter !lower_mem /=.
  by rewrite [y < x]ltnNge (ltnW xy) xy yn !andbT /= andbF.
have mm (e : fedge V) : (e \in rips_fedges_data le D n rmax) = (e \in [seq FEdge p.1 p.2 (D p.1 p.2) | p <- [seq p <- lower n | le (D p.1 p.2) rmax]]).
  by rewrite /rips_fedges_data fe_sort_mem.
have me (e : fedge V) : e \in rips_fedges_data le D n rmax -> [/\ fe_t e < fe_s e < n & fe_r e = D (fe_s e) (fe_t e)].
  by rewrite mm => /mapP [[a b'] /=]; rewrite mem_filter lower_mem /= => /andP [_ h] ->.
split=> -[h1 h2 h3]; split=> //; try exact/cw.
all: case: eqP h3 => // _; apply largest_diameter.
all: move: (cw) h1 => [cw1 cw2] h1; have [so lt wi] : within E n rmax s by [apply: cw1|apply: h1].
1,3: move=> x y xs ys xy; exists (FEdge y x (D y x)); split=> //; rewrite mm; apply/mapP; exists (y, x) => //.
1,2: by rewrite mem_filter lower_mem /= xy lt // (wi x y).
all: by move=> e /me [/andP [l1 l2] l3] e2 e3; exists (fe_t e), (fe_s e); split.
Qed.

Lemma pairs_flat l : edge_pairs (flatten [seq [:: p.2; p.1] | p <- l]) = [seq (p.2, p.1) | p <- l] /\
  ~~ odd (size (flatten [seq [:: (p : nat * nat).2; p.1] | p <- l])).
Proof. by elim: l => //= p l [-> IH]; rewrite negbK. Qed.

Theorem C40_rips_complex_matrix n rmax dmax :
  exists X, [/\ rips_complex_mat le D n rmax dmax = Ok X, built X &
    forall s, s != [::] -> contains X s <-> within D n rmax s /\ size s <= max_vertices dmax].
Proof.
have [pf od] := pairs_flat [seq p <- lower n | le (D p.2 p.1) rmax].
have sm : simple n (edge_pairs (rips_edges_mat le D n rmax)) by rewrite /rips_edges_mat pf; have [] := lower_simple n (fun p => le (D p.2 p.1) rmax).
have [X [E b H]] := C40_flag_complex dmax od sm; exists X; split=> // s s0; rewrite H //.
have -> // : clique n (edge_pairs (rips_edges_mat le D n rmax)) s <-> within D n rmax s.
apply: clique_within => x y /andP [xy yn]; rewrite /rips_edges_mat pf -mat_pairs /adjacent mat_pairs.
rewrite (_ : ((y, x) \in _) = false) ?orbF; last first.
  apply/negP => /mapP [[a b'] /=]; rewrite mem_filter lower_mem /= => /andP [_ h] [e1 e2]; by move: h xy; rewrite e1 e2; clear; lia.
apply/mapP/idP => [[[a b'] /=]|h]; first by rewrite mem_filter => /andP [h _] [-> ->].
by exists (y, x) => //; rewrite mem_filter lower_mem /= h xy yn.
Qed.

Theorem C40_rips_complex_data n rmax dmax :
  exists X, [/\ rips_complex_data le D n rmax dmax = Ok X, built X &
    forall s, s != [::] -> contains X s <-> within (fun x y => D y x) n rmax s /\ size s <= max_vertices dmax].
Proof.
have [pf od] := pairs_flat [seq p <- lower n | le (D p.1 p.2) rmax].
have sm : simple n (edge_pairs (rips_edges_data le D n rmax)) by rewrite /rips_edges_data pf; have [] := lower_simple n (fun p => le (D p.1 p.2) rmax).
have [X [E b H]] := C40_flag_complex dmax od sm; exists X; split=> // s s0; rewrite H //.
have -> // : clique n (edge_pairs (rips_edges_data le D n rmax)) s <-> within (fun x y => D y x) n rmax s.
apply: clique_within => x y /andP [xy yn]; rewrite /rips_edges_data pf /adjacent.
rewrite (_ : ((y, x) \in _) = false) ?orbF; last first.
  apply/negP => /mapP [[a b'] /=]; rewrite mem_filter lower_mem /= => /andP [_ h] [e1 e2]; by move: h xy; rewrite e1 e2; clear; lia.
apply/mapP/idP => [[[a b'] /=]|h]; first by rewrite mem_filter => /andP [h _] [-> ->].
by exists (y, x) => //; rewrite mem_filter lower_mem /= h xy yn.
Qed.

Lemma list_max (L : seq V) : L != [::] -> exists2 m, m \in L & forall x, x \in L -> le x m.
Proof.
elim: L => // a L IH _; case: (altP (L =P [::])) => [->|/IH [m mL h]].
  by exists a; rewrite ?mem_head // => x; rewrite inE => /eqP ->; have := le_total a a; rewrite orbb.
case/orP: (le_total a m) => am; first by exists m; rewrite ?inE ?mL ?orbT // => x; rewrite inE => /orP [/eqP ->|/h].
exists a; rewrite ?mem_head // => x; rewrite inE => /orP [/eqP ->|/h xm]; last exact: le_trans am.
by have := le_total a a; rewrite orbb.
Qed.
Lemma diameter_exists (E : nat -> nat -> V) s : sorted ltn s -> 1 < size s -> exists v, diameter le E s v.
Proof.
move=> so s1; pose L := [seq E p.1 p.2 | p <- [seq p <- [seq (x, y) | x <- s, y <- s] | p.1 < p.2]].
have mL v : v \in L <-> exists x y, [/\ x \in s, y \in s, x < y & E x y = v].
  split=> [/mapP [[x y]]|[x [y [xs ys xy <-]]]].
    by rewrite mem_filter => /andP [xy] /allpairsP [[a b] /= [a1 a2 [e1 e2]]] ->; exists x, y; rewrite e1 e2; split=> //; move: xy; rewrite /= e1 e2.
  by apply/mapP; exists (x, y) => //; rewrite mem_filter xy; apply/allpairsP; exists (x, y).
have [|m mi h] := @list_max L; last first.
  exists m; split; first exact/mL.
  by move=> x y xs ys xy; apply: h; apply/mL; exists x, y.
have [x [y [xs ys xy]]] : exists x y, [/\ x \in s, y \in s & x < y].
  by case: s so s1 {L mL} => [|x [|y s]] //= /andP [xy _] _; exists x, y; rewrite !inE !eqxx orbT.
have : E x y \in L by apply/mL; exists x, y.
by case: (L).
Qed.

Lemma rips_sub (E : nat -> nat -> V) n rmax a dmax (F : filt V) X : fbuilt v0 F ->
  (forall x y, x < y < n -> le z (E x y)) -> le z a -> le a rmax ->
  (forall s v, s != [::] -> fvalue F s v <->
      [/\ within E n rmax s, size s <= max_vertices dmax & if size s == 1 then v = z else diameter le E s v]) ->
  (forall s, s != [::] -> contains X s <-> within E n a s /\ size s <= max_vertices dmax) ->
  monotone le F /\ exists2 Y, fl_sublevelset le F a = Ok Y & forall s, s != [::] -> contains Y s <-> contains X s.
Proof.
move=> b nn za ar HF HX; have lerr v : le v v by have := le_total v v; rewrite orbb.
have mo : monotone le F.
  move=> t u v w u0 ut ft fu; have t0' : t != [::] by apply: contraNneq u0 => et; move: ut; rewrite et subseq0.
  have sub : {subset u <= t} by exact: mem_subseq.
  move: ft fu; rewrite !HF //; move=> [ct zt]; case: (size t =P 1) => st ht [cu zu]; case: (size u =P 1) => su hu.
  - by rewrite ht hu.
  - by exfalso; have := size_subseq ut; move: st su; case: u u0 {ut sub hu cu zu} => [|x [|y u]] //= _ -> //.
  - rewrite hu; have [[x [y [xs ys xy <-]]] _] := ht; apply: nn; rewrite xy /=; by have [_ lt _] := ct; exact: lt.
  - have [_ h] := ht; have [[x [y [xs ys xy <-]]] _] := hu; apply: h => //; exact: sub.
split=> //; have [Y E1 _] := C28_sublevelset le a b; exists Y => // s s0.
have [_ _ _ cv _] := C28_aligned b.
have ud : undirected (fl_X F).
  move=> [|x u] // /(cv (x :: u) isT) [v /(HF (x :: u) v isT) [[so _ _] _ _]]; exact: sub_sorted ltnW _ so.
rewrite (C28_sublevelset_monotone le_trans b ud mo E1 s0) HX //; split=> [[v]|[[so lt wi] sz]].
  rewrite HF // => -[[so lt wi] sz h] va; split=> //; split=> // x y xs ys xy; case: eqP h => s1 h.
    exfalso; case: s s1 xs ys {s0 so lt wi sz h} => [|c []] // _; rewrite !inE => /eqP e1 /eqP e2; by move: xy; rewrite e1 e2 ltnn.
  by have [_ h2] := h; apply: le_trans va; exact: h2.
have wr : within E n rmax s by split=> // x y xs ys xy; apply: le_trans ar; exact: wi.
case: (size s =P 1) => s1.
  by exists z => //; apply/HF => //; rewrite s1 eqxx.
have s2 : 1 < size s by move: s1 s0; case: (s) => [|? []].
have [v dv] := diameter_exists E so s2; exists v; first by apply/HF => //; split=> //; case: eqP.
by have [[x [y [xs ys xy <-]]] _] := dv; exact: wi.
Qed.

(** With nonnegative distances the Rips filtration is monotone, and its sublevel set at a <= rmax is the Rips complex
    for a. *)
Theorem C40_rips_sublevelset_matrix n rmax a dmax F X : (forall x y, x < y < n -> le z (D x y)) -> le z a -> le a rmax ->
  rips_filtration_mat v0 le z D n rmax dmax = Ok F -> rips_complex_mat le D n a dmax = Ok X ->
  monotone le F /\ exists2 Y, fl_sublevelset le F a = Ok Y & forall s, s != [::] -> contains Y s <-> contains X s.
Proof.
move=> nn za ar EF EX; have [F' [EF' b HF]] := C40_rips_filtration_matrix n rmax dmax.
have [X' [EX' _ HX]] := C40_rips_complex_matrix n a dmax.
move: EF' EX'; rewrite EF EX => -[eF] [eX]; rewrite -eF in b HF; rewrite -eX in HX; exact: rips_sub b nn za ar HF HX.
Qed.
Theorem C40_rips_sublevelset_data n rmax a dmax F X : (forall x y, x < y < n -> le z (D y x)) -> le z a -> le a rmax ->
  rips_filtration_data v0 le z D n rmax dmax = Ok F -> rips_complex_data le D n a dmax = Ok X ->
  monotone le F /\ exists2 Y, fl_sublevelset le F a = Ok Y & forall s, s != [::] -> contains Y s <-> contains X s.
Proof.
move=> nn za ar EF EX; have [F' [EF' b HF]] := C40_rips_filtration_data n rmax dmax.
have [X' [EX' _ HX]] := C40_rips_complex_data n a dmax.
move: EF' EX'; rewrite EF EX => -[eF] [eX]; rewrite -eF in b HF; rewrite -eX in HX; exact: rips_sub b nn za ar HF HX.
Qed.
End Rips.

(** An end that is not below n: the edge does not find its vertices, and its value is stored outside the vector. *)
Theorem C40_flag_out_of_range (V : eqType) (v0 : V) le es es1 e es2 n maxdim t0 : fe_sort le es = es1 ++ e :: es2 ->
  simple n (pairs_of es1) -> fe_s e <> fe_t e -> n <= fe_s e \/ n <= fe_t e ->
  flag_filtration v0 le es n maxdim t0 = UB.
Proof.
move=> Es sm ne big; rewrite /flag_filtration Es /flag_loop.
have [F0 [F1 [E0 _ E1 b1 H1]]] := flag_verts_ok v0 maxdim t0 (leqnn n); rewrite E0; cbn [obind]; rewrite E1; cbn [obind].
have := flag_loop_ok v0 maxdim t0 sm; rewrite /flag_loop E0; cbn [obind]; rewrite E1; cbn [obind].
case E2: ofold => [[F2 nb2]| | |]; cbn [obind fst]; try by move=> [? []].
move=> [F [[<-] b H]]; rewrite ofold_cat E2; cbn [obind ofold]; rewrite {1}/flag_edge.
have n0 : sort leq [:: fe_s e; fe_t e] != [::] by rewrite -size_eq0 size_sort.
set s := sort leq [:: fe_s e; fe_t e].
have ss : sorted ltn s by apply: srt_ltn; rewrite /= inE andbT; apply/eqP.
have ids : sort leq s = s by exact: srt_id.
have si x : (x \in s) = (x == fe_s e) || (x == fe_t e) by rewrite mem_sort !inE.
have sz : size s = 2 by rewrite size_sort.
have [_ _ _ cv _] := C28_aligned b.
have nc : ~ contains (fl_X F2) s.
  move=> h; have [v /(H s v n0) [[[_ lt _] _] _]] := (cv s n0).1 h.
  by case: big; rewrite leqNgt lt // si eqxx ?orbT.
suff nf : ~ has_faces (fl_X F2) s by rewrite C28_add_missing ?ids.
move=> h; have h2 j : j < 2 -> nth 0 s j < n.
  move=> j2; have := h (1 - j); rewrite sz => /(_ _ isT).
  have -> : take (1 - j) s ++ drop (1 - j).+1 s = [:: nth 0 s j].
    by move: sz j2; case: (s) => [|x [|y []]] // _; case: j => [|[|]].
  have -> : 1 - j < 2 by move: j2; clear; lia.
  move=> /(_ isT) /(cv [:: nth 0 s j] isT) [v /(H [:: nth 0 s j] v isT) [[[_ lt _] _] _]]; apply: lt; exact: mem_head.
have all_lt x : x \in s -> x < n by move=> xs; rewrite -(nth_index 0 xs) h2 // -sz index_mem.
by case: big; rewrite leqNgt all_lt // si eqxx ?orbT.
Qed.

(** a square with one diagonal, values out of order; the second triangle closes with its last edge *)
Definition ex_fedges : seq (fedge nat_eqType) :=
  [:: FEdge 2 0 7; FEdge 0 1 1; FEdge 1 2 3; FEdge 3 2 2; FEdge 0 3 5].
Theorem C40_nonvacuous :
  [/\ simple 4 (pairs_of ex_fedges),
      exists F, [/\ flag_filtration 0 leq ex_fedges 4 2 0 = Ok F, fvalue F [:: 0; 1; 2] 7, fvalue F [:: 0; 3] 5 &
                    exists2 Y, fl_sublevelset leq F 5 = Ok Y & sc_find Y [:: 0; 2; 3] = Ok None],
      exists2 X, flag_complex [:: 2; 0; 0; 1; 1; 2] 3 2 = Ok X & contains X [:: 0; 1; 2],
      (exists2 F, rips_filtration_mat 0 leq 0 (fun i j => i + j) 4 4 2 = Ok F & fvalue F [:: 0; 1; 3] 4) &
      flag_filtration 0 leq [:: FEdge 0 4 1] 4 2 0 = UB].
Proof.
split; last by vm_compute.
- split=> //; first by move=> p; rewrite !inE => /or4P [|||/orP []] /eqP ->.
  by move=> p; rewrite !inE => /or4P [|||/orP []] /eqP ->.
- by eexists; split; [vm_compute; reflexivity|exists 0; by vm_compute|exists 3; by vm_compute|eexists; by vm_compute].
- by eexists; [vm_compute; reflexivity|exists 0; vm_compute].
- by eexists; [vm_compute; reflexivity|exists 1; vm_compute].
Qed.

(** Two quirks: edges are added for maxdim = 0; a loop gives a degenerate simplex. *)
Theorem C40_quirks :
  (exists2 F, flag_filtration 0 leq [:: FEdge 0 1 (1 : nat_eqType)] 2 0 0 = Ok F & fvalue F [:: 0; 1] 1) /\
  (exists2 F, flag_filtration 0 leq [:: FEdge 1 1 (1 : nat_eqType)] 2 1 0 = Ok F & fvalue F [:: 1; 1] 1).
Proof.
split; (eexists; [vm_compute; reflexivity|exists 0; by vm_compute]).
Qed.
