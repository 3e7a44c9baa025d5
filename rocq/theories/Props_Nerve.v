(** C49: nerves, Dowker complexes, filtrations over covers. *)
From mathcomp Require Import all_ssreflect all_algebra zify.
From Verif Require Import Outcome M_Sorted M_Simplicial M_Filtration M_Flag M_Nerve S_Simplicial S_Filtration S_Flag P_Outcome P_Util P_Simplicial P_ScOps P_ScBuild P_Filtration
  Props_Simplicial Props_Filtration Props_Util P_Flag P_Flag2 Props_Flag P_Nerve.
Set Implicit Arguments.
Unset Strict Implicit.
Unset Printing Implicit Defensive.

(** ** Nerve *)
(** Nerve(cover, dmax): the call succeeds; a set of two or more indices is a simplex exactly when it has at most dmax + 1
    elements (but two are always allowed) and its sets have an element in common; every index is a vertex. *)
Theorem C49_nerve (cover : seq (seq nat)) dmax : all (sorted ltn) cover ->
  exists N, [/\ nerve cover dmax = Ok N, built N & forall u, u != [::] -> contains N u <->
    [/\ sorted ltn u, forall k, k \in u -> k < size cover, size u <= max_vertices dmax &
        1 < size u -> exists x, forall k, k \in u -> x \in nth [::] cover k]].
Proof.
move=> covs; have [N [E b H]] := nerve_ok covs dmax; exists N; split=> // u nu; rewrite H //; split=> [[_ h1 /allP h2 h3 h4]|[h1 h2 h3 h4]].
  by split.
by split=> //; apply/allP.
Qed.
(** dmax = 0 still adds the edges, and an empty set is still a vertex *)
Theorem C49_nerve_quirks : exists N, [/\ nerve [:: [:: 0]; [:: 0]; [::]] 0 = Ok N, contains N [:: 0; 1] & contains N [:: 2]].
Proof. by eexists; split; [vm_compute; reflexivity|exists 0|exists 2]. Qed.

Section Mat.
Variable V : eqType.
Variable le : V -> V -> bool.
Notation lt a b := (~~ le b a).
(** neighborhoods(pdist, eps): set i has the columns j with pdist(i, j) <= eps *)
Theorem C49_neighborhoods (D : nat -> nat -> V) nrow ncol eps :
  let C := neighborhoods_mat le D nrow ncol eps in
  [/\ size C = nrow, all (sorted ltn) C & forall i j, i < nrow -> (j \in nth [::] C i) = (j < ncol) && le (D i j) eps].
Proof.
have E n : foldl (fun nbrs j => [seq (if le (D i j) eps then rcons (nth [::] nbrs i) j else nth [::] nbrs i) | i <- iota 0 nrow])
    (nseq nrow [::]) (iota 0 n) = [seq [seq j <- iota 0 n | le (D i j) eps] | i <- iota 0 nrow].
  elim: n => [|n IH]; first by rewrite /=; elim: (nrow) 0 => //= k IH m; rewrite -IH.
  rewrite -addn1 iotaD foldl_cat IH /=; apply/eq_in_map => i; rewrite mem_iota add0n => /andP[_ li].
  by rewrite (nth_map 0) ?size_iota // nth_iota // !add0n filter_cat /=; case: ifP; rewrite ?cats1 ?cats0.
rewrite /= /neighborhoods_mat E; split; first by rewrite size_map size_iota.
- by apply/allP => l /mapP[i _ ->]; apply: sorted_filter; [exact: ltn_trans|exact: iota_ltn_sorted].
by move=> i j li; rewrite (nth_map 0) ?size_iota // nth_iota // mem_filter mem_iota /= add0n andbC.
Qed.
(** Nerve(neighborhoods(pdist, eps), dmax) is the Dowker complex: rows with a common column at distance at most eps *)
Theorem C49_dowker_nerve (D : nat -> nat -> V) nrow ncol eps dmax :
  exists N, [/\ nerve (neighborhoods_mat le D nrow ncol eps) dmax = Ok N, built N & forall u, u != [::] -> contains N u <->
    [/\ sorted ltn u, forall k, k \in u -> k < nrow, size u <= max_vertices dmax &
        1 < size u -> exists x, x < ncol /\ forall k, k \in u -> le (D k x) eps]].
Proof.
have [sz so me] := C49_neighborhoods D nrow ncol eps; have [N [E b H]] := C49_nerve dmax so; exists N; split=> // u nu; rewrite H // sz.
split=> -[h1 h2 h3 h4]; split=> // s1; have [x] := h4 s1.
  move=> hx; exists x; split=> [|k ku]; last by have := hx k ku; rewrite me ?h2 // => /andP[].
  by case: (u) nu h2 hx => // k u' _ h2 hx; have := hx k (mem_head _ _); rewrite me ?h2 ?mem_head // => /andP[].
by move=> [xc hx]; exists x => k ku; rewrite me ?h2 // xc hx.
Qed.
(** neighborhoods(X, Y, dist, r) appends its answers behind X.size() empty lists: the entry of every point is empty *)
Theorem C49_neighborhoods_radius (D : nat -> nat -> V) nX nY r : let C := neighborhoods_r le D nX nY r in
  size C = nX + nX /\ forall i, i < nX -> nth [::] C i = [::] /\ nth [::] C (nX + i) = [seq j <- iota 0 nY | lt (D i j) r].
Proof.
have E n : foldl (fun nbrs i => rcons nbrs (neighborhood_r le (D i) nY r)) (nseq nX [::]) (iota 0 n) =
    nseq nX [::] ++ [seq neighborhood_r le (D i) nY r | i <- iota 0 n].
  elim: n => [|n IH]; first by rewrite cats0.
  by rewrite -addn1 iotaD foldl_cat IH map_cat catA cats1.
rewrite /= /neighborhoods_r E; split; first by rewrite size_cat size_nseq size_map size_iota.
move=> i li; rewrite !nth_cat size_nseq li nth_nseq li ltnNge leq_addr /= addKn.
by rewrite (nth_map 0) ?size_iota // nth_iota.
Qed.
End Mat.

(** ** flag filtrations of a graph with values on the edges *)
Section Graph.
Variable V : eqType.
Variable v0 z : V.
Variable le : V -> V -> bool.
Hypothesis le_total : total le.
Hypothesis le_trans : transitive le.
Hypothesis le_anti : antisymmetric le.
Notation lt a b := (~~ le b a).

(** the vertices are below n and every two of them are joined by G *)
Definition joined (G : nat -> nat -> Prop) (n : nat) (s : seq nat) : Prop :=
  [/\ sorted ltn s, forall x, x \in s -> x < n & forall x y, x \in s -> y \in s -> x < y -> G x y].
(** F is the flag filtration of the graph G with edge values E: simplices are the cliques, values the largest edge value,
    z for vertices; sublevel sets are the flag complexes of the edges so far *)
Definition flag_of (G : nat -> nat -> Prop) (E : nat -> nat -> V) (n dmax : nat) (F : filt V) : Prop :=
  [/\ fbuilt v0 F,
   forall s v, s != [::] -> fvalue F s v <->
      [/\ joined G n s, size s <= max_vertices dmax & if size s == 1 then v = z else diameter le E s v],
   (forall x y, x < y < n -> G x y -> le z (E x y)) -> monotone le F &
   forall a, (forall x y, x < y < n -> G x y -> le z (E x y)) -> le z a -> exists2 Y, fl_sublevelset le F a = Ok Y &
     forall s, s != [::] -> contains Y s <-> joined (fun x y => G x y /\ le (E x y) a) n s /\ size s <= max_vertices dmax].

Lemma lerr v : le v v. Proof. by have := le_total v v; rewrite orbb. Qed.
Lemma flag_graph (es : seq (fedge V)) (G : nat -> nat -> bool) (E : nat -> nat -> V) n dmax :
  simple n (pairs_of es) -> (forall x y, x < y < n -> adjacent (pairs_of es) x y = G x y) ->
  (forall e, e \in es -> exists x y, [/\ x < y, (fe_s e = x /\ fe_t e = y) \/ (fe_s e = y /\ fe_t e = x) & fe_r e = E x y]) ->
  exists2 F, flag_filtration v0 le es n dmax z = Ok F & flag_of G E n dmax F.
Proof.
move=> sm H1 H2; have [F [EF b H]] := C40_flag_filtration v0 le_total le_trans le_anti dmax z sm; exists F => //.
have cw s : clique n (pairs_of es) s <-> joined G n s.
  split=> -[so hlt h]; split=> // x y xs ys; last first.
    by case: (ltngtP x y) => // xy _; [|rewrite adjacent_sym]; rewrite H1 ?xy ?hlt //; exact: h.
  by move=> xy; rewrite -H1 ?xy ?hlt //; apply: h => // e; move: xy; rewrite e ltnn.
have HF s v : s != [::] -> fvalue F s v <-> [/\ joined G n s, size s <= max_vertices dmax & if size s == 1 then v = z else diameter le E s v].
  move=> s0; rewrite H //; have ld : joined G n s -> largest_edge le es s v <-> diameter le E s v.
    move=> [so hlt wi]; apply: largest_diameter.
      move=> x y xs ys xy; have := H1 x y; rewrite xy hlt // => /(_ isT) ad.
      have : adjacent (pairs_of es) x y by rewrite ad wi.
      rewrite /adjacent => /orP[] /mapP[e ei [e1 e2]]; have [x' [y' [xy' hh er]]] := H2 e ei; exists e.
        case: hh => -[a1 a2]; first by rewrite -e1 -e2; split=> //; rewrite er; congr E; congruence.
        by exfalso; move: xy xy'; rewrite e1 e2 a1 a2; clear; lia.
      case: hh => -[a1 a2]; last by rewrite -e1 -e2; split=> //; rewrite er; congr E; congruence.
      by exfalso; move: xy xy'; rewrite e1 e2 a1 a2; clear; lia.
    move=> e ei s1 s2; have [x [y [xy hh ->]]] := H2 e ei; exists x, y.
    by case: hh => -[a1 a2]; rewrite -?a1 -?a2; split=> //; rewrite ?a1 ?a2.
  split=> -[h1 h2 h3]; have jg : joined G n s by [exact/cw|exact: h1].
    by split=> //; case: eqP h3 => // _ /ld; apply.
  by split=> //; [exact/cw|case: eqP h3 => // _ /(ld jg)].
have mo : (forall x y, x < y < n -> G x y -> le z (E x y)) -> monotone le F.
  move=> nn t u v w u0 ut ft fu; have t0' : t != [::] by apply: contraNneq u0 => et; move: ut; rewrite et subseq0.
  have sub : {subset u <= t} by exact: mem_subseq.
  move: ft fu; rewrite !HF //; move=> [ct zt]; case: (size t =P 1) => st ht [cu zu]; case: (size u =P 1) => su hu.
  - by rewrite ht hu lerr.
  - by exfalso; have := size_subseq ut; move: st su; case: u u0 {ut sub hu cu zu} => [|x [|y u]] //= _ -> //.
  - rewrite hu; have [[x [y [xs ys xy <-]]] _] := ht; have [_ hlt gg] := ct; apply: nn; rewrite ?xy ?hlt //; exact: gg.
  - have [_ h] := ht; have [[x [y [xs ys xy <-]]] _] := hu; apply: h => //; exact: sub.
split=> // a nn za; have [Y E1 _] := C28_sublevelset le a b; exists Y => // s s0.
have [_ _ _ cv _] := C28_aligned b.
have ud : undirected (fl_X F).
  move=> [|x u] // /(cv (x :: u) isT) [v /(HF (x :: u) v isT) [[so _ _] _ _]]; exact: sub_sorted ltnW _ so.
rewrite (C28_sublevelset_monotone le_trans b ud (mo nn) E1 s0); split=> [[v]|[[so hlt wi] sz]].
  rewrite HF // => -[[so hlt wi] sz h] va; split=> //; split=> // x y xs ys xy; split; first exact: wi.
  case: eqP h => s1 h.
    exfalso; case: s s1 xs ys {s0 so hlt wi sz h} => [|c []] // _; rewrite !inE => /eqP e1 /eqP e2; by move: xy; rewrite e1 e2 ltnn.
  by have [_ h2] := h; apply: le_trans va; exact: h2.
have wr : joined G n s by split=> // x y xs ys xy; have [] := wi x y xs ys xy.
case: (size s =P 1) => s1.
  by exists z => //; apply/HF => //; rewrite s1 eqxx.
have s2 : 1 < size s by move: s1 s0; case: (s) => [|? []].
have [v dv] := diameter_exists le_total le_trans E so s2; exists v; first by apply/HF => //; split=> //; case: eqP.
by have [[x [y [xs ys xy <-]]] _] := dv; have [] := wi x y xs ys xy.
Qed.

(** ** Dowker filtrations *)
Variable top : V.
Hypothesis topP : forall v, le v top.
Lemma sminE a b t : le (smin le a b) t = le a t || le b t.
Proof.
rewrite /smin; case: ifP => h; last by case: (boolP (le b t)) => bt; rewrite ?orbF // orbT; apply: le_trans bt; move/negbT: h; rewrite negbK.
case: (boolP (le a t)) => at_ //=; rewrite ?orTb; apply: le_trans at_; by have := le_total a b; rewrite (negbTE h).
Qed.
Lemma smaxE a b t : le (smax le a b) t = le a t && le b t.
Proof.
rewrite /smax; case: ifP => h.
  case: (boolP (le b t)) => bt; rewrite ?andbF // andbT; symmetry; apply: le_trans bt; by have := le_total a b; rewrite (negbTE h) orbF.
case: (boolP (le a t)) => at_ //=; symmetry; apply: le_trans at_; by move/negbT: h; rewrite negbK.
Qed.
(** dowker_edge_param(pdist, i, j) is the smallest r for which i and j have a common column within r *)
Theorem C49_dowker_param (D : nat -> nat -> V) ncol i j t : lt t top ->
  le (dowker_param le top D ncol i j) t <-> exists k, [/\ k < ncol, le (D i k) t & le (D j k) t].
Proof.
move=> tt; rewrite /dowker_param.
have E l R : le (foldl (fun R k => smin le R (smax le (D i k) (D j k))) R l) t = le R t || has (fun k => le (D i k) t && le (D j k) t) l.
  by elim: l R => [|k l IH] R /=; rewrite ?orbF // IH sminE smaxE orbA.
rewrite E (negbTE tt) /=; split=> [/hasP[k]|[k [lk h1 h2]]]; first by rewrite mem_iota => /andP[_ lk] /andP[h1 h2]; exists k.
by apply/hasP; exists k; rewrite ?mem_iota ?h1.
Qed.
Lemma dowker_paramC (D : nat -> nat -> V) ncol i j : dowker_param le top D ncol i j = dowker_param le top D ncol j i.
Proof.
rewrite /dowker_param; elim: (iota _ _) (top) => //= k l IH R; rewrite IH; congr foldl; congr (smin le R _).
by rewrite /smax; case: ifP; case: ifP => // h1 h2; apply: le_anti; move: (le_total (D i k) (D j k)) h1 h2; do 2 case: (le _ _).
Qed.

Lemma fedges_mem (R : nat -> nat -> V) n rmax (e : fedge V) : (e \in flag_fedges le R n rmax) =
  (e \in [seq FEdge p.1 p.2 (R p.1 p.2) | p <- [seq p <- lower n | lt (R p.1 p.2) rmax]]).
Proof. by rewrite /flag_fedges fe_sort_mem. Qed.
Lemma fedges_pairs (R : nat -> nat -> V) n rmax : perm_eq (pairs_of (flag_fedges le R n rmax)) [seq p <- lower n | lt (R p.1 p.2) rmax].
Proof.
rewrite /flag_fedges /pairs_of; apply: perm_trans; first by apply: perm_map; exact: fe_sort_perm.
by rewrite -map_comp map_id_in // => -[].
Qed.
Lemma flag_fedges_ok (R : nat -> nat -> V) n rmax dmax :
  exists2 F, flag_filtration v0 le (flag_fedges le R n rmax) n dmax z = Ok F & flag_of (fun x y => lt (R y x) rmax) (fun x y => R y x) n dmax F.
Proof.
apply: (@flag_graph _ (fun x y => lt (R y x) rmax)).
- apply: simple_perm (_ : perm_eq [seq p <- lower n | lt (R p.1 p.2) rmax] _) _; first by rewrite perm_sym; exact: fedges_pairs.
  by have [] := lower_simple n (fun p => lt (R p.1 p.2) rmax).
- move=> x y /andP[xy yn]; rewrite /adjacent !(perm_mem (fedges_pairs R n rmax)) !mem_filter !lower_mem /=.
  by rewrite [y < x]ltnNge (ltnW xy) xy yn !andbT /= andbF.
move=> e; rewrite fedges_mem => /mapP[[a b] /=]; rewrite mem_filter lower_mem /= => /and3P[_ ba _] ->.
by exists b, a; split=> //; right.
Qed.

Lemma dowker_param_ge (D : nat -> nat -> V) ncol i j w : (forall k, k < ncol -> le w (D i k)) -> le w (dowker_param le top D ncol i j).
Proof.
move=> h; rewrite /dowker_param; have : forall k, k \in iota 0 ncol -> le w (D i k) by move=> k; rewrite mem_iota => /andP[_]; exact: h.
elim: (iota _ _) (top) (topP w) => //= k l IH R wR hl; apply: IH; last by move=> k' kl; apply: hl; rewrite inE kl orbT.
rewrite /smin; case: ifP => // _; rewrite /smax; case: ifP => h1; last by apply: hl; rewrite mem_head.
by apply: le_trans (hl k (mem_head _ _)) _; have := le_total (D i k) (D j k); rewrite (negbTE h1) orbF.
Qed.

(** DowkerFiltration(pdist, rmax, dmax): the flag filtration of the graph in which two rows are joined at the smallest r
    for which they have a common column; the sublevel set at a < rmax has the sets of rows that pairwise have a common
    column within a *)
Theorem C49_dowker_filtration (D : nat -> nat -> V) nrow ncol rmax dmax :
  exists F, [/\ dowker_filtration v0 le top z D nrow ncol rmax dmax = Ok F,
    flag_of (fun x y => lt (dowker_param le top D ncol x y) rmax) (dowker_param le top D ncol) nrow dmax F &
    forall a, (forall i k, i < nrow -> k < ncol -> le z (D i k)) -> le z a -> lt a rmax ->
      exists2 Y, fl_sublevelset le F a = Ok Y & forall s, s != [::] -> contains Y s <->
        joined (fun x y => exists k, [/\ k < ncol, le (D x k) a & le (D y k) a]) nrow s /\ size s <= max_vertices dmax].
Proof.
have [F EF fo] := flag_fedges_ok (dowker_mat v0 le top D ncol) nrow rmax dmax.
have mE x y : x < y -> dowker_mat v0 le top D ncol y x = dowker_param le top D ncol x y by move=> xy; rewrite /dowker_mat xy dowker_paramC.
have jE s : joined (fun x y => lt (dowker_mat v0 le top D ncol y x) rmax) nrow s <-> joined (fun x y => lt (dowker_param le top D ncol x y) rmax) nrow s.
  by split=> -[h1 h2 h3]; split=> // x y xs ys xy; have := h3 x y xs ys xy; rewrite mE.
have dE s v : diameter le (fun x y => dowker_mat v0 le top D ncol y x) s v <-> diameter le (dowker_param le top D ncol) s v.
  split=> -[[x [y [xs ys xy <-]]] h]; (split; first by exists x, y; rewrite mE); move=> x' y' xs' ys' xy'; have := h x' y' xs' ys' xy'; by rewrite !mE.
have [b hv mo sl] := fo.
have sl' a : (forall x y, x < y < nrow -> lt (dowker_param le top D ncol x y) rmax -> le z (dowker_param le top D ncol x y)) -> le z a ->
  exists2 Y, fl_sublevelset le F a = Ok Y & forall s, s != [::] -> contains Y s <->
    joined (fun x y => lt (dowker_param le top D ncol x y) rmax /\ le (dowker_param le top D ncol x y) a) nrow s /\ size s <= max_vertices dmax.
  move=> nn za; have [|Y EY HY] := sl a _ za; first by move=> x y xyn; have /andP[xy _] := xyn; rewrite mE //; exact: nn.
  exists Y => // s s0; rewrite HY //; split=> -[[h1 h2 h3] h4]; split=> //; split=> // x y xs ys xy; have := h3 x y xs ys xy; by rewrite mE.
exists F; split=> //.
  split=> //.
  - by move=> s v s0; rewrite (hv s v s0); split=> -[/jE h1 h2 h3]; split=> //; case: eqP h3 => // _ /dE.
  - by move=> nn; apply: mo => x y xyn; have /andP[xy _] := xyn; rewrite mE //; exact: nn.
move=> a nn za ar; have ta : lt a top by apply: contra ar => h; exact: le_trans (topP rmax) h.
have [|Y EY HY] := sl' a _ za; first by move=> x y /andP[xy yn] _; apply: dowker_param_ge => k kn; apply: nn => //; exact: ltn_trans yn.
exists Y => // s s0; rewrite HY //; split=> -[[h1 h2 h3] h4]; split=> //; split=> // x y xs ys xy; have := h3 x y xs ys xy.
  by move=> [_ /C49_dowker_param]; apply.
move=> /C49_dowker_param => /(_ ta) pa; split=> //; apply: contra ar => h; exact: le_trans h pa.
Qed.

(** ** filtrations over a cover *)
Lemma pairs_lt_mem U x y : sorted ltn U -> ((x, y) \in pairs_lt U) = [&& x \in U, y \in U & x < y].
Proof.
elim: U => //= i U IH so; rewrite mem_cat IH ?(path_sorted so) //; have lo j : j \in U -> i < j by move/allP: (order_path_min ltn_trans so); exact.
have -> : ((x, y) \in [seq (i, j) | j <- U]) = (x == i) && (y \in U).
  by apply/mapP/andP => [[j jU [-> ->]]|[/eqP -> yU]]; [rewrite eqxx|exists y].
rewrite !inE; case: (boolP (x == i)) => [/eqP ->|xi] /=.
  case: (boolP (i \in U)) => iU; first by have := lo i iU; rewrite ltnn.
  rewrite /= orbF; case: (boolP (y \in U)) => [/lo -> /=|_]; first by rewrite orbT.
  by rewrite orbF; case: eqP => // ->; rewrite ltnn.
case: (boolP (x \in U)) => //= xU; case: (y =P i) => //= ->; rewrite [x < i]ltnNge (ltnW (lo x xU)) /= andbF //.
Qed.
(** x and y are in one set of the cover *)
Definition same_set (cover : seq (seq nat)) x y : bool := has (fun U => (x \in U) && (y \in U)) cover.
Lemma cover_pairs (E : nat -> nat -> V) cover rmax : all (sorted ltn) cover ->
  perm_eq (pairs_of (cover_fedges le E cover rmax)) (undup [seq p <- flatten [seq pairs_lt U | U <- cover] | lt (E p.1 p.2) rmax]).
Proof.
move=> so; rewrite /cover_fedges /pairs_of; apply: perm_trans; first by apply: perm_map; exact: fe_sort_perm.
set l := [seq p <- _ | _]; have inj : injective (fun p : nat * nat => FEdge p.1 p.2 (E p.1 p.2)) by move=> [a b] [c d] [-> ->].
by rewrite (undup_map_inj inj) -map_comp map_id_in // => -[].
Qed.
Lemma cover_pairs_mem (E : nat -> nat -> V) cover rmax x y : all (sorted ltn) cover ->
  ((x, y) \in pairs_of (cover_fedges le E cover rmax)) = [&& x < y, same_set cover x y & lt (E x y) rmax].
Proof.
move=> so; rewrite (perm_mem (cover_pairs E rmax so)) mem_undup mem_filter /= andbC; case: (lt _ _); rewrite ?andbF //= !andbT.
apply/flattenP/andP => [[q /mapP[U Uc ->]]|[xy /hasP[U Uc /andP[xU yU]]]].
  by rewrite (pairs_lt_mem _ _ (allP so U Uc)) => /and3P[xU yU xy]; split=> //; apply/hasP; exists U; rewrite ?xU.
by exists (pairs_lt U); [exact: map_f|rewrite (pairs_lt_mem _ _ (allP so U Uc)) xU yU].
Qed.
Lemma cover_fedges_ok (E : nat -> nat -> V) cover n rmax dmax : all (sorted ltn) cover -> all (all (fun x => x < n)) cover ->
  exists2 F, flag_filtration v0 le (cover_fedges le E cover rmax) n dmax z = Ok F &
    flag_of (fun x y => same_set cover x y && lt (E x y) rmax) E n dmax F.
Proof.
move=> so bd; have bdP x y : same_set cover x y -> x < n /\ y < n.
  by move=> /hasP[U Uc /andP[xU yU]]; have /allP h := allP bd U Uc; split; exact: h.
apply: (@flag_graph _ (fun x y => same_set cover x y && lt (E x y) rmax)).
- split=> [[x y]||[x y]]; rewrite ?cover_pairs_mem //=.
  + by move=> /and3P[xy /bdP[xn yn] _]; split=> // e; move: xy; rewrite e ltnn.
  + by rewrite (perm_uniq (cover_pairs E rmax so)) undup_uniq.
  + by move=> /and3P[xy _ _]; rewrite ltnNge (ltnW xy).
- by move=> x y /andP[xy yn]; rewrite /adjacent !cover_pairs_mem // xy [y < x]ltnNge (ltnW xy) /= orbF.
move=> e; rewrite /cover_fedges fe_sort_mem mem_undup => /mapP[[a b]]; rewrite mem_filter /= => /andP[_ /flattenP[q /mapP[U Uc ->]]].
rewrite (pairs_lt_mem _ _ (allP so U Uc)) => /and3P[_ _ ab] ->; by exists a, b; split=> //; left.
Qed.
(** RipsFiltration(X, cover, dist, rmax, dmax): two points are joined when one set of the cover contains both and their
    distance is below rmax *)
Theorem C49_rips_cover (D : nat -> nat -> V) n cover rmax dmax : all (sorted ltn) cover -> all (all (fun x => x < n)) cover ->
  exists2 F, rips_cover_filtration v0 le z D n cover rmax dmax = Ok F &
    flag_of (fun x y => same_set cover x y && lt (D x y) rmax) D n dmax F.
Proof. exact: cover_fedges_ok. Qed.
(** DowkerFiltration(pdist, cover, rmax, dmax) *)
Theorem C49_dowker_cover (D : nat -> nat -> V) nrow ncol cover rmax dmax : all (sorted ltn) cover -> all (all (fun x => x < nrow)) cover ->
  exists2 F, dowker_cover_filtration v0 le top z D nrow ncol cover rmax dmax = Ok F &
    flag_of (fun x y => same_set cover x y && lt (dowker_param le top D ncol x y) rmax) (dowker_param le top D ncol) nrow dmax F.
Proof. exact: cover_fedges_ok. Qed.
(** with one set that has every point, the cover changes nothing *)
Theorem C49_cover_trivial n cover x y : iota 0 n \in cover -> x < y < n -> same_set cover x y.
Proof. by move=> c /andP[xy yn]; apply/hasP; exists (iota 0 n); rewrite // !mem_iota /= yn (ltn_trans xy). Qed.
End Graph.

(** ** concrete cases *)
Theorem C49_example : exists N, [/\ nerve [:: [:: 0; 1]; [:: 1; 2]; [:: 0; 2]; [:: 1; 2; 3]] 2 = Ok N,
  contains N [:: 0; 1] /\ contains N [:: 1; 2], contains N [:: 0; 1; 3], sc_find N [:: 0; 1; 2] = Ok None & sc_find N [:: 0; 1; 2; 3] = Ok None].
Proof. by eexists; split; [vm_compute; reflexivity|by split; [exists 0|exists 2]|by exists 0|..]. Qed.
(** the hypotheses on the values hold for bounded numbers, and those on the matrix for a 3 x 2 one: rows 0 and 1 are joined
    at 2, rows 1 and 2 at 3, rows 0 and 2 at 4 *)
Definition le6 (a b : 'I_7) : bool := a <= b.
Definition exD (i j : nat) : 'I_7 := inord (nth 0 (nth [::] [:: [:: 1; 4]; [:: 2; 3]; [:: 5; 1]] i) j).
Theorem C49_dowker_example : [/\ total le6 /\ transitive le6, antisymmetric le6 /\ (forall v, le6 v ord_max),
  forall i k, i < 3 -> k < 2 -> le6 ord0 (exD i k) & [seq val (dowker_param le6 ord_max exD 2 p.1 p.2) | p <- [:: (0, 1); (1, 2); (0, 2)]] = [:: 2; 3; 4]].
Proof.
split=> //; [split|split|].
- by move=> a b; exact: leq_total.
- by move=> b a c; exact: leq_trans.
- by move=> a b /anti_leq; exact: val_inj.
- by move=> v; rewrite /le6 -ltnS.
by rewrite /dowker_param /= /smin /smax /le6 /exD /=; rewrite !inordK //=; do ?[rewrite !inordK //=].
Qed.
