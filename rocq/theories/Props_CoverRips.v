(** C51: the Rips functor on diagrams of subsets. *)
From mathcomp Require Import all_ssreflect all_algebra zify.
From Verif Require Import Outcome M_SparseVec M_ColMatrix M_Sorted M_Reduce M_Homology M_Induced M_Simplicial M_SimplicialMap M_Filtration M_Flag M_Nerve M_Landmark M_Quiver M_Functor M_Cover
  S_Linalg S_Simplicial S_SimplicialMap S_Flag S_Functor P_Outcome P_Util P_ScOps P_Functor P_Flag P_Nerve P_Dims Props_Simplicial Props_Util Props_SimplicialMap Props_Flag Props_Quiver Props_Functor Props_Cover.
Set Implicit Arguments.
Unset Strict Implicit.
Unset Printing Implicit Defensive.

(** a diagram of subsets of {0, ..., n-1} and inclusions *)
Definition inclusions (n : nat) (G : dgm (seq nat) (seq nat)) : Prop :=
  let A i := nth [::] (d_node G) i in
  [/\ size (d_elist G) = size (d_edata G),
      forall i, i < size (d_node G) -> sorted ltn (A i) && all (fun x => x < n) (A i) &
      forall j, j < size (d_edata G) -> let e := nth (0, 0) (d_elist G) j in
        [/\ e.1 < size (d_node G), e.2 < size (d_node G), {subset A e.1 <= A e.2} &
            vertex_inclusion_map (A e.1) (A e.2) = Ok (nth [::] (d_edata G) j)]].

Section Rips.
Variable V : eqType.
Variable le : V -> V -> bool.
Notation lt a b := (~~ le b a).
Hypothesis le_total : total le.
Hypothesis le_trans : transitive le.
Hypothesis le_anti : antisymmetric le.
Variable D : nat -> nat -> V.
Variable n : nat.

(** X is the Rips complex, up to dimension dmax, of the points of A at scale r: vertex a is the a-th point of A *)
Definition rips_of (A : seq nat) (r : V) (dmax : nat) (X : scx) : Prop :=
  [/\ built X, nondegenerate X, sc_dims X = dmax.+1 &
      forall s, s != [::] -> contains X s <-> [/\ sorted ltn s, size s <= dmax.+1, forall a, a \in s -> a < size A &
        forall a b, a \in s -> b \in s -> a < b -> le (D (nth 0 A b) (nth 0 A a)) r]].

Lemma rips_subset_ok A r dmax : all (fun x => x < n) A -> 0 < dmax -> exists2 X, rips_subset le D n r dmax A = Ok X & rips_of A r dmax X.
Proof.
move=> al d0; rewrite /rips_subset al.
have [X [E b H]] := C40_rips_complex_data le (fun a b => D (nth 0 A a) (nth 0 A b)) (size A) r dmax; exists X => //.
have mv : max_vertices dmax = dmax.+1 by rewrite /max_vertices (maxn_idPl d0).
rewrite mv in H; split=> //.
- by move=> s cs; case: (eqVneq s [::]) => [->|s0] //; have [[so _ _] _] := (H s s0).1 cs; exact: ltn_uniq.
- exact: flag_dims d0 E.
- move=> s s0; rewrite H //; split=> [[[h1 h2 h3] h4]|[h1 h4 h2 h3]]; by split.
Qed.

Lemma rips_edge A B r r' dmax X Y f : sorted ltn A -> sorted ltn B -> {subset A <= B} -> vertex_inclusion_map A B = Ok f ->
  le r r' -> rips_of A r dmax X -> rips_of B r' dmax Y -> exists Fs, simplicial_map X Y f = Ok Fs.
Proof.
move=> sA sB sub Ef rr [bX _ dX HX] [bY _ dY HY].
have [i [Ei si so ni]] := C51_vertex_inclusion sA sB sub; move: Ei; rewrite Ef => -[e]; rewrite -e in si so ni; clear e i.
have vx : vertices_in X (size f) by move=> s s0 /(HX s s0)[_ _ h _]; apply/allP => a; rewrite si; exact: h.
have dd : sc_dims X <= sc_dims Y by rewrite dX dY.
have [[Fs E _]|[_ [s [s0 cs _ []]]]] := C27_defined bX bY dd vx; first by exists Fs.
have [h1 h2 h3 h4] := (HX s s0).1 cs.
have mono a b : a \in s -> b \in s -> a < b -> nth 0 f a < nth 0 f b.
  move=> ai bi ab; apply: (sorted_ltn_nth ltn_trans) => //; by rewrite inE si h3.
have sim : sorted ltn (image f s).
  move: h1 mono; clear; rewrite /image; elim: s => // a s IH /= p mono; rewrite (path_sortedE ltn_trans); apply/andP; split; last first.
    by apply: IH; [exact: path_sorted p|move=> x y xs ys; apply: mono; rewrite inE ?xs ?ys orbT].
  apply/allP => y /mapP[b bs ->]; apply: mono; rewrite ?mem_head // ?inE ?bs ?orbT //.
  by move: p; rewrite (path_sortedE ltn_trans) => /andP[/allP/(_ b bs)].
rewrite srt_id //; apply/HY; first by rewrite -size_eq0 size_image size_eq0.
split=> //; first by rewrite size_image.
  by move=> a /mapP[x xs ->]; have [] := ni x (h3 x xs).
move=> a b /mapP[x xs ->] /mapP[y ys ->] xy; have [_ ->] := ni x (h3 x xs); have [_ ->] := ni y (h3 y ys).
apply: le_trans rr; apply: h4 => //; case: (ltngtP x y) => // [yx|e]; last by move: xy; rewrite e ltnn.
by have := mono y x ys xs yx; move: xy; clear; lia.
Qed.

(** Rips(D, X, dist, rmax, dmax) with a radius for every node, not decreasing along the edges: the nodes become the Rips
    complexes, the edges the simplicial maps of the inclusions; in any order of the parallel iterations *)
Definition rips_diagram (r : nat -> V) (dmax : nat) (G : dgm (seq nat) (seq nat)) (DX : dgm scx (seq (cmat int))) : Prop :=
  let X i := nth (sc_new 0) (d_node DX) i in
  [/\ size (d_node DX) = size (d_node G), size (d_edata DX) = size (d_edata G), d_elist DX = d_elist G,
      forall i, i < size (d_node G) -> rips_of (nth [::] (d_node G) i) (r i) dmax (X i) &
      forall j, j < size (d_edata G) -> let e := nth (0, 0) (d_elist G) j in
        simplicial_map (X e.1) (X e.2) (nth [::] (d_edata G) j) = Ok (nth [::] (d_edata DX) j)].
Lemma nodes_exist (r : nat -> V) dmax G : inclusions n G -> 0 < dmax -> exists X : nat -> scx, forall i, i < size (d_node G) ->
  rips_subset le D n (r i) dmax (nth [::] (d_node G) i) = Ok (X i) /\ rips_of (nth [::] (d_node G) i) (r i) dmax (X i).
Proof.
move=> [_ hn _] d0; exists (fun i => okd (sc_new 0) (rips_subset le D n (r i) dmax (nth [::] (d_node G) i))) => i li.
by have /andP[_ al] := hn i li; have [X -> h] := rips_subset_ok (r i) al d0.
Qed.
Lemma edge_exists (r : nat -> V) dmax G (X : nat -> scx) j : inclusions n G ->
  (forall i, i < size (d_node G) -> rips_of (nth [::] (d_node G) i) (r i) dmax (X i)) -> j < size (d_edata G) ->
  (let e := nth (0, 0) (d_elist G) j in le (r e.1) (r e.2)) ->
  let e := nth (0, 0) (d_elist G) j in exists Fs, simplicial_map (X e.1) (X e.2) (nth [::] (d_edata G) j) = Ok Fs.
Proof.
move=> [sz hn he] hX lj rr e; have [l1 l2 sub Ei] := he j lj.
have /andP[s1 _] := hn _ l1; have /andP[s2 _] := hn _ l2; exact: rips_edge s1 s2 sub Ei rr (hX _ l1) (hX _ l2).
Qed.
Theorem C51_rips_functor rmax dmax ordn orde G : inclusions n G -> 0 < dmax ->
  perm_eq ordn (iota 0 (size (d_node G))) -> perm_eq orde (iota 0 (size (d_edata G))) ->
  exists2 DX, RipsFunctor le D n rmax dmax ordn orde G = Ok DX & rips_diagram (fun _ => rmax) dmax G DX.
Proof.
move=> inc d0 pn pe; have [X hX] := nodes_exist (fun _ => rmax) inc d0; have [sz hn he] := inc.
pose Y j := let e := nth (0, 0) (d_elist G) j in okd [::] (simplicial_map (X e.1) (X e.2) (nth [::] (d_edata G) j)).
have hY j : j < size (d_edata G) -> let e := nth (0, 0) (d_elist G) j in simplicial_map (X e.1) (X e.2) (nth [::] (d_edata G) j) = Ok (Y j).
  move=> lj e; have [|Fs EF] := edge_exists (r := fun _ => rmax) inc (fun i li => (hX i li).2) lj; last by rewrite /Y -/e EF.
  by case/orP: (le_total rmax rmax).
exists (Diagram (mkseq X (size (d_node G))) (mkseq Y (size (d_edata G))) (d_elist G)).
  rewrite /RipsFunctor; apply: (@functorE _ _ _ _ _ _ [::] [::]) => // [i li|j lj]; first by have [] := hX i li.
  by have [l1 l2 _ _] := he j lj; split=> //; exact: hY.
split; rewrite ?size_mkseq //; cbn [d_node d_edata].
  by move=> i li; rewrite nth_mkseq //; have [] := hX i li.
by move=> j lj; have [l1 l2 _ _] := he j lj; rewrite /= !nth_mkseq // hY.
Qed.
Theorem C51_rips_functor_var (rs : seq V) v0 dmax ordn orde G : inclusions n G -> 0 < dmax -> size rs = size (d_node G) ->
  (forall j, j < size (d_edata G) -> le (nth v0 rs (nth (0, 0) (d_elist G) j).1) (nth v0 rs (nth (0, 0) (d_elist G) j).2)) ->
  perm_eq ordn (iota 0 (size (d_node G))) -> perm_eq orde (iota 0 (size (d_edata G))) ->
  exists2 DX, RipsFunctor_var le D n rs dmax ordn orde G = Ok DX & rips_diagram (nth v0 rs) dmax G DX.
Proof.
move=> inc d0 srs mono pn pe; have [X hX] := nodes_exist (nth v0 rs) inc d0; have [sz hn he] := inc.
pose Y j := let e := nth (0, 0) (d_elist G) j in okd [::] (simplicial_map (X e.1) (X e.2) (nth [::] (d_edata G) j)).
have hY j : j < size (d_edata G) -> let e := nth (0, 0) (d_elist G) j in simplicial_map (X e.1) (X e.2) (nth [::] (d_edata G) j) = Ok (Y j).
  by move=> lj e; have [|Fs EF] := edge_exists inc (fun i li => (hX i li).2) lj; [exact: mono|rewrite /Y -/e EF].
exists (Diagram (mkseq X (size (d_node G))) (mkseq Y (size (d_edata G))) (d_elist G)).
  rewrite /RipsFunctor_var (@fillE _ _ X) //; last first.
    by move=> i li; rewrite (oget_nth [::]) //=; cbn [obind]; rewrite (oget_nth v0) ?srs //; cbn [obind]; have [] := hX i li.
  cbn [obind]; rewrite (@fillE _ _ (fun j => (Y j, nth (0, 0) (d_elist G) j))) //; last first.
    move=> j lj; have [l1 l2 _ _] := he j lj; rewrite (oget_nth (0, 0)) ?sz //; cbn [obind]; rewrite !(oget_nth v0) ?srs //; cbn [obind].
    rewrite mono //= (oget_nth [::]) //=; rewrite !(oget_mkseq (sc_new 0)) //=; rewrite hY //=.
    by case: (nth (0, 0) _ _).
  cbn [obind]; congr (Ok (Diagram _ _ _)); rewrite -map_comp; first exact: eq_map.
  apply: (@eq_from_nth _ (0, 0)); rewrite size_map size_iota ?sz // => j lj.
  by rewrite (nth_map 0) ?size_iota // nth_iota.
split; rewrite ?size_mkseq //; cbn [d_node d_edata].
  by move=> i li; rewrite nth_mkseq //; have [] := hX i li.
by move=> j lj; have [l1 l2 _ _] := he j lj; rewrite /= !nth_mkseq // hY.
Qed.
(** a radius that decreases along an edge is refused *)
Lemma fill_throw (N : Type) (f : nat -> outcome N) (x0 : N) (v : seq N) ord : (forall i, i \in ord -> i < size v) ->
  (forall i, i \in ord -> f i = Throw \/ exists y, f i = Ok y) -> (exists2 i, i \in ord & f i = Throw) -> fill f v ord = Throw.
Proof.
elim: ord v => [|i ord IH] v lv H [k] //; rewrite /fill /=; case: (H i (mem_head _ _)) => [-> //|[y Ey]].
rewrite inE => /orP[/eqP ->|ki] Ek; first by rewrite Ek.
rewrite Ey /= (oset_Ok x0) ?lv ?mem_head //=; apply: IH; last by exists k.
  by move=> a ai; rewrite size_set_nth leq_max lv ?orbT // inE ai orbT.
by move=> a ai; apply: H; rewrite inE ai orbT.
Qed.
Theorem C51_rips_decreasing (rs : seq V) v0 dmax ordn orde G j : inclusions n G -> 0 < dmax -> size rs = size (d_node G) ->
  j < size (d_edata G) -> lt (nth v0 rs (nth (0, 0) (d_elist G) j).2) (nth v0 rs (nth (0, 0) (d_elist G) j).1) ->
  perm_eq ordn (iota 0 (size (d_node G))) -> perm_eq orde (iota 0 (size (d_edata G))) ->
  RipsFunctor_var le D n rs dmax ordn orde G = Throw.
Proof.
move=> inc d0 srs lj dec pn pe; have [X hX] := nodes_exist (nth v0 rs) inc d0; have [sz hn he] := inc.
rewrite /RipsFunctor_var (@fillE _ _ X) //; last first.
  by move=> i li; rewrite (oget_nth [::]) //=; cbn [obind]; rewrite (oget_nth v0) ?srs //; cbn [obind]; have [] := hX i li.
have mo i : i \in orde -> i < size (d_edata G) by rewrite (perm_mem pe) mem_iota.
cbn [obind]; rewrite (fill_throw ([::], (0, 0))) //.
- by move=> i /mo; rewrite size_nseq.
- move=> i /mo li; have [l1 l2 _ _] := he i li; rewrite (oget_nth (0, 0)) ?sz //; cbn [obind]; rewrite !(oget_nth v0) ?srs //; cbn [obind].
  case: ifP => [|/negbFE mono]; [by left|right].
  rewrite (oget_nth [::]) //=; rewrite !(oget_mkseq (sc_new 0)) //=.
  by have [|Fs EF] := edge_exists inc (fun i li => (hX i li).2) li; [exact: mono|rewrite EF /=; eexists].
- exists j; first by rewrite (perm_mem pe) mem_iota.
  have [l1 l2 _ _] := he j lj; rewrite (oget_nth (0, 0)) ?sz //; cbn [obind]; rewrite !(oget_nth v0) ?srs //; cbn [obind].
  by rewrite dec.
Qed.
End Rips.

(** ** the zigzag of unions *)
Lemma union_inclusions n S m : all (sorted ltn) S -> all (all (fun x => x < n)) S -> size S = m.+1 ->
  exists G, [/\ linear_subset_union_diagram S = Ok G, inclusions n G, size (d_node G) = (2 * m).+1, size (d_edata G) = 2 * m &
    d_elist G = mkseq (fun j => if odd j then (j.+1, j) else (j, j.+1)) (2 * m)].
Proof.
move=> so al e; exists (ust S (2 * m).+1 (2 * m)); rewrite (union_diagramE so e); split=> //; try by cbn [ust d_node d_edata]; rewrite size_mkseq.
split; cbn [ust d_node d_edata d_elist]; rewrite ?size_mkseq //.
  move=> i li; rewrite nth_mkseq // (unode_sorted so) /= /unode.
  have aU k : all (fun x => x < n) (nth [::] S k).
    by case: (ltnP k (size S)) => h; [exact: (allP al _ (mem_nth _ h))|rewrite nth_default].
  case: ifP => _ //; apply/allP => x; have [_ ->] := C51_set_union (nth [::] S i./2) (nth [::] S i./2.+1).
  by move=> /orP[] /(allP (aU _)).
move=> j lj; rewrite !(nth_mkseq _ _ lj) /=.
have [h1 h2] : (uedge j).1 < (2 * m).+1 /\ (uedge j).2 < (2 * m).+1 by rewrite /uedge; case: ifP => h /=; move: lj h; clear; lia.
by split=> //; rewrite !nth_mkseq // ?(udataE so j) //; exact: uedge_sub.
Qed.

Section Zigzag.
Variable V : eqType.
Variable le : V -> V -> bool.
Hypothesis le_total : total le.
Hypothesis le_trans : transitive le.
Variable D : nat -> nat -> V.
Variable n : nat.
(** Rips of the diagram of unions of m + 1 sets of points is a zigzag path of 2 m + 1 complexes *)
Theorem C51_rips_union S m rmax dmax ordn orde : all (sorted ltn) S -> all (all (fun x => x < n)) S -> size S = m.+1 -> 0 < dmax ->
  perm_eq ordn (iota 0 (2 * m).+1) -> perm_eq orde (iota 0 (2 * m)) ->
  exists G DX, [/\ linear_subset_union_diagram S = Ok G, RipsFunctor le D n rmax dmax ordn orde G = Ok DX,
    path_of_complexes (2 * m) DX,
    forall i, i <= m -> rips_of le D (nth [::] S i) rmax dmax (nth (sc_new 0) (d_node DX) (2 * i)) &
    forall i, i < m -> rips_of le D (set_union (nth [::] S i) (nth [::] S i.+1)) rmax dmax (nth (sc_new 0) (d_node DX) (2 * i).+1)].
Proof.
move=> so al e d0 pn pe; have [G [EG inc s1 s2 el]] := union_inclusions so al e.
have [||DX EX [n1 n2 n3 hn he]] := @C51_rips_functor _ _ le_total le_trans D n rmax dmax ordn orde G inc d0; rewrite ?s1 ?s2 //.
have [G' [EG' _ g1 g2 _]] := C51_union_diagram so e; move: EG'; rewrite EG => -[eG]; rewrite -eG in g1 g2.
exists G, DX; split=> //.
- split; rewrite ?n1 ?n2 ?n3 ?el ?size_mkseq //.
    move=> i li; have [b nd ds _] : rips_of le D (nth [::] (d_node G) i) rmax dmax (nth (sc_new 0) (d_node DX) i) by apply: hn; rewrite s1.
    by have [_ _ ds0 _] : rips_of le D (nth [::] (d_node G) 0) rmax dmax (nth (sc_new 0) (d_node DX) 0) by [apply: hn; rewrite s1]; rewrite ds ds0.
  move=> j lj; have := he j; rewrite s2 el /= !nth_mkseq // => /(_ lj); case: ifP => _ /= h; [right|left]; split=> //; left; by eexists; exact: h.
- by move=> i im; rewrite -g1 //; apply: hn; rewrite s1; move: im; clear; lia.
- by move=> i im; rewrite -g2 //; apply: hn; rewrite s1; move: im; clear; lia.
Qed.

(** so the pipeline from sets of points to the zigzag barcode never fails: union diagram, Rips, Chain, Hom, barcode *)
Theorem C51_rips_zigzag (F : fieldType) S m rmax dmax k ordn orde ordn1 orde1 ordn2 orde2 nthreads sch (conv := fun z : int => (z%:~R : F)%R) :
  all (sorted ltn) S -> all (all (fun x => x < n)) S -> size S = m.+2 -> k <= dmax -> 0 < dmax ->
  perm_eq ordn (iota 0 (2 * m.+1).+1) -> perm_eq orde (iota 0 (2 * m.+1)) -> perm_eq ordn1 (iota 0 (2 * m.+1).+1) -> perm_eq orde1 (iota 0 (2 * m.+1)) ->
  perm_eq ordn2 (iota 0 (2 * m.+1).+1) -> perm_eq orde2 (iota 0 (2 * m.+1)) ->
  exists ps C, (do G <- linear_subset_union_diagram S; do DX <- RipsFunctor le D n rmax dmax ordn orde G;
     do C' <- ChainFunctor conv ordn1 orde1 DX; do H <- Hom (ops_of F) k ordn2 orde2 C'; do b <- barcode_dc (ops_of F) nthreads sch (quiver_of H) k; Ok (C', b)) = Ok (C, ps) /\
   homology_intervals (2 * m.+1) k C ps.
Proof.
move=> so al e kd d0 p1 p2 p3 p4 p5 p6; have [G [DX [EG EX pX h0 _]]] := C51_rips_union rmax so al e d0 p1 p2.
have [_ _ ds _] := h0 0 isT; have lk : k < sc_dims (nth (sc_new 0) (d_node DX) 0) by rewrite ds.
have [|C [H [ps [EC pC EH Eb hb]]]] := @C44_simplicial F (2 * m.+1) DX k ordn1 orde1 ordn2 orde2 nthreads sch _ pX lk p3 p4 p5 p6; first by [].
by exists ps, C; rewrite EG; cbn [obind]; rewrite EX; cbn [obind]; rewrite EC; cbn [obind]; rewrite EH; cbn [obind]; rewrite Eb.
Qed.
End Zigzag.

(** four points of a square, in two halves: each half is a path, their union a circle *)
Definition exsq (i j : nat) : nat := if (i == j) then 0 else if odd (i + j) then 1 else 2.
Notation Qf := rat_fieldType.
Definition ex_zz (k : nat) : outcome (seq (nat * nat)) :=
  do G <- linear_subset_union_diagram [:: [:: 0; 1; 2]; [:: 0; 2; 3]];
  do DX <- RipsFunctor (V := nat_eqType) leq exsq 4 1 1 [:: 2; 0; 1] [:: 1; 0] G;
  do D <- ChainFunctor (fun z : int => z%:~R : Qf)%R [:: 2; 0; 1] [:: 1; 0] DX;
  do HD <- Hom (ops_of Qf) k [:: 1; 0; 2] [:: 0; 1] D;
  exbars (barcode_dc (ops_of Qf) 8 (fun _ _ => true) (quiver_of HD) k).
Theorem C51_rips_example : ex_zz 0 = Ok [:: (0, 2)] /\ ex_zz 1 = Ok [:: (1, 1)].
Proof. by split; vm_compute. Qed.
(** the subset diagram of the example meets the hypotheses, and with decreasing radii Rips throws *)
Theorem C51_rips_example_hyps : exists G, [/\ linear_subset_union_diagram [:: [:: 0; 1; 2]; [:: 0; 2; 3]] = Ok G, inclusions 4 G &
  RipsFunctor_var (V := nat_eqType) leq exsq 4 [:: 1; 0; 1] 1 [:: 2; 0; 1] [:: 1; 0] G = Throw].
Proof.
have [G [E inc _ _ _]] := @union_inclusions 4 [:: [:: 0; 1; 2]; [:: 0; 2; 3]] 1 isT isT erefl.
by exists G; split=> //; move: E; rewrite [linear_subset_union_diagram _]/= => -[<-]; vm_compute.
Qed.
