(** C48: filtrations and zigzag filtrations that extend a function on vertices. *)
From mathcomp Require Import all_ssreflect all_algebra zify.
From Verif Require Import Outcome P_Outcome M_SparseVec M_ColMatrix M_CSC M_Perm M_Homology M_Simplicial M_Cubical M_Filtration M_Extension S_Linalg S_Perm S_Homology S_Induced
  S_Simplicial S_Filtration P_Trie P_Simplicial P_ScOps P_ScBuild P_ScBoundary P_SparseVec Props_Simplicial Props_ScBoundary
  P_Reduce P_Betti M_Zigzag S_Zigzag S_ZigzagFilt M_ZigzagFilt Props_ZigzagFilt P_Filtration Props_Filtration P_Ext1.
Set Implicit Arguments.
Unset Strict Implicit.
Unset Printing Implicit Defensive.
Import GRing.Theory Order.Theory.

Lemma omapm_throw (B : eqType) (D : Type) (g : B -> outcome D) (l : seq B) :
  (forall x, x \in l -> g x = Throw \/ exists y, g x = Ok y) ->
  omapm g l = if has (fun x => ~~ is_ok (g x)) l then Throw else omapm g l.
Proof.
elim: l => //= x l IH H; have [->//|[y E]] := H x (mem_head _ _); rewrite E /= IH; first by case: ifP.
by move=> z zl; apply: H; rewrite inE zl orbT.
Qed.
Lemma omapm_cells (D : Type) (g : seq nat -> outcome D) cl X k : inv cl X -> k < sc_dims X ->
  (do n <- sc_ncell X k; omapm (fun i => do s <- sc_simplex X k i; g s) (iota 0 n)) = omapm g (cl k).
Proof.
move=> iv lk; rewrite (ncell_ok iv lk); cbn [obind]; rewrite -[in RHS](mkseq_nth [::] (cl k)) /mkseq.
have : {subset iota 0 (size (cl k)) <= [pred i | i < size (cl k)]} by move=> i; rewrite mem_iota inE.
elim: (iota _ _) => // i l IH H; have li : i < size (cl k) := H i (mem_head _ _).
cbn [omapm map]; rewrite (simplex_ok iv li); cbn [obind]; rewrite IH // => j jl; apply: H; by rewrite inE jl orbT.
Qed.
Lemma sc_allE cl X : inv cl X -> sc_all X = Ok [seq cl k | k <- iota 0 (sc_dims X)].
Proof.
move=> iv; apply: omapm_Ok_eq => k; rewrite mem_iota => /andP[_ lk].
rewrite (ncell_ok iv lk); cbn [obind]; rewrite -[in RHS](mkseq_nth [::] (cl k)) /mkseq; apply: omapm_Ok_eq => i.
by rewrite mem_iota => /andP[_ li]; apply: simplex_ok.
Qed.

Section S.
Variable disp : unit.
Variable A : orderType disp.
Variable a0 : A.
Notation ltv := (fun x y : A => (x < y)%O).
Variable X : scx.
Variable f0 : seq A.
Notation f v := (nth a0 f0 v).

(** f0 has a value for every vertex of X *)
Definition on_vertices : Prop := forall s v, contains X s -> v \in s -> v < size f0.

Section Z.
Variables (lo hi : A) (sub add : A -> A).
(** every cell is present at some time: x - eps <= y + eps for the values x, y at its vertices *)
Definition all_fit : Prop := forall s u v, contains X s -> u \in s -> v \in s -> (sub (f u) <= add (f v))%O.

Lemma cl_fits cl k s : inv cl X -> on_vertices -> s \in cl k -> s != [::] /\ all (fun v => v < size f0) s.
Proof.
move=> iv ov si; have n0 : s != [::] by rewrite -size_eq0 (cl_size iv si).
split=> //; apply/allP => v vs; apply: ov vs; apply/(contains_iff iv n0); by rewrite (cl_size iv si).
Qed.

(** the values of extend_zigzag_filtration(f0, X, eps): a cell is present exactly at the times when all its vertices are;
    if there is a cell for which there is no such time the call throws *)
Theorem C48_extend_zigzag : built X -> on_vertices -> {homo sub : x y / (x <= y)%O} -> {homo add : x y / (x <= y)%O} ->
  (forall v, v < size f0 -> (lo <= f v <= hi)%O) ->
  (all_fit -> exists val, [/\ extend_zigzag ltv lo hi sub add X f0 = Ok val, size val = sc_dims X,
    forall k, k < sc_dims X -> sc_ncell X k = Ok (size (nth [::] val k)) &
    forall k i s, cell_is X k i s -> exists w, [/\ nth [::] (nth [::] val k) i = [:: w], (w.1 <= w.2)%O &
      forall t, (w.1 <= t <= w.2)%O <-> forall v, v \in s -> (sub (f v) <= t <= add (f v))%O]]) /\
  ((exists s u v, [/\ contains X s, s != [::], u \in s, v \in s & (add (f v) < sub (f u))%O]) ->
    extend_zigzag ltv lo hi sub add X f0 = Throw).
Proof.
move=> bX ov hs ha bnd; have [cl iv d0] := built_inv bX.
have E : extend_zigzag ltv lo hi sub add X f0 = omapm (fun k => omapm (ext_cell ltv lo hi sub add f0) (cl k)) (iota 0 (sc_dims X)).
  have : {subset iota 0 (sc_dims X) <= [pred i | i < sc_dims X]} by move=> i; rewrite mem_iota inE.
  rewrite /extend_zigzag; elim: (iota _ _) => //= k l IH H; rewrite (omapm_cells _ iv); last by apply: H; rewrite mem_head.
  by rewrite IH // => j jl; apply: H; rewrite inE jl orbT.
pose g s := if ext_cell ltv lo hi sub add f0 s is Ok l then l else [::].
have cE k s : s \in cl k -> if cell_fits a0 f0 sub add s
  then exists w, [/\ ext_cell ltv lo hi sub add f0 s = Ok [:: w], (w.1 <= w.2)%O &
         forall t, (w.1 <= t <= w.2)%O = all (fun v => (sub (f v) <= t <= add (f v))%O) s]
  else ext_cell ltv lo hi sub add f0 s = Throw.
  by move=> si; have [n0 al] := cl_fits iv ov si; apply: ext_cellE.
have cont k s : s \in cl k -> contains X s.
  by move=> si; have [n0 _] := cl_fits iv ov si; apply/(contains_iff iv n0); rewrite (cl_size iv si).
split=> [fit|[s [u [v [cs n0 us vs lt]]]]].
  have okc k s : s \in cl k -> exists w, [/\ ext_cell ltv lo hi sub add f0 s = Ok [:: w], (w.1 <= w.2)%O &
         forall t, (w.1 <= t <= w.2)%O = all (fun v => (sub (f v) <= t <= add (f v))%O) s].
    move=> si; have := cE k s si; rewrite ifT //; apply/allP => u us; apply/allP => v vs; exact: fit (cont _ _ si) us vs.
  exists [seq [seq g s | s <- cl k] | k <- iota 0 (sc_dims X)]; rewrite E; split.
  - apply: omapm_Ok_eq => k _; apply: omapm_Ok_eq => s si; have [w [e _ _]] := okc k s si; by rewrite /g e.
  - by rewrite size_map size_iota.
  - by move=> k lk; rewrite (ncell_ok iv lk) (nth_map 0) ?size_iota // nth_iota // size_map.
  move=> k i s /(cell_is_iff _ _ _ iv)[li ->]; have lk : k < sc_dims X.
    by rewrite ltnNge; apply/negP => le; move: li; have [_ _ _ Ci _] := iv; rewrite Ci.
  have [w [e l h]] := okc k _ (mem_nth [::] li); exists w; split=> //.
    by rewrite (nth_map 0) ?size_iota // nth_iota // (nth_map [::]) // /g e.
  by move=> t; rewrite h; split=> [/allP //|h']; apply/allP.
have si : s \in cl (size s).-1 by apply/(contains_iff iv n0).
have lk : (size s).-1 < sc_dims X.
  by rewrite ltnNge; apply/negP => le; move: si; have [_ _ _ Ci _] := iv; rewrite Ci.
have okt k s' : s' \in cl k -> ext_cell ltv lo hi sub add f0 s' = Throw \/ exists y, ext_cell ltv lo hi sub add f0 s' = Ok y.
  by move=> /cE; case: ifP => _ h; [right; have [w [e _ _]] := h; exists [:: w]|left].
have th : omapm (ext_cell ltv lo hi sub add f0) (cl (size s).-1) = Throw.
  rewrite omapm_throw; last exact: okt.
  rewrite ifT //; apply/hasP; exists s => //; have := cE _ _ si; rewrite ifF => [->//|].
  apply/negbTE/negP => /allP/(_ u us)/allP/(_ v vs); by rewrite leNgt lt.
rewrite E omapm_throw => [|k _].
  by rewrite ifT //; apply/hasP; exists (size s).-1; rewrite ?mem_iota ?th.
rewrite omapm_throw; last exact: okt.
case: ifP => [_|/negbT]; first by left.
rewrite -all_predC => /allP al; right; exists [seq g s | s <- cl k]; apply: omapm_Ok_eq => s' si'.
by have := al s' si'; rewrite /= negbK /g; case: ext_cell.
Qed.

(** the barcode of the zigzag filtration *)
Section Bar.
Variable F : fieldType.
Let conv (z : int) : F := (z%:~R)%R.
Lemma chain_spx cl : inv cl X -> 0 < sc_dims X -> nondegenerate X -> undirected X ->
  simplices_ok [seq bmat F cl k | k <- iota 0 (sc_dims X)] [seq cl k | k <- iota 0 (sc_dims X)].
Proof.
move=> iv d0 nd ud; have nthl k : k < sc_dims X -> nth [::] [seq cl k | k <- iota 0 (sc_dims X)] k = cl k.
  by move=> lk; rewrite (nth_map 0) ?size_iota // nth_iota.
have nc k : k < sc_dims X -> ncell [seq bmat F cl k | k <- iota 0 (sc_dims X)] k = size (cl k).
  by move=> lk; rewrite /ncell bmx_chain //; case: (k).
have cont k s : s \in cl k -> s != [::] /\ contains X s.
  move=> si; have n0 : s != [::] by rewrite -size_eq0 (cl_size iv si).
  by split=> //; apply/(contains_iff iv n0); rewrite (cl_size iv si).
split.
- by move=> k; rewrite size_map size_iota => lk; rewrite nthl // nc.
- move=> k; case: (ltnP k (sc_dims X)) => lk; last by rewrite nth_default // size_map size_iota.
  by rewrite nthl //; have [] := inv_Wc iv k.
- move=> k i; rewrite size_map size_iota => lk; rewrite nthl // nc // => li.
  have si := mem_nth [::] li; have [n0 ct] := cont _ _ si; split; last exact: cl_size iv si.
  by rewrite ltn_sorted_uniq_leq nd ?ud.
move=> k i j; rewrite size_map size_iota => lk; rewrite nc // => lj; rewrite !nthl //; last exact: ltnW.
rewrite /entry bmx_chain //= (nth_map [::]) // coef_bcol => n0.
have si := mem_nth [::] lj; set s := nth _ _ _ in n0 si *.
have : alt (delta F (cl k) i) s != 0%R by apply: contraNneq n0 => ->; rewrite mulr0.
move=> {}n0; have [j' /eqP e] : exists j' : 'I_(size s), index (skip j' s) (cl k) == i.
  apply/existsP; apply: contraNT n0; rewrite negb_exists => /forallP h; apply/eqP; rewrite /alt big1 // => j' _.
  by rewrite /delta (negbTE (h j')) mulr0.
have [_ _ fi] := inv_Wc iv k.+1; rewrite -e nth_index; last exact: fi.
exact: skip_subseq.
Qed.

Theorem C48_zigzag_barcode (srt : forall B : Type, (B -> B -> bool) -> seq B -> seq B) (top : A) maxdim :
  sorts srt -> built X -> nondegenerate X -> undirected X -> 1 < sc_dims X -> sc_dims X <= (if maxdim is Some d then d.+2 else sc_dims X) ->
  on_vertices -> {homo sub : x y / (x <= y)%O} -> {homo add : x y / (x <= y)%O} ->
  (forall v, v < size f0 -> (lo <= f v <= hi)%O) -> all_fit ->
  exists C spx val bars evs, [/\ sc_chain conv X = Ok C, sc_all X = Ok spx, extend_zigzag ltv lo hi sub add X f0 = Ok val,
    zz_barcode_spx (ops_of F) ltv a0 top srt spx C val maxdim = Ok bars & zigzag_bars a0 C val top (dims_asked C maxdim) evs bars].
Proof.
move=> SR bX nd ud d1 md ov hs ha bnd fit; have [cl iv d0] := built_inv bX.
have [C [EC sC CW [CL0 _ _] nC]] := C24_chain F bX nd.
have [H48 _] := C48_extend_zigzag bX ov hs ha bnd; have [val [EV sV nV hV]] := H48 fit.
have eC := chain_ok F iv d0; rewrite -/conv EC in eC; case: eC => eC.
exists C, [seq cl k | k <- iota 0 (sc_dims X)], val.
have nc k : k < sc_dims X -> ncell C k = size (nth [::] val k).
  by move=> lk; have := nC k lk; rewrite nV // => -[->].
have cellI k i : k < sc_dims X -> i < ncell C k -> exists s w, [/\ cell_is X k i s, nth [::] (nth [::] val k) i = [:: w], (w.1 <= w.2)%O &
      forall t, (w.1 <= t <= w.2)%O <-> forall v, v \in s -> (sub (f v) <= t <= add (f v))%O].
  move=> lk li; have ci : cell_is X k i (nth [::] (cl k) i).
    by apply/(cell_is_iff _ _ _ iv); split=> //; move: li; rewrite nc //; have := nV k lk; rewrite (ncell_ok iv lk) => -[->].
  by have [w [e l h]] := hV _ _ _ ci; exists (nth [::] (cl k) i), w.
have SO := chain_spx iv d0 nd ud; rewrite -eC in SO.
have FO : filtration_ok a0 C val.
  split; rewrite ?sC ?sV //; first by move=> k lk; rewrite nc.
    move=> k i lk li; have [s [w [_ e l _]]] := cellI k i lk li; rewrite /ivn /ivs e; split=> //.
    by case.
  move=> k i j lk lj n0; have [_ _ _ /(_ k i j)] := SO; rewrite sC => /(_ lk lj n0) sub0.
  have li : i < ncell C k.
    rewrite ltnNge; apply: contra n0 => ge; apply/eqP; rewrite /entry; apply: coef_ge ge.
    have lk' : k.+1 < size C by rewrite sC.
    have /andP[_ Wc] := P_Betti.chain_wf_nth k.+1 CW.
    have [_ _ /(_ k lk')[er _]] := CW; rewrite /ncell -er; by have /and3P[] := P_Reduce.nth_wf j Wc.
  have [s [w [c1 e1 l1 h1]]] := cellI k i (ltnW lk) li; have [s' [w' [c2 e2 l2 h2]]] := cellI k.+1 j lk lj.
  have e3 k' i' s0 : k' < sc_dims X -> cell_is X k' i' s0 -> nth [::] (nth [::] [seq cl k | k <- iota 0 (sc_dims X)] k') i' = s0.
    by move=> lk' /(cell_is_iff _ _ _ iv)[_ ->]; rewrite (nth_map 0) ?size_iota // nth_iota.
  rewrite (e3 _ _ _ (ltnW lk) c1) (e3 _ _ _ lk c2) in sub0.
  rewrite /ivn /ivs e1 e2 /= => -[|m] // _; exists 0; rewrite //; split=> //.
  have up t : (w'.1 <= t <= w'.2)%O -> (w.1 <= t <= w.2)%O.
    by move/h2 => h; apply/h1 => v vs; apply: h; apply: mem_subseq sub0 _ vs.
  have /andP[u1 _] : (w.1 <= w'.1 <= w.2)%O by apply: up; rewrite lexx l2.
  have /andP[_ u2] : (w.1 <= w'.2 <= w.2)%O by apply: up; rewrite lexx l2.
  exact/andP.
have nb0 : no_bd0 C by move=> i j lj; apply: CL0.
have [||bars [evs [Eb hb]]] := @zigzag_filtration_barcode_spx F disp A a0 top C val srt _ maxdim SR CW _ nb0 FO SO.
- by rewrite sC.
- by rewrite /dims_asked sC; case: (maxdim) md => // _; rewrite prednK.
by exists bars, evs; split=> //; exact: sc_allE.
Qed.
End Bar.
End Z.

(** lower_star_filtration(X, f0): the value of a cell is the largest value of a vertex; the index is the first vertex of the
    cell that has it *)
Theorem C48_lower_star : built X -> on_vertices -> exists vals inds, [/\ lower_star ltv X f0 = Ok (vals, inds),
  size vals = sc_dims X /\ size inds = sc_dims X,
  forall k, k < sc_dims X -> sc_ncell X k = Ok (size (nth [::] vals k)) /\ sc_ncell X k = Ok (size (nth [::] inds k)) &
  forall k i s, cell_is X k i s -> let v := nth 0 (nth [::] inds k) i in
    [/\ v \in s, nth a0 (nth [::] vals k) i = f v, forall u, u \in s -> (f u <= f v)%O &
        forall j, j < index v s -> (f (nth 0 s j) < f v)%O]].
Proof.
move=> bX ov; have [cl iv d0] := built_inv bX; rewrite /lower_star (sc_allE iv); cbn [obind].
pose g s := if star_cell ltv f0 s is Ok p then p else (a0, 0).
have E k s : s \in cl k -> exists m, [/\ star_cell ltv f0 s = Ok (f m, m), m \in s,
    forall t, (f m <= t)%O = all (fun v => (f v <= t)%O) s & forall j, j < index m s -> (f (nth 0 s j) < f m)%O].
  by move=> si; have [n0 al] := cl_fits iv ov si; apply: star_cellE.
rewrite (@omapm_Ok_eq _ _ _ (map g)); last first.
  move=> l /mapP[k _ ->]; apply: omapm_Ok_eq => s si; have [m [e _ _ _]] := E _ _ si; by rewrite /g e.
cbn [obind]; rewrite -!map_comp; do 2 eexists; split; first by [].
- by rewrite !size_map size_iota.
- by move=> k lk; rewrite (ncell_ok iv lk) !(nth_map 0) ?size_iota // nth_iota //= !size_map.
move=> k i s /(cell_is_iff _ _ _ iv)[li ->]; have lk : k < sc_dims X.
  by rewrite ltnNge; apply/negP => le; move: li; have [_ _ _ Ci _] := iv; rewrite Ci.
have [m [e mi h1 h2]] := E k _ (mem_nth [::] li).
rewrite !(nth_map 0) ?size_iota // nth_iota //= -!map_comp !(nth_map [::]) //= /g e /=; split=> // u us.
by have := h1 (f m); rewrite lexx => /esym/allP; apply.
Qed.

(** it is a filtration; its sublevel set at a has the simplices whose vertices have values at most a *)
Theorem C48_lower_star_sublevelset vals inds : built X -> undirected X -> on_vertices -> lower_star ltv X f0 = Ok (vals, inds) ->
  [/\ fbuilt a0 (Filt X vals), monotone <=%O (Filt X vals) &
  forall a, exists2 Y, fl_sublevelset <=%O (Filt X vals) a = Ok Y &
    built Y /\ forall s, s != [::] -> contains Y s <-> contains X s /\ forall v, v \in s -> (f v <= a)%O].
Proof.
move=> bX ud ov E; have [vals' [inds' [E' [sz _] nv h]]] := C48_lower_star bX ov; move: E; rewrite E' => -[e1 e2].
subst vals' inds'.
have fb : fbuilt a0 (Filt X vals) by apply: fb_vals => // k lk; have [] := nv k lk.
have fvE s v : s != [::] -> fvalue (Filt X vals) s v -> exists i, cell_is X (size s).-1 i s /\ v = nth a0 (nth [::] vals (size s).-1) i.
  move=> n0 [i /(C23_find _ bX n0) ci /=]; have [n nE [li _]] := ci => E; exists i; split=> //.
  have lk : (size s).-1 < sc_dims X by move: nE; rewrite /sc_ncell /sc_dims /oget; case: ltnP => // ge; rewrite drop_oversize.
  rewrite (oget_nth [::]) ?sz // in E; cbn [obind] in E; rewrite (oget_nth a0) in E; first by case: E.
  by have [h1 _] := nv _ lk; move: nE li; rewrite h1 => -[<-].
have mo : monotone <=%O (Filt X vals).
  move=> t u v w nu ut /fvE h1 /fvE h2; have nt : t != [::] by case: (t) ut => //; case: (u) nu.
  have [i [ci ->]] := h1 nt; have [j [cj ->]] := h2 nu.
  have [_ -> mx _] := h _ _ _ ci; have [vi -> _ _] := h _ _ _ cj; apply: mx; exact: mem_subseq ut _ vi.
split=> // a; have [Y EY [bY _]] := C28_sublevelset <=%O a fb; exists Y => //; split=> // s n0.
rewrite (C28_sublevelset_monotone (@le_trans _ _) fb ud mo EY n0); have [_ _ _ cv _] := C28_aligned fb; split.
  move=> [v fv le]; split; first by apply/(cv s n0); exists v.
  have [i [ci ev]] := fvE _ _ n0 fv; have [_ e3 mx _] := h _ _ _ ci; move=> u us; apply: le_trans (mx u us) _.
  by rewrite -e3 -ev.
move=> [/(cv s n0)[v fv] hs]; exists v => //; have [i [ci ->]] := fvE _ _ n0 fv; have [vi -> _ _] := h _ _ _ ci; exact: hs.
Qed.
End S.
