(** C48, continued: lower star filtrations of cubical complexes, gradients, limits. *)
From mathcomp Require Import all_ssreflect all_algebra zify.
From Verif Require Import Outcome P_Outcome M_SparseVec M_ColMatrix M_CSC M_Perm M_Homology M_Simplicial M_Cubical M_Filtration M_Extension S_Linalg S_Perm S_Homology S_Induced
  S_Simplicial S_Filtration S_Cubical P_Trie P_Simplicial P_ScOps P_ScBuild P_ScBoundary P_SparseVec Props_Simplicial
  P_CubeList P_Cubical P_CubeOps Props_Cubical Ex_Reduction P_Ext1 Props_Extension.
Set Implicit Arguments.
Unset Strict Implicit.
Unset Printing Implicit Defensive.
Import GRing.Theory Order.Theory.

Section Cubes.
Variable disp : unit.
Variable A : orderType disp.
Variable a0 : A.
Notation ltv := (fun x y : A => (x < y)%O).
(** p is a vertex of the cube s *)
Definition corner D (s p : seq nat) : Prop := size p = D /\ forall i, i < D -> nth 0 p i = lo s i \/ nth 0 p i = hi s i.
(** the value at the grid point p *)
Definition at2 (f : seq (seq A)) (p : seq nat) : A := nth a0 (nth [::] f (nth 0 p 0)) (nth 0 p 1).
Definition at3 (f : seq (seq (seq A))) (p : seq nat) : A := nth a0 (nth [::] (nth [::] f (nth 0 p 0)) (nth 0 p 1)) (nth 0 p 2).
(** the array has a value at the grid point p *)
Definition in2 (f : seq (seq A)) (p : seq nat) : Prop := nth 0 p 0 < size f /\ nth 0 p 1 < size (nth [::] f (nth 0 p 0)).
Definition in3 (f : seq (seq (seq A))) (p : seq nat) : Prop :=
  [/\ nth 0 p 0 < size f, nth 0 p 1 < size (nth [::] f (nth 0 p 0)) & nth 0 p 2 < size (nth [::] (nth [::] f (nth 0 p 0)) (nth 0 p 1))].
(** what a function computing the largest value at a vertex of a cube should do *)
Definition max_corner D (cv : seq nat -> outcome A) (val : seq nat -> A) (s : seq nat) : Prop :=
  exists2 x, cv s = Ok x & (exists2 p, corner D s p & x = val p) /\ forall p, corner D s p -> (val p <= x)%O.

Lemma get2E f i j : i < size f -> j < size (nth [::] f i) -> get2 f i j = Ok (nth a0 (nth [::] f i) j).
Proof. by move=> li lj; rewrite /get2 (oget_nth [::]) //; cbn [obind]; rewrite (oget_nth a0). Qed.
Lemma get3E f i j k : i < size f -> j < size (nth [::] f i) -> k < size (nth [::] (nth [::] f i) j) ->
  get3 f i j k = Ok (nth a0 (nth [::] (nth [::] f i) j) k).
Proof. by move=> li lj lk; rewrite /get3 (oget_nth [::]) //; cbn [obind]; rewrite get2E. Qed.

Lemma max_cube2E f s : size s = 4 -> (forall p, corner 2 s p -> in2 f p) -> max_corner 2 (max_cube2 ltv f) (at2 f) s.
Proof.
case: s => [|a [|b [|c [|d []]]]] // _ H.
have C x y : x = a \/ x = b -> y = c \/ y = d -> corner 2 [:: a; b; c; d] [:: x; y].
  by move=> hx hy; split=> // -[|[|]].
have G x y : x = a \/ x = b -> y = c \/ y = d -> get2 f x y = Ok (at2 f [:: x; y]).
  by move=> hx hy; have [l1 l2] := H _ (C _ _ hx hy); rewrite get2E.
rewrite /max_corner /max_cube2 /oget /=; rewrite !G; try tauto.
cbn [obind]; rewrite !vmaxE; eexists; first by []; split.
  have M x y (P : A -> Prop) : P x -> P y -> P (Order.max x y) by rewrite maxElt; case: ifP.
  by do !apply: (M _ _ (fun v => exists2 p, corner 2 [:: a; b; c; d] p & v = at2 f p)); eexists; try reflexivity; apply: C; tauto.
move=> p [zp h]; case: p zp h => [|x [|y []]] // _ h; have := h 0 isT; have := h 1 isT; rewrite /lo /hi /= => -[] -> [] ->; by rewrite !le_maxr lexx ?orbT.
Qed.
Lemma max_cube3E f s : size s = 6 -> (forall p, corner 3 s p -> in3 f p) -> max_corner 3 (max_cube3 ltv f) (at3 f) s.
Proof.
case: s => [|a [|b [|c [|d [|e [|g []]]]]]] // _ H.
have C x y z : x = a \/ x = b -> y = c \/ y = d -> z = e \/ z = g -> corner 3 [:: a; b; c; d; e; g] [:: x; y; z].
  by move=> hx hy hz; split=> // -[|[|[|]]].
have G x y z : x = a \/ x = b -> y = c \/ y = d -> z = e \/ z = g -> get3 f x y z = Ok (at3 f [:: x; y; z]).
  by move=> hx hy hz; have [l1 l2 l3] := H _ (C _ _ _ hx hy hz); rewrite get3E.
rewrite /max_corner /max_cube3 /oget /=; rewrite !G; try tauto.
cbn [obind]; rewrite -!maxElt; eexists; first by []; split.
  have M x y (P : A -> Prop) : P x -> P y -> P (Order.max x y) by rewrite maxElt; case: ifP.
  by do !apply: (M _ _ (fun v => exists2 p, corner 3 [:: a; b; c; d; e; g] p & v = at3 f p)); eexists; try reflexivity; apply: C; tauto.
move=> p [zp h]; case: p zp h => [|x [|y [|z []]]] // _ h; have := h 0 isT; have := h 1 isT; have := h 2 isT; rewrite /lo /hi /= => -[] -> [] -> [] ->; by rewrite !le_maxr lexx ?orbT.
Qed.

Lemma lower_star_cubesE D cv val X : cc_built X -> cc_maxdim X = D -> 0 < D ->
  (forall s, ccontains X s -> is_cube D s -> max_corner D cv val s) ->
  exists vals, [/\ lower_star_cubes cv X = Ok vals, size vals = D.+1,
    forall k, k <= D -> cc_ncell X k = Ok (size (nth [::] vals k)),
    forall k i s, ccell_is X k i s -> let x := nth a0 (nth [::] vals k) i in
      (exists2 p, corner D s p & x = val p) /\ forall p, corner D s p -> (val p <= x)%O &
    forall k i s l j t, ccell_is X k i s -> ccell_is X l j t -> is_subcube D t s ->
      (nth a0 (nth [::] vals l) j <= nth a0 (nth [::] vals k) i)%O].
Proof.
move=> b eD D0 H; have [cl iv _] := cbuilt_inv b; rewrite eD in iv.
pose g s := if cv s is Ok x then x else a0.
have cub k s : s \in cl k -> exists2 x, cv s = Ok x & (exists2 p, corner D s p & x = val p) /\ forall p, corner D s p -> (val p <= x)%O.
  move=> si; have [v c _] := cl_cube iv si; apply: H; last exact/is_cubeP.
  by apply/(ccontains_iff iv D0 (size_cval v)); rewrite c.
have hv k i s : ccell_is X k i s -> let x := nth a0 (nth [::] [seq [seq g s | s <- cl k] | k <- iota 0 D.+1] k) i in
      (exists2 p, corner D s p & x = val p) /\ forall p, corner D s p -> (val p <= x)%O.
  move=> /(ccell_is_iff _ _ _ iv)[li ->]; have si := mem_nth [::] li; have [_ _ lk] := cl_cube iv si.
  by rewrite (nth_map 0) ?size_iota ?ltnS // nth_iota ?ltnS // (nth_map [::]) //=; have [x e h] := cub _ _ si; rewrite /g e.
exists [seq [seq g s | s <- cl k] | k <- iota 0 D.+1]; split=> //.
- rewrite /lower_star_cubes eD; apply: omapm_Ok_eq => k; rewrite mem_iota ltnS => /andP[_ lk].
  rewrite (ccubes_ok D0 iv lk); cbn [obind]; apply: omapm_Ok_eq => s si; have [x e _] := cub _ _ si; by rewrite /g e.
- by rewrite size_map size_iota.
- by move=> k lk; rewrite (cncell_ok iv lk) (nth_map 0) ?size_iota ?ltnS // nth_iota ?ltnS // size_map.
move=> k i s l j t ci cj [ct sub]; have [_ mx] := hv _ _ _ ci; have [[p [zp hp] ->] _] := hv _ _ _ cj.
apply: mx; split=> // m lm; have [h1 h2] := sub m lm; have [_ /(_ m lm) h3] := ct.
have [[_ /(_ m)]] := C25_dimension b ci; rewrite eD => /(_ lm) h4 _.
by case: (hp m lm) => ->; move: h1 h2 h3 h4; clear; lia.
Qed.

(** lower_star_filtration(X, f0) for cubes in the plane or in space: the value of a cube is the largest value at one of
    its vertices, so no face has a larger value than the cube *)
Definition lower_star_ok D (val : seq nat -> A) (X : ccx) (vals : seq (seq A)) : Prop :=
  [/\ size vals = D.+1, forall k, k <= D -> cc_ncell X k = Ok (size (nth [::] vals k)),
    forall k i s, ccell_is X k i s -> let x := nth a0 (nth [::] vals k) i in
      (exists2 p, corner D s p & x = val p) /\ forall p, corner D s p -> (val p <= x)%O &
    forall k i s l j t, ccell_is X k i s -> ccell_is X l j t -> is_subcube D t s ->
      (nth a0 (nth [::] vals l) j <= nth a0 (nth [::] vals k) i)%O].
Theorem C48_lower_star_cubes2 X f : cc_built X -> cc_maxdim X = 2 ->
  (forall s p, ccontains X s -> is_cube 2 s -> corner 2 s p -> in2 f p) ->
  exists2 vals, lower_star_cubes (max_cube2 ltv f) X = Ok vals & lower_star_ok 2 (at2 f) X vals.
Proof.
move=> b e H; have [|vals [E h1 h2 h3 h4]] := @lower_star_cubesE 2 (max_cube2 ltv f) (at2 f) X b e isT; last by exists vals.
by move=> s c cb; apply: max_cube2E => [|p cp]; [case: cb|apply: H c cb cp].
Qed.
Theorem C48_lower_star_cubes3 X f : cc_built X -> cc_maxdim X = 3 ->
  (forall s p, ccontains X s -> is_cube 3 s -> corner 3 s p -> in3 f p) ->
  exists2 vals, lower_star_cubes (max_cube3 ltv f) X = Ok vals & lower_star_ok 3 (at3 f) X vals.
Proof.
move=> b e H; have [|vals [E h1 h2 h3 h4]] := @lower_star_cubesE 3 (max_cube3 ltv f) (at3 f) X b e isT; last by exists vals.
by move=> s c cb; apply: max_cube3E => [|p cp]; [case: cb|apply: H c cb cp].
Qed.
End Cubes.

Section Grad.
Variable T : zmodType.
Variables (grads : seq (seq T)) (bd : seq (seq (option nat))) (imap : seq (seq nat)).
Notation g d k := (nth 0%R (nth [::] grads d) k).
Notation b d k := (nth None (nth [::] bd d) k).
(** the dimension of the cell at position k of the flattened pairs of dimension d: births are even, deaths odd *)
Definition cdim_at (d k : nat) : nat := (d + odd k)%N.
(** the vertex that carries the value of cell (d, i) *)
Definition crit d i := nth 0 (nth [::] imap d) i.
Definition grad_wf : Prop := [/\ 0 < size imap, size grads <= size bd &
  forall d, d < size grads -> [/\ ~~ odd (size (nth [::] grads d)), size (nth [::] grads d) <= size (nth [::] bd d) &
    forall k i, k < size (nth [::] grads d) -> b d k = Some i ->
      [/\ cdim_at d k < size imap, i < size (nth [::] imap (cdim_at d k)) & crit (cdim_at d k) i < size (nth [::] imap 0)]]].
(** the chain rule: each birth or death is the value of one vertex; its derivative is added to the derivative there *)
Definition hits v d k : bool := if b d k is Some i then crit (cdim_at d k) i == v else false.

Lemma lsb_addE d k df : grad_wf -> d < size grads -> k < size (nth [::] grads d) -> size df = size (nth [::] imap 0) ->
  exists2 df', lsb_add +%R imap df (cdim_at d k) (b d k) (nth [::] grads d) k = Ok df' &
    size df' = size df /\ forall v, (nth 0 df' v = nth 0 df v + (if hits v d k then g d k else 0))%R.
Proof.
move=> [n0 sb wf] ld lk sd; have [_ _ /(_ k)] := wf d ld; rewrite /lsb_add /hits; case: (b d k) => [i|] h; last first.
  by exists df => //; split=> // v; rewrite addr0.
have [h1 h2 h3] := h i lk erefl; rewrite (oget_nth [::]) //; cbn [obind]; rewrite (oget_nth 0) //; cbn [obind]; rewrite -/(crit _ _).
rewrite -sd in h3; rewrite (oget_nth 0%R) //; cbn [obind]; rewrite (oget_nth 0%R) //; cbn [obind]; rewrite (oset_Ok 0%R) //; eexists; first by [].
split=> [|v]; first by rewrite size_set_nth; apply/maxn_idPr.
by rewrite nth_setE eq_sym; case: eqP => [->|]; rewrite ?addr0.
Qed.

Theorem C48_lower_star_backwards : grad_wf -> exists2 df, lower_star_backwards 0%R +%R grads bd imap = Ok df &
  size df = size (nth [::] imap 0) /\ forall v, v < size df ->
    (nth 0 df v = \sum_(0 <= d < size grads) \sum_(0 <= k < size (nth [::] grads d) | hits v d k) g d k)%R.
Proof.
move=> wf; have [n0 sb wf'] := wf; rewrite /lower_star_backwards (oget_nth [::]) //; cbn [obind].
set P := fun n (df : seq T) => size df = size (nth [::] imap 0) /\ forall v, v < size df ->
  (nth 0 df v = \sum_(0 <= d < n) \sum_(0 <= k < size (nth [::] grads d) | hits v d k) g d k)%R.
apply: (@ofold_iota_ind _ _ P); first by split; rewrite size_nseq // => v lv; rewrite nth_nseq lv big_geq.
move=> d df ld [sd h]; have [ev lb _] := wf' d ld.
rewrite (oget_nth [::]) //; cbn [obind].
set Q := fun n (df' : seq T) => size df' = size df /\ forall v, v < size df ->
  (nth 0 df' v = nth 0 df v + \sum_(0 <= k < n.*2 | hits v d k) g d k)%R.
have [||df' E [s' h']] := @ofold_iota_ind _ (fun df j => do bs <- oget bd d; lsb_pair +%R imap d (nth [::] grads d) bs df (2 * j))
  Q (uphalf (size (nth [::] grads d))) df.
- by split=> // v _; rewrite big_geq ?addr0.
- move=> j df1 lj [s1 h1]; have lj1 : j.*2.+1 < size (nth [::] grads d).
    by move: lj ev; clear; rewrite uphalf_half; have := odd_double_half (size (nth [::] grads d)); lia.
  have lj0 := ltnW lj1; rewrite (oget_nth [::]); last exact: leq_trans ld sb.
  cbn [obind]; rewrite /lsb_pair mul2n (oget_nth None); last exact: leq_trans lj0 lb.
  cbn [obind]; have [|df2 E2 [s2 h2]] := lsb_addE (k := j.*2) (df := df1) wf ld lj0; first by rewrite s1.
  have e0 : cdim_at d j.*2 = d by rewrite /cdim_at odd_double addn0.
  have e1 : cdim_at d j.*2.+1 = d.+1 by rewrite /cdim_at /= odd_double addn1.
  rewrite e0 in E2; rewrite E2; cbn [obind]; rewrite (oget_nth None); last exact: leq_trans lj1 lb.
  cbn [obind]; have [|df3 E3 [s3 h3]] := lsb_addE (k := j.*2.+1) (df := df2) wf ld lj1; first by rewrite s2 s1.
  rewrite e1 in E3; exists df3 => //; split=> [|v lv]; first by rewrite s3 s2.
  rewrite h3 h2 h1 // doubleS big_mkcond [in RHS]big_mkcond /= [in RHS]big_nat_recr //= [in RHS]big_nat_recr //=.
  by rewrite !addrA.
exists df' => //; split=> [|v lv]; first by rewrite s'.
rewrite s' in lv; rewrite big_nat_recr //= h' // h //.
congr (_ + _)%R; have -> // : (uphalf (size (nth [::] grads d))).*2 = size (nth [::] grads d).
by move: ev; clear; rewrite uphalf_half; have := odd_double_half (size (nth [::] grads d)); lia.
Qed.
End Grad.

(** ** a concrete case *)
Notation zlt := (fun x y : int => (x < y)%O).
Definition zs (e x : int) : int := (x - e)%R.
Definition za (e x : int) : int := (x + e)%R.
Lemma zs_homo e : {homo zs e : x y / (x <= y)%O}. Proof. by move=> x y; rewrite /zs; lia. Qed.
Lemma za_homo e : {homo za e : x y / (x <= y)%O}. Proof. by move=> x y; rewrite /za; lia. Qed.
Lemma ex_built : built ex_triangle.
Proof.
have E1 : sc_add_recursive (sc_new 0) [:: 2; 0; 1] = Ok (ex_triangle, [:: (0, 0); (0, 1); (1, 0); (0, 2); (1, 1); (1, 2); (2, 0)]) by vm_compute.
exact: built_add_recursive (built_new 0) E1.
Qed.
Lemma ex_cells s : contains ex_triangle s -> s != [::] -> s \in [:: [:: 0]; [:: 1]; [:: 2]; [:: 0; 1]; [:: 0; 2]; [:: 1; 2]; [:: 0; 1; 2]].
Proof.
move=> [i h] n0; move/(C23_find _ ex_built n0): h => [n nE [li sE]].
move: nE li sE; case: (size s).-1 => [|[|[|k]]] => [[<-]|[<-]|[<-]|]; last by case: k.
- by case: i => [|[|[|]]] // _; vm_compute => -[<-].
- by case: i => [|[|[|]]] // _; vm_compute => -[<-].
- by case: i => [|] // _; vm_compute => -[<-].
Qed.
Lemma ex_on (f0 : seq int) : size f0 = 3 -> on_vertices ex_triangle f0.
Proof.
move=> e s v c vs; have n0 : s != [::] by case: (s) vs.
by move: vs; have := ex_cells c n0; rewrite e !inE => /or4P[|||/or4P[]] /eqP ->; rewrite !inE => h; move: h; clear; lia.
Qed.
Lemma ex_fit e (f0 : seq int) : size f0 = 3 -> (forall u v, u < 3 -> v < 3 -> (nth 0 f0 u - e <= nth 0 f0 v + e)%R) ->
  all_fit 0%R ex_triangle f0 (zs e) (za e).
Proof. by move=> ef h s u v c us vs; have := ex_on ef c us; have := ex_on ef c vs; rewrite ef => lv lu; apply: h. Qed.
Theorem C48_nonvacuous : let f0 : seq int := [:: 5; 3; 4]%R in
  [/\ built ex_triangle, on_vertices ex_triangle f0, all_fit 0%R ex_triangle f0 (zs 1) (za 1),
      forall v, v < size f0 -> (1 <= nth 0 f0 v <= 100)%R &
      extend_zigzag zlt 1%R 100%R (zs 1) (za 1) ex_triangle f0 =
        Ok [:: [:: [:: (4, 6)]; [:: (2, 4)]; [:: (3, 5)]]; [:: [:: (4, 4)]; [:: (4, 5)]; [:: (3, 4)]]; [:: [:: (4, 4)]]]%R /\
      lower_star zlt ex_triangle f0 = Ok ([:: [:: 5; 3; 4]; [:: 5; 5; 4]; [:: 5]]%R, [:: [:: 0; 1; 2]; [:: 0; 0; 2]; [:: 0]])].
Proof.
move=> f0; split; [exact: ex_built|exact: ex_on| | |].
- by apply: ex_fit => // -[|[|[|u]]] [|[|[|v]]].
- by case=> [|[|[|]]].
by split; vm_compute.
Qed.

(** numeric_limits<double>::min() is positive (zigzag/extension.hpp 21), so negative values go wrong: the entry time of a
    cell is too late, or the call throws although every cell is present at some time *)
Theorem C48_negative_values : let X := ex_triangle in
  (let f0 : seq int := [:: -5; -3; -4]%R in
   [/\ built X, on_vertices X f0, all_fit 0%R X f0 (zs 4) (za 4), cell_is X 0 0 [:: 0] &
     exists2 val, extend_zigzag zlt 1%R 100%R (zs 4) (za 4) X f0 = Ok val & nth [::] (nth [::] val 0) 0 = [:: ((-3)%R, (-1)%R)]]) /\
  (let f0 : seq int := [:: -5; -5; -5]%R in
   [/\ built X, on_vertices X f0, all_fit 0%R X f0 (zs 1) (za 1) & extend_zigzag zlt 1%R 100%R (zs 1) (za 1) X f0 = Throw]).
Proof.
split=> f0; split; [exact: ex_built|exact: ex_on| | | |exact: ex_built|exact: ex_on| |].
- by apply: ex_fit => // -[|[|[|u]]] [|[|[|v]]].
- by exists 3.
- by eexists; first by vm_compute.
- by apply: ex_fit => // -[|[|[|u]]] [|[|[|v]]].
- by vm_compute.
Qed.

(** a square with its faces, and pairs with and without a death *)
Definition ex_square : ccx := Eval vm_compute in (if cc_add_recursive (cc_new 2) [:: 0; 1; 0; 1] is Ok r then r.1 else cc_new 2).
Theorem C48_nonvacuous2 : let f : seq (seq int) := [:: [:: 5; 3]; [:: 4; 7]]%R in
  [/\ cc_built ex_square, cc_maxdim ex_square = 2,
      forall s p, ccontains ex_square s -> is_cube 2 s -> corner 2 s p -> in2 f p,
      lower_star_cubes (max_cube2 zlt f) ex_square = Ok [:: [:: 7; 4; 3; 5]; [:: 7; 5; 7; 5]; [:: 7]]%R &
      grad_wf ([:: [:: 1; 2; 3; 4]]%R : seq (seq int)) [:: [:: Some 0; None; Some 1; Some 0]] [:: [:: 0; 1; 2]; [:: 2; 1; 2]] /\
      lower_star_backwards 0%R +%R [:: [:: 1; 2; 3; 4]]%R [:: [:: Some 0; None; Some 1; Some 0]] [:: [:: 0; 1; 2]; [:: 2; 1; 2]] =
        Ok ([:: 1; 3; 4]%R : seq int)].
Proof.
move=> f; have bs : cc_built ex_square.
  by apply: (@ccb_add_recursive (cc_new 2) [:: 0; 1; 0; 1]); [exact: ccb_new|vm_compute; reflexivity].
split=> //.
- move=> s p c cb [zp h]; suff [h1 h2] : is_subcube 2 s [:: 0; 1; 0; 1].
    have := h 0 isT; have := h 1 isT; have := h2 0 isT; have := h2 1 isT; rewrite /in2 /lo /hi /=; case: p zp {h} => [|x [|y []]] //= _.
    have [_ cb'] := cb; move: (cb' 0 isT) (cb' 1 isT); rewrite /lo /hi => a5 a6.
    move=> a1 a2 a3 a4; have lx : x < 2 by move: a2 a4 a5; clear; lia.
    have ly : y < 2 by move: a1 a3 a6; clear; lia.
    by case: x lx {a2 a4} => [|[|]] //; case: y ly {a1 a3} => [|[|]].
  have [r E] : exists r, cc_add_recursive (cc_new 2) [:: 0; 1; 0; 1] = Ok (ex_square, r) by eexists; vm_compute; reflexivity.
  have D0 : 0 < cc_maxdim (cc_new 2) by [].
  have [_ ct _ _ _] := @C25_add_recursive _ _ _ _ (ccb_new 2) D0 E.
  have ss : size s = 4 by case: cb.
  case: ((ct s ss).1 c) => [h'|h']; last exact: h'.
  have := (ccontains_iff (cinv_new 2) D0 ss).1 h'; by rewrite in_nil.
split; last by vm_compute.
split=> // -[|d] // _; split=> // -[|[|[|[|k]]]] i // _; rewrite /cdim_at /crit /=; by move=> -[<-].
Qed.
