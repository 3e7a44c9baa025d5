(** C56: the Freudenthal triangulation of a cubical complex. *)
From mathcomp Require Import all_ssreflect all_algebra zify.
From Verif Require Import Outcome M_Simplicial M_Cubical M_Product M_Grid S_Simplicial S_Cubical P_Outcome P_Trie P_Simplicial P_ScOps P_ScBuild P_CubeList P_Cubical P_CubeOps P_Product P_Grid Props_Simplicial Props_Cubical Props_Witness Props_Grid.
Set Implicit Arguments.
Unset Strict Implicit.
Unset Printing Implicit Defensive.

Definition ext (X Z : scx) : Prop := forall t, t != [::] -> contains X t -> contains Z t.
Lemma adds_ext X L Z : adds X L Z -> ext X Z.
Proof. by move=> [_ h] t n0 c; apply/(h t n0); left. Qed.
Lemma ext_trans X Y Z : ext X Y -> ext Y Z -> ext X Z.
Proof. by move=> h1 h2 t n0 /(h1 t n0) /(h2 t n0). Qed.
Lemma adds_fold_ext (B : eqType) (f : scx -> B -> outcome scx) (g : B -> seq (seq nat)) X0 l X :
  (forall b X, b \in l -> built X -> ext X0 X -> exists2 X', f X b = Ok X' & adds X (g b) X') -> built X -> ext X0 X ->
  exists2 X', ofold f X l = Ok X' & adds X (flatten (map g l)) X'.
Proof.
elim: l X => [|b l IH] X H bX eX; first by exists X => //; exact: adds0.
have [|X1 E1 a1] := H b X _ bX eX; first by rewrite inE eqxx.
have [|||X2 E2 a2] := IH X1; [by move=> c Z ci; apply: H; rewrite inE ci orbT|by case: a1|exact: ext_trans eX (adds_ext a1)|].
by exists X2; [rewrite /= E1; cbn [obind]; exact: E2|exact: adds_cat a1 a2].
Qed.

Definition loP (c : seq nat) : p3 := (lo c 0, lo c 1, lo c 2).
Definition hiP (c : seq nat) : p3 := (hi c 0, hi c 1, hi c 2).

Lemma loop_adds n2 n3 X cl d (f : scx -> nat -> outcome scx) F : cinv 3 cl X -> built F ->
  (forall i Z, i < size (cl d) -> built Z -> ext F Z -> exists2 Z', f Z i = Ok Z' & adds Z (bl n2 n3 (loP (nth [::] (cl d) i)) (hiP (nth [::] (cl d) i))) Z') ->
  exists2 F', loop 0 (size (cl d)) f F = Ok F' & adds F (flatten [seq bl n2 n3 (loP c) (hiP c) | c <- cl d]) F'.
Proof.
move=> iv bF H; rewrite /loop subn0.
have [||F' E a] := @adds_fold_ext _ f (fun i => bl n2 n3 (loP (nth [::] (cl d) i)) (hiP (nth [::] (cl d) i))) F (iota 0 (size (cl d))) F _ bF.
- by move=> i Z; rewrite mem_iota add0n => li; exact: H.
- by [].
exists F' => //; move: a; rewrite -[in X in _ -> adds _ (flatten X) _](mkseq_nth [::] (cl d)) /mkseq -map_comp; exact.
Qed.

Lemma len6 (c : seq nat) : size c = 6 -> exists a a' b b' e e', c = [:: a; a'; b; b'; e; e'].
Proof. by case: c => [|a [|a' [|b [|b' [|e [|e' [|]]]]]]] // _; exists a, a', b, b', e, e'. Qed.

Lemma sub1 (x : nat) t : subseq t [:: x] -> t != [::] -> t = [:: x].
Proof. by case: t => [|y [|z t]] //=; case: (y =P x) => // ->. Qed.

Theorem C56_cubical X n1 n2 n3 : cc_built X -> cc_maxdim X = 3 -> 0 < n2 -> 0 < n3 ->
  exists2 F, FreudenthalCubical X n1 n2 n3 = Ok F & built F /\
    forall t, t != [::] -> contains F t <-> exists q c,
      [/\ t = number3 n2 n3 q, chain3 q, size c = 6 /\ ccontains X c & lies_in q (lo c 0) (hi c 0) (lo c 1) (hi c 1) (lo c 2) (hi c 2)].
Proof.
move=> bX D3 p2 p3; have [cl iv _] := cbuilt_inv bX; rewrite D3 in iv.
have I3 : 0 < 3 by [].
have cube d i : i < size (cl d) -> exists a a' b b' e e', [/\ nth [::] (cl d) i = [:: a; a'; b; b'; e; e'],
    [/\ a <= a' <= a.+1, b <= b' <= b.+1 & e <= e' <= e.+1] & (a' - a) + (b' - b) + (e' - e) = d].
  move=> li; have ci := mem_nth [::] li; have [vs ds _] := cl_cube iv ci; have /is_cubeP [ss H] := vs.
  have [a [a' [b [b' [e [e' E]]]]]] := len6 ss; exists a, a', b, b', e, e'; split=> //.
    by split; [have := H 0 isT|have := H 1 isT|have := H 2 isT]; rewrite E.
  by move: ds; rewrite E /=; lia.
rewrite /FreudenthalCubical D3 eqxx; cbn [negb].
rewrite (cncell_ok iv (isT : 0 <= 3)); cbn [obind].
match goal with |- context [loop 0 (size (cl 0)) ?f _] => have [|F0 E0 a0] := @loop_adds n2 n3 X cl 0 f (sc_new 3) iv (built_new 3) end.
  move=> i Z li bZ _; rewrite (ccube_ok iv li); cbn [obind]; have [a [a' [b [b' [e [e' [-> [ha hb he] hd]]]]]]] := cube _ _ li.
  have [? ? ?] : [/\ a' = a, b' = b & e' = e] by split; lia.
  subst a' b' e'; have [//|Z' E [bZ' ct]] := @addc_ok Z [:: idx3 a b e n2 n3] bZ.
  exists Z'; first exact: E.
  split=> // t n0; rewrite (ct t n0) /bl /degen /= !eqxx /=; split.
    by case=> [|[-> _]]; [left|right; eexists; [rewrite inE; apply/eqP; reflexivity|exact: subseq_refl]].
  case=> [|[s]]; first by left.
  rewrite inE => /eqP -> st; right; split; last by move=> j _.
  exact: (@sub1 (idx3 a b e n2 n3) t st n0).
have [bF0 _] := a0.
rewrite E0 (cncell_ok iv (isT : 1 <= 3)); cbn [obind].
match goal with |- context [loop 0 (size (cl 1)) ?f _] => have [|F1 E1 a1] := @loop_adds n2 n3 X cl 1 f F0 iv bF0 end.
  move=> i Z li bZ eZ; rewrite (ccube_ok iv li); cbn [obind]; have ci := mem_nth [::] li.
  have [a [a' [b [b' [e [e' [Ec [ha hb he] hd]]]]]]] := cube _ _ li.
  have vert x y z : a <= x <= a' -> b <= y <= b' -> e <= z <= e' -> contains Z [:: idx3 x y z n2 n3].
    move=> hx hy hz; apply: eZ => //; have [_ ct] := a0; apply/(ct [:: idx3 x y z n2 n3] isT); right.
    have cv : ccontains X [:: x; x; y; y; z; z].
      apply: (@C25_closed X (nth [::] (cl 1) i)); rewrite ?D3 // Ec //.
        by apply/(ccontains_iff iv I3); rewrite // -Ec; have [_ -> _] := cl_cube iv ci.
      split; first by apply: cube3; lia.
      by move=> [|[|[|j]]] // _; rewrite /lo /hi /=; lia.
    exists [:: idx3 x y z n2 n3]; last exact: subseq_refl.
    apply/flattenP; eexists; first by apply: map_f; move/(ccontains_iff iv I3 (erefl : size [:: x; x; y; y; z; z] = 6)): cv; rewrite /= !subnn; exact.
    by rewrite /bl /degen /= !eqxx /= inE.
  have [|Z' E [bZ' ct]] := @addc_ok Z [:: idx3 a b e n2 n3; idx3 a' b' e' n2 n3] bZ; first by [].
  exists Z'; first by rewrite Ec; exact: E.
  have lt : idx3 a b e n2 n3 < idx3 a' b' e' n2 n3.
    apply: (@idx_lt n2 n3 (a, b, e) (a', b', e')) => //; rewrite /plt3 /=; apply/and4P; split; try lia.
    by apply/eqP => -[h1 h2 h3]; move: hd; rewrite h1 h2 h3 !subnn.
  have so : sort leq [:: idx3 a b e n2 n3; idx3 a' b' e' n2 n3] = [:: idx3 a b e n2 n3; idx3 a' b' e' n2 n3].
    by apply: (sorted_sort leq_trans); rewrite /= (ltnW lt).
  have eb : bl n2 n3 (loP [:: a; a'; b; b'; e; e']) (hiP [:: a; a'; b; b'; e; e']) = [:: [:: idx3 a b e n2 n3; idx3 a' b' e' n2 n3]].
    rewrite /bl /degen /loP /hiP /lo /hi /=; case: (a =P a') => ea; case: (b =P b') => eb; case: (e =P e') => ee; rewrite /= /idxp /pt /=; first [exfalso; lia|by rewrite -?ea -?eb -?ee].
  rewrite Ec eb; split=> // t n0; rewrite (ct t n0) so; split.
    case=> [|[-> _]]; [by left|right]; exists [:: idx3 a b e n2 n3; idx3 a' b' e' n2 n3]; first by rewrite inE.
    by rewrite so; exact: subseq_refl.
  case=> [|[s]]; first by left.
  rewrite inE => /eqP ->; rewrite so => st.
  have v1 : contains Z [:: idx3 a b e n2 n3] by apply: vert; lia.
  have v2 : contains Z [:: idx3 a' b' e' n2 n3] by apply: vert; lia.
  case/subseqP: st n0 => -[|[] [|[] [|]]] //= _ -> // _; [|by left|by left].
  by right; split=> // -[|[|j]].
have [bF1 _] := a1.
rewrite E1 (cncell_ok iv (isT : 2 <= 3)); cbn [obind].
match goal with |- context [loop 0 (size (cl 2)) ?f _] => have [|F2 E2 a2] := @loop_adds n2 n3 X cl 2 f F1 iv bF1 end.
  move=> i Z li bZ _; rewrite (ccube_ok iv li); cbn [obind]; have [a [a' [b [b' [e [e' [-> [ha hb he] hd]]]]]]] := cube _ _ li.
  rewrite /bl /degen /loP /hiP /lo /hi /=; case: (a =P a') => ea; case: (b =P b') => eb; case: (e =P e') => ee; rewrite /= /idxp /pt /=;
    first [exfalso; lia|rewrite -?ea -?eb -?ee; exact: addrs_adds].
have [bF2 _] := a2.
rewrite E2 (cncell_ok iv (isT : 3 <= 3)); cbn [obind].
match goal with |- context [loop 0 (size (cl 3)) ?f _] => have [|F E a3] := @loop_adds n2 n3 X cl 3 f F2 iv bF2 end.
  move=> i Z li bZ _; rewrite (ccube_ok iv li); cbn [obind]; have [a [a' [b [b' [e [e' [-> [ha hb he] hd]]]]]]] := cube _ _ li.
  rewrite /bl /degen /loP /hiP /lo /hi /=; case: (a =P a') => ea; case: (b =P b') => eb; case: (e =P e') => ee; rewrite /= /idxp /pt /=;
    first [exfalso; lia|exact: addrs_adds].
have [bF ct] := adds_cat (adds_cat (adds_cat a0 a1) a2) a3.
exists F; [exact: E|split=> // t n0]; rewrite (ct t n0).
have mem s : s \in ((flatten [seq bl n2 n3 (loP c) (hiP c) | c <- cl 0] ++ flatten [seq bl n2 n3 (loP c) (hiP c) | c <- cl 1]) ++
    flatten [seq bl n2 n3 (loP c) (hiP c) | c <- cl 2]) ++ flatten [seq bl n2 n3 (loP c) (hiP c) | c <- cl 3] <->
    exists2 c, size c = 6 /\ ccontains X c & s \in bl n2 n3 (loP c) (hiP c).
  have K d : s \in flatten [seq bl n2 n3 (loP c) (hiP c) | c <- cl d] -> exists2 c, size c = 6 /\ ccontains X c & s \in bl n2 n3 (loP c) (hiP c).
    move=> /flattenP [? /mapP [c ci ->] hs]; exists c => //; have [vs ds _] := cl_cube iv ci; have ss := size_cval vs.
    by split=> //; apply/(ccontains_iff iv I3); rewrite ?ds.
  rewrite !mem_cat; split; first by case/orP => [/orP [/orP []|]|] /K.
  move=> [c [ss /(ccontains_iff iv I3 ss) ci] hs]; have [_ _ dl] := cl_cube iv ci.
  have h : s \in flatten [seq bl n2 n3 (loP c) (hiP c) | c <- cl (cdim c)] by apply/flattenP; exists (bl n2 n3 (loP c) (hiP c)); first exact: map_f.
  by move: dl h; case: (cdim c) => [|[|[|[|d]]]] // _ ->; rewrite ?orbT.
have ub c : size c = 6 /\ ccontains X c -> unitbox (loP c) (hiP c).
  move=> [ss /(ccontains_iff iv I3 ss) ci]; have [/is_cubeP [_ H] _ _] := cl_cube iv ci.
  by rewrite /unitbox; apply/and3P; split; [exact: (H 0)|exact: (H 1)|exact: (H 2)].
split.
  case=> [/(new_empty n0)//|[s /mem [c hc hs] st]].
  have [q [h1 h2 ->]] := (bl_iff t p2 p3 (ub c hc)).1 (ex_intro2 _ _ s hs st).
  by exists q, c; split; [rewrite number3E|exact: h1|exact: hc|exact: h2].
move=> [q [c [-> hq hc hl]]]; right; have [|s hs st] := (bl_iff (number3 n2 n3 q) p2 p3 (ub c hc)).2.
  by exists q; split=> //; exact: number3E.
by exists s => //; apply/mem; exists c.
Qed.

(** triangulating the cubical grid gives the triangulated grid *)
Theorem C56_same n1 n2 n3 : 0 < n1 -> 0 < n2 -> 0 < n3 ->
  exists X F G, [/\ Cube3 n1 n2 n3 = Ok X, FreudenthalCubical X n1 n2 n3 = Ok F, Freudenthal3 n1 n2 n3 = Ok G &
    forall t, t != [::] -> contains F t <-> contains G t].
Proof.
move=> p1 p2 p3; have [X EX [bX D3 cX]] := C56_Cube3 p1 p2 p3.
have [F EF [bF cF]] := C56_cubical n1 bX D3 p2 p3; have [G EG [bG cG]] := C56_Freudenthal3 p1 p2 p3.
exists X, F, G; split=> // t n0; rewrite (cF t n0) (cG t n0); split.
  move=> [q [c [e ch [sc /(cX c sc) [i [j [k [[cc sb] h]]]]] l]]]; exists q, i, j, k; split=> //.
  have [a1 b1] := sb 0 isT; have [a2 b2] := sb 1 isT; have [a3 b3] := sb 2 isT; move: a1 b1 a2 b2 a3 b3; rewrite /lo /hi /= => a1 b1 a2 b2 a3 b3.
  by apply/allP => v /(allP l); rewrite /lo /hi /=; clear -a1 b1 a2 b2 a3 b3; lia.
move=> [q [i [j [k [e ch l h]]]]]; exists q, [:: i; i.+1; j; j.+1; k; k.+1]; split=> //; split=> //.
apply/(cX [:: i; i.+1; j; j.+1; k; k.+1] erefl); exists i, j, k; split=> //; split; first by apply: cube3; lia.
by move=> [|[|[|m]]].
Qed.

(** a grid with one layer: the whole-grid function returns a complex without any simplex, not even the vertices *)
Theorem C56_thin n1 n2 : 0 < n1 -> 0 < n2 ->
  (exists2 F, Freudenthal3 n1 n2 1 = Ok F & forall t, t != [::] -> ~ contains F t) /\
  (exists2 F, Freudenthal2 n1 1 = Ok F & forall t, t != [::] -> ~ contains F t).
Proof.
move=> p1 p2; split.
  have [F E [_ H]] := @C56_Freudenthal3 n1 n2 1 p1 p2 isT; exists F => // t n0 /(H t n0) [q [i [j [k [_ _ _ [_ _]]]]]]; by rewrite ltnS.
have [F E [_ H]] := @C56_Freudenthal2 n1 1 p1 isT; exists F => // t n0 /(H t n0) [q [i [j [_ _ _ [_]]]]]; by rewrite ltnS.
Qed.

Definition ncs (r : outcome scx) : seq nat := if r is Ok X then sc_ncells X else [::].
(** one cube: 8 vertices, 19 edges, 18 triangles, 6 tetrahedra; one layer of the box function: two squares; the documented number
    k + n2 (j + n1 i) is not the one the code uses *)
Theorem C56_examples :
  [/\ ncs (Freudenthal3 2 2 2) = [:: 8; 19; 18; 6], ncs (FreudenthalBox 3 2 5 0 3 0 2 4 5) = [:: 6; 9; 4; 0],
      ncs (do X <- Cube3 2 2 2; FreudenthalCubical X 2 2 2) = [:: 8; 19; 18; 6], ncs (Freudenthal2 3 2) = [:: 6; 9; 4] &
      idx3 1 0 0 3 4 <> 0 + 3 * (0 + 2 * 1)].
Proof.
have a : ncs (Freudenthal3 2 2 2) = [:: 8; 19; 18; 6] by clear; vm_cast_no_check (erefl [:: 8; 19; 18; 6]).
have b : ncs (FreudenthalBox 3 2 5 0 3 0 2 4 5) = [:: 6; 9; 4; 0] by clear; vm_cast_no_check (erefl [:: 6; 9; 4; 0]).
have c : ncs (do X <- Cube3 2 2 2; FreudenthalCubical X 2 2 2) = [:: 8; 19; 18; 6] by clear; vm_cast_no_check (erefl [:: 8; 19; 18; 6]).
have d : ncs (Freudenthal2 3 2) = [:: 6; 9; 4] by clear; vm_cast_no_check (erefl [:: 6; 9; 4]).
have e : idx3 1 0 0 3 4 <> 0 + 3 * (0 + 2 * 1) by clear.
exact (And5 a b c d e).
Qed.
