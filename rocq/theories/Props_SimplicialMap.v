(** C27: simplicial maps and inclusions. *)
From mathcomp Require Import all_ssreflect all_algebra zify.
From Verif Require Import Outcome M_SparseVec M_Perm M_ColMatrix M_CSC M_Sorted M_Reduce M_Homology M_Induced M_Simplicial M_Cubical M_SimplicialMap S_Perm S_Linalg S_Homology S_Induced S_Simplicial S_Cubical S_SimplicialMap P_Outcome P_SparseVec P_SparseVec2 P_Trie P_Simplicial P_Inv P_ScOps P_ScBuild P_ScBoundary P_Sign P_SimplicialMap P_CubeList P_Cubical P_CubeOps P_CubeBoundary Props_Simplicial Props_ScBoundary Props_Induced Props_Cubical Props_CubeBoundary.
Set Implicit Arguments.
Unset Strict Implicit.
Unset Printing Implicit Defensive.
Import GRing.Theory.

Lemma built_mem cl X k s : inv cl X -> s \in cl k -> s != [::] /\ contains X s.
Proof.
move=> iv si; have ss := cl_size iv si; have n0 : s != [::] by rewrite -size_eq0 ss.
by split=> //; apply/(contains_iff iv n0); rewrite ss.
Qed.

Lemma size_image f0 s : size (image f0 s) = size s. Proof. exact: size_map. Qed.
Lemma sortim_nonnil f0 s : s != [::] -> sort leq (image f0 s) != [::].
Proof. by rewrite -!size_eq0 size_sort size_image. Qed.

(** SimplicialMap(X, Y, f0) returns exactly when f0 maps X into Y, and throws otherwise, provided f0 covers the vertices of
    X and Y has at least the dimension of X. *)
Theorem C27_defined X Y f0 : built X -> built Y -> sc_dims X <= sc_dims Y -> vertices_in X (size f0) ->
  (exists2 Fs, simplicial_map X Y f0 = Ok Fs & maps_into X Y f0) \/
  (simplicial_map X Y f0 = Throw /\
   exists s, [/\ s != [::], contains X s, uniq (image f0 s) & ~ contains Y (sort leq (image f0 s))]).
Proof.
move=> /built_inv [cl iv _] /built_inv [clY ivY _] dd vx.
have H k : k \in iota 0 (sc_dims X) -> [/\ k < sc_dims X, k < sc_dims Y & forall s, s \in cl k -> all (fun x => x < size f0) s].
  rewrite mem_iota add0n => lk; split=> //; first exact: leq_trans lk dd.
  by move=> s si; have [n0 cs] := built_mem iv si; exact: vx.
set bad := fun k => has (fun s => uniq (image f0 s) && (sort leq (image f0 s) \notin clY k)) (cl k).
have [/hasP [k ki bk]|/hasPn ok] := boolP (has bad (iota 0 (sc_dims X))); [right|left].
  split.
    apply: omapm_throw1; last by exists k => //; have [a b c] := H k ki; have := smap_dim iv ivY a b c; rewrite /= -/(bad k) bk.
    by move=> j /H [a b c]; have := smap_dim iv ivY a b c; rewrite /=; case: ifP => _ ->; [left|right; eexists].
  have /hasP [s si /andP [u nt]] := bk; have [n0 cs] := built_mem iv si; exists s; split=> //.
  move=> /(contains_iff ivY (sortim_nonnil _ n0)); rewrite size_sort size_image (cl_size iv si) /=; exact/negP.
rewrite /simplicial_map (omapm_Ok_eq (g := fdim cl clY (image f0))); last first.
  move=> k ki; have [a b c] := H k ki; have := smap_dim iv ivY a b c; rewrite /= -/(bad k).
  by have := ok k ki; case: (bad k).
eexists; first reflexivity; move=> s n0 cs u; have si := (contains_iff iv n0).1 cs.
apply/(contains_iff ivY (sortim_nonnil _ n0)); rewrite size_sort size_image.
have ki : (size s).-1 \in iota 0 (sc_dims X).
  rewrite mem_iota add0n /= ltnNge; apply/negP => h; case: iv si => _ _ _ Ci _; by rewrite Ci.
have := hasPn (ok _ ki) s si; by rewrite u /= negbK.
Qed.

(** whenever it returns: one matrix per dimension of X, of the right size; the column of a simplex is zero if its image is
    degenerate, and otherwise the single entry of the sorted image with the sign of the sorting permutation *)
Theorem C27_columns X Y f0 Fs : built X -> built Y -> simplicial_map X Y f0 = Ok Fs ->
  [/\ size Fs = sc_dims X, sc_dims X <= sc_dims Y, maps_into X Y f0 /\ vertices_in X (size f0) &
      forall k, k < sc_dims X -> let M := nth (CMat 0 0 [::]) Fs k in
      [/\ sc_ncell Y k = Ok (nrow M), sc_ncell X k = Ok (ncol M), size (cols M) = ncol M &
          forall i s, cell_is X k i s -> if uniq (image f0 s)
            then exists2 j, sc_find Y (sort leq (image f0 s)) = Ok (Some j) & nth [::] (cols M) i = [:: (j, sign_of (image f0 s))]
            else nth [::] (cols M) i = [::]]].
Proof.
move=> /built_inv [cl iv _] /built_inv [clY ivY _] E; have [dd -> rg mp] := smap_inv iv ivY E; split=> //.
- by rewrite size_map size_iota.
- split=> s n0 => [cs u|cs]; have si := (contains_iff iv n0).1 cs; last exact: rg si.
  by apply/(contains_iff ivY (sortim_nonnil _ n0)); rewrite size_sort size_image; exact: mp si u.
- move=> k lk; rewrite /= (nth_map 0) ?size_iota // nth_iota // add0n; split=> //.
  + exact: ncell_ok ivY (leq_trans lk dd).
  + exact: ncell_ok iv lk.
  + by rewrite size_map.
  move=> i s /(cell_is_iff _ _ _ iv) [li es]; have si : s \in cl k by rewrite es mem_nth.
  rewrite /fdim /= (nth_map [::]) // -es /icol; have [u|nu] := boolP (uniq (image f0 s)); last by [].
  have [n0 _] := built_mem iv si; have [_ _ _ _ T] := ivY.
  exists (index (sort leq (image f0 s)) (clY k)) => //.
  by rewrite (find_ok T (sortim_nonnil _ n0)) size_sort size_image (cl_size iv si) /= mp.
Qed.

(** a target of smaller dimension: never a result, although the map may be well defined *)
Theorem C27_small_target X Y f0 Fs : built X -> built Y -> sc_dims Y < sc_dims X -> simplicial_map X Y f0 <> Ok Fs.
Proof. by move=> bx b l E; have [_ dd _ _] := C27_columns bx b E; move: l; rewrite ltnNge dd. Qed.

Definition ex_edge : scx := if sc_add_recursive (sc_new 0) [:: 0; 1] is Ok (X, _) then X else sc_new 0.
Definition ex_point : scx := if sc_add_recursive (sc_new 0) [:: 0] is Ok (X, _) then X else sc_new 0.
(** for instance the map of an edge to a point reads past the end *)
Theorem C27_edge_to_point : [/\ built ex_edge, built ex_point, maps_into ex_edge ex_point [:: 0; 0] &
  simplicial_map ex_edge ex_point [:: 0; 0] = UB].
Proof.
have [X [r E]] : exists X r, sc_add_recursive (sc_new 0) [:: 0; 1] = Ok (X, r) by vm_compute; do 2 eexists.
have [Y [q E']] : exists X r, sc_add_recursive (sc_new 0) [:: 0] = Ok (X, r) by vm_compute; do 2 eexists.
have EX : ex_edge = X by rewrite /ex_edge E.
have EY : ex_point = Y by rewrite /ex_point E'.
have bX : built ex_edge by rewrite EX; apply: built_add_recursive E; exact: built_new.
have bY : built ex_point by rewrite EY; apply: built_add_recursive E'; exact: built_new.
clear E E' EX EY; split; [exact: bX|exact: bY| |by clear; vm_compute].
move=> s n0 cs u; clear bX bY cs.
have im x : nth 0 [:: 0; 0] x = 0 by case: x => [|[|x]] //=; rewrite nth_nil.
have e0 : s = [:: head 0 s].
  case: s n0 u => [|a [|b s]] // _; by rewrite /image /= !im.
have -> : sort leq (image [:: 0; 0] s) = [:: 0] by rewrite e0 /image /= im.
by clear; exists 0; vm_compute.
Qed.

Section OverField.
Variable F : fieldType.
Local Open Scope ring_scope.
Let conv (z : int) : F := z%:~R.

Lemma bd1_chain cl n k : (k.+1 < n)%N -> bd1 [seq bmat F cl k | k <- iota 0 n] k =
  mxc (ncell [seq bmat F cl k | k <- iota 0 n] k) (ncell [seq bmat F cl k | k <- iota 0 n] k.+1) [seq bcol F (cl k) s | s <- cl k.+1].
Proof. by move=> lk; rewrite /bd1 bmx_chain. Qed.

Lemma ncell_chain cl n k : (k < n)%N -> ncell [seq bmat F cl k | k <- iota 0 n] k = size (cl k).
Proof. by move=> lk; rewrite /ncell bmx_chain //; case: k lk. Qed.

Lemma nth_fdim cl clY g n k : (k < n)%N ->
  bmx (chain_of conv [seq fdim cl clY g k | k <- iota 0 n]) k = CMat (size (clY k)) (size (cl k)) [seq icolF F (clY k) (g s) | s <- cl k].
Proof.
move=> lk; rewrite /bmx /chain_of (nth_map (CMat 0 0 [::])) ?size_map ?size_iota // (nth_map 0%N) ?size_iota // nth_iota //.
by rewrite /cm_conv /= -map_comp.
Qed.

Lemma mxc_mul m n p (A B D E : seq (svec F)) q : 
  (forall i j, (i < m)%N -> (j < p)%N -> \sum_(l < n) coef (nth [::] A l) i * coef (nth [::] B j) l = \sum_(l < q) coef (nth [::] D l) i * coef (nth [::] E j) l) ->
  mxc m n A *m mxc n p B = mxc m q D *m mxc q p E.
Proof.
move=> H; apply/matrixP => i j; rewrite !mxE.
under eq_bigr do rewrite !mxE.
under [RHS]eq_bigr do rewrite !mxE.
exact: H.
Qed.

Lemma fdim_commutes cl X clY Y (h : nat -> nat) k : inv cl X -> inv clY Y ->
  (forall s, s \in cl k.+1 -> uniq (map h s) -> sort leq (map h s) \in clY k.+1) ->
  mxc (size (clY k)) (size (clY k.+1)) [seq bcol F (clY k) s | s <- clY k.+1] *m
  mxc (size (clY k.+1)) (size (cl k.+1)) [seq icolF F (clY k.+1) (map h s) | s <- cl k.+1] =
  mxc (size (clY k)) (size (cl k)) [seq icolF F (clY k) (map h s) | s <- cl k] *m
  mxc (size (cl k)) (size (cl k.+1)) [seq bcol F (cl k) s | s <- cl k.+1].
Proof.
move=> iv ivY mp; apply: mxc_mul => i j li lj; rewrite !(nth_map [::]) //.
have si : nth [::] (cl k.+1) j \in cl k.+1 by exact: mem_nth.
have [_ _ cf] := inv_Wc iv k.+1.
under eq_bigr => l _ do rewrite (nth_map [::]) //.
under [RHS]eq_bigr => l _ do rewrite (nth_map [::]) //.
apply: icol_chain; [exact: mp|exact: cf].
Qed.

(** the matrices commute with the boundaries, over every field *)
Theorem C27_commutes X Y f0 Fs C D : built X -> built Y -> simplicial_map X Y f0 = Ok Fs ->
  sc_chain conv X = Ok C -> sc_chain conv Y = Ok D ->
  forall k, (k.+1 < sc_dims X)%N ->
    bd1 D k *m fmx C D (chain_of conv Fs) k.+1 = fmx C D (chain_of conv Fs) k *m bd1 C k.
Proof.
move=> /built_inv [cl iv d0] /built_inv [clY ivY dY] E EC ED k lk; have [dd EF rg mp] := smap_inv iv ivY E.
move: EC ED; rewrite (chain_ok F iv d0) (chain_ok F ivY dY) => -[<-] [<-].
have lY := leq_trans lk dd; rewrite /fmx !bd1_chain // EF !nth_fdim //; last exact: ltnW.
rewrite !ncell_chain ?(ltnW lk) ?(ltnW lY) //=; apply: (fdim_commutes iv ivY) => s si u.
exact: mp si u.
Qed.

(** between complexes of the same dimension, ChainMap(SimplicialMap(X, Y, f0)) is a chain map in the sense of C21 *)
Theorem C27_chain_map X Y f0 Fs C D : built X -> built Y -> sc_dims X = sc_dims Y -> simplicial_map X Y f0 = Ok Fs ->
  sc_chain conv X = Ok C -> sc_chain conv Y = Ok D -> chain_map C D (chain_of conv Fs).
Proof.
move=> bX bY dXY E EC ED; have cm := C27_commutes bX bY E EC ED; move: bX bY => /built_inv [cl iv d0] /built_inv [clY ivY dY].
have [dd EF rg mp] := smap_inv iv ivY E.
move: EC ED cm; rewrite (chain_ok F iv d0) (chain_ok F ivY dY) => -[<-] [<-] cm; split.
- by rewrite !size_map !size_iota.
- by rewrite EF !size_map !size_iota.
- move=> k; rewrite size_map size_iota => lk; rewrite !ncell_chain -?dXY // EF !nth_fdim //; split=> //.
  rewrite /cm_wf /= size_map eqxx all_map; apply/allP => s si; apply: icolF_wf; exact: mp si.
- by move=> k; rewrite size_map size_iota => lk; exact: cm.
- move=> z _; rewrite /cycle; have -> : bd [seq bmat F clY k | k <- iota 0 (sc_dims Y)] 0 = 0; last by rewrite mul0mx.
  apply/matrixP => i j; rewrite !mxE; move: (nat_of_ord i) (nat_of_ord j) => a b.
  by rewrite bmx_chain //= nth_nseq; case: ifP => _; rewrite coef_nil.
Qed.

(** functoriality: the composite vertex map gives a simplicial map, and its matrices are the products *)
Theorem C27_compose X Y Z f0 g0 Fs Gs C D E : built X -> built Y -> built Z ->
  simplicial_map X Y f0 = Ok Fs -> simplicial_map Y Z g0 = Ok Gs ->
  sc_chain conv X = Ok C -> sc_chain conv Y = Ok D -> sc_chain conv Z = Ok E ->
  exists2 Hs, simplicial_map X Z [seq nth 0%N g0 y | y <- f0] = Ok Hs &
    forall k, (k < sc_dims X)%N -> fmx C E (chain_of conv Hs) k = fmx D E (chain_of conv Gs) k *m fmx C D (chain_of conv Fs) k.
Proof.
move=> bX bY bZ EF EG EC ED EE.
move: (bX) (bY) (bZ) => /built_inv [cl iv d0] /built_inv [clY ivY dY] /built_inv [clZ ivZ dZ].
have [dd eF rg mp] := smap_inv iv ivY EF; have [ddY eG rgY mpY] := smap_inv ivY ivZ EG.
set h0 := [seq _ | y <- f0].
have im k s : s \in cl k -> image h0 s = [seq nth 0%N g0 (nth 0%N f0 x) | x <- s].
  by move=> /rg al; apply/eq_in_map => x xs; rewrite (nth_map 0%N) //; exact: (allP al).
have tech k s : s \in cl k -> uniq (image h0 s) -> sort leq (image h0 s) \in clZ k.
  move=> si; rewrite (im _ _ si) => u; have u1 : uniq (image f0 s) by move: u; rewrite (map_comp (nth 0%N g0)) => /map_uniq.
  have ti := mp _ _ si u1; have pe : perm_eq (image g0 (sort leq (image f0 s))) [seq nth 0%N g0 (nth 0%N f0 x) | x <- s].
    by rewrite (map_comp (nth 0%N g0)); apply: perm_map; rewrite perm_sort.
  have := mpY _ _ ti; rewrite (perm_uniq pe) u => /(_ isT).
  by rewrite (_ : sort leq (image g0 _) = sort leq [seq nth 0%N g0 (nth 0%N f0 x) | x <- s]) //; exact/(perm_sortP leq_total leq_trans anti_leq).
have eH : simplicial_map X Z h0 = Ok [seq fdim cl clZ (image h0) k | k <- iota 0 (sc_dims X)].
  apply: omapm_Ok_eq => k; rewrite mem_iota add0n => lk; have lZ : (k < sc_dims Z)%N by apply: leq_trans lk (leq_trans dd ddY).
  have rgh s : s \in cl k -> all (fun x => x < size h0)%N s by move=> /rg; rewrite size_map.
  have := smap_dim iv ivZ lk lZ rgh; rewrite /= (_ : has _ _ = false) //; apply/negbTE/hasPn => s si.
  by apply/negP => /andP [u /negP]; apply; exact: tech.
eexists; first exact: eH; move=> k lk; have lY := leq_trans lk dd; have lZ := leq_trans lY ddY.
move: EC ED EE; rewrite (chain_ok F iv d0) (chain_ok F ivY dY) (chain_ok F ivZ dZ) => -[<-] [<-] [<-].
rewrite /fmx eF eG !nth_fdim // !ncell_chain //=; apply/matrixP => i j; rewrite !mxE (nth_map [::]) //.
have si : nth [::] (cl k) j \in cl k by exact: mem_nth.
rewrite (im _ _ si) -(@icol_comp F (clZ k) (clY k)); last exact: mp si.
by apply: eq_bigr => l _; rewrite !mxE !(nth_map [::]).
Qed.

(** hence on homology: the induced map of the composite is the composite of the induced maps *)
Theorem C27_homology X Y Z f0 g0 Fs Gs opt : opt = ClearingBasis \/ opt = StandardBasis ->
  built X -> built Y -> built Z -> nondegenerate X -> nondegenerate Y -> nondegenerate Z ->
  sc_dims X = sc_dims Y -> sc_dims Y = sc_dims Z ->
  simplicial_map X Y f0 = Ok Fs -> simplicial_map Y Z g0 = Ok Gs ->
  exists C D E Hs, [/\ sc_chain conv X = Ok C, sc_chain conv Y = Ok D, sc_chain conv Z = Ok E,
    simplicial_map X Z [seq nth 0%N g0 y | y <- f0] = Ok Hs &
    exists RX RY RZ, [/\ rcc_of (ops_of F) opt C = Ok RX, rcc_of (ops_of F) opt D = Ok RY, rcc_of (ops_of F) opt E = Ok RZ &
    forall k, (k < sc_dims X)%N -> exists M1 M2 M3,
      let c := size (gens RX k) in let d := size (gens RY k) in let e := size (gens RZ k) in
      [/\ induced_map (ops_of F) (bmx (chain_of conv Fs) k) RX RY k = Ok (CMat d c M1),
          induced_map (ops_of F) (bmx (chain_of conv Gs) k) RY RZ k = Ok (CMat e d M2),
          induced_map (ops_of F) (bmx (chain_of conv Hs) k) RX RZ k = Ok (CMat e c M3) &
          mxc e c M3 = mxc e d M2 *m mxc d c M1]]].
Proof.
move=> ho bX bY bZ nX nY nZ dXY dYZ EF EG.
have [C [EC sC wC _ _]] := C24_chain F bX nX; have [D [ED _ wD _ _]] := C24_chain F bY nY; have [E [EE _ wE _ _]] := C24_chain F bZ nZ.
have [Hs EH cmp] := C27_compose bX bY bZ EF EG EC ED EE.
have m1 := C27_chain_map bX bY dXY EF EC ED; have m2 := C27_chain_map bY bZ dYZ EG ED EE.
have m3 := C27_chain_map bX bZ (etrans dXY dYZ) EH EC EE.
exists C, D, E, Hs; split=> //; have [RX [RY [RZ [e1 e2 e3 H]]]] := C21_composition ho wC wD wE m1 m2 m3.
exists RX, RY, RZ; split=> // k lk; apply: H; [by rewrite sC|exact: cmp].
Qed.
End OverField.

(** the identity vertex map on a complex with sorted simplices gives the identity *)
Theorem C27_identity X n : built X -> (forall s, s != [::] -> contains X s -> sorted ltn s && all (fun x => x < n) s) ->
  exists2 Fs, simplicial_map X X (iota 0 n) = Ok Fs & cell_identity X = Ok Fs.
Proof.
move=> /built_inv [cl iv _] H.
have im k s : s \in cl k -> [/\ image (iota 0 n) s = s, sorted ltn s & all (fun x => x < n) s].
  move=> si; have [n0 cs] := built_mem iv si; have /andP [so al] := H s n0 cs; split=> //.
  rewrite -[RHS]map_id; apply/eq_in_map => x xs; rewrite nth_iota ?add0n //; exact: (allP al).
have srt k s : s \in cl k -> sort leq s = s.
  move=> /im [_ so _]; apply: (sorted_sort leq_trans); exact: (sub_sorted ltnW) so.
have un k s : s \in cl k -> uniq s by move=> /im [_ so _]; exact: (sorted_uniq ltn_trans ltnn).
have inv0 k s : s \in cl k -> sign_of s = 1%R.
  move=> /im [_ so _]; rewrite /sign_of inversionsE (_ : invl s = 0) ?expr0 //.
  elim: s so => [|x s IH] //= so; rewrite IH ?addn0; last exact: path_sorted so.
  apply/eqP; rewrite -leqn0 leqNgt -has_count; apply/hasPn => z zs; rewrite -leqNgt.
  by move: so; rewrite path_sortedE; [move=> /andP [/allP /(_ z zs) /ltnW]|exact: ltn_trans].
exists [seq fdim cl cl (image (iota 0 n)) k | k <- iota 0 (sc_dims X)].
  apply: omapm_Ok_eq => k; rewrite mem_iota add0n => lk.
  have rg s : s \in cl k -> all (fun x => x < size (iota 0 n)) s by move=> /im [_ _]; rewrite size_iota.
  have := smap_dim iv iv lk lk rg; rewrite /= (_ : has _ _ = false) //; apply/negbTE/hasPn => s si.
  by have [-> _ _] := im _ _ si; rewrite (srt _ _ si) si andbF.
apply: omapm_Ok_eq => k; rewrite mem_iota add0n => lk; rewrite (ncell_ok iv lk); cbn [obind]; congr (Ok (CMat _ _ _)).
apply: (@eq_from_nth _ [::]); first by rewrite !size_map size_iota.
move=> i; rewrite size_map size_iota => li; rewrite (nth_map 0) ?size_iota // (nth_map [::]) // nth_iota // add0n.
have si := mem_nth [::] li; have [-> _ _] := im _ _ si; rewrite /icol (un _ _ si) (srt _ _ si) (inv0 _ _ si).
by have [_ u _] := inv_Wc iv k; rewrite index_uniq.
Qed.

(** ** inclusions *)
Definition dcol (clk : seq (seq nat)) (s : seq nat) : svec int := [:: (index s clk, 1%R)].

Lemma incl_dim (find : seq nat -> outcome (option nat)) (get : nat -> outcome (seq nat)) (clk clY : seq (seq nat)) :
  (forall i, i < size clk -> get i = Ok (nth [::] clk i)) ->
  (forall s, s \in clk -> find s = Ok (if s \in clY then Some (index s clY) else None)) ->
  let r := omapm (fun i => do s <- get i; incl_col find s) (iota 0 (size clk)) in
  if all (fun s => s \in clY) clk then r = Ok [seq dcol clY s | s <- clk] else r = Throw.
Proof.
move=> hg hf r.
have S i : i \in iota 0 (size clk) -> (do s <- get i; incl_col find s) =
    if nth [::] clk i \in clY then Ok (dcol clY (nth [::] clk i)) else Throw.
  rewrite mem_iota add0n => li; rewrite hg //; cbn [obind]; rewrite /incl_col hf ?mem_nth //; by case: (_ \in clY).
case: ifP => [/allP al|/negbT /allPn [s si nc]].
  rewrite /r (omapm_Ok_eq (g := fun i => dcol clY (nth [::] clk i))).
    by rewrite (map_comp (dcol clY)) -/(mkseq _ _) mkseq_nth.
  by move=> i ii; rewrite S // al // mem_nth //; move: ii; rewrite mem_iota.
apply: omapm_throw1; first by move=> i /S ->; case: (_ \in clY); [right; eexists|left].
exists (index s clk); first by rewrite mem_iota add0n index_mem.
by rewrite S ?mem_iota ?add0n ?index_mem // nth_index // (negbTE nc).
Qed.

(** SimplicialMap(X, Y) = CellularMap(X, Y), Y at least of the dimension of X: throws exactly when some simplex of X is not in
    Y; otherwise sends every simplex to its copy in Y *)
Theorem C27_inclusion X Y : built X -> built Y -> sc_dims X <= sc_dims Y ->
  (sc_inclusion X Y = Throw /\ exists s, [/\ s != [::], contains X s & ~ contains Y s]) \/
  exists Fs, [/\ sc_inclusion X Y = Ok Fs, forall s, s != [::] -> contains X s -> contains Y s, size Fs = sc_dims X &
    forall k, k < sc_dims X -> let M := nth (CMat 0 0 [::]) Fs k in
      [/\ sc_ncell Y k = Ok (nrow M), sc_ncell X k = Ok (ncol M), size (cols M) = ncol M &
          forall i s, cell_is X k i s -> exists2 j, sc_find Y s = Ok (Some j) & nth [::] (cols M) i = [:: (j, 1%R)]]].
Proof.
move=> /built_inv [cl iv _] /built_inv [clY ivY _] dd; have [_ _ _ _ T] := ivY.
have fk k s : s \in cl k -> sc_find Y s = Ok (if s \in clY k then Some (index s (clY k)) else None).
  by move=> si; have [n0 _] := built_mem iv si; rewrite (find_ok T n0) (cl_size iv si).
have P k : k < sc_dims X -> _ := fun lk => incl_dim (fun i (li : i < size (cl k)) => simplex_ok iv li) (fun s => fk k s).
have [al|/allPn [k ki nk]] := boolP (all (fun k => all (fun s => s \in clY k) (cl k)) (iota 0 (sc_dims X))); [right|left].
  exists [seq CMat (size (clY k)) (size (cl k)) [seq dcol (clY k) s | s <- cl k] | k <- iota 0 (sc_dims X)]; split.
  - apply: omapm_Ok_eq => k ki; have := allP al k ki; move: ki; rewrite mem_iota add0n => lk ak.
    rewrite (ncell_ok iv lk); cbn [obind]; have := P k lk; rewrite /= ak => ->; cbn [obind].
    by rewrite (ncell_ok ivY (leq_trans lk dd)).
  - move=> s n0 cs; have si := (contains_iff iv n0).1 cs; apply/(contains_iff ivY n0).
    have ki : (size s).-1 \in iota 0 (sc_dims X).
      rewrite mem_iota add0n /= ltnNge; apply/negP => h; case: iv si => _ _ _ Ci _; by rewrite Ci.
    exact: (allP (allP al _ ki)).
  - by rewrite size_map size_iota.
  move=> k lk; rewrite /= (nth_map 0) ?size_iota // nth_iota // add0n /= size_map; split=> //.
  - exact: ncell_ok ivY (leq_trans lk dd).
  - exact: ncell_ok iv lk.
  move=> i s /(cell_is_iff _ _ _ iv) [li es]; have si : s \in cl k by rewrite es mem_nth.
  have ki : k \in iota 0 (sc_dims X) by rewrite mem_iota.
  by exists (index s (clY k)); [rewrite (fk k) // (allP (allP al _ ki))|rewrite (nth_map [::]) // -es].
split; last first.
  have /allPn [s si nc] := nk; have [n0 cs] := built_mem iv si; exists s; split=> //.
  by move=> /(contains_iff ivY n0); rewrite (cl_size iv si); exact/negP.
apply: omapm_throw1.
  move=> j; rewrite mem_iota add0n => lj; rewrite (ncell_ok iv lj); cbn [obind]; have := P j lj; rewrite /=.
  case: ifP => _ ->; cbn [obind]; [right|by left]; by rewrite (ncell_ok ivY (leq_trans lj dd)); eexists.
exists k => //; move: ki; rewrite mem_iota add0n => lk; rewrite (ncell_ok iv lk); cbn [obind]; have := P k lk; rewrite /=.
by rewrite (negbTE nk) => ->.
Qed.

(** CubicalMap(X, Y) for complexes of the same ambient dimension *)
Theorem C27_cubical_inclusion X Y : cc_built X -> cc_built Y -> 0 < cc_maxdim X -> cc_maxdim Y = cc_maxdim X ->
  let W s := size s = (2 * cc_maxdim X)%N in
  (cc_inclusion X Y = Throw /\ exists s, [/\ W s, ccontains X s & ~ ccontains Y s]) \/
  exists Fs, [/\ cc_inclusion X Y = Ok Fs, forall s, W s -> ccontains X s -> ccontains Y s, size Fs = (cc_maxdim X).+1 &
    forall k, k <= cc_maxdim X -> let M := nth (CMat 0 0 [::]) Fs k in
      [/\ cc_ncell Y k = Ok (nrow M), cc_ncell X k = Ok (ncol M), size (cols M) = ncol M &
          forall i s, ccell_is X k i s -> exists2 j, cc_find Y s = Ok (Some j) & nth [::] (cols M) i = [:: (j, 1%R)]]].
Proof.
move=> /cbuilt_inv [cl iv _] /cbuilt_inv [clY ivY _] D0 ed W; rewrite ed in ivY; have [_ _ _ _ T] := ivY.
set D := cc_maxdim X in iv ivY T D0 *.
have mem k s : s \in cl k -> [/\ W s, cdim s = k & k <= D].
  by move=> si; have [vs ds ld] := cl_cube iv si; split=> //; exact: size_cval vs.
have nn s : W s -> s != [::] by move=> ws; rewrite -size_eq0 ws -/D; move: D0; clear; lia.
have fk k s : s \in cl k -> cc_find Y s = Ok (if s \in clY k then Some (index s (clY k)) else None).
  by move=> si; have [ws ds _] := mem k s si; rewrite (cfind_ok T (nn s ws) ws) ds.
have P k : k <= D -> _ := fun lk => incl_dim (fun i (li : i < size (cl k)) => ccube_ok iv li) (fun s => fk k s).
have [al|/allPn [k ki nk]] := boolP (all (fun k => all (fun s => s \in clY k) (cl k)) (iota 0 D.+1)); [right|left].
  exists [seq CMat (size (clY k)) (size (cl k)) [seq dcol (clY k) s | s <- cl k] | k <- iota 0 D.+1]; split.
  - apply: omapm_Ok_eq => k ki; have := allP al k ki; move: ki; rewrite mem_iota add0n ltnS => lk ak.
    rewrite (cncell_ok iv lk); cbn [obind]; have := P k lk; rewrite /= ak => ->; cbn [obind].
    by rewrite (cncell_ok ivY lk).
  - move=> s ws cs; have si := (ccontains_iff iv D0 ws).1 cs; apply/(ccontains_iff ivY D0 ws).
    have [_ _ ld] := mem _ _ si; have ki : cdim s \in iota 0 D.+1 by rewrite mem_iota.
    exact: (allP (allP al _ ki)).
  - by rewrite size_map size_iota.
  move=> k lk M; rewrite {}/M (nth_map 0) ?size_iota // nth_iota // add0n /= size_map; split=> //.
  - exact: cncell_ok ivY lk.
  - exact: cncell_ok iv lk.
  move=> i s /(ccell_is_iff _ _ _ iv) [li es]; have si : s \in cl k by rewrite es mem_nth.
  have ki : k \in iota 0 D.+1 by rewrite mem_iota.
  by exists (index s (clY k)); [rewrite (fk k) // (allP (allP al _ ki))|rewrite (nth_map [::]) // -es].
split; last first.
  have /allPn [s si nc] := nk; have [ws ds _] := mem _ _ si; exists s; split=> //.
    by apply/(ccontains_iff iv D0 ws); rewrite ds.
  by move=> /(ccontains_iff ivY D0 ws); rewrite ds; exact/negP.
apply: omapm_throw1.
  move=> j; rewrite mem_iota add0n ltnS => lj; rewrite (cncell_ok iv lj); cbn [obind]; have := P j lj; rewrite /=.
  case: ifP => _ ->; cbn [obind]; [right|by left]; by rewrite (cncell_ok ivY lj); eexists.
exists k => //; move: ki; rewrite mem_iota add0n ltnS => lk; rewrite (cncell_ok iv lk); cbn [obind]; have := P k lk; rewrite /=.
by rewrite (negbTE nk) => ->.
Qed.

(** ** inclusions commute with the boundaries *)
Section InclusionField.
Variable F : fieldType.
Local Open Scope ring_scope.
Let conv (z : int) : F := z%:~R.

Definition dcolF (clk : seq (seq nat)) (s : seq nat) : svec F := [:: (index s clk, conv 1)].
Lemma coef_dcol clk s r : coef (dcolF clk s) r = delta F clk r s.
Proof. by rewrite /coef /dcolF big_cons big_nil /delta /=; case: eqP => _; rewrite ?addr0. Qed.

Lemma incl_chain (b : seq (seq nat) -> seq nat -> svec F) (fs : seq nat -> seq (seq nat * F)) clA clB clX s r :
  (forall cl t i, coef (b cl t) i = \sum_(f <- fs t) f.2 * delta F cl i f.1) -> s \in clB -> (forall f, f \in fs s -> f.1 \in clX) ->
  \sum_(i < size clB) coef (b clA (nth [::] clB i)) r * coef (dcolF clB s) i =
  \sum_(i < size clX) coef (dcolF clA (nth [::] clX i)) r * coef (b clX s) i.
Proof.
move=> hb sB fX; under eq_bigr => i _ do rewrite coef_dcol.
rewrite (sum_delta (fun i => coef (b clA (nth [::] clB i)) r) sB) nth_index // hb.
under [RHS]eq_bigr => i _ do rewrite coef_dcol hb mulr_sumr.
rewrite exchange_big /= big_seq [RHS]big_seq; apply: eq_bigr => f fi.
under eq_bigr => i _ do rewrite mulrCA.
by rewrite -mulr_sumr (sum_delta (fun i => delta F clA r (nth [::] clX i)) (fX f fi)) nth_index // fX.
Qed.

Lemma incl_commutes (b : seq (seq nat) -> seq nat -> svec F) (fs : seq nat -> seq (seq nat * F)) cl clY k :
  (forall c t i, coef (b c t) i = \sum_(f <- fs t) f.2 * delta F c i f.1) ->
  (forall s, s \in cl k.+1 -> s \in clY k.+1) -> (forall s f, s \in cl k.+1 -> f \in fs s -> f.1 \in cl k) ->
  mxc (size (clY k)) (size (clY k.+1)) [seq b (clY k) s | s <- clY k.+1] *m
  mxc (size (clY k.+1)) (size (cl k.+1)) [seq dcolF (clY k.+1) s | s <- cl k.+1] =
  mxc (size (clY k)) (size (cl k)) [seq dcolF (clY k) s | s <- cl k] *m
  mxc (size (cl k)) (size (cl k.+1)) [seq b (cl k) s | s <- cl k.+1].
Proof.
move=> hb sub cf; apply: mxc_mul => i j li lj; rewrite !(nth_map [::]) //.
have si : nth [::] (cl k.+1) j \in cl k.+1 by exact: mem_nth.
under eq_bigr => l _ do rewrite (nth_map [::]) //.
under [RHS]eq_bigr => l _ do rewrite (nth_map [::]) //.
by apply: (incl_chain _ _ hb); [exact: sub|move=> f; exact: cf].
Qed.

Lemma omapm_eq_inv (A : eqType) B (f : A -> outcome B) (l : seq A) bs c : omapm f l = Ok bs -> omapm f l = Ok c -> bs = c.
Proof. by move=> -> [->]. Qed.

Definition imat (cl clY : cells_t) k : cmat int := CMat (size (clY k)) (size (cl k)) [seq dcol (clY k) s | s <- cl k].

Lemma sc_incl_inv cl X clY Y Fs : inv cl X -> inv clY Y -> (sc_dims X <= sc_dims Y)%N -> sc_inclusion X Y = Ok Fs ->
  Fs = [seq imat cl clY k | k <- iota 0 (sc_dims X)] /\ forall k s, s \in cl k -> s \in clY k.
Proof.
move=> iv ivY dd E; have [_ _ _ _ T] := ivY.
have fk k s : s \in cl k -> sc_find Y s = Ok (if s \in clY k then Some (index s (clY k)) else None).
  by move=> si; have [n0 _] := built_mem iv si; rewrite (find_ok T n0) (cl_size iv si).
have P k : (k < sc_dims X)%N -> _ := fun lk => incl_dim (fun i (li : (i < size (cl k))%N) => simplex_ok iv li) (fun s => fk k s).
have [sF nF] := omapm_inv 0%N (CMat 0 0 [::]) E; rewrite size_iota in sF nF.
have Q k : (k < sc_dims X)%N -> nth (CMat 0 0 [::]) Fs k = imat cl clY k /\ forall s, s \in cl k -> s \in clY k.
  move=> lk; have := nF k lk; rewrite nth_iota // add0n (ncell_ok iv lk); cbn [obind]; have := P k lk; rewrite /=.
  case: ifP => [/allP al|_] ->; cbn [obind] => //; rewrite (ncell_ok ivY (leq_trans lk dd)); cbn [obind].
  by move=> -[<-]; split.
split.
  apply: (@eq_from_nth _ (CMat 0 0 [::])); first by rewrite sF size_map size_iota.
  by move=> k; rewrite sF => lk; have [-> _] := Q k lk; rewrite (nth_map 0%N) ?size_iota // nth_iota.
move=> k s si; have lk : (k < sc_dims X)%N by rewrite ltnNge; apply/negP => h; case: iv si => _ _ _ Ci _; rewrite Ci.
by have [_ h] := Q k lk; exact: h.
Qed.

Lemma nth_imat cl clY n k : (k < n)%N ->
  bmx (chain_of conv [seq imat cl clY k | k <- iota 0 n]) k = CMat (size (clY k)) (size (cl k)) [seq dcolF (clY k) s | s <- cl k].
Proof.
move=> lk; rewrite /bmx /chain_of (nth_map (CMat 0 0 [::])) ?size_map ?size_iota // (nth_map 0%N) ?size_iota // nth_iota //.
by rewrite /cm_conv /= -map_comp.
Qed.

(** the inclusion of a simplicial complex is a chain map in every dimension of X, over every field (directed simplices
    included: nothing is re-sorted) *)
Theorem C27_inclusion_commutes X Y Fs C D : built X -> built Y -> (sc_dims X <= sc_dims Y)%N -> sc_inclusion X Y = Ok Fs ->
  sc_chain conv X = Ok C -> sc_chain conv Y = Ok D ->
  forall k, (k.+1 < sc_dims X)%N ->
    bd1 D k *m fmx C D (chain_of conv Fs) k.+1 = fmx C D (chain_of conv Fs) k *m bd1 C k.
Proof.
move=> /built_inv [cl iv d0] /built_inv [clY ivY dY] dd E EC ED k lk; have [EF sub] := sc_incl_inv iv ivY dd E.
move: EC ED; rewrite (chain_ok F iv d0) (chain_ok F ivY dY) => -[<-] [<-].
have lY := leq_trans lk dd; rewrite /fmx !bd1_chain // EF !nth_imat //; last exact: ltnW.
rewrite !ncell_chain ?(ltnW lk) ?(ltnW lY) //=.
apply: (incl_commutes (b := bcol F) (fs := fun s => [seq (skip j s, (-1) ^+ size s * (-1) ^+ j) | j <- iota 0 (size s)])).
- move=> c t i; rewrite coef_bcol /alt big_map mulr_sumr -(subn0 (size t)) -/(index_iota 0 _) big_mkord subn0.
  by apply: eq_bigr => j _; rewrite mulrA.
- exact: sub.
move=> s f si /mapP [j]; rewrite mem_iota add0n => lj -> /=; have [_ _ cf] := inv_Wc iv k.+1; exact: cf.
Qed.

Lemma cc_incl_inv cl X clY Y Fs D : (0 < D)%N -> cc_maxdim X = D -> cinv D cl X -> cinv D clY Y -> cc_inclusion X Y = Ok Fs ->
  Fs = [seq imat cl clY k | k <- iota 0 D.+1] /\ forall k s, s \in cl k -> s \in clY k.
Proof.
move=> D0 dX iv ivY E; have [_ _ _ _ T] := ivY.
have mem k s : s \in cl k -> [/\ size s = (2 * D)%N, cdim s = k & (k <= D)%N].
  by move=> si; have [vs ds ld] := cl_cube iv si; split=> //; exact: size_cval vs.
have nn (s : seq nat) : size s = (2 * D)%N -> s != [::] by move=> ws; rewrite -size_eq0 ws; move: D0; clear; lia.
have fk k s : s \in cl k -> cc_find Y s = Ok (if s \in clY k then Some (index s (clY k)) else None).
  by move=> si; have [ws ds _] := mem k s si; rewrite (cfind_ok T (nn s ws) ws) ds.
have P k : (k <= D)%N -> _ := fun lk => incl_dim (fun i (li : (i < size (cl k))%N) => ccube_ok iv li) (fun s => fk k s).
have [sF nF] := omapm_inv 0%N (CMat 0 0 [::]) E; rewrite size_iota dX in sF nF.
have Q k : (k <= D)%N -> nth (CMat 0 0 [::]) Fs k = imat cl clY k /\ forall s, s \in cl k -> s \in clY k.
  move=> lk; have := nF k lk; rewrite nth_iota // add0n (cncell_ok iv lk); cbn [obind]; have := P k lk; rewrite /=.
  case: ifP => [/allP al|_] ->; cbn [obind] => //; rewrite (cncell_ok ivY lk); cbn [obind].
  by move=> -[<-]; split.
split.
  apply: (@eq_from_nth _ (CMat 0 0 [::])); first by rewrite sF size_map size_iota.
  by move=> k; rewrite sF => lk; have [-> _] := Q k lk; rewrite (nth_map 0%N) ?size_iota // nth_iota.
by move=> k s si; have [_ _ lk] := mem k s si; have [_ h] := Q k lk; exact: h.
Qed.

(** and so is the inclusion of a cubical complex *)
Theorem C27_cubical_commutes X Y Fs C D : cc_built X -> cc_built Y -> (0 < cc_maxdim X)%N -> cc_maxdim Y = cc_maxdim X ->
  cc_inclusion X Y = Ok Fs -> cc_chain conv X = Ok C -> cc_chain conv Y = Ok D ->
  forall k, (k < cc_maxdim X)%N ->
    bd1 D k *m fmx C D (chain_of conv Fs) k.+1 = fmx C D (chain_of conv Fs) k *m bd1 C k.
Proof.
move=> /cbuilt_inv [cl iv _] /cbuilt_inv [clY ivY _] D0 ed E EC ED k lk; rewrite ed in ivY.
have [EF sub] := cc_incl_inv D0 (erefl _) iv ivY E.
move: EC ED; rewrite (cchain_ok F iv) (cchain_ok F ivY) => -[<-] [<-].
have n0 c j : (j <= cc_maxdim X)%N -> ncell [seq cbmat F c k | k <- iota 0 (cc_maxdim X).+1] j = size (c j).
  by move=> lj; rewrite /ncell cbmx_chain //; case: (j).
have l1 : (k.+1 < (cc_maxdim X).+1)%N by [].
have l0 : (k < (cc_maxdim X).+1)%N by exact: ltnW.
rewrite /fmx /bd1 EF (nth_imat _ _ l1) (nth_imat _ _ l0) !(cbmx_chain _ _ l1) !(n0 _ _ lk) !(n0 _ _ (ltnW lk)).
apply: (@incl_commutes (ccol conv) (fun s => [seq (f.1, f.2%:~R) | f <- cfaces s]) cl clY k).
- by move=> c t i; rewrite coef_ccol /cbd big_map.
- exact: sub.
by move=> s f si /mapP [g gi ->] /=; have [_ _ cf] := cinv_Wc k.+1 iv; exact: (cf s si g gi).
Qed.
End InclusionField.

(** a folding of a path onto an edge, and the inclusion of the edge in the path *)
Definition ex_fpath : scx :=
  if sc_add_recursive (sc_new 0) [:: 0; 1] is Ok (X, _) then if sc_add_recursive X [:: 1; 2] is Ok (Y, _) then Y else X else sc_new 0.
Theorem C27_nonvacuous :
  [/\ built ex_fpath, built ex_edge, nondegenerate ex_fpath, sc_dims ex_fpath = sc_dims ex_edge &
   [/\ vertices_in ex_fpath 3, maps_into ex_fpath ex_edge [:: 0; 1; 0],
     simplicial_map ex_fpath ex_edge [:: 0; 1; 0] =
       Ok [:: CMat 2 3 [:: [:: (0, 1%R)]; [:: (1, 1%R)]; [:: (0, 1%R)]]; CMat 1 2 [:: [:: (0, 1%R)]; [:: (0, (-1)%R)]]] &
     sc_inclusion ex_edge ex_fpath = Ok [:: CMat 3 2 [:: [:: (0, 1%R)]; [:: (1, 1%R)]]; CMat 2 1 [:: [:: (0, 1%R)]]]]].
Proof.
have [X [r E]] : exists X r, sc_add_recursive (sc_new 0) [:: 0; 1] = Ok (X, r) by vm_compute; do 2 eexists.
have EX : ex_edge = X by rewrite /ex_edge E.
have bX : built X by apply: built_add_recursive E; exact: built_new.
have [Y [q E']] : exists Y q, sc_add_recursive ex_edge [:: 1; 2] = Ok (Y, q) by vm_compute; do 2 eexists.
have EY : ex_fpath = Y by move: E'; rewrite EX /ex_fpath E => ->.
have bY : built ex_fpath by rewrite EY; rewrite EX in E'; apply: built_add_recursive E'; exact: bX.
have bE : built ex_edge by rewrite EX.
have S : simplicial_map ex_fpath ex_edge [:: 0; 1; 0] =
       Ok [:: CMat 2 3 [:: [:: (0, 1%R)]; [:: (1, 1%R)]; [:: (0, 1%R)]]; CMat 1 2 [:: [:: (0, 1%R)]; [:: (0, (-1)%R)]]].
  by clear; vm_compute.
have [_ _ [mp vi] _] := C27_columns bY bE S.
split; [exact: bY|exact: bE| |by clear; vm_compute|split; [exact: vi|exact: mp|exact: S|by clear; vm_compute]].
have nX : nondegenerate X := @C24_nondegenerate_add_recursive _ [:: 0; 1] _ _ (built_new 0) (@C24_nondegenerate_new 0) isT isT E.
rewrite EX in E'; rewrite EY; exact: (@C24_nondegenerate_add_recursive _ [:: 1; 2] _ _ bX nX isT isT E').
Qed.
