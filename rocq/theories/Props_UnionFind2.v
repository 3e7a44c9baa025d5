(** C33, continued: agreement with the matrix reduction, the points of a Rips filtration, and where it fails. *)
From mathcomp Require Import all_ssreflect all_algebra zify.
From Verif Require Import Outcome M_SparseVec M_Perm M_ColMatrix M_Reduce M_Homology M_Persist M_UnionFind M_Simplicial
  S_Linalg S_Perm S_Homology S_Persist S_UnionFind S_Simplicial P_Outcome P_SparseVec P_Sort P_Persist P_Pairs P_Barcode
  P_UnionFind P_UnionFind2 P_UnionFind3 P_Simplicial P_ScOps P_ScBuild P_ScBoundary Ex_Reduction Props_Simplicial Props_Persist Props_ScBoundary Props_UnionFind.
Set Implicit Arguments.
Unset Strict Implicit.
Unset Printing Implicit Defensive.
Import GRing.Theory Order.TTheory.
Local Open Scope ring_scope.

Section Agree.
Variables (F : fieldType) (disp : unit) (V : orderType disp) (v0 inf : V).
Notation ltv := (fun x y : V => (x < y)%O).
Variables (Fl : Type) (fl : V -> Fl) (ltf : Fl -> Fl -> bool).

Lemma count_split (A : Type) (p q : pred A) (l : seq A) : (count (fun x => p x && q x) l + count (fun x => p x && ~~ q x) l)%N = count p l.
Proof. by elim: l => //= x l <-; case: (p x); case: (q x); rewrite /=; lia. Qed.

(** C33. Under the same conditions, the barcode is that of dimension 0 of the reduction, with any option. *)
Theorem C33_agrees opt (C : seq (cmat F)) val :
  (forall x y, (x < y)%O -> ltf (fl x) (fl y) /\ ~~ ltf (fl y) (fl x)) -> (forall x : V, (x <= inf)%O) ->
  chain_wf C -> (1 < size C)%N -> cells_like C -> edges2 C -> vals_ok C val ->
  sorted <=%O (nth [::] val 0) -> sorted <=%O (nth [::] val 1) ->
  exists X R ps qs, [/\ fcc_make ltv v0 val C = Ok X, union_find_pairs inf fl ltf X = Ok ps,
    rfcc_make (ops_of F) opt X = Ok R, persistence_pairs inf R 0 false = Ok qs & barcode_equality ps qs].
Proof.
move=> flm hinf CW C2 CL E2 VO s0 s1; have C1 : (0 < size C)%N by exact: ltnW.
have AC := cl_aug CL.
have [X [ps [EX Ep sp Hp Bp]]] := C33_union_find v0 inf flm CW C2 CL E2 VO s0 s1.
have [R [ER Br]] := C22_persistent_betti v0 inf opt CW C2 AC VO.
have [R' [ER' [Pt _]]] := C22_partition v0 inf opt false CW C2 AC VO.
have [R'' [ER'' Vl]] := C22_values v0 inf opt CW C2 AC VO.
move: ER' ER''; rewrite ER => -[eR'] [eR'']; subst R' R''.
have z0 : mx (bmx C 0) = 0 by apply/matrixP => i j; rewrite !mxE; have [z _ _] := CL; exact: z.
have [qs [Eq Pq]] := Pt z0; have [qs' [Eq' [Aq _]]] := Vl 0%N C1.
move: Eq'; rewrite Eq => -[eqs]; subst qs'.
exists X, R, ps, qs; split=> //.
  by move: ER; rewrite /build EX.
have Bq s t : (t < inf)%O -> count (fun p => (pp_birth p <= s)%O && (t < pp_death p)%O) qs =
    pbetti C 0 (fun i => (cval v0 val 0 i <= s)%O) (fun j => (cval v0 val 1 j <= t)%O).
  by move=> ti; have [qs' e c] := Br 0%N false s t C1 ti; move: e; rewrite Eq => -[->].
clear ER Ep Eq EX; rewrite C32_barcode_equality.
have d0p : all (fun p : ppair V => pp_dim p == 0%N) ps.
  by apply/(all_nthP (PPair 0 0 None v0 inf)) => v lv; have [-> _ _ _] := Hp v lv.
have d0q : all (fun p : ppair V => pp_dim p == 0%N) qs by apply: sub_all Aq => p /and4P [].
have T l : all (fun p : ppair V => pp_dim p == 0%N) l ->
  [seq (pp_birth p, pp_death p, pp_dim p) | p <- l] = [seq (x, 0%N) | x <- [seq (pp_birth p, pp_death p) | p <- l]].
  by elim: l => //= p l IH /andP [/eqP -> /IH ->].
rewrite (T _ d0p) (T _ d0q); apply: perm_map; apply: quadrants => s t.
have Bs : count (fun p : ppair V => (pp_birth p <= s)%O) ps = count (fun p : ppair V => (pp_birth p <= s)%O) qs.
  have -> : count (fun p : ppair V => (pp_birth p <= s)%O) ps = count (fun v => (cval v0 val 0 v <= s)%O) (iota 0 (ncol (bmx C 0))).
    rewrite -(map_nth_iota (PPair 0 0 None v0 inf) ps) count_map -sp; apply: eq_in_count => v; rewrite mem_iota add0n => lv /=.
    by have [_ _ -> _] := Hp v lv.
  rewrite -(permP Pq) count_map; elim: (qs) Aq => //= p l IH /andP [/and4P [_ _ /eqP -> _] /IH ->] //.
have Sp (l : seq (ppair V)) : (count (fun x => (x.1 <= s)%O && (x.2 <= t)%O) [seq (pp_birth p, pp_death p) | p <- l] +
  count (fun p => (pp_birth p <= s)%O && (t < pp_death p)%O) l)%N = count (fun p : ppair V => (pp_birth p <= s)%O) l.
  rewrite count_map -[RHS](count_split _ (fun p => (pp_death p <= t)%O)); congr (_ + _)%N.
  by apply: eq_count => p /=; rewrite ltNge.
have Dp : count (fun p => (pp_birth p <= s)%O && (t < pp_death p)%O) ps = count (fun p => (pp_birth p <= s)%O && (t < pp_death p)%O) qs.
  case: (ltP t inf) => ti.
    by rewrite Bp // Bq.
  have Z (l : seq (ppair V)) : count (fun p => (pp_birth p <= s)%O && (t < pp_death p)%O) l = 0%N.
    by elim: l => //= p l ->; rewrite ltNge (le_trans (hinf _) ti) andbF.
  by rewrite !Z.
by have := Sp ps; have := Sp qs; rewrite Bs Dp => <- /eqP; rewrite eqn_add2r => /eqP ->.
Qed.
End Agree.

(** C33. The complexes built from simplices without repeated vertices meet the conditions on the chain complex. *)
Theorem C33_simplicial (F : fieldType) X : built X -> nondegenerate X -> (1 < sc_dims X)%N ->
  exists C, [/\ sc_chain (fun z : int => z%:~R : F) X = Ok C, chain_wf C, (1 < size C)%N, cells_like C & edges2 C].
Proof.
move=> b nd d1; have [C [EC sC CW CL _]] := C24_chain F b nd; exists C; split=> //; first by rewrite sC.
have [cl iv d0] := built_inv b; have := chain_ok F iv d0; rewrite EC => -[->] j.
rewrite bmx_chain //= => lj; rewrite (nth_map [::]) //.
by rewrite /bcol size_zip size_rowf size_map size_rowc minnn (cl_size iv (mem_nth _ lj)).
Qed.

(** ** Points and their distances *)
Section Rips.
Variables (disp : unit) (V : orderType disp) (zero inf : V).

(** C33. binom_to_inds numbers the pairs i < j of N points: a bijection with 0 .. N(N-1)/2 - 1, in lexicographic order *)
Theorem C33_binom N :
  [/\ forall k, (k < 'C(N, 2))%N -> ((binom_to_inds k N).1 < (binom_to_inds k N).2)%N /\ ((binom_to_inds k N).2 < N)%N,
      forall k k', (k < 'C(N, 2))%N -> (k' < 'C(N, 2))%N -> binom_to_inds k N = binom_to_inds k' N -> k = k',
      forall i j, (i < j)%N -> (j < N)%N -> exists2 k, (k < 'C(N, 2))%N & binom_to_inds k N = (i, j) &
      forall k, (k < 'C(N, 2))%N -> k = index (binom_to_inds k N) [seq (i, j) | i <- iota 0 N, j <- iota i.+1 (N - i.+1)]].
Proof.
have on k : (k < 'C(N, 2))%N -> exists i j, [/\ (i < j)%N, (j < N)%N, k = ('C(N, 2) - 'C(N - i, 2) + (j - i.+1))%N & binom_to_inds k N = (i, j)].
  by move=> lk; have [i [j [ij jN e]]] := binom_to_inds_onto lk; exists i, j; split=> //; rewrite e; have [_ ->] := binom_to_inds_ok ij jN.
split.
- by move=> k /on [i [j [ij jN _ ->]]].
- by move=> k k' /on [i [j [_ _ -> ->]]] /on [i' [j' [_ _ -> ->]]] [-> ->].
- by move=> i j ij jN; have [lk e] := binom_to_inds_ok ij jN; eexists; [exact: lk|exact: e].
- move=> k /on [i [j [ij jN -> ->]]].
  have iN : (i < N)%N by exact: ltn_trans jN.
  have -> : iota 0 N = iota 0 i ++ i :: iota i.+1 (N - i.+1) by rewrite -{1}(subnKC iN) addSnnS iotaD add0n.
  rewrite map_cat flatten_cat /= index_cat.
  have Q (m : nat) : (m <= N)%N -> size (flatten [seq [seq (x, y) | y <- iota x.+1 (N - x.+1)] | x <- iota 0 m]) = ('C(N, 2) - 'C(N - m, 2))%N.
    elim: m => [|m IH] lm; first by rewrite subn0 subnn.
    rewrite -[in LHS]addn1 iotaD map_cat flatten_cat size_cat IH ?(ltnW lm) //= cats0 size_map size_iota.
    have := bin2S (N - m.+1); rewrite -subSn // subSS => e; rewrite e.
    by have := leq_bin2 (leq_subr m N); rewrite e; lia.
  rewrite ifF; last first.
    apply/negbTE/negP => /allpairsPdep [x [y [xi _ [e _]]]]; move: xi; rewrite mem_iota add0n -e ltnn //.
  rewrite Q ?(ltnW iN) //; congr (_ + _)%N; rewrite index_cat ifT; last by apply: map_f; rewrite mem_iota; lia.
  rewrite index_map; last by move=> ? ? [].
  have -> : iota i.+1 (N - i.+1) = iota i.+1 (j - i.+1) ++ iota j (N - j).
    by rewrite -[X in iota X (N - j)](subnKC ij) -iotaD; congr iota; lia.
  rewrite index_cat ifF; last by rewrite mem_iota; lia.
  by rewrite size_iota; case e: (N - j)%N => [|x]; [lia|rewrite /= eqxx addn0].
Qed.

Lemma conn_rho E (rho : nat -> nat) i j : (forall a b, (a, b) \in E -> rho a = rho b) -> conn E i j -> rho i = rho j.
Proof. by move=> H; elim=> {i j} [i|i j /H|i j _ ->|i j l _ -> _ ->]. Qed.

Lemma filter_sorted (A : Type) (f : A -> V) (l : seq A) t : sorted <=%O (map f l) -> [seq x <- l | (f x <= t)%O] = take (count (fun x => (f x <= t)%O) l) l.
Proof.
elim: l => //= x l IH px; have sl := path_sorted px; case: ifP => xt; first by rewrite /= IH.
have z : [seq x <- l | (f x <= t)%O] = [::].
  elim: l px {IH sl} => //= y l IH /andP [xy py]; rewrite ifF; last by apply/negbTE; apply: contraFN xt; exact: le_trans.
  by apply: IH; apply: path_le xy py; exact: le_trans.
by rewrite z -size_filter z.
Qed.

(** C33. rips_union_find_pairs on N >= 1 points: all N(N-1)/2 pairs, listed by increasing length.  One bar per point,
    born at zero; at every t < inf each connected component of the graph of the pairs of length <= t holds exactly one
    point whose bar is alive. *)
Theorem C33_rips N (inds : seq nat) (vals : seq V) : (0 < N)%N -> perm_eq inds (iota 0 'C(N, 2)) -> size vals = 'C(N, 2) ->
  sorted <=%O [seq nth inf vals e | e <- inds] ->
  exists2 ps, rips_union_find_pairs zero inf inds vals = Ok ps &
  [/\ size ps = N,
    forall v, (v < N)%N -> let p := nth (PPair 0 0 None zero inf) ps v in
      [/\ pp_dim p = 0%N, pp_birth_ind p = v, pp_birth p = zero &
       if pp_death_ind p is Some k then (k < 'C(N, 2))%N /\ pp_death p = nth inf vals (nth 0%N inds k) else pp_death p = inf] &
    forall t i, (t < inf)%O -> (i < N)%N -> exists v,
      let G := [seq binom_to_inds e N | e <- inds & (nth inf vals e <= t)%O] in
      let alive v := (v < N)%N && (t < pp_death (nth (PPair 0 0 None zero inf) ps v))%O in
      [/\ alive v, conn G i v & forall v', alive v' -> conn G i v' -> v' = v]].
Proof.
move=> N0 pi sv so; have si : size inds = 'C(N, 2) by rewrite (perm_size pi) size_iota.
have ival : all (fun e => (e < size vals)%N) inds by apply/allP => e; rewrite (perm_mem pi) mem_iota add0n sv.
pose dval k := nth inf vals (nth 0%N inds k).
pose E := [seq binom_to_inds e N | e <- inds].
have sE : size E = 'C(N, 2) by rewrite size_map.
have Ein a b : (a, b) \in E -> (a < N)%N /\ (b < N)%N.
  move=> /mapP [e ei h]; have [B _ _ _] := C33_binom N; have := B e; rewrite -h => -[|ab bN].
    by have /allP /(_ e ei) := ival; rewrite sv.
  by split=> //; exact: ltn_trans bN.
have [st Est [D [eps dl hi]]] := @ruf_loop_ok V N zero inf vals inds ival Ein inds 0%N 0%N (nseq N 0%N) (iota 0 N) _ (drop0 _) (leq0n _) (size_nseq _ _)
  (@ufinv_init V N inf (fun _ => zero) dval (fun _ _ => True) (fun _ => I) E).
exists st.2; first by rewrite /rips_union_find_pairs si npoints // Est.
have sps : size st.2 = N by rewrite eps size_mkseq.
have nthp v : (v < N)%N -> nth (PPair 0 0 None zero inf) st.2 v = upair inf (fun _ => zero) dval D v.
  by move=> lv; rewrite eps nth_mkseq.
split=> //.
  move=> v lv; rewrite nthp //; split=> //; rewrite /upair /=; case e: (D v) => [k|] //; split=> //.
  by rewrite -sE; exact: dl e.
move=> t i ti li; set m := count (fun e => (nth inf vals e <= t)%O) inds.
have mE : (m <= size E)%N by rewrite size_map count_size.
have [rho [r1 r2 r3 _] al] := hi m mE.
have gE : [seq binom_to_inds e N | e <- inds & (nth inf vals e <= t)%O] = take m E by rewrite filter_sorted // map_take.
have av v : (v < N)%N -> (t < pp_death (nth (PPair 0 0 None zero inf) st.2 v))%O = (rho v == v).
  move=> lv; rewrite (al v lv) nthp // /alive /upair /=; case e: (D v) => [k|] //.
  have lk := dl v k lv e; rewrite sE -si in lk.
  rewrite /dval -(nth_map 0%N inf (nth inf vals)) // ltNge (sorted_cut inf t) ?size_map // -leqNgt count_map.
  by congr (_ <= _)%N.
exists (rho i); have [lr rr] := r1 i li; rewrite gE; cbv zeta; split.
- by rewrite lr av // rr eqxx.
- exact: r2.
- by move=> v' /andP [lv']; rewrite av // => /eqP e c; rewrite -e; apply: esym; exact: conn_rho c.
Qed.

(** C33. No distances at all: N = 1 and N = 0 points are not told apart, so no points give one bar. *)
Theorem C33_rips_empty (vals : seq V) : rips_union_find_pairs zero inf [::] vals = Ok [:: PPair 0 0 None zero inf].
Proof. by []. Qed.
End Rips.

(** ** Where union_find_pairs is wrong *)

(** the filled triangle, edges 01, 02, 12 entering at 5, 3, 4 *)
Definition c33_val : seq (seq nat) := [:: [:: 0; 0; 0]; [:: 5; 3; 4]; [:: 6]]%N.
(** C33. Edges not added in filtration order: the values are read in the order of insertion, the columns in the order of
    the filtration, and the barcode is wrong. *)
Theorem C33_order_refuted :
  let C := tri F2 in
  [/\ chain_wf C, cells_like C, edges2 C, vals_ok C c33_val /\ monotone 0%N C c33_val &
      exists X R ps qs, [/\ fcc_make ltn 0%N c33_val C = Ok X, union_find_pairs 99%N id ltn X = Ok ps,
         rfcc_make (ops_of F2) StandardBasis X = Ok R, persistence_pairs 99%N R 0 false = Ok qs &
         [/\ map (@pp_death nat) ps = [:: 5; 3; 99]%N, map (@pp_death nat) qs = [:: 99; 4; 3]%N & ~~ barcode_equality ps qs]]].
Proof.
split.
- exact: tri_wf.
- exact: tri_cells.
- by case=> [|[|[|j]]].
- split; first by split=> // -[|[|[|k]]].
  by case=> [|[|k]] // i j _; case: i => [|[|[|i]]] //; case: j => [|[|[|j]]].
do 4 eexists; split; [vm_compute; reflexivity | vm_compute; reflexivity | vm_compute; reflexivity | vm_compute; reflexivity|].
by split; vm_compute.
Qed.

(** two vertices at 2 and 3 joined at 4; the conversion to float is taken to send 2 and 3 to the same number, as it does
    with close doubles *)
Definition c33_edge : seq (cmat F2) := [:: CMat 1 2 [:: [::]; [::]]; CMat 2 1 [:: [:: (0%N, -1); (1%N, 1)]]].
Definition c33_fval : seq (seq nat) := [:: [:: 2; 3]; [:: 4]]%N.
(** C33. When the conversion to float identifies two births, the older component may be the one that dies. *)
Theorem C33_float_refuted :
  let C := c33_edge in let fl := fun x => (x %/ 2)%N in
  [/\ forall x y, (x <= y)%N -> (fl x <= fl y)%N, chain_wf C /\ cells_like C, edges2 C, vals_ok C c33_fval /\ monotone 0%N C c33_fval &
      exists X R ps qs, [/\ fcc_make ltn 0%N c33_fval C = Ok X, union_find_pairs 99%N fl ltn X = Ok ps,
         rfcc_make (ops_of F2) StandardBasis X = Ok R, persistence_pairs 99%N R 0 false = Ok qs &
         [/\ map (fun p : ppair nat => (pp_birth p, pp_death p)) ps = [:: (2, 4); (3, 99)]%N, map (fun p : ppair nat => (pp_birth p, pp_death p)) qs = [:: (2, 99); (3, 4)]%N & ~~ barcode_equality ps qs]]].
Proof.
split.
- by move=> x y; exact: leq_div2r.
- have CLh : cells_like c33_edge.
    split.
    + by move=> i [|[|j]] //= _; rewrite coef_nil.
    + by case=> [|j] //= _; rewrite !big_ord_recl big_ord0 /= !coef_cons !coef_nil /= ?add0r ?addr0 ?addNr.
    + by case=> [|[|k]] // [|j] // _ _ _; exists 0%N; rewrite /= !coef_cons !coef_nil /= ?addr0.
  split=> //.
  split=> //; case=> [|k] //= _; split=> //; apply/matrixP => i j; rewrite !mxE !big_ord_recl big_ord0 !mxE.
  by rewrite /= !coef_nil !mul0r !addr0.
- by case=> [|j].
- split; first by split=> // -[|[|k]].
  by case=> [|k] // i j _; case: i => [|[|i]] //; case: j => [|j].
do 4 eexists; split; [vm_compute; reflexivity | vm_compute; reflexivity | vm_compute; reflexivity | vm_compute; reflexivity|].
by split; vm_compute.
Qed.

(** C33. A loop: an edge with zero boundary makes it read past the end of the column. *)
Theorem C33_loop_ub (F : fieldType) (V : Type) (v inf : V) (Fl : Type) (fl : V -> Fl) ltf p :
  union_find_pairs inf fl ltf (FCC [:: [:: v]; [:: v]] [:: CMat 1 1 [:: [::]]; CMat 1 1 [:: [::]]] p : fcc F V) = UB.
Proof. by []. Qed.

(** The conditions of C33_agrees are met by the triangle, with the edges in order: the conclusion holds of it. *)
Definition c33_sorted : seq (seq 'I_8) := [:: [:: inord 0; inord 1; inord 2]; [:: inord 3; inord 4; inord 5]; [:: inord 6]].
Theorem C33_nonvacuous (F : fieldType) opt : exists X R ps qs, [/\ fcc_make (fun x y : 'I_8 => (x < y)%O) ord0 c33_sorted (tri F) = Ok X,
    union_find_pairs ord_max (@nat_of_ord 8) ltn X = Ok ps, rfcc_make (ops_of F) opt X = Ok R, persistence_pairs ord_max R 0 false = Ok qs &
    barcode_equality ps qs].
Proof.
have le (x y : nat) : (x <= y)%N -> (y < 8)%N -> ((inord x : 'I_8) <= inord y)%O.
  by move=> xy y8; rewrite leEord !inordK // (leq_ltn_trans xy).
apply: C33_agrees.
- by move=> x y; rewrite ltEord => h; split; [exact: h|rewrite -leqNgt; exact: ltnW h].
- by move=> x; rewrite leEord -ltnS.
- exact: tri_wf.
- by [].
- exact: tri_cells.
- by case=> [|[|[|j]]].
- by split=> // -[|[|[|k]]].
- by rewrite /= !le.
- by rewrite /= !le.
Qed.
