(** C51: covers from landmarks, products of covers, and the Nerve functor. *)
From mathcomp Require Import all_ssreflect all_algebra zify.
From Verif Require Import Outcome M_SparseVec M_ColMatrix M_Sorted M_Simplicial M_SimplicialMap M_Filtration M_Flag M_Nerve M_Landmark M_Functor M_Cover
  S_Simplicial S_SimplicialMap S_Flag P_Outcome P_Util P_ScOps P_Functor P_Flag P_Nerve P_Dims Props_Simplicial Props_Util Props_SimplicialMap Props_Flag Props_Nerve Props_Landmark Props_Cover.
Set Implicit Arguments.
Unset Strict Implicit.
Unset Printing Implicit Defensive.

(** ** filling a cover *)
Definition cov_is (nL : nat) (P : nat -> nat -> bool) (C : seq (seq nat)) : Prop :=
  [/\ size C = nL, all (sorted ltn) C & forall x j, j < nL -> (x \in nth [::] C j) = P x j].
Lemma cov_new nL : cov_is nL (fun _ _ => false) (nseq nL [::]).
Proof. by split; rewrite ?size_nseq //; [by rewrite all_nseq orbT|move=> x j lj; rewrite nth_nseq lj]. Qed.
Lemma cov_ext nL P Q C : (forall x j, j < nL -> P x j = Q x j) -> cov_is nL P C -> cov_is nL Q C.
Proof. by move=> h [h1 h2 h3]; split=> // x j lj; rewrite h3 ?h. Qed.
Lemma emplace_ok nL P C i j : cov_is nL P C -> j < nL ->
  exists2 C', emplace C j i = Ok C' & cov_is nL (fun x j' => P x j' || (x == i) && (j' == j)) C'.
Proof.
move=> [sz so me] lj; rewrite /emplace (oget_nth [::]) ?sz //; cbn [obind]; rewrite (oset_Ok [::]) ?sz //.
eexists; first reflexivity; split.
- by rewrite size_set_nth sz; apply/maxn_idPr.
- apply/(all_nthP [::]) => k; rewrite size_set_nth sz (maxn_idPr lj) nth_setE => lk.
  case: eqP => _; last by apply: (all_nthP [::] so); rewrite sz.
  by apply: set_insert_sorted; apply: (all_nthP [::] so); rewrite sz.
move=> x k lk; rewrite nth_setE; case: eqP => [->|_]; last by rewrite andbF orbF me.
by rewrite set_insert_mem me // andbT orbC.
Qed.
Lemma emplaces_ok nL P C i (Q : pred nat) l : cov_is nL P C -> all (fun j => j < nL) l ->
  exists2 C', ofold (fun C j => if Q j then emplace C j i else Ok C) C l = Ok C' &
    cov_is nL (fun x j => P x j || [&& x == i, j \in l & Q j]) C'.
Proof.
elim: l P C => [|j l IH] P C cP /=; first by move=> _; exists C => //; apply: cov_ext cP => x k lk; rewrite andbF orbF.
move=> /andP[lj al]; case: ifP => q.
  have [C1 -> c1] := emplace_ok i cP lj; have [C2 E c2] := IH _ _ c1 al; exists C2 => //; apply: cov_ext c2 => x k lk.
  by rewrite inE -orbA; congr orb; case: (x == i) => //=; case: eqP => [->|] //=; rewrite q orTb.
have [C2 E c2] := IH _ _ cP al; exists C2 => //; apply: cov_ext c2 => x k lk; rewrite inE; congr orb.
by case: (x == i) => //=; case: eqP => [->|] //=; rewrite q andbF.
Qed.
Lemma cover_loop nL nX (step : seq (seq nat) -> nat -> outcome (seq (seq nat))) (R : nat -> nat -> bool) :
  (forall i C P, i < nX -> cov_is nL P C -> exists2 C', step C i = Ok C' & cov_is nL (fun x j => P x j || (x == i) && R i j) C') ->
  exists2 C, ofold step (nseq nL [::]) (iota 0 nX) = Ok C & cov_is nL (fun x j => (x < nX) && R x j) C.
Proof.
move=> H; apply: (ofold_iota_ind (P := fun k => cov_is nL (fun x j => (x < k) && R x j))) => [|i C li cP].
  by apply: cov_ext (cov_new nL).
have [C' E c] := H i C _ li cP; exists C' => //; apply: cov_ext c => x j lj.
by rewrite ltnS [x <= i]leq_eqVlt; case: eqP => [->|] /=; rewrite ?ltnn /= ?orbF.
Qed.

(** ** k nearest landmarks *)
Section Val.
Variable V : eqType.
Variable v0 : V.
Variable le : V -> V -> bool.
Notation lt a b := (~~ le b a).
(** p is a permutation of the indices that std::partial_sort may leave: its first k entries are smallest, in order *)
Definition partially_sorted (d : nat -> V) (n k : nat) (p : seq nat) : Prop :=
  perm_eq p (iota 0 n) /\ forall a b, a < k -> a <= b -> b < n -> le (d (nth 0 p a)) (d (nth 0 p b)).
(** every point is put in exactly k sets, those of the nearest landmarks *)
Theorem C51_landmark_cover (D : nat -> nat -> V) p nX nL k : k <= nL -> (forall i, i < nX -> partially_sorted (D i) nL k (p i)) ->
  exists C, [/\ landmark_cover p nX nL k = Ok C, size C = nL /\ all (sorted ltn) C, all (all (fun x => x < nX)) C,
    forall i, i < nX -> count (fun U => i \in U) C = k &
    forall i j j', j < nL -> j' < nL -> i \in nth [::] C j -> i \notin nth [::] C j' -> le (D i j) (D i j')].
Proof.
move=> kL ps; have E1 : omapm (fun i => firstk (p i) nL k) (iota 0 nX) = Ok [seq take k (p i) | i <- iota 0 nX].
  by apply: omapm_Ok_eq => i _; rewrite /firstk kL.
rewrite /landmark_cover E1; cbn [obind].
have [i C P li cP|C EC cC] := @cover_loop nL nX (fun cover i => do l <- oget [seq take k (p i) | i <- iota 0 nX] i; ofold (fun cover j => emplace cover j i) cover l) (fun i j => j \in take k (p i)).
  rewrite (oget_nth [::]) ?size_map ?size_iota //; cbn [obind]; rewrite (nth_map 0) ?size_iota // nth_iota // add0n.
  have [|C' E' c'] := @emplaces_ok nL P C i (fun _ => true) (take k (p i)) cP.
    by apply/allP => j /mem_take; have [/perm_mem -> _] := ps i li; rewrite mem_iota.
  by exists C'; [exact: E'|apply: cov_ext c' => x j lj; rewrite andbT].
exists C; have [sz so me] := cC; split=> //.
- apply/(all_nthP [::]) => j; rewrite sz => lj; apply/allP => x; by rewrite me // => /andP[].
- move=> i li; have [pe _] := ps i li; have sp' : size (p i) = nL by rewrite (perm_size pe) size_iota.
  have -> : count (fun U => i \in U) C = count (fun j => j \in take k (p i)) (iota 0 nL).
    rewrite -(mkseq_nth [::] C) sz count_map; apply: eq_in_count => j; rewrite mem_iota => /andP[_ lj].
    by rewrite /= me // li.
  rewrite -(permP pe) -{2}(cat_take_drop k (p i)) count_cat.
  have u : uniq (p i) by rewrite (perm_uniq pe) iota_uniq.
  have -> : count (fun j => j \in take k (p i)) (take k (p i)) = k by rewrite (eq_in_count (a2 := predT)) // count_predT size_takel // sp'.
  rewrite (eq_in_count (a2 := pred0)) ?count_pred0 ?addn0 // => j jd.
  by move: u; rewrite -{1}(cat_take_drop k (p i)) cat_uniq => /and3P[_ /hasPn/(_ j jd)/negbTE].
- move=> i j j' lj lj'; rewrite !me // => /andP[li jt]; rewrite li /= => nt.
  have [pe mono] := ps i li; have sp' : size (p i) = nL by rewrite (perm_size pe) size_iota.
  have jp := mem_take jt; have jp' : j' \in p i by rewrite (perm_mem pe) mem_iota.
  have ia : index j (p i) < k.
    have st : size (take k (p i)) = k by rewrite size_takel // sp'.
    by rewrite -{1}(cat_take_drop k (p i)) index_cat jt -{2}st index_mem.
  have ib : k <= index j' (p i).
    by rewrite -{1}(cat_take_drop k (p i)) index_cat (negbTE nt) size_takel ?sp' // leq_addr.
  have := mono (index j (p i)) (index j' (p i)) ia; rewrite !nth_index //; apply; first exact: ltnW (leq_trans ia ib).
  by rewrite -sp' index_mem.
Qed.
Theorem C51_landmark_cover_large p nX nL k : 0 < nX -> nL < k -> landmark_cover p nX nL k = UB.
Proof. by case: nX => // nX _ kL; rewrite /landmark_cover /= /firstk leqNgt kL. Qed.

(** ** landmarks within eps of the nearest *)
Hypothesis le_total : total le.
Hypothesis le_trans : transitive le.
Hypothesis le_anti : antisymmetric le.
Variable add : V -> V -> V.
Theorem C51_eps_cover (D : nat -> nat -> V) nX nL eps :
  exists C, [/\ landmark_eps_cover v0 le add D nX nL eps = Ok C, size C = nL, all (sorted ltn) C, all (all (fun x => x < nX)) C &
    forall i j j0, i < nX -> j < nL -> j0 < nL -> (forall j, j < nL -> le (D i j0) (D i j)) ->
      (i \in nth [::] C j) = lt (D i j) (add (D i j0) eps)].
Proof.
pose di i := [seq D i j | j <- iota 0 nL].
pose mi i := if min_index v0 le (di i) is Ok m then m else 0.
have mE i j0 : j0 < nL -> (forall j, j < nL -> le (D i j0) (D i j)) -> min_index v0 le (di i) = Ok (mi i) /\ nth v0 (di i) (mi i) = D i j0.
  move=> l0 mn; have sd : size (di i) = nL by rewrite size_map size_iota.
  have n0 : di i != [::] by rewrite -size_eq0 sd; move: l0; clear; lia.
  have [m Em [lm hm]] := min_indexP v0 le_total le_trans n0; rewrite /mi Em; split=> //.
  have nthD k : k < nL -> nth v0 (di i) k = D i k by move=> lk; rewrite (nth_map 0) ?size_iota // nth_iota.
  rewrite sd in lm hm; apply: le_anti; have := hm j0 l0; rewrite !nthD // => ->; exact: mn.
have [i C P li cP|C EC cC] := @cover_loop nL nX (fun cover i => ofold (fun cover j => do it <- min_index v0 le (di i);
      if lt (nth v0 (di i) j) (add (nth v0 (di i) it) eps) then emplace cover j i else Ok cover) cover (iota 0 nL))
    (fun i j => (j < nL) && lt (nth v0 (di i) j) (add (nth v0 (di i) (mi i)) eps)).
  have [|C' E' c'] := @emplaces_ok nL P C i (fun j => lt (nth v0 (di i) j) (add (nth v0 (di i) (mi i)) eps)) (iota 0 nL) cP.
    by apply/allP => j; rewrite mem_iota.
  exists C'; last by apply: cov_ext c' => x j lj; rewrite mem_iota.
  rewrite -E'; apply: ofold_ext => C0 j; rewrite mem_iota => /andP[_ lj].
  have n0 : di i != [::] by rewrite -size_eq0 size_map size_iota; move: lj; clear; lia.
  by have [m Em _] := min_indexP v0 le_total le_trans n0; rewrite /mi Em.
have [sz so me] := cC; exists C; split=> //.
  by apply/(all_nthP [::]) => j; rewrite sz => lj; apply/allP => x; rewrite me // => /andP[].
move=> i j j0 li lj l0 mn; rewrite me // li lj /=; have [_ ->] := mE i j0 l0 mn.
by rewrite (nth_map 0) ?size_iota // nth_iota.
Qed.
(** with eps > 0 this is a cover; with eps = 0 (d < d + 0 never holds) all sets are empty *)
Lemma nearest_exists (d : nat -> V) nL : 0 < nL -> exists2 j0, j0 < nL & forall j, j < nL -> le (d j0) (d j).
Proof.
move=> n0; have h0 : [seq d j | j <- iota 0 nL] != [::] by rewrite -size_eq0 size_map size_iota; move: n0; clear; lia.
have [m _ []] := min_indexP v0 le_total le_trans h0; rewrite size_map size_iota => lm hm; exists m => // j lj.
by have := hm j lj; rewrite !(nth_map 0) ?size_iota // !nth_iota.
Qed.
Theorem C51_eps_covers (D : nat -> nat -> V) nX nL eps C : (forall d, lt d (add d eps)) -> 0 < nL ->
  landmark_eps_cover v0 le add D nX nL eps = Ok C -> forall i, i < nX -> exists2 U, U \in C & i \in U.
Proof.
move=> pos n0 E i li; have [C' [E' sz _ _ h]] := C51_eps_cover D nX nL eps; move: E'; rewrite E => -[e]; rewrite -e in sz h.
have [j0 l0 mn] := nearest_exists (D i) n0; exists (nth [::] C j0); first by apply: mem_nth; rewrite sz.
by rewrite (h _ _ j0).
Qed.
Theorem C51_eps_zero (D : nat -> nat -> V) nX nL eps C : (forall d, add d eps = d) ->
  landmark_eps_cover v0 le add D nX nL eps = Ok C -> C = nseq nL [::].
Proof.
move=> z E; have [C' [E' sz _ al h]] := C51_eps_cover D nX nL eps; move: E'; rewrite E => -[e]; rewrite -e in sz h al.
apply: (@eq_from_nth _ [::]); rewrite ?size_nseq sz // => j lj; rewrite nth_nseq lj.
case EU: (nth [::] C j) => [//|x U]; have xi : x \in nth [::] C j by rewrite EU mem_head.
have lx : x < nX by apply: (allP (all_nthP [::] al j _)) => //; rewrite sz.
have n0 : 0 < nL by move: lj; clear; lia.
have [j0 l0 mn] := nearest_exists (D x) n0; by move: xi; rewrite (h _ _ j0) // z mn.
Qed.
End Val.

(** ** products of covers *)
Theorem C51_bivariate c1 c2 : all (sorted ltn) c1 -> all (sorted ltn) c2 ->
  exists C f1 f2, [/\ bivariate_cover c1 c2 = Ok (C, f1, f2), size f1 = size C /\ size f2 = size C, all (sorted ltn) C,
    zip f1 f2 = [seq q <- [seq (i, j) | i <- iota 0 (size c1), j <- iota 0 (size c2)] | has (fun x => x \in nth [::] c2 q.2) (nth [::] c1 q.1)] &
    forall k, k < size C -> [/\ nth 0 f1 k < size c1, nth 0 f2 k < size c2, nth [::] C k != [::] &
      forall x, (x \in nth [::] C k) = (x \in nth [::] c1 (nth 0 f1 k)) && (x \in nth [::] c2 (nth 0 f2 k))]].
Proof.
move=> s1 s2; pose I (q : nat * nat) := intersect_sorted (nth [::] c1 q.1) (nth [::] c2 q.2).
have so1 i : sorted ltn (nth [::] c1 i) by case: (ltnP i (size c1)) => h; [exact: (allP s1 _ (mem_nth _ h))|rewrite nth_default].
have so2 i : sorted ltn (nth [::] c2 i) by case: (ltnP i (size c2)) => h; [exact: (allP s2 _ (mem_nth _ h))|rewrite nth_default].
have Ih q : (0 < size (I q)) = has (fun x => x \in nth [::] c2 q.2) (nth [::] c1 q.1).
  have [_ me _] := C31_intersect (so1 q.1) (so2 q.2); rewrite -has_predT; apply/hasP/hasP => -[x].
    by rewrite me => /andP[h1 h2] _; exists x.
  by move=> h1 h2; exists x => //; rewrite me h1 h2.
set L := [seq q <- _ | _]; pose st (l : seq (nat * nat)) := ([seq I q | q <- l], [seq q.1 | q <- l], [seq q.2 | q <- l]).
have E : bivariate_cover c1 c2 = Ok (st L).
  rewrite /bivariate_cover; pose f (s : seq (seq nat) * seq nat * seq nat) q :=
     (if 0 < size (I q) then Ok (rcons s.1.1 (I q), rcons s.1.2 q.1, rcons s.2 q.2) else Ok s : outcome _).
  have fE l pre : ofold f (st pre) l = Ok (st (pre ++ [seq q <- l | 0 < size (I q)])).
    elim: l pre => [|q l IH] pre /=; first by rewrite cats0.
    have -> : f (st pre) q = if 0 < size (I q) then Ok (st (rcons pre q)) else Ok (st pre) by rewrite /f /st !map_rcons.
    case: ifP => h; cbn [obind]; last exact: IH.
    by rewrite IH cat_rcons.
  have := fE [seq (i, j) | i <- iota 0 (size c1), j <- iota 0 (size c2)] [::].
  rewrite cat0s (eq_filter Ih) -/L => <-; rewrite /allpairs ofold_flatten; apply: ofold_ext => s i; rewrite mem_iota => /andP[_ li].
  rewrite (oget_nth [::]) //; cbn [obind].
  have mE (l : seq nat) s0 : all (fun j => j < size c2) l -> ofold f s0 [seq (i, j) | j <- l] = ofold (fun st j =>
      do b <- oget c2 j; let c := intersect_sorted (nth [::] c1 i) b in let: (c12, f1, f2) := st in
      if 0 < size c then Ok (rcons c12 c, rcons f1 i, rcons f2 j) else Ok st) s0 l.
    elim: l s0 => //= j l IH s0 /andP[lj al]; rewrite (oget_nth [::]) //; cbn [obind]; cbv zeta.
    case: s0 => -[a b] c; have -> : f (a, b, c) (i, j) = if 0 < size (I (i, j)) then Ok (rcons a (I (i, j)), rcons b i, rcons c j) else Ok (a, b, c) by [].
    by rewrite /I /=; case: ifP => _; cbn [obind]; exact: IH.
  by rewrite mE //; apply/allP => j; rewrite mem_iota.
exists [seq I q | q <- L], [seq q.1 | q <- L], [seq q.2 | q <- L]; split.
- exact: E.
- by rewrite !size_map.
- by apply/allP => U /mapP[q _ ->]; have [] := C31_intersect (so1 q.1) (so2 q.2).
- by elim: (L) => //= -[a b] l ->.
move=> k; rewrite size_map => lk; rewrite !(nth_map (0, 0)) //; have := mem_nth (0, 0) lk; set q := nth _ L k.
rewrite mem_filter -Ih => /andP[h /allpairsPdep[i [j [hi hj eq]]]]; rewrite !mem_iota in hi hj.
have [_ me _] := C31_intersect (so1 q.1) (so2 q.2); split=> //.
- by rewrite eq; case/andP: hi.
- by rewrite eq; case/andP: hj.
- by rewrite -size_eq0 -lt0n.
Qed.

(** ** the Nerve functor *)
(** X is the nerve of the cover C up to dimension dmax *)
Definition nerve_of (C : seq (seq nat)) (dmax : nat) (X : scx) : Prop :=
  [/\ built X, nondegenerate X, sc_dims X = dmax.+1 &
      forall u, u != [::] -> contains X u <-> [/\ sorted ltn u, size u <= dmax.+1, forall k, k \in u -> k < size C &
        1 < size u -> exists x, forall k, k \in u -> x \in nth [::] C k]].
Lemma nerve_node C dmax : all (sorted ltn) C -> 0 < dmax -> exists2 X, nerve C dmax = Ok X & nerve_of C dmax X.
Proof.
move=> so d0; have [X [E b H]] := C49_nerve dmax so; exists X => //.
have mv : max_vertices dmax = dmax.+1 by rewrite /max_vertices (maxn_idPl d0).
rewrite mv in H; split=> //.
- by move=> s cs; case: (eqVneq s [::]) => [->|s0] //; have [h _ _ _] := (H s s0).1 cs; exact: ltn_uniq.
- exact: nerve_dims so d0 E.
- by move=> u u0; rewrite H //; split=> -[h1 h2 h3 h4]; split.
Qed.
(** f maps the sets of a cover into sets of another *)
Definition cover_map (C C' : seq (seq nat)) (f : seq nat) : Prop :=
  size f = size C /\ forall k, k < size C -> nth 0 f k < size C' /\ {subset nth [::] C k <= nth [::] C' (nth 0 f k)}.
(** then it is a simplicial map of the nerves *)
Theorem C51_nerve_map C C' f dmax X Y : 0 < dmax -> nerve_of C dmax X -> nerve_of C' dmax Y -> cover_map C C' f ->
  exists2 Fs, simplicial_map X Y f = Ok Fs & maps_into X Y f.
Proof.
move=> d0 [bX _ dX HX] [bY _ dY HY] [sf hf].
have vx : vertices_in X (size f) by move=> s s0 /(HX s s0)[_ _ h _]; apply/allP => a; rewrite sf; exact: h.
have dd : sc_dims X <= sc_dims Y by rewrite dX dY.
have [//|[_ [s [s0 cs u []]]]] := C27_defined bX bY dd vx.
have [h1 h2 h3 h4] := (HX s s0).1 cs.
apply/HY; first by rewrite -size_eq0 size_sort size_image size_eq0.
split; rewrite ?size_sort ?size_image //; first exact: srt_ltn.
  by move=> k; rewrite mem_sort => /mapP[x xs ->]; have [] := hf x (h3 x xs).
move=> s1; have [x hx] := h4 s1; exists x => k; rewrite mem_sort => /mapP[y ys ->].
by have [_ sub] := hf y (h3 y ys); apply: sub; exact: hx.
Qed.
(** Nerve(D, dmax) on a diagram of covers: in any order of the parallel iterations *)
Theorem C51_nerve_functor dmax ordn orde G : 0 < dmax -> size (d_elist G) = size (d_edata G) ->
  (forall i, i < size (d_node G) -> all (sorted ltn) (nth [::] (d_node G) i)) ->
  (forall j, j < size (d_edata G) -> let e := nth (0, 0) (d_elist G) j in [/\ e.1 < size (d_node G), e.2 < size (d_node G) &
     cover_map (nth [::] (d_node G) e.1) (nth [::] (d_node G) e.2) (nth [::] (d_edata G) j)]) ->
  perm_eq ordn (iota 0 (size (d_node G))) -> perm_eq orde (iota 0 (size (d_edata G))) ->
  exists DX, let X i := nth (sc_new 0) (d_node DX) i in
  [/\ NerveFunctor dmax ordn orde G = Ok DX, size (d_node DX) = size (d_node G) /\ size (d_edata DX) = size (d_edata G), d_elist DX = d_elist G,
      forall i, i < size (d_node G) -> nerve_of (nth [::] (d_node G) i) dmax (X i) &
      forall j, j < size (d_edata G) -> let e := nth (0, 0) (d_elist G) j in
        simplicial_map (X e.1) (X e.2) (nth [::] (d_edata G) j) = Ok (nth [::] (d_edata DX) j)].
Proof.
move=> d0 sz hn he pn pe; pose X i := okd (sc_new 0) (nerve (nth [::] (d_node G) i) dmax).
have hX i : i < size (d_node G) -> nerve (nth [::] (d_node G) i) dmax = Ok (X i) /\ nerve_of (nth [::] (d_node G) i) dmax (X i).
  by move=> li; rewrite /X; have [Z -> h] := nerve_node (hn i li) d0.
pose Y j := let e := nth (0, 0) (d_elist G) j in okd [::] (simplicial_map (X e.1) (X e.2) (nth [::] (d_edata G) j)).
have hY j : j < size (d_edata G) -> let e := nth (0, 0) (d_elist G) j in simplicial_map (X e.1) (X e.2) (nth [::] (d_edata G) j) = Ok (Y j).
  move=> lj e; have [l1 l2 cm] := he j lj; have [_ n1] := hX _ l1; have [_ n2] := hX _ l2.
  by have [Fs EF _] := C51_nerve_map d0 n1 n2 cm; rewrite /Y -/e EF.
exists (Diagram (mkseq X (size (d_node G))) (mkseq Y (size (d_edata G))) (d_elist G)); split.
- rewrite /NerveFunctor; apply: (@functorE _ _ _ _ _ _ [::] [::]) => // [i li|j lj]; first by have [] := hX i li.
  by have [l1 l2 _] := he j lj; split=> //; exact: hY.
- by cbn [d_node d_edata]; rewrite !size_mkseq.
- by [].
- by move=> i li; cbn [d_node]; rewrite nth_mkseq //; have [] := hX i li.
by move=> j lj; have [l1 l2 _] := he j lj; cbn [d_node d_edata]; rewrite !nth_mkseq // hY.
Qed.
(** with dmax = 0 the complexes need not have the same dimension, and the map that merges two intersecting sets does not exist *)
Theorem C51_nerve_functor_dmax0 : exists G : dgm (seq (seq nat)) (seq nat),
  cover_map (nth [::] (d_node G) 0) (nth [::] (d_node G) 1) (nth [::] (d_edata G) 0) /\
  forall DX, NerveFunctor 0 [:: 0; 1] [:: 0] G <> Ok DX.
Proof.
exists (Diagram [:: [:: [:: 0]; [:: 0]]; [:: [:: 0]]] [:: [:: 0; 0]] [:: (0, 1)]); split; last by move=> DX; vm_compute.
by split=> // -[|[|k]] // _; split.
Qed.
(** bivariate_cover: both maps are simplicial maps of nerves *)
Theorem C51_bivariate_maps c1 c2 C f1 f2 dmax N N1 N2 : all (sorted ltn) c1 -> all (sorted ltn) c2 -> 0 < dmax -> bivariate_cover c1 c2 = Ok (C, f1, f2) ->
  nerve C dmax = Ok N -> nerve c1 dmax = Ok N1 -> nerve c2 dmax = Ok N2 ->
  (exists2 Fs, simplicial_map N N1 f1 = Ok Fs & maps_into N N1 f1) /\ (exists2 Fs, simplicial_map N N2 f2 = Ok Fs & maps_into N N2 f2).
Proof.
move=> s1 s2 d0 E EN E1 E2; have [C' [g1 [g2 [E' [sg1 sg2] so _ h]]]] := C51_bivariate s1 s2; move: E'; rewrite E => -[e e1 e2].
rewrite -e -e1 -e2 in sg1 sg2 so h.
have [X EX nX] := nerve_node so d0; move: EX; rewrite EN => -[eX]; rewrite -eX in nX.
have [Y EY nY] := nerve_node s1 d0; move: EY; rewrite E1 => -[eY]; rewrite -eY in nY.
have [Z EZ nZ] := nerve_node s2 d0; move: EZ; rewrite E2 => -[eZ]; rewrite -eZ in nZ.
split; [apply: (C51_nerve_map d0 nX nY)|apply: (C51_nerve_map d0 nX nZ)]; split=> // k lk; have [h1 h2 _ me] := h k lk; split=> // x; rewrite me => /andP[] //.
Qed.

(** concrete cases: points 0..3 on a line, landmarks at 0 and 3; two covers of four points *)
Definition exd (i j : nat) : nat := let l := nth 0 [:: 0; 3] j in maxn (i - l) (l - i).
Theorem C51_cover_examples :
  [/\ landmark_eps_cover (V := nat_eqType) 0 leq addn exd 4 2 2 = Ok [:: [:: 0; 1; 2]; [:: 1; 2; 3]],
      landmark_cover (fun i => if i < 2 then [:: 0; 1] else [:: 1; 0]) 4 2 1 = Ok [:: [:: 0; 1]; [:: 2; 3]],
      forall i, i < 4 -> partially_sorted (V := nat_eqType) leq (exd i) 2 1 (if i < 2 then [:: 0; 1] else [:: 1; 0]) &
      bivariate_cover [:: [:: 0; 1]; [:: 1; 2; 3]] [:: [:: 0; 1; 2]; [:: 3]] = Ok ([:: [:: 0; 1]; [:: 1; 2]; [:: 3]], [:: 0; 1; 1], [:: 0; 0; 1])].
Proof.
split; try by vm_compute.
by move=> [|[|[|[|i]]]] // _; split=> // -[|a] // [|[|b]] //; vm_compute.
Qed.
