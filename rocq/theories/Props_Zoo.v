(** C53: the Rips zigzags of zigzag_zoo.hpp. *)
From mathcomp Require Import all_ssreflect all_algebra zify.
From Verif Require Import Outcome M_SparseVec M_ColMatrix M_Simplicial M_SimplicialMap M_Functor M_Landmark M_Cover M_Zoo
  P_Outcome P_Flag Props_Landmark Props_Cover Props_CoverRips.
Set Implicit Arguments.
Unset Strict Implicit.
Unset Printing Implicit Defensive.

(** A is the std::set of the elements of l *)
Definition set_of (A l : seq nat) : Prop := sorted ltn A /\ A =i l.
(** G is a zigzag of 2k-1 sets  L0 -> L1 <- L1 -> L2 <- L2 ... with the parameters  r2 0, r1 1, r2 1, r1 2, r2 2, ... *)
Definition zoo_spec (V : Type) (v0 : V) (k : nat) (L : nat -> seq nat) (r1 r2 : nat -> V) (G : dgm (seq nat) (seq nat)) (rs : seq V) : Prop :=
  [/\ size (d_node G) = (2 * k).-1 /\ size rs = (2 * k).-1, size (d_edata G) = (2 * k).-2,
      forall t, t < k -> set_of (nth [::] (d_node G) (2 * t)) (L t) /\ nth v0 rs (2 * t) = r2 t,
      forall t, t.+1 < k -> set_of (nth [::] (d_node G) (2 * t).+1) (L t.+1) /\ nth v0 rs (2 * t).+1 = r1 t.+1 &
      d_elist G = mkseq (fun j => if odd j then (j.+1, j) else (j, j.+1)) (2 * k).-2].

(** ** preallocated vectors filled from the left *)
Definition part (A : Type) (d : A) (f : nat -> A) (m j : nat) : seq A := mkseq f j ++ nseq (m - j) d.
Lemma part0 A (d : A) f m : part d f m 0 = nseq m d. Proof. by rewrite /part subn0. Qed.
Lemma part_full A (d : A) f m : part d f m m = mkseq f m. Proof. by rewrite /part subnn cats0. Qed.
Lemma size_part A (d : A) f m j : j <= m -> size (part d f m j) = m.
Proof. by move=> h; rewrite size_cat size_mkseq size_nseq subnKC. Qed.
Lemma part_step A (d : A) f m j : j < m -> oset (part d f m j) j (f j) = Ok (part d f m j.+1).
Proof.
move=> h; rewrite (oset_Ok d) ?size_part ?(ltnW h) //; congr Ok; rewrite /part mkseqS -subnSK //.
have e : size (mkseq f j) = j by rewrite size_mkseq.
rewrite set_nthE size_cat e [nseq _.+1 _]/= [size (_ :: _)]/= addnS ltnS leq_addr take_size_cat // drop_cat e ltnNge leqnSn /= subSnn /= drop0.
by rewrite cat_rcons.
Qed.

Section Nodes.
Variables (V : eqType) (v0 : V) (k : nat) (S : nat -> seq nat) (r1 r2 : nat -> V).
Definition znode (i : nat) : seq nat := S (uphalf i).
Definition zrad (i : nat) : V := if odd i then r1 (uphalf i) else r2 (uphalf i).
Definition zst (j : nat) : dgm (seq nat) (seq nat) := Diagram (part [::] znode (2 * k).-1 j) (nseq (2 * k).-2 [::]) (nseq (2 * k).-2 (0, 0)).
Lemma zst0 : zst 0 = dgm_alloc (2 * k).-1 (2 * k).-2. Proof. by rewrite /zst part0. Qed.
Lemma set_nodeE j : j < (2 * k).-1 -> set_node (zst j) j (znode j) = Ok (zst j.+1).
Proof. by move=> h; rewrite /set_node part_step. Qed.
Lemma put_nodesE t a : t < k -> (0 < t -> a = r1 t) ->
  put_nodes (zst (2 * t).-1) (part v0 zrad (2 * k).-1 (2 * t).-1) (2 * t).-1 (S t) a (r2 t) =
  Ok (zst (2 * t.+1).-1, part v0 zrad (2 * k).-1 (2 * t.+1).-1, (2 * t.+1).-1).
Proof.
case: t => [|t] tk ha; rewrite /put_nodes.
  have h : 0 < (2 * k).-1 by move: tk; clear; lia.
  rewrite muln0 muln1; cbn [obind ltn leq subn predn]; rewrite ltnn; cbn [obind].
  rewrite -[S 0]/(znode 0) set_nodeE //; cbn [obind]; rewrite -[r2 0]/(zrad 0) part_step //.
have e : (2 * t.+1).-1 = (2 * t).+1 by lia.
have e2 : (2 * t.+2).-1 = (2 * t).+3 by lia.
have h1 : (2 * t).+1 < (2 * k).-1 by move: tk; clear; lia.
have h2 : (2 * t).+2 < (2 * k).-1 by move: tk; clear; lia.
have u1 : uphalf (2 * t).+1 = t.+1 by rewrite /= mul2n doubleK.
have u2 : uphalf (2 * t).+2 = t.+1 by rewrite /= mul2n uphalf_double.
rewrite e e2 (ha isT) ltn0Sn.
have -> : S t.+1 = znode (2 * t).+1 by rewrite /znode u1.
rewrite set_nodeE //; cbn [obind].
have -> : r1 t.+1 = zrad (2 * t).+1 by rewrite /zrad u1 /= mul2n odd_double.
rewrite part_step //; cbn [obind].
have -> : znode (2 * t).+1 = znode (2 * t).+2 by rewrite /znode u1 u2.
rewrite set_nodeE //; cbn [obind].
have -> : r2 t.+1 = zrad (2 * t).+2 by rewrite /zrad u2 /= mul2n odd_double.
by rewrite part_step.
Qed.

Definition zedge (j : nat) : nat * nat := if odd j then (j.+1, j) else (j, j.+1).
Definition zdata (j : nat) : seq nat := incl (znode (zedge j).1) (znode (zedge j).2).
Hypothesis so : forall t, sorted ltn (S t).
Hypothesis sub : forall t, t.+1 < k -> {subset S t <= S t.+1}.
Lemma zoo_edgesE : zoo_edges (zst (2 * k).-1) k = Ok (Diagram (mkseq znode (2 * k).-1) (mkseq zdata (2 * k).-2) (mkseq zedge (2 * k).-2)).
Proof.
pose P i G := G = Diagram (mkseq znode (2 * k).-1) (part [::] zdata (2 * k).-2 (2 * i)) (part (0, 0) zedge (2 * k).-2 (2 * i)).
have [||G E e] := @ofold_iota_ind _ (fun G i =>
    do a <- oget (d_node G) (2 * i); do b <- oget (d_node G) (2 * i).+1;
    do f <- vertex_inclusion_map a b;
    do G1 <- set_edge G (2 * i) (2 * i) (2 * i).+1 f;
    do a <- oget (d_node G1) (2 * i).+2; do b <- oget (d_node G1) (2 * i).+1;
    do f <- vertex_inclusion_map a b;
    set_edge G1 (2 * i).+1 (2 * i).+2 (2 * i).+1 f) P k.-1 (zst (2 * k).-1).
- by rewrite /P /zst muln0 !part0 part_full.
- move=> i G hi ->.
  have hk : i.+1 < k by move: hi; clear; lia.
  have l1 : (2 * i).+2 < (2 * k).-1 by move: hk; clear; lia.
  have l2 : (2 * i).+1 < (2 * k).-2 by move: hk; clear; lia.
  have [l3 l4 l5] : [/\ 2 * i < (2 * k).-1, (2 * i).+1 < (2 * k).-1 & 2 * i < (2 * k).-2] by split; move: hk; clear; lia.
  have u0 : znode (2 * i) = S i by rewrite /znode mul2n uphalf_double.
  have u1 : znode (2 * i).+1 = S i.+1 by rewrite /znode /= mul2n doubleK.
  have u2 : znode (2 * i).+2 = S i.+1 by rewrite /znode /= mul2n uphalf_double.
  have o0 : odd (2 * i) = false by rewrite mul2n odd_double.
  cbn [d_node]; rewrite !(oget_mkseq [::]) //; cbn [obind].
  rewrite inclE ?u0 ?u1 //; last exact: sub. cbn [obind].
  have -> : incl (S i) (S i.+1) = zdata (2 * i) by rewrite /zdata /zedge o0 /= u0 u1.
  have z0 : ((2 * i), (2 * i).+1) = zedge (2 * i) by rewrite /zedge o0.
  rewrite /set_edge; cbn [d_edata d_elist]; rewrite part_step //; cbn [obind].
  rewrite z0 part_step //; cbn [obind d_node d_edata d_elist].
  rewrite !(oget_mkseq [::]) //; cbn [obind].
  rewrite inclE ?u2 ?u1 //; cbn [obind].
  have -> : incl (S i.+1) (S i.+1) = zdata (2 * i).+1 by rewrite /zdata /zedge /= o0 /= u2 u1.
  have z1 : ((2 * i).+2, (2 * i).+1) = zedge (2 * i).+1 by rewrite /zedge /= o0.
  rewrite part_step //; cbn [obind]; rewrite z1 part_step //; cbn [obind].
  by eexists; first by []; rewrite /P mulnS.
rewrite /zoo_edges E e; congr (Ok (Diagram _ _ _)); rewrite (_ : 2 * k.-1 = (2 * k).-2) ?part_full //; lia.
Qed.

Lemma zoo_out n (L : nat -> seq nat) : 0 < k -> (forall t, t < k -> S t =i L t) -> (forall t i, t < k -> i \in L t -> i < n) ->
  zoo_spec v0 k L r1 r2 (Diagram (mkseq znode (2 * k).-1) (mkseq zdata (2 * k).-2) (mkseq zedge (2 * k).-2)) (mkseq zrad (2 * k).-1) /\
  inclusions n (Diagram (mkseq znode (2 * k).-1) (mkseq zdata (2 * k).-2) (mkseq zedge (2 * k).-2)).
Proof.
move=> k0 mem lt; split; split; cbn [d_node d_edata d_elist]; rewrite ?size_mkseq //.
- move=> t tk; have h : 2 * t < (2 * k).-1 by move: tk; clear; lia.
  by rewrite !nth_mkseq // /znode /zrad mul2n odd_double uphalf_double; split; first by split; [exact: so|exact: mem].
- move=> t tk; have h : (2 * t).+1 < (2 * k).-1 by move: tk; clear; lia.
  by rewrite !nth_mkseq // /znode /zrad /= mul2n odd_double doubleK; split; first by split; [exact: so|exact: mem].
- move=> i hi; rewrite nth_mkseq // so /=; apply/allP => x xi.
  have hu : uphalf i < k by rewrite uphalf_half; move: hi (odd_double_half i); clear; case: (odd i) => /=; lia.
  by apply: (lt _ _ hu); rewrite -mem.
move=> j hj.
have e : zedge j = if odd j then (j.+1, j) else (j, j.+1) by [].
have [h1 h2] : j < (2 * k).-1 /\ j.+1 < (2 * k).-1 by split; move: hj; clear; lia.
have us : {subset znode (zedge j).1 <= znode (zedge j).2}.
  rewrite e; case: (boolP (odd j)) => oj; rewrite /znode /= uphalf_half.
    by rewrite oj add1n.
  rewrite (negbTE oj) add0n; apply: sub; move: hj (odd_double_half j); rewrite (negbTE oj); clear; lia.
have [l1 l2] : (zedge j).1 < (2 * k).-1 /\ (zedge j).2 < (2 * k).-1 by rewrite e; case: (odd j).
rewrite !nth_mkseq //; split=> //.
by rewrite inclE // /znode; exact: so.
Qed.
End Nodes.

(** ** the sets *)
Definition setof (l : seq nat) : seq nat := sort leq (undup l).
Lemma setof_sorted l : sorted ltn (setof l).
Proof. by rewrite ltn_sorted_uniq_leq sort_uniq undup_uniq sort_sorted //; exact: leq_total. Qed.
Lemma setof_mem l : setof l =i l.
Proof. by move=> x; rewrite mem_sort mem_undup. Qed.
Lemma setof_insert l i : set_insert (setof l) i = setof (rcons l i).
Proof.
apply: (@irr_sorted_eq _ ltn); [exact: ltn_trans|exact: ltnn|exact/set_insert_sorted/setof_sorted|exact: setof_sorted|].
by move=> x; rewrite set_insert_mem !setof_mem mem_rcons inE.
Qed.
Lemma size_setof l : uniq l -> size (setof l) = size l.
Proof. by move=> u; rewrite size_sort undup_id. Qed.

Lemma fill_setE m l : uniq l -> forall a, a <= m.+1 -> m < size l ->
  fill_set m (setof (take a l)) (drop a l) = Ok (setof (take m.+1 l), drop m.+1 l).
Proof.
move=> u a am ml; move: {2}(m.+1 - a) (erefl (m.+1 - a)) => c; elim: c a am => [|c IH] a am ea.
  have -> : a = m.+1 by move: am ea; clear; lia.
  have sz : size (setof (take m.+1 l)) = m.+1 by rewrite size_setof ?take_uniq // size_takel.
  by case: (drop _ _) => [|x r]; rewrite /= sz ltnn.
have al : a < size l by move: am ea ml; clear; lia.
have sz : size (setof (take a l)) = a by rewrite size_setof ?take_uniq // size_takel 1?ltnW.
rewrite (drop_nth 0) //; cbn [fill_set]; rewrite sz ifT; last by move: am ea; clear; lia.
rewrite setof_insert -take_nth // IH //; move: am ea; clear; lia.
Qed.

Section Zoo.
Variable V : eqType.
Variable v0 z : V.
Variable le : V -> V -> bool.
Variable mul : V -> V -> V.
Notation lt a b := (~~ le b a).
Hypothesis le_total : total le.
Hypothesis le_trans : transitive le.
Hypothesis le_anti : antisymmetric le.

(** C53: get_dM_ZZ_inds keeps index 0 and every index whose distance is at most eta times the distance of the last index kept *)
Theorem C53_indices hds eta : 0 < size hds -> exists2 inds2, get_dM_inds le mul hds eta = Ok inds2 &
  [/\ sorted ltn inds2, nth 1 inds2 0 = 0, forall i, i \in inds2 -> i < size hds &
      forall i, 0 < i < size hds ->
        (i \in inds2) = le (nth v0 hds i) (mul eta (nth v0 hds (last 0 [seq x <- inds2 | x < i])))].
Proof.
case: hds => // h0 hs _; set hds := h0 :: hs; rewrite /get_dM_inds /=.
pose P k (st : seq nat * V) := [/\ sorted ltn st.1, nth 1 st.1 0 = 0, forall i, i \in st.1 -> i < k.+1, st.2 = nth v0 hds (last 0 st.1) &
   forall i, 0 < i < k.+1 -> (i \in st.1) = le (nth v0 hds i) (mul eta (nth v0 hds (last 0 [seq x <- st.1 | x < i])))].
have H k : k <= size hs -> exists2 st, ofold (fun (st : seq nat * V) i => do h <- oget hds i;
      Ok (if ~~ lt (mul eta st.2) h then (rcons st.1 i, h) else st)) ([:: 0], h0) (iota 1 k) = Ok st & P k st.
  elim: k => [|k IH] hk.
    exists ([:: 0], h0) => //; split=> //= [i|i /andP[]]; first by rewrite inE => /eqP ->.
    by case: i.
  have [st E [so hd lk el gr]] := IH (ltnW hk).
  rewrite -[in iota _ k.+1](addn1 k) iotaD ofold_cat E; cbn [obind iota ofold]; rewrite add1n (oget_nth v0) ?ltnS //; cbn [obind].
  rewrite negbK; have fl : [seq x <- st.1 | x < k.+1] = st.1 by apply/all_filterP/allP => x /lk.
  have fr i : i <= k.+1 -> [seq x <- rcons st.1 k.+1 | x < i] = [seq x <- st.1 | x < i].
    by move=> ik; rewrite filter_rcons ltnNge ik.
  case: ifP => c; [exists (rcons st.1 k.+1, nth v0 hds k.+1) => //|exists st => //]; split=> //=.
  - case: (st.1) hd lk so => // x s _ lk so; rewrite /= rcons_path; apply/andP; split; first exact: so.
    by apply: lk; rewrite mem_last.
  - by case: (st.1) hd.
  - by move=> i; rewrite mem_rcons inE => /orP[/eqP ->|/lk/ltnW] //; rewrite ltnS.
  - by rewrite last_rcons.
  - move=> i /andP[i0 ik]; rewrite mem_rcons inE; move: ik; rewrite ltnS leq_eqVlt => /orP[/eqP ->|ik].
      by rewrite eqxx fr // fl -el.
    by rewrite (ltn_eqF ik) fr ?(ltnW ik) // gr ?i0.
  - by move=> i /lk/ltnW; rewrite ltnS.
  - move=> i /andP[i0 ik]; move: ik; rewrite ltnS leq_eqVlt => /orP[/eqP ->|ik]; last by rewrite gr ?i0.
    rewrite fl -el c; apply/negbTE/negP => /lk; by rewrite ltnn.
have [st -> [h1 h2 h3 h4 h5]] := H _ (leqnn (size hs)); cbn [obind]; exists st.1 => //.
Qed.

Variable D : nat -> nat -> V.
Variable n dim : nat.
Hypothesis n0 : 0 < n.
Hypothesis Dz : forall i, i < n -> D i i = z.
Hypothesis Dp : forall i j, i < n -> j < n -> le z (D i j).

(** inds is a greedy (farthest point) order of the points and hds are the Hausdorff distances of its prefixes *)
Definition greedy_order (inds : seq nat) (hds : seq V) : Prop :=
  [/\ size inds = n /\ size hds = n, forall i, i \in inds -> i < n,
      forall j, 0 < j < n -> farthest le D n (take j inds) (nth n inds j) &
      forall j, j < n -> is_hausdorff le D n (take j.+1 inds) (nth v0 hds j)].

Lemma zoo_start : exists i0 inds hds, [/\ approx_center v0 le D n dim 0 0 = Ok i0, i0 < n, glh v0 z le D n i0 = Ok (inds, hds) & greedy_order inds hds].
Proof.
have [_ [_ [i0 [_ E ln _]]]] := C50_approx_center v0 le_total le_trans D dim 0 n0.
have [inds [hds [E2 [s1 s2] hd fa ha]]] := C50_greedy v0 le_total le_trans Dz Dp ln.
rewrite s1 in fa ha; exists i0, inds, hds; split=> //; split=> // i /(nthP n)[j jl <-]; rewrite s1 in jl.
by case: j jl => [|j] jl; [rewrite hd | have [] := fa j.+1 jl].
Qed.
Lemma hds_mono inds hds a b : greedy_order inds hds -> a <= b -> b < n -> le (nth v0 hds b) (nth v0 hds a).
Proof.
move=> [[s1 s2] _ _ ha] ab bn; elim: b ab bn => [|b IH] ab bn.
  by move: ab; rewrite leqn0 => /eqP ->; have := le_total (nth v0 hds 0) (nth v0 hds 0); rewrite orbb.
move: ab; rewrite leq_eqVlt => /orP[/eqP ->|ab]; first by have := le_total (nth v0 hds b.+1) (nth v0 hds b.+1); rewrite orbb.
apply: le_trans (IH ab (ltnW bn)); apply: (C50_hausdorff_mono le_trans (i := nth n inds b.+1) (ha b (ltnW bn))).
by rewrite -take_nth ?s1 //; exact: ha.
Qed.
Lemma hds_pos inds hds a : greedy_order inds hds -> a < n -> le z (nth v0 hds a).
Proof.
move=> [_ li _ ha] an; have [h _] := ha a an; have [i iL c] := h 0 n0; apply: le_trans c; apply: Dp => //; apply: li; exact: mem_take iL.
Qed.

(** the radii never decrease along an edge *)
Definition radii_grow (rs : seq V) (G : dgm (seq nat) (seq nat)) : Prop :=
  forall j, j < size (d_edata G) -> le (nth v0 rs (nth (0, 0) (d_elist G) j).1) (nth v0 rs (nth (0, 0) (d_elist G) j).2).
Lemma zoo_radii k L r1 r2 G rs : zoo_spec v0 k L r1 r2 G rs ->
  (forall t, t.+1 < k -> le (r2 t) (r1 t.+1) /\ le (r2 t.+1) (r1 t.+1)) -> radii_grow rs G.
Proof.
move=> [_ sd hn ho el] hr j; rewrite sd => hj; rewrite el nth_mkseq //.
case: (boolP (odd j)) => oj /=; have := odd_double_half j; rewrite ?oj ?(negbTE oj) => ej.
  have hk : j./2.+1 < k by move: ej hj; clear; lia.
  have -> : j.+1 = 2 * j./2.+1 by move: ej; clear; lia.
  have {2}-> : j = (2 * j./2).+1 by move: ej; clear; lia.
  by have [_ ->] := hn _ hk; have [_ ->] := ho _ hk; have [] := hr _ hk.
have hk : j./2.+1 < k by move: ej hj; clear; lia.
have -> : j.+1 = (2 * j./2).+1 by move: ej; clear; lia.
have {1}-> : j = 2 * j./2 by move: ej; clear; lia.
by have [_ ->] := hn _ (ltnW hk); have [_ ->] := ho _ hk; have [] := hr _ hk.
Qed.

(** C53: the sets and parameters of the discrete Morozov zigzag, for different points *)
Theorem C53_morozov eta rho : (forall i j, i < n -> j < n -> i != j -> lt z (D i j)) ->
  exists inds hds inds2, exists G rs,
  [/\ greedy_order inds hds /\ get_dM_inds le mul hds eta = Ok inds2,
      DiscreteMorozovZigzagSets v0 z le mul D n dim eta rho = Ok (G, rs),
      zoo_spec v0 (size inds2) (fun t => take (nth 0 inds2 t).+1 inds)
        (fun t => mul (nth v0 hds (nth 0 inds2 t.-1)) rho) (fun t => mul (nth v0 hds (nth 0 inds2 t)) rho) G rs,
      inclusions n G &
      (forall a b, le a b -> le (mul a rho) (mul b rho)) -> radii_grow rs G].
Proof.
move=> Dd; have [i0 [inds [hds [E ln Eg go]]]] := zoo_start.
have [[s1 s2] li fa ha] := go.
have un : uniq inds by rewrite (perm_uniq (C50_greedy_permutation le_total le_trans Dz Dd ln Eg)) iota_uniq.
have [|inds2 E2 [so hd lt2 _]] := @C53_indices hds eta; first by rewrite s2.
rewrite s2 in lt2; set k := size inds2.
have k0 : 0 < k by rewrite /k; case: (inds2) hd.
have m_lt t : t < k -> nth 0 inds2 t < n by move=> tk; apply: lt2; rewrite mem_nth.
have m_mono t : t.+1 < k -> nth 0 inds2 t < nth 0 inds2 t.+1.
  by move=> tk; apply: (sorted_ltn_nth ltn_trans) => //; rewrite inE // ltnW.
pose S t := setof (take (nth 0 inds2 t).+1 inds).
pose r1 t := mul (nth v0 hds (nth 0 inds2 t.-1)) rho; pose r2 t := mul (nth v0 hds (nth 0 inds2 t)) rho.
pose a t := if t is t'.+1 then (nth 0 inds2 t').+1 else 0.
pose P t (st : zoo_state V) := st = (zst k S (2 * t).-1, part v0 (zrad r1 r2) (2 * k).-1 (2 * t).-1, (2 * t).-1, setof (take (a t) inds), drop (a t) inds).
have [||st Es es] := @ofold_iota_ind _ (morozov_round v0 mul hds inds2 rho) P k (dgm_alloc (2 * k).-1 (2 * k).-2, nseq (2 * k).-1 v0, 0, [::], inds).
- by rewrite /P muln0 zst0 part0 take0 drop0.
- move=> t st tk ->; rewrite /morozov_round (oget_nth 0) //; cbn [obind].
  rewrite fill_setE //; last first.
  + by rewrite s1 m_lt.
  + by case: (t) tk => // t' tk; exact/ltnW/m_mono.
  cbn [obind fst snd].
  case: t tk => [|t] tk.
    rewrite muln0 ltnn; cbn [obind]; rewrite (oget_nth v0) ?s2 ?m_lt //; cbn [obind].
    by rewrite -[0]/((2 * 0).-1) (@put_nodesE _ v0 k S r1 r2 0 v0) //; eexists.
  rewrite ifT; last by clear; lia.
  rewrite (oget_nth 0) ?(ltnW tk) //; cbn [obind]; rewrite (oget_nth v0) ?s2 ?m_lt ?(ltnW tk) //; cbn [obind].
  rewrite (oget_nth v0) ?s2 ?m_lt //; cbn [obind].
  by rewrite (@put_nodesE _ v0 k S r1 r2 t.+1) //; eexists.
have sub t : t.+1 < k -> {subset S t <= S t.+1}.
  move=> tk x; rewrite !setof_mem => h; have /ltnW h2 := m_mono t tk.
  by move: h; rewrite -(subnKC (h2 : (nth 0 inds2 t).+1 <= (nth 0 inds2 t.+1).+1)) takeD mem_cat => ->.
have Ee := @zoo_edgesE k S (fun t => setof_sorted _) sub.
have [||zs inc] := @zoo_out V v0 k S r1 r2 (fun t => setof_sorted _) sub n (fun t => take (nth 0 inds2 t).+1 inds) k0.
- by move=> t _ x; rewrite setof_mem.
- by move=> t i _ /mem_take/li.
do 5![eexists]; split; [split; [exact: go|exact: E2]| |exact: zs|exact: inc|].
  rewrite /DiscreteMorozovZigzagSets E; cbn [obind]; rewrite Eg; cbn [obind]; rewrite E2; cbn [obind]; cbv zeta; rewrite -/k Es; cbn [obind].
  by rewrite es Ee; cbn [obind]; rewrite part_full.
move=> hm; apply: zoo_radii zs _ => t tk; split=> /=.
  by have := le_total (r2 t) (r2 t); rewrite orbb.
by apply: hm; apply: hds_mono go _ (m_lt _ tk); exact/ltnW/m_mono.
Qed.

(** C53: the sets and parameters of the oscillating Rips zigzag (points may coincide) *)
Theorem C53_oscillating rho eta : le eta rho ->
  exists inds hds G rs, 
  [/\ greedy_order inds hds,
      OscillatingRipsZigzagSets v0 z le mul D n dim rho eta = Ok (G, rs),
      zoo_spec v0 n (fun t => take t.+1 inds) (fun t => mul rho (nth v0 hds t.-1)) (fun t => mul eta (nth v0 hds t)) G rs,
      inclusions n G &
      (forall a b, le a b -> le (mul eta a) (mul eta b)) -> (forall a, le z a -> le (mul eta a) (mul rho a)) -> radii_grow rs G].
Proof.
move=> er; have [i0 [inds [hds [E ln Eg go]]]] := zoo_start.
have [[s1 s2] li fa ha] := go.
pose S t := setof (take t.+1 inds).
pose r1 t := mul rho (nth v0 hds t.-1); pose r2 t := mul eta (nth v0 hds t).
pose P t (st : dgm (seq nat) (seq nat) * seq V * nat * seq nat * V) :=
  exists2 e, (0 < t -> e = nth v0 hds t.-1) & st = (zst n S (2 * t).-1, part v0 (zrad r1 r2) (2 * n).-1 (2 * t).-1, (2 * t).-1, setof (take t inds), e).
have [||st Es [e _ es]] := @ofold_iota_ind _ (oscillating_round mul inds hds rho eta) P n (dgm_alloc (2 * n).-1 (2 * n).-2, nseq (2 * n).-1 v0, 0, [::], v0).
- by exists v0 => //; rewrite muln0 zst0 part0 take0.
- move=> t st tk [e he ->]; rewrite /oscillating_round (oget_nth 0) ?s1 //; cbn [obind]; cbv zeta.
  rewrite (oget_nth v0) ?s2 //; cbn [obind]; rewrite setof_insert -take_nth ?s1 //.
  rewrite (@put_nodesE _ v0 n S r1 r2 t) //; last by move=> t0; rewrite /r1 he.
  by eexists; first by []; exists (nth v0 hds t).
have sub t : t.+1 < n -> {subset S t <= S t.+1}.
  move=> tk x; rewrite !setof_mem; have -> : take t.+2 inds = rcons (take t.+1 inds) (nth 0 inds t.+1) by rewrite -take_nth ?s1.
  by rewrite mem_rcons inE => ->; rewrite orbT.
have Ee := @zoo_edgesE n S (fun t => setof_sorted _) sub.
have [||zs inc] := @zoo_out V v0 n S r1 r2 (fun t => setof_sorted _) sub n (fun t => take t.+1 inds) n0.
- by move=> t _ x; rewrite setof_mem.
- by move=> t i _ /mem_take/li.
do 4![eexists]; split; [exact: go| |exact: zs|exact: inc|].
  rewrite /OscillatingRipsZigzagSets er /= E; cbn [obind]; rewrite Eg; cbn [obind]; cbv zeta; rewrite s1 Es; cbn [obind].
  by rewrite es Ee; cbn [obind]; rewrite part_full.
move=> h1 h2; apply: zoo_radii zs _ => t tk; split=> /=; first by apply: h2; exact: hds_pos go (ltnW tk).
apply: le_trans (h2 _ (hds_pos go (ltnW tk))); apply: h1; exact: hds_mono go (leqnSn t) tk.
Qed.
Theorem C53_oscillating_refuses rho eta : lt rho eta -> OscillatingRipsZigzagSets v0 z le mul D n dim rho eta = Throw.
Proof. by rewrite /OscillatingRipsZigzagSets => ->. Qed.

(** C53: the zigzag of Rips complexes: node i is the Rips complex of its set at its parameter, the maps are induced by the
    inclusions, in any order of the parallel loops *)
Theorem C53_morozov_rips eta rho dmax ordn orde : (forall i j, i < n -> j < n -> i != j -> lt z (D i j)) ->
  (forall a b, le a b -> le (mul a rho) (mul b rho)) -> 0 < dmax ->
  exists G rs, [/\ DiscreteMorozovZigzagSets v0 z le mul D n dim eta rho = Ok (G, rs), inclusions n G &
    perm_eq ordn (iota 0 (size (d_node G))) -> perm_eq orde (iota 0 (size (d_edata G))) ->
    exists2 R, DiscreteMorozovZigzag v0 z le mul D n dim eta rho dmax ordn orde = Ok (R, rs) & rips_diagram le D (nth v0 rs) dmax G R].
Proof.
move=> Dd hm d0; have [inds [hds [inds2 [G [rs [_ E zs inc ra]]]]]] := C53_morozov eta rho Dd.
exists G, rs; split=> // pn pe; have [[sn sr] _ _ _ _] := zs.
have [|R ER RR] := @C51_rips_functor_var V le le_trans D n rs v0 dmax ordn orde G inc d0 _ (ra hm) pn pe; first by rewrite sr sn.
by exists R => //; rewrite /DiscreteMorozovZigzag E; cbn [obind fst snd]; rewrite ER.
Qed.
End Zoo.

(** when points coincide the discrete Morozov zigzag runs past the end of the landmarks *)
Theorem C53_coincident : DiscreteMorozovZigzagSets 0 0 leq muln (fun _ _ => 0) 2 1 1 1 = UB.
Proof. by []. Qed.

(** concrete case: three points on a line at 0, 1, 3 *)
Definition ex_line (i j : nat) : nat := let x := nth 0 [:: 0; 1; 3] in (x i - x j) + (x j - x i).
Example ex_morozov : DiscreteMorozovZigzagSets 0 0 leq muln ex_line 3 1 1 2 =
  Ok (Diagram [:: [:: 1]; [:: 1; 2]; [:: 1; 2]; [:: 0; 1; 2]; [:: 0; 1; 2]]
        [:: [:: 0]; [:: 0; 1]; [:: 1; 2]; [:: 0; 1; 2]] [:: (0, 1); (2, 1); (2, 3); (4, 3)], [:: 4; 4; 2; 2; 0]).
Proof. by vm_compute. Qed.
Example ex_oscillating : OscillatingRipsZigzagSets 0 0 leq muln ex_line 3 1 3 2 =
  Ok (Diagram [:: [:: 1]; [:: 1; 2]; [:: 1; 2]; [:: 0; 1; 2]; [:: 0; 1; 2]]
        [:: [:: 0]; [:: 0; 1]; [:: 1; 2]; [:: 0; 1; 2]] [:: (0, 1); (2, 1); (2, 3); (4, 3)], [:: 4; 6; 2; 3; 0]).
Proof. by vm_compute. Qed.
