(** Filtrations keep one value per simplex; what each call does to the values. *)
From mathcomp Require Import all_ssreflect all_algebra zify.
From Verif Require Import Outcome M_SparseVec M_Perm M_ColMatrix M_CSC M_Simplicial M_Filtration S_Perm S_Simplicial S_Filtration P_Outcome P_Perm P_Sort P_Trie P_Simplicial P_ScOps P_ScBuild.
Set Implicit Arguments.
Unset Strict Implicit.
Unset Printing Implicit Defensive.

Section PF.
Variable V : Type.
Variable v0 : V.
Implicit Types (F : filt V) (cl : cells_t) (val : seq (seq V)).
Notation gs val k := (size (nth [::] val k)).
Notation gv val k i := (nth v0 (nth [::] val k) i).

Definition finv cl F : Prop := [/\ inv cl (fl_X F), size (fl_val F) <= sc_dims (fl_X F) & forall k, gs (fl_val F) k = size (cl k)].

Definition va cl F (t : seq nat) : V := gv (fl_val F) (size t).-1 (index t (cl (size t).-1)).

Lemma reserve_ok val d n : exists2 val', fv_reserve v0 val d n = Ok val' &
  [/\ size val' = maxn d.+1 (size val), forall k, gs val' k = if k == d then maxn n (gs val d) else gs val k &
      forall k i, gv val' k i = gv val k i].
Proof.
rewrite /fv_reserve; have ld : d < size (grow [::] d.+1 val) by rewrite size_grow; lia.
rewrite (oget_nth [::] ld); cbn [obind]; rewrite (oset_Ok [::] _ ld); eexists; first by [].
split=> [|k|k i]; rewrite ?size_set_nth ?nth_set_nth /= ?nth_grow; first by rewrite size_grow; lia.
  by case: eqP => // _; rewrite size_grow.
by case: eqP => // ->; rewrite nth_grow.
Qed.

Lemma fstore_ok val d i t : exists2 val', fv_store v0 val d (Some i) t = Ok val' &
  [/\ size val' = maxn d.+1 (size val), forall k, gs val' k = if k == d then maxn i.+1 (gs val d) else gs val k &
      forall k j, gv val' k j = if (k, j) == (d, i) then t else gv val k j].
Proof.
rewrite /fv_store; have [val1 -> [s1 g1 v1]] := reserve_ok val d i.+1; cbn [obind].
have ld : d < size val1 by rewrite s1; lia.
have li : i < gs val1 d by rewrite g1 eqxx; lia.
rewrite (oget_nth [::] ld); cbn [obind]; rewrite (oset_Ok v0 _ li); cbn [obind]; rewrite (oset_Ok [::] _ ld).
eexists; first by [].
split=> [|k|k j]; rewrite ?size_set_nth ?nth_set_nth /=; first by rewrite s1; lia.
  by case: eqP => [_|n]; rewrite ?size_set_nth g1 ?eqxx; [lia|case: eqP].
rewrite xpair_eqE; case: eqP => [->|_] /=; last exact: v1.
by rewrite nth_set_nth /=; case: eqP => // _; exact: v1.
Qed.

Lemma stores_ok ps val t : exists2 val', ofold (fun val (p : nat * nat) => fv_store v0 val p.1 (Some p.2) t) val ps = Ok val' &
  [/\ forall n, size val <= n -> all (fun p => p.1 < n) ps -> size val' <= n,
      forall k i, (i < gs val' k) = (i < gs val k) || has (fun p => (p.1 == k) && (i <= p.2)) ps &
      forall k j, gv val' k j = if (k, j) \in ps then t else gv val k j].
Proof.
elim/seq.last_ind: ps => [|ps [d i] [val1 E1 [s1 g1 v1]]].
  by exists val => //; split=> // k i; rewrite ?orbF.
have [val2 E2 [s2 g2 v2]] := fstore_ok val1 d i t.
exists val2; first by rewrite -cats1 ofold_cat E1; cbn [obind]; rewrite ofold_cons E2.
split=> [n l1|k j|k j].
- rewrite all_rcons /= => /andP [l2 l3]; rewrite s2; have := s1 n l1 l3; lia.
- rewrite g2 has_rcons /= [d == k]eq_sym; case: eqP => [->|_] /=; last exact: g1.
  by rewrite leq_max g1 ltnS orbCA orbA.
- by rewrite v2 mem_rcons inE; case: eqP => //= _; exact: v1.
Qed.

Lemma fvalue_iff cl F t v : finv cl F -> t != [::] -> fvalue F t v <-> t \isin cl /\ v = va cl F t.
Proof.
move=> [iv sv g] n0; have [_ _ _ _ T] := iv; rewrite /fvalue (find_ok T n0); case: ifP => ti; last first.
  by split=> [[i]|[]].
have li : index t (cl (size t).-1) < gs (fl_val F) (size t).-1 by rewrite g index_mem.
have lk : (size t).-1 < size (fl_val F).
  by rewrite ltnNge; apply/negP => le; rewrite (nth_default _ le) in li.
split=> [[i [<-]]|[_ ->]].
  by rewrite (oget_nth [::] lk); cbn [obind]; rewrite (oget_nth v0 li) => -[<-].
by eexists; first by []; rewrite (oget_nth [::] lk); cbn [obind]; rewrite (oget_nth v0 li).
Qed.

Lemma index_ext cl cl' k s : extends cl cl' -> s \in cl k -> index s (cl' k) = index s (cl k).
Proof. by move=> /(_ k) [e ->] si; rewrite index_cat si. Qed.

Lemma extends_size_le cl cl' k : extends cl cl' -> size (cl k) <= size (cl' k).
Proof. by move=> /(_ k) [e ->]; rewrite size_cat leq_addr. Qed.

(** one add *)
Lemma fadd_ok cl F t s : finv cl F -> s != [::] -> (s \isin cl) || facesb cl s ->
  exists (F' : filt V) (i : nat) (cl' : cells_t),
  [/\ fl_add_directed v0 F t s = Ok (F', Some i), finv cl' F' /\ sc_dims (fl_X F) <= sc_dims (fl_X F'), extends cl cl',
      forall u, u != [::] -> (u \isin cl') = (u \isin cl) || (u == s) &
      forall u, u != [::] -> u \isin cl' -> va cl' F' u = if u == s then t else va cl F u].
Proof.
move=> [iv sv g] n0 H; set d := (size s).-1.
have [X' [i [cl' [E1 iv' [ex ct dm] [ei l1] si]]]] : exists (X' : scx) (i : nat) (cl' : cells_t),
  [/\ sc_add_directed (fl_X F) s = Ok (X', Some i), inv cl' X', [/\ extends cl cl',
      forall u, u != [::] -> (u \isin cl') = (u \isin cl) || (u == s) & sc_dims (fl_X F) <= sc_dims X'],
      i = index s (cl' d) /\ (forall k, size (cl' k) = if k == d then maxn i.+1 (size (cl d)) else size (cl k)) & s \isin cl'].
  have := add_directed_ok iv n0; cbv zeta; rewrite -/d; case: ifP => si.
    move=> E; exists (fl_X F), (index s (cl d)), cl; split=> //.
      by split=> //; [exact: extends_refl|move=> u nu; case: eqP => [->|_]; rewrite ?si ?orbF].
    split=> // k; case: eqP => // ->; have : index s (cl d) < size (cl d) by rewrite index_mem.
    by clear; lia.
  rewrite -/d si /= in H; rewrite H => -[X' [E iv' e]].
  exists X', (size (cl d)), (upd cl d (rcons (cl d) s)); split=> //.
  - split; [exact: extends_rcons|by move=> u nu; exact: mem_upd|by rewrite e leq_maxr].
  - split; first by rewrite /upd eqxx -cats1 index_cat si /= eqxx addn0.
    by move=> k; rewrite /upd; case: eqP => // _; rewrite size_rcons; clear; lia.
  - by rewrite mem_upd // eqxx orbT.
have [val' E2 [s2 g2 v2]] := fstore_ok (fl_val F) d i t.
exists (Filt X' val'), i, cl'; split=> //.
- by rewrite /fl_add_directed E1; cbn [obind fst snd]; rewrite -/d E2.
- split=> //; split=> //=.
    rewrite s2; have := in_dims iv' si; rewrite -/d => l2; rewrite geq_max l2 /=; exact: leq_trans sv dm.
  by move=> k; rewrite g2 l1 !g.
move=> u nu ui; rewrite /va /= v2 xpair_eqE; case: (eqVneq u s) => [->|ne].
  by rewrite -/d -ei !eqxx.
have uc : u \isin cl by move: ui; rewrite ct // (negbTE ne) orbF.
case: ifP => [/andP [/eqP ek /eqP ex2]|_]; last by rewrite (index_ext ex uc).
case/eqP: ne; rewrite ei -ek in ex2; have := congr1 (nth [::] (cl' (size u).-1)) ex2.
rewrite nth_index // nth_index //; by rewrite ek.
Qed.

Lemma fl_addE F t s : fl_add v0 F t s = fl_add_directed v0 F t (sort leq s).
Proof. by rewrite /fl_add /fl_add_directed /sc_add size_sort. Qed.

Lemma fadd_fail cl F t s : finv cl F -> s != [::] -> ~~ ((s \isin cl) || facesb cl s) -> fl_add_directed v0 F t s = UB.
Proof.
move=> [iv sv g] n0; rewrite negb_or => /andP [h1 h2].
by have := add_directed_ok iv n0; cbv zeta; rewrite (negbTE h1) (negbTE h2) /fl_add_directed => ->.
Qed.

Lemma nth_uniq_index cl X u v k : inv cl X -> u \in cl k -> v \in cl k -> index u (cl k) = index v (cl k) -> u = v.
Proof. by move=> iv ui vi e; rewrite -(nth_index [::] ui) e nth_index. Qed.

(** add_recursive *)
Lemma frec_ok cl F t s : finv cl F -> s != [::] ->
  exists (F' : filt V) (r : seq (nat * nat)) (cl' : cells_t),
  [/\ fl_add_recursive v0 F t s = Ok (F', r), finv cl' F' /\ sc_dims (fl_X F) <= sc_dims (fl_X F'), extends cl cl',
      forall u, u != [::] -> (u \isin cl') = (u \isin cl) || subseq u (sort leq s) &
      forall u, u != [::] -> u \isin cl' ->
        va cl' F' u = if (u == sort leq s) || ~~ (u \isin cl) then t else va cl F u].
Proof.
move=> [iv sv g] n0; have n0' : sort leq s != [::] by rewrite sort_nil.
have [X' [r [cl' [E1 [iv' d1] ex ct nw]]]] := rec_step iv n0'.
have [val' E2 [s2 g2 v2]] := stores_ok r (fl_val F) t.
have rin k i : (k, i) \in r -> i < size (cl' k).
  move: nw; case: ifP => si; last by move=> [_ ->] /andP [].
  move=> [_ ->]; rewrite inE => /eqP [-> ->]; apply: leq_trans (extends_size_le _ ex); by rewrite index_mem.
have cs k : sort leq s \isin cl -> size (cl' k) = size (cl k).
  move=> si; rewrite si in nw; have [e1 _] := nw; rewrite e1 in iv'.
  case: (ltnP k (sc_dims (fl_X F))) => lk; first by have := ncell_ok iv' lk; rewrite (ncell_ok iv lk) => -[].
  by case: iv => _ _ _ Ci _; case: iv' => _ _ _ Ci' _; rewrite Ci // Ci'.
exists (Filt X' val'), r, cl'; split=> //.
- by rewrite /fl_add_recursive /sc_add_recursive E1; cbn [obind fst snd]; rewrite E2.
- split=> //; split=> //=.
    apply: s2; first exact: leq_trans sv d1.
    apply/allP => -[k i] /rin /= l; rewrite ltnNge; apply/negP => le; case: iv' => _ _ _ Ci _; by rewrite Ci in l.
  move=> k; have H i : (i < gs val' k) = (i < size (cl' k)).
    rewrite g2 g; apply/orP/idP => [[l|/hasP [[k' i'] /rin /= l /andP [/eqP <- l2]]]|l].
    - exact: leq_trans l (extends_size_le _ ex).
    - exact: leq_ltn_trans l2 l.
    case: (ltnP i (size (cl k))) => l2; [by left|right].
    move: nw; case: ifP => si [e1 m].
      by move: l l2; rewrite cs // ; clear; lia.
    by apply/hasP; exists (k, i); rewrite /= ?eqxx ?leqnn // m l2.
  by apply/eqP; rewrite eqn_leq leqNgt H ltnn /= leqNgt -H ltnn.
move=> u nu ui; rewrite /va /= v2; case: ifP => mr.
  case: ifP => // /negbT; rewrite negb_or negbK => /andP [ne uc].
  move: nw; case: ifP => si [e1 m].
    case/eqP: ne; move: mr; rewrite m inE xpair_eqE => /andP [/eqP ek /eqP ei].
    rewrite (index_ext ex uc) -ek in ei; apply: (nth_uniq_index iv uc) => //; by rewrite ek.
  by move: mr; rewrite m (index_ext ex uc) leqNgt index_mem uc.
case: ifP => [|/negbT]; last first.
  by rewrite negb_or negbK => /andP [_ uc]; rewrite (index_ext ex uc).
move: nw; case: ifP => si [e1 m] H.
  case/orP: H => [/eqP e|nc].
    by move: mr; rewrite m e mem_seq1 (index_ext ex si) eqxx.
  by move: ui; rewrite ct // (negbTE nc) /= => us; rewrite (inv_sub iv si nu us) in nc.
have nc : u \notin cl (size u).-1 by case/orP: H => // /eqP ->; rewrite si.
move: mr; rewrite m index_mem ui andbT; have [e E] := ex (size u).-1.
by rewrite E index_cat (negbTE nc) leq_addr.
Qed.

(** Filtration(C) *)
Lemma finv_empty : finv (fun _ => [::]) (fl_empty V).
Proof. by split=> //= [|k]; [exact: inv_new|rewrite nth_nil]. Qed.

Lemma fof_ok cl C : inv cl C -> exists F, [/\ fl_of v0 C = Ok F, finv cl F, fl_X F = C &
  forall u, va cl F u = v0].
Proof.
move=> iv; rewrite /fl_of.
have H n : n <= sc_dims C -> exists2 val,
  ofold (fun val dim => do n <- sc_ncell C dim; fv_reserve v0 val dim n) [::] (iota 0 n) = Ok val &
  [/\ size val = n, forall k, gs val k = if k < n then size (cl k) else 0 & forall k i, gv val k i = v0].
  elim: n => [|n IH] ln.
    by exists [::] => //; split=> // k; rewrite ?nth_nil // => i; rewrite !nth_nil.
  have [val E [s1 g1 v1]] := IH (ltnW ln).
  have [val2 E2 [s2 g2 v2]] := reserve_ok val n (size (cl n)).
  exists val2; first by rewrite -addn1 iotaD ofold_cat E; cbn [obind]; rewrite ofold_cons add0n (ncell_ok iv ln); cbn [obind]; rewrite E2.
  split=> [|k|k i]; [by rewrite s2 s1; clear; lia| |by rewrite v2].
  by rewrite g2 !g1 ltnS; case: eqP => [->|nk]; rewrite ?ltnn ?leqnn ?maxn0 // [in RHS]leq_eqVlt; move/eqP: nk => /negbTE ->.
have [val -> [s1 g1 v1]] := H _ (leqnn _); cbn [obind]; exists (Filt C val); split=> //; last by move=> u; rewrite /va /= v1.
split=> //=; first by rewrite s1.
by move=> k; rewrite g1; case: ltnP => // le; case: iv => _ _ _ Ci _; rewrite Ci.
Qed.

(** adding a list of simplices with values *)
Definition fadd1 F (p : seq nat * V) : outcome (filt V) := do r <- fl_add v0 F p.2 p.1; Ok r.1.
Definition lastv (x : V) (u : seq nat) (L : seq (seq nat * V)) := foldl (fun x p => if sort leq p.1 == u then p.2 else x) x L.

Lemma fadds_ok L F cl : finv cl F -> (forall s, s \in unzip1 L -> s != [::]) ->
  (forall L1 s L2, unzip1 L = L1 ++ s :: L2 -> forall j, j < size s -> 1 < size s ->
     (sort leq (skip j s) \isin cl) \/ skip j s \in L1) ->
  exists (F' : filt V) (cl' : cells_t), [/\ ofold fadd1 F L = Ok F', finv cl' F', extends cl cl',
    forall t, t != [::] -> (t \isin cl') = (t \isin cl) || (t \in [seq sort leq s | s <- unzip1 L]) &
    forall u, u != [::] -> u \isin cl' -> va cl' F' u = lastv (va cl F u) u L].
Proof.
elim/seq.last_ind: L => [|L [s v] IH] fi nn ff.
  by exists F, cl; split=> //; [exact: extends_refl|move=> t nt; rewrite in_nil orbF].
rewrite /unzip1 map_rcons -/(unzip1 L) /= in nn ff.
have [|L1 s1 L2 e|F1 [cl1 [E1 fi1 ex1 ct1 va1]]] := IH fi.
- by move=> u ui; apply: nn; rewrite mem_rcons inE ui orbT.
- by apply: (ff L1 s1 (rcons L2 s)); rewrite e rcons_cat.
have n0 : s != [::] by apply: nn; rewrite mem_rcons mem_head.
have n0' : sort leq s != [::] by rewrite sort_nil.
have fb : facesb cl1 (sort leq s).
  rewrite /facesb size_sort; case: (eqVneq (size s) 1) => //= n1; apply/allP => j.
  rewrite mem_rev mem_iota add0n => lj; have [j' lj' ->] := skip_sort lj.
  have l1 : 1 < size s by case: (s) n0 n1 => //= a [].
  have sz : size (sort leq (skip j' s)) = (size s).-1 by rewrite size_sort size_skip.
  have nz : sort leq (skip j' s) != [::] by rewrite -size_eq0 sz; move: l1; clear; lia.
  rewrite -sz ct1 //.
  have [->//|inL] := ff (unzip1 L) s [::] (esym (cats1 _ _)) j' lj' l1.
  by rewrite map_f ?orbT.
have H : (sort leq s \isin cl1) || facesb cl1 (sort leq s) by rewrite fb orbT.
have [F2 [i [cl2 [E2 [fi2 d2] ex2 ct2 va2]]]] := fadd_ok v fi1 n0' H.
exists F2, cl2; split=> //.
- by rewrite -cats1 ofold_cat E1; cbn [obind]; rewrite ofold_cons /fadd1 fl_addE E2.
- exact: extends_trans ex1 ex2.
- by move=> t nt; rewrite ct2 // ct1 // /unzip1 map_rcons /= map_rcons mem_rcons inE -orbA; congr orb; rewrite orbC.
move=> u nu ui; rewrite va2 // /lastv foldl_rcons /= eq_sym; case: eqP => // ne.
by apply: va1 => //; move: ui; rewrite ct2 // eq_sym; move/eqP: ne => /negbTE ->; rewrite orbF.
Qed.

Definition vlist cl val n : seq (seq nat * V) :=
  flatten [seq [seq (nth [::] (cl k) i, gv val k i) | i <- iota 0 (size (cl k))] | k <- iota 0 n].

Lemma unzip1_vlist cl val n : unzip1 (vlist cl val n) = cell_list cl n.
Proof.
rewrite /unzip1 map_flatten -map_comp /cell_list; congr flatten; apply: eq_map => k /=.
by rewrite -map_comp -[RHS](mkseq_nth [::]); apply: eq_map.
Qed.

Lemma cells_none cl F k : finv cl F -> size (fl_val F) <= k -> cl k = [::].
Proof. by move=> [_ _ g] le; have := g k; rewrite nth_default //= => /esym /size0nil. Qed.

Lemma mem_cell_listv cl F s : finv cl F -> s != [::] -> (s \in cell_list cl (size (fl_val F))) = (s \isin cl).
Proof.
move=> fi n0; have [iv sv g] := fi; apply/flatten_mapP/idP => [[k _ si]|si].
  by rewrite (cl_size iv si).
exists (size s).-1 => //; rewrite mem_iota add0n ltnNge; apply/negP => le.
by rewrite (cells_none fi le) in si.
Qed.

Lemma funion_loop cl2 F2 F : finv cl2 F2 -> fl_union_add v0 F F2 = ofold fadd1 F (vlist cl2 (fl_val F2) (size (fl_val F2))).
Proof.
move=> fi; have [iv sv g] := fi; rewrite /fl_union_add /vlist ofold_flat; apply: ofold_eqin => G k; rewrite mem_iota add0n => lk.
rewrite (ncell_ok iv) ?(leq_trans lk sv) //; cbn [obind]; rewrite ofold_map.
apply: ofold_eqin => G' i; rewrite mem_iota add0n => li; rewrite (simplex_ok iv li); cbn [obind].
rewrite (oget_nth [::] lk); cbn [obind]; rewrite (oget_nth v0) ?g //; cbn [obind].
rewrite /fadd1 /fl_add; cbn [fst snd].
have -> : (size (nth [::] (cl2 k) i)).-1 = k by rewrite (cl_size iv (mem_nth _ li)).
case: (sc_add _ _) => //= -[X' r]; cbn [fst snd]; by case: (fv_store _ _ _ _ _).
Qed.

Lemma funion_ok cl F cl2 F2 : finv cl F -> finv cl2 F2 ->
  exists (F' : filt V) (cl' : cells_t), [/\ fl_union_add v0 F F2 = Ok F', finv cl' F', extends cl cl',
    forall t, t != [::] -> (t \isin cl') = (t \isin cl) || (t \in [seq sort leq s | s <- cell_list cl2 (size (fl_val F2))]) &
    forall u, u != [::] -> u \isin cl' -> va cl' F' u = lastv (va cl F u) u (vlist cl2 (fl_val F2) (size (fl_val F2)))].
Proof.
move=> fi fi2; have [iv2 _ _] := fi2.
have := @fadds_ok (vlist cl2 (fl_val F2) (size (fl_val F2))) F cl fi.
rewrite unzip1_vlist; case=> [s si|L1 s L2 e j lj l1|F' [cl' [E fi' ex ct vv]]].
- exact: cell_list_nonnil iv2 si.
- by right; exact: cell_list_faces iv2 e j lj l1.
by exists F', cl'; split=> //; rewrite (funion_loop _ fi2).
Qed.

(** the last value in the list *)
Lemma lastvP x u L : (exists2 p, lastv x u L = p.2 & List.In p L /\ sort leq p.1 = u) \/
  lastv x u L = x /\ u \notin [seq sort leq s | s <- unzip1 L].
Proof.
elim/seq.last_ind: L => [|L [s v] IH]; first by right.
rewrite /lastv foldl_rcons /= -/(lastv x u L); case: eqP => e.
  by left; exists (s, v) => //; split=> //; rewrite -cats1; apply: List.in_or_app; right; left.
case: IH => [[p e1 [i1 e2]]|[e1 h]]; [left; exists p => //; split=> //|right; split=> //].
  by rewrite -cats1; apply: List.in_or_app; left.
rewrite /unzip1 map_rcons -/(unzip1 L) map_rcons mem_rcons inE negb_or h andbT; by apply/eqP => e3; apply: e.
Qed.

Lemma vlist_in cl F p n : inv cl (fl_X F) -> List.In p (vlist cl (fl_val F) n) ->
  [/\ p.1 != [::], p.1 \isin cl & p.2 = va cl F p.1].
Proof.
move=> iv; rewrite /vlist; elim: (iota 0 n) => [|k l IH] //= H; case: (List.in_app_or _ _ _ H) => {H} //.
have H (l' : seq nat) : all (fun i => i < size (cl k)) l' ->
  List.In p [seq (nth [::] (cl k) i, gv (fl_val F) k i) | i <- l'] -> [/\ p.1 != [::], p.1 \isin cl & p.2 = va cl F p.1].
  elim: l' => [|i l' IH2] //= /andP [li al] [<-|h]; last exact: IH2.
  have si := mem_nth [::] li; have sz := cl_size iv si; have [_ u _] := inv_Wc iv k.
  by rewrite /= /va sz /= si index_uniq // -size_eq0 sz.
by apply: H; apply/allP => i; rewrite mem_iota add0n.
Qed.

(** sublevelset *)
Lemma sc_new_dims m : sc_dims (sc_new m) = m.+1.
Proof. by rewrite /sc_dims size_grow maxn0. Qed.

Lemma sorted_cells cl X n : inv cl X -> sorted (fun a b : seq nat => size a <= size b) (cell_list cl n).
Proof.
move=> iv; have tr : transitive (fun a b : seq nat => size a <= size b) by move=> a b c; exact: leq_trans.
rewrite sorted_pairwise // /cell_list; elim: n => [|n IH] //.
rewrite -addn1 iotaD map_cat flatten_cat pairwise_cat /= cats0 add0n IH /=; apply/andP; split.
  apply/allrelP => a b /flatten_mapP [k lk ai] bi; rewrite (cl_size iv ai) (cl_size iv bi).
  by move: lk; rewrite mem_iota; clear; lia.
have : all (fun s => size s == n.+1) (cl n) by apply/allP => s si; rewrite (cl_size iv si).
elim: (cl n) => [|s l IH2] //= /andP [/eqP e al]; rewrite IH2 // andbT; apply/allP => t ti.
by rewrite e (eqP (allP al _ ti)).
Qed.

Lemma add_list_any L Z : inv (fun _ => [::]) Z -> (forall s, s \in L -> s != [::]) ->
  sorted (fun a b : seq nat => size a <= size b) L ->
  exists (Z' : scx) (cl' : cells_t), [/\ ofold add1 Z L = Ok Z', inv cl' Z' &
    forall t, t != [::] -> (t \isin cl') <-> (forall u, u != [::] -> subseq u t -> u \in [seq sort leq s | s <- L])].
Proof.
move=> iv; elim/seq.last_ind: L => [|L s IH] nn so.
  exists Z, (fun _ => [::]); split=> // t nt; split=> //; move=> /(_ t nt (subseq_refl t)) //.
have tr : transitive (fun a b : seq nat => size a <= size b) by move=> a b c; exact: leq_trans.
have so' : sorted (fun a b : seq nat => size a <= size b) L.
  by move: so; rewrite !sorted_pairwise // -cats1 pairwise_cat => /and3P [].
have [|//|Z1 [cl1 [E1 iv1 ct1]]] := IH.
- by move=> u ui; apply: nn; rewrite mem_rcons inE ui orbT.
have ls u : u \in L -> size u <= size s.
  move=> ui; move: so; rewrite sorted_pairwise // -cats1 pairwise_cat => /andP [/allrelP h _]; apply: h => //.
  by rewrite mem_head.
have n0 : s != [::] by apply: nn; rewrite mem_rcons mem_head.
have n0' : sort leq s != [::] by rewrite sort_nil.
have [Z2 [r [cl2 [E2 iv2 ex2 ct2 [_ _ d2]]]]] := add_step iv1 n0'.
exists Z2, cl2; split=> //.
  by rewrite -cats1 ofold_cat E1; cbn [obind]; rewrite ofold_cons /add1 /sc_add E2.
move=> t nt; rewrite ct2 //; split.
  move=> H u nu us; rewrite map_rcons mem_rcons inE; case/orP: H => [/(ct1 _ nt) h|/andP [/eqP et fb]].
    by rewrite h ?orbT.
  case: (eqVneq u (sort leq s)) => //= ne; rewrite et in us.
  have uc := facesb_sub iv1 fb nu us ne; by move/(ct1 _ nu): uc; apply.
move=> H; have := H t nt (subseq_refl t); rewrite map_rcons mem_rcons inE; case: (eqVneq t (sort leq s)) => [et _|ne /= tL].
  apply/orP; right; rewrite /= /facesb size_sort; case: (eqVneq (size s) 1) => //= n1; apply/allP => j.
  rewrite mem_rev mem_iota add0n -(size_sort leq s) => lj; have sz := size_skip lj.
  have l1 : 1 < size s by case: (s) n0 n1 => //= a [].
  have nz : skip j (sort leq s) != [::] by rewrite -size_eq0 sz size_sort -lt0n -ltnS prednK //; apply: ltnW.
  rewrite -sz; apply/(ct1 _ nz) => u nu us; have := H u nu.
  rewrite et (subseq_trans us (skip_subseq _ _)) => /(_ isT); rewrite map_rcons mem_rcons inE => /orP [/eqP eu|//].
  by have := size_subseq us; rewrite eu sz -ltnS prednK ?ltnn // lt0n size_eq0.
apply/orP; left; apply/(ct1 _ nt) => u nu us; have := H u nu us; rewrite map_rcons mem_rcons inE => /orP [/eqP eu|//].
case/mapP: tL => s' /ls ls' et; exfalso; move/eqP: ne; apply; rewrite -eu; symmetry; apply: subseq_eqs us _.
by rewrite eu et !size_sort.
Qed.

Lemma ofold_filter (A : Type) (f : A -> seq nat -> outcome A) (P : pred (seq nat)) a l :
  ofold (fun a b => if P b then f a b else Ok a) a l = ofold f a (filter P l).
Proof. by elim: l a => [|x l IH] a //=; case: (P x) => //=; case: (f a x). Qed.

Variable le : V -> V -> bool.

Lemma fsub_loop cl F a : finv cl F -> 0 < sc_dims (fl_X F) ->
  fl_sublevelset le F a = ofold add1 (sc_new (sc_dims (fl_X F)).-1) (filter (fun s => le (va cl F s) a) (cell_list cl (size (fl_val F)))).
Proof.
move=> fi d0; have [iv sv g] := fi; rewrite /fl_sublevelset (ncell_ok iv d0); cbn [obind].
rewrite -ofold_filter /cell_list ofold_flat; apply: ofold_eqin => Y k; rewrite mem_iota add0n => lk.
rewrite (oget_nth [::] lk); cbn [obind]; rewrite -{1}(mkseq_nth [::] (cl k)) /mkseq ofold_map g.
apply: ofold_eqin => Y' i; rewrite mem_iota add0n => li; rewrite (oget_nth v0) ?g //; cbn [obind].
rewrite (simplex_ok iv li); cbn [obind].
have [_ u _] := inv_Wc iv k; by rewrite /va (cl_size iv (mem_nth [::] li)) /= index_uniq.
Qed.

Lemma fsub_ok cl F a : finv cl F -> 0 < sc_dims (fl_X F) ->
  exists (Y : scx) (cl' : cells_t), [/\ fl_sublevelset le F a = Ok Y, inv cl' Y, sc_dims Y >= 0 &
    forall t, t != [::] -> (t \isin cl') <-> (forall u, u != [::] -> subseq u t ->
      exists s, [/\ s != [::], s \isin cl, sort leq s = u & le (va cl F s) a])].
Proof.
move=> fi d0; have [iv sv g] := fi.
have := @add_list_any (filter (fun s => le (va cl F s) a) (cell_list cl (size (fl_val F)))) _ (inv_new (sc_dims (fl_X F)).-1).
case=> [s||Y [cl' [E iv' ct]]].
- by rewrite mem_filter => /andP [_ si]; exact: cell_list_nonnil iv si.
- apply: sorted_filter; first by move=> x y z; exact: leq_trans.
  exact: sorted_cells iv.
exists Y, cl'; split=> //; first by rewrite (fsub_loop a fi d0).
move=> t nt; rewrite (ct t nt); split=> H u nu us.
  have /mapP [s] := H u nu us; rewrite mem_filter => /andP [l si] e; exists s.
  have n0 : s != [::] by exact: cell_list_nonnil iv si.
  by rewrite -(mem_cell_listv fi n0).
have [s [n0 si <- l]] := H u nu us; apply/mapP; exists s => //; by rewrite mem_filter l (mem_cell_listv fi n0).
Qed.

Lemma fbuilt_inv F : fbuilt v0 F -> exists2 cl, finv cl F & built (fl_X F).
Proof.
elim=> {F} [|C F bC E|C val bC sv nv|F t s F' r _ [cl fi b] E|F t s F' r _ [cl fi b] E|F t s F' r _ [cl fi b] E|F F2 F' _ [cl fi b] _ [cl2 fi2 b2] E].
- by exists (fun _ => [::]); [exact: finv_empty|exact: built_new].
- have [cl iv d0] := built_inv bC; have [F' [E' fi e _]] := fof_ok iv; move: E; rewrite E' => -[<-].
  by exists cl => //; rewrite e.
- have [cl iv d0] := built_inv bC; exists cl => //; split=> //=; first by rewrite sv.
  move=> k; case: (ltnP k (sc_dims C)) => lk; first by have := nv k lk; rewrite (ncell_ok iv lk) => -[].
  by rewrite nth_default ?sv //; have [_ _ _ Ci _] := iv; rewrite Ci.
- have bX : built (fl_X F').
    by move: E; rewrite /fl_add; case E1: sc_add => [[X' r']|||] //=; case: fv_store => //= val [<- _] /=; exact: built_add E1.
  case: (altP (s =P [::])) => [e|n0]; first by rewrite e in E.
  move: E; rewrite fl_addE; rewrite -sort_nil in n0; case: (boolP ((sort leq s \isin cl) || facesb cl (sort leq s))) => H.
    by have [F1 [i [cl' [-> [fi' _] _ _ _]]]] := fadd_ok t fi n0 H; case=> e _; exists cl' => //; rewrite -e.
  by rewrite (fadd_fail t fi n0 H).
- have bX : built (fl_X F').
    by move: E; rewrite /fl_add_directed; case E1: sc_add_directed => [[X' r']|||] //=; case: fv_store => //= val [<- _] /=; exact: built_add_directed E1.
  case: (altP (s =P [::])) => [e|n0]; first by rewrite e in E.
  move: E; case: (boolP ((s \isin cl) || facesb cl s)) => H.
    by have [F1 [i [cl' [-> [fi' _] _ _ _]]]] := fadd_ok t fi n0 H; case=> e _; exists cl' => //; rewrite -e.
  by rewrite (fadd_fail t fi n0 H).
- have bX : built (fl_X F').
    by move: E; rewrite /fl_add_recursive; case E1: sc_add_recursive => [[X' r']|||] //=; case: ofold => //= val [<- _] /=; exact: built_add_recursive E1.
  case: (altP (s =P [::])) => [e|n0]; first by rewrite e in E.
  by have [F1 [i [cl' [E1 [fi' _] _ _ _]]]] := frec_ok t fi n0; move: E; rewrite E1; case=> e _; exists cl' => //; rewrite -e.
- have [F1 [cl' [E1 fi' _ _ _]]] := funion_ok fi fi2; exists cl'; first by move: E; rewrite E1; case=> <-.
  move: E; rewrite (funion_loop _ fi2); elim: (vlist _ _ _) F b {fi E1} => [|[s v] L IH] F b /=; first by case=> <-.
  rewrite /fadd1 /=; case E2: fl_add => [[G r]|||] //=; apply: IH.
  by move: E2; rewrite /fl_add; case E3: sc_add => [[X' r']|||] //=; case: fv_store => //= val [<- _] /=; exact: built_add E3.
Qed.
End PF.
