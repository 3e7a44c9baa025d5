(** C50: landmark selection and the enclosing radius. *)
From mathcomp Require Import all_ssreflect all_algebra zify.
From Verif Require Import Outcome M_Simplicial M_Flag M_Nerve M_Landmark S_Simplicial S_Flag P_Outcome P_Flag Props_Flag.
Set Implicit Arguments.
Unset Strict Implicit.
Unset Printing Implicit Defensive.

(** ** specification *)
(** h is the largest distance of a point p < n from the set L, D i p being the distance from i to p *)
Definition is_hausdorff (V : eqType) (le : V -> V -> bool) (D : nat -> nat -> V) (n : nat) (L : seq nat) (h : V) : Prop :=
  (forall p, p < n -> exists2 i, i \in L & le (D i p) h) /\ (exists2 p, p < n & forall i, i \in L -> le h (D i p)).
(** p is a point farthest from L *)
Definition farthest (V : eqType) (le : V -> V -> bool) (D : nat -> nat -> V) (n : nat) (L : seq nat) (p : nat) : Prop :=
  p < n /\ forall q, q < n -> exists2 i, i \in L & forall j, j \in L -> le (D i q) (D j p).

Section L.
Variable V : eqType.
Variable v0 z top : V.
Variable le : V -> V -> bool.
Hypothesis le_total : total le.
Hypothesis le_trans : transitive le.
Hypothesis le_anti : antisymmetric le.
Notation lt a b := (~~ le b a).
Lemma lrr v : le v v. Proof. by have := le_total v v; rewrite orbb. Qed.
Lemma lW a b : lt a b -> le a b. Proof. by have := le_total a b; case: (le a b) => //= ->. Qed.

Lemma max_indexP d : d != [::] -> exists2 i, max_index v0 le d = Ok i & i < size d /\ forall j, j < size d -> le (nth v0 d j) (nth v0 d i).
Proof.
case: d => // x d _; rewrite /max_index; eexists; first by reflexivity.
set dd := x :: d; have -> : (size dd).-1 = size d by [].
have H k : k <= size d -> let i := foldl (fun m i => if lt (nth v0 dd m) (nth v0 dd i) then i else m) 0 (iota 1 k) in
   i < size dd /\ forall j, j <= k -> le (nth v0 dd j) (nth v0 dd i).
  elim: k => [|k IH] kd; first by split=> // -[|//] _; exact: lrr.
  have := IH (ltnW kd); have -> : iota 1 k.+1 = rcons (iota 1 k) k.+1 by rewrite -[k.+1]addn1 iotaD -cats1 add1n addn1.
  rewrite foldl_rcons; cbv zeta; set i := foldl _ _ _ => -[h1 h2]; case: ifP => lt1.
    split; first by rewrite /= ltnS.
    move=> j; rewrite leq_eqVlt => /orP[/eqP ->|jk]; first exact: lrr.
    by apply: le_trans (lW lt1); apply: h2.
  split=> // j; rewrite leq_eqVlt => /orP[/eqP ->|jk]; last exact: h2.
  by move/negbT: lt1; rewrite negbK.
have [h1 h2] := H (size d) (leqnn _); split=> // j; rewrite /= ltnS; exact: h2.
Qed.
Lemma min_indexP d : d != [::] -> exists2 i, min_index v0 le d = Ok i & i < size d /\ forall j, j < size d -> le (nth v0 d i) (nth v0 d j).
Proof.
case: d => // x d _; rewrite /min_index; eexists; first by reflexivity.
set dd := x :: d; have -> : (size dd).-1 = size d by [].
have H k : k <= size d -> let i := foldl (fun m i => if lt (nth v0 dd i) (nth v0 dd m) then i else m) 0 (iota 1 k) in
   i < size dd /\ forall j, j <= k -> le (nth v0 dd i) (nth v0 dd j).
  elim: k => [|k IH] kd; first by split=> // -[|//] _; exact: lrr.
  have := IH (ltnW kd); have -> : iota 1 k.+1 = rcons (iota 1 k) k.+1 by rewrite -[k.+1]addn1 iotaD -cats1 add1n addn1.
  rewrite foldl_rcons; cbv zeta; set i := foldl _ _ _ => -[h1 h2]; case: ifP => lt1.
    split; first by rewrite /= ltnS.
    move=> j; rewrite leq_eqVlt => /orP[/eqP ->|jk]; first exact: lrr.
    by apply: le_trans (lW lt1) _; apply: h2.
  split=> // j; rewrite leq_eqVlt => /orP[/eqP ->|jk]; last exact: h2.
  by move/negbT: lt1; rewrite negbK.
have [h1 h2] := H (size d) (leqnn _); split=> // j; rewrite /= ltnS; exact: h2.
Qed.

Variable D : nat -> nat -> V.
Variable n : nat.
Local Notation rowv i := [seq D i j | j <- iota 0 n].
Lemma row_nth i j : j < n -> nth v0 (rowv i) j = D i j.
Proof. by move=> jn; rewrite (nth_map 0) ?size_iota // nth_iota. Qed.
(** d holds the distances from the set inds *)
Definition dinv (inds : seq nat) (d : seq V) : Prop :=
  size d = n /\ forall j, j < n -> forall t, le (nth v0 d j) t = has (fun i => le (D i j) t) inds.
Lemma dinv_row i : dinv [:: i] (rowv i).
Proof. by split=> [|j jn t]; rewrite ?size_map ?size_iota // row_nth //= orbF. Qed.
Lemma dinv_eq inds inds' d : inds =i inds' -> dinv inds d -> dinv inds' d.
Proof. by move=> e [s h]; split=> // j jn t; rewrite h //; apply: eq_has_r. Qed.
Lemma upd_nth d di j : size d = n -> size di = n -> j < n -> nth v0 (upd le d di) j = (if lt (nth v0 d j) (nth v0 di j) then nth v0 d j else nth v0 di j).
Proof. by move=> s1 s2 jn; rewrite /upd (nth_map (v0, v0)) ?size_zip ?s1 ?s2 ?minnn // nth_zip ?s1 ?s2. Qed.
Lemma dinv_upd inds d i : dinv inds d -> dinv (rcons inds i) (upd le d (rowv i)).
Proof.
move=> [s h]; have sr : size (rowv i) = n by rewrite size_map size_iota.
split=> [|j jn t]; first by rewrite /upd size_map size_zip s sr minnn.
rewrite has_rcons -h // upd_nth // row_nth //; case: ifP => c.
  case: (boolP (le (nth v0 d j) t)) => [|ndt]; rewrite ?orbT ?orbF //; apply/esym/negP => dt; by move: ndt; rewrite (le_trans (lW c) dt).
move/negbT: c; rewrite negbK => c; case: (boolP (le (D i j) t)) => //= h1; apply/esym/negP => h2; move: h1; by rewrite (le_trans c h2).
Qed.
Lemma dinv_le inds d j i : dinv inds d -> j < n -> i \in inds -> le (nth v0 d j) (D i j).
Proof. by move=> [_ h] jn ii; rewrite h //; apply/hasP; exists i => //; exact: lrr. Qed.
Lemma dinv_ex inds d j : dinv inds d -> j < n -> exists2 i, i \in inds & le (D i j) (nth v0 d j).
Proof. by move=> [_ h] jn; have := lrr (nth v0 d j); rewrite h // => /hasP. Qed.
Lemma dinv_haus inds d i : dinv inds d -> i < n -> (forall j, j < n -> le (nth v0 d j) (nth v0 d i)) -> is_hausdorff le D n inds (nth v0 d i).
Proof.
move=> iv li mx; split=> [p pn|]; last by exists i => // k; exact: dinv_le.
have [k ki h] := dinv_ex iv pn; exists k => //; exact: le_trans h (mx p pn).
Qed.
Lemma dinv_far inds d i : dinv inds d -> i < n -> (forall j, j < n -> le (nth v0 d j) (nth v0 d i)) -> farthest le D n inds i.
Proof.
move=> iv li mx; split=> // q qn; have [k ki h] := dinv_ex iv qn; exists k => // j ji.
apply: le_trans h (le_trans (mx q qn) _); exact: dinv_le iv li ji.
Qed.

(** ** greedy_landmarks_hausdorff *)
Record ginv (i0 : nat) (st : seq nat * seq V * seq V) : Prop := GInv {
  gi_sz : size st.1.1 = (size st.1.2).+1;
  gi_hd : head n st.1.1 = i0;
  gi_lt : all (fun i => i < n) st.1.1;
  gi_d : dinv st.1.1 st.2;
  gi_h : forall j, j < size st.1.2 -> is_hausdorff le D n (take j.+1 st.1.1) (nth v0 st.1.2 j) /\ farthest le D n (take j.+1 st.1.1) (nth n st.1.1 j.+1) /\
     forall i, i \in take j.+1 st.1.1 -> le (nth v0 st.1.2 j) (D i (nth n st.1.1 j.+1)) }.
Lemma row_ok i : i < n -> row D n i = Ok (rowv i). Proof. by rewrite /row => ->. Qed.
Lemma gstep i0 st : ginv i0 st -> exists i, [/\ max_index v0 le st.2 = Ok i, i < n, is_hausdorff le D n st.1.1 (nth v0 st.2 i) &
  ginv i0 (rcons st.1.1 i, rcons st.1.2 (nth v0 st.2 i), upd le st.2 (rowv i))].
Proof.
case: st => [[inds hds] d] [/= sz hd al iv gh]; have [sd _] := iv.
have n0 : 0 < n by case: inds sz al {hd iv gh} => //= x l _ /andP[xn _]; exact: leq_ltn_trans xn.
have [|i E [li mx]] := @max_indexP d; first by rewrite -size_eq0 sd -lt0n.
rewrite sd in li mx; exists i; split=> //; first exact: dinv_haus.
split=> //=.
- by rewrite !size_rcons sz.
- by case: (inds) sz hd => //= x [].
- by rewrite all_rcons li.
- exact: dinv_upd.
move=> j; rewrite size_rcons ltnS leq_eqVlt => /orP[/eqP ->|jh].
  have -> : take (size hds).+1 (rcons inds i) = inds by rewrite -cats1 -sz take_size_cat.
  rewrite [nth v0 _ _]nth_rcons ltnn eqxx -sz nth_rcons ltnn eqxx; split; [exact: dinv_haus|split; [exact: dinv_far iv li mx|move=> k; exact: dinv_le]].
have js : j.+1 < size inds by rewrite sz.
have -> : take j.+1 (rcons inds i) = take j.+1 inds by rewrite -cats1 takel_cat // ltnW.
by rewrite !nth_rcons jh js; exact: gh.
Qed.
Lemma gloop i0 fuel k st : ginv i0 st -> k <= fuel + size st.1.1 -> exists st', [/\ glh_loop v0 le D n fuel k st = Ok st', ginv i0 st', size st'.1.1 = maxn k (size st.1.1) &
  exists e, st'.1.1 = st.1.1 ++ e].
Proof.
elim: fuel st => [|fuel IH] st iv fu; rewrite [glh_loop _ _ _ _ _ _ _]/glh_loop -/(glh_loop _ _ _ _) .
  have sk : size st.1.1 < k = false by apply/negbTE; rewrite -leqNgt.
  by rewrite sk; exists st; split=> //; [rewrite (maxn_idPr fu)|exists [::]; rewrite cats0].
case: ifP => sk; last first.
  by move/negbT: sk; rewrite -leqNgt => sk; exists st; split=> //; [rewrite (maxn_idPr sk)|exists [::]; rewrite cats0].
have [i [E li _ iv']] := gstep iv; case: st E iv iv' fu sk => [[inds hds] d] /= E iv iv' fu sk; rewrite E; cbn [obind]; rewrite row_ok //; cbn [obind].
have [|st' [E' iv2 sz [e ee]]] := IH _ iv'; first by rewrite /= size_rcons addnS -addSn.
exists st'; split=> //; last by exists (i :: e); rewrite ee /= cat_rcons.
by rewrite sz /= size_rcons; rewrite (maxn_idPl sk) (maxn_idPl (ltnW sk)).
Qed.
Lemma ginv0 i0 : i0 < n -> ginv i0 ([:: i0], [::], rowv i0).
Proof. by move=> li; split=> //=; [rewrite li|exact: dinv_row]. Qed.
(** greedy_landmarks_hausdorff(D, dist, i0, k) returns max(k, 1) indices, the first i0 and every other one a point farthest
    from those before it; hds[j] is the Hausdorff distance of the first j + 1 landmarks from the data *)
Theorem C50_greedy_k i0 k : i0 < n -> exists inds hds, [/\ glh_k v0 le D n i0 k = Ok (inds, hds),
  size inds = maxn k 1 /\ size hds = maxn k 1, nth n inds 0 = i0,
  forall j, 0 < j < size inds -> farthest le D n (take j inds) (nth n inds j) &
  forall j, j < size inds -> is_hausdorff le D n (take j.+1 inds) (nth v0 hds j)].
Proof.
move=> li; rewrite /glh_k row_ok //; cbn [obind]; have [|st [E iv sz [e ee]]] := @gloop i0 k k _ (ginv0 li); first exact: leq_addr.
rewrite E; cbn [obind]; have [i [Em lin hi iv']] := gstep iv; rewrite Em; cbn [obind]; exists st.1.1, (rcons st.1.2 (nth v0 st.2 i)).
case: st {E} iv sz ee Em hi iv' => [[inds hds] d] /= [/= s1 hd al iv gh] sz ee Em hi iv'; rewrite size_rcons -s1 sz; split=> //.
- by case=> // j /andP[_ jl]; have [|_ [h _]] := gh j; first by move: jl; rewrite -sz s1.
move=> j jl; rewrite nth_rcons; case: (ltnP j (size hds)) => jh; first by have [] := gh j jh.
have ej : j = size hds by apply/eqP; rewrite eqn_leq jh andbT -ltnS -s1 sz.
by rewrite ej eqxx -s1 take_size.
Qed.
(** the Hausdorff distances never increase *)
Theorem C50_hausdorff_mono L i h h' : is_hausdorff le D n L h -> is_hausdorff le D n (rcons L i) h' -> le h' h.
Proof.
move=> [h1 _] [_ [p pn h2]]; have [k kL h3] := h1 p pn; apply: le_trans h3; apply: h2; by rewrite mem_rcons inE kL orbT.
Qed.
Theorem C50_hausdorff_unique L h h' : is_hausdorff le D n L h -> is_hausdorff le D n L h' -> h = h'.
Proof.
move=> [a1 [p1 n1 b1]] [a2 [p2 n2 b2]]; apply: le_anti; apply/andP; split.
  by have [k kL c] := a2 p1 n1; exact: le_trans (b1 k kL) c.
by have [k kL c] := a1 p2 n2; exact: le_trans (b2 k kL) c.
Qed.

Hypothesis Dz : forall i, i < n -> D i i = z.
Hypothesis Dp : forall i j, i < n -> j < n -> le z (D i j).
(** a landmark chosen twice: the landmarks before it already have distance zero *)
Lemma repeat_zero i0 st a b : ginv i0 st -> a < b < size st.1.1 -> nth n st.1.1 a = nth n st.1.1 b ->
  forall p, p < n -> exists2 i, i \in take b st.1.1 & le (D i p) z.
Proof.
case: st => [[inds hds] d] [/= sz hd al iv gh] /andP[ab bl] e p pn; case: b ab bl e => // b ab bl e.
have [|[h1 _] [_ h2]] := gh b; first by rewrite -ltnS -sz.
have [i iL c] := h1 p pn; exists i => //; apply: le_trans c _; have ai : nth n inds a \in take b.+1 inds.
  by rewrite -(nth_take n ab) mem_nth // size_take; case: ifP => // _; exact: leq_trans ab (ltnW bl).
have := h2 _ ai; rewrite e Dz //; exact: (allP al _ (mem_nth _ bl)).
Qed.
(** greedy_landmarks_hausdorff(D, dist, i0): as many indices as points (duplicates of points may make an index repeat);
    all Hausdorff distances, also the last, are right *)
Theorem C50_greedy i0 : i0 < n -> exists inds hds, [/\ glh v0 z le D n i0 = Ok (inds, hds),
  size inds = n /\ size hds = n, nth n inds 0 = i0,
  forall j, 0 < j < size inds -> farthest le D n (take j inds) (nth n inds j) &
  forall j, j < size inds -> is_hausdorff le D n (take j.+1 inds) (nth v0 hds j)].
Proof.
move=> li; rewrite /glh row_ok //; cbn [obind]; have [|st [E iv sz [e ee]]] := @gloop i0 n n _ (ginv0 li); first exact: leq_addr.
rewrite E; cbn [obind]; exists st.1.1, (rcons st.1.2 z); have rz := repeat_zero iv.
case: st {E} iv sz ee rz => [[inds hds] d] /= [/= s1 hd al iv gh] sz ee rz; have n1 : 0 < n by exact: leq_ltn_trans li.
rewrite (maxn_idPl n1) in sz; rewrite size_rcons -s1 sz; split=> //.
- by case=> // j /andP[_ jl]; have [|_ [h _]] := gh j; first by move: jl; rewrite -sz s1.
move=> j jl; rewrite nth_rcons; case: (ltnP j (size hds)) => jh; first by have [] := gh j jh.
have ej : j = size hds by apply/eqP; rewrite eqn_leq jh andbT -ltnS -s1 sz.
rewrite ej eqxx -s1 take_size; split; last by exists i0 => // i ii; apply: Dp => //; exact: (allP al).
move=> p pn; case: (boolP (uniq inds)) => [un|/(uniqPn n)[a [b [ab bl eab]]]]; last first.
  by have [|i ib c] := rz a b _ eab p pn; [rewrite ab|exists i => //; exact: mem_take ib].
have sub : {subset inds <= iota 0 n} by move=> x /(allP al); rewrite mem_iota.
have [|_ me] := uniq_min_size un sub; first by rewrite size_iota sz.
exists p; first by rewrite me mem_iota.
by rewrite Dz ?lrr.
Qed.
(** with different points (positive distances) the indices of the first k <= n landmarks are different; the full order
    is a permutation of the points *)
Hypothesis Dd : forall i j, i < n -> j < n -> i != j -> lt z (D i j).
Lemma ginv_uniq i0 st : ginv i0 st -> size st.1.1 <= n -> uniq st.1.1.
Proof.
move=> iv sn; apply/negPn/negP => /(uniqPn n)[a [b [ab bl eab]]]; have rz := @repeat_zero i0 st a b iv; rewrite ab bl in rz; have {}rz := rz isT eab.
have al := gi_lt iv; have sub : {subset iota 0 n <= take b st.1.1}.
  move=> p; rewrite mem_iota add0n => /andP[_ pn]; have [i ib c] := rz p pn; have li : i < n by apply: (allP al); exact: mem_take ib.
  by case: (i =P p) ib => [->|/eqP ne] //; move: (Dd li pn ne); rewrite c.
have := uniq_leq_size (iota_uniq 0 n) sub; rewrite size_iota size_take bl leqNgt; by rewrite (leq_trans bl sn).
Qed.
Theorem C50_greedy_distinct i0 k inds hds : i0 < n -> k <= n -> glh_k v0 le D n i0 k = Ok (inds, hds) -> uniq inds.
Proof.
move=> li kn; rewrite /glh_k row_ok //; cbn [obind]; have [|st [E iv sz _]] := @gloop i0 k k _ (ginv0 li); first exact: leq_addr.
rewrite E; cbn [obind]; case: (max_index _ _ _) => //= i [<- _]; apply: (ginv_uniq iv); rewrite sz /= geq_max kn; exact: leq_ltn_trans li.
Qed.
Theorem C50_greedy_permutation i0 inds hds : i0 < n -> glh v0 z le D n i0 = Ok (inds, hds) -> perm_eq inds (iota 0 n).
Proof.
move=> li; rewrite /glh row_ok //; cbn [obind]; have [|st [E iv sz _]] := @gloop i0 n n _ (ginv0 li); first exact: leq_addr.
have n1 : 0 < n by exact: leq_ltn_trans li.
rewrite E; cbn [obind] => -[<- _]; rewrite (maxn_idPl n1) in sz; have un : uniq st.1.1 by apply: (ginv_uniq iv); rewrite sz.
apply: uniq_perm => //; first exact: iota_uniq.
have sub : {subset st.1.1 <= iota 0 n} by move=> x /(allP (gi_lt iv)); rewrite mem_iota.
by have [|_ me] := uniq_min_size un sub; first by rewrite size_iota sz.
Qed.
Lemma glh_loop_fuel f f' k st r : glh_loop v0 le D n f k st = Ok r -> f <= f' -> glh_loop v0 le D n f' k st = Ok r.
Proof.
elim: f f' st => [|f IH] [|f'] [[inds hds] d] //=; case: ifP => //= sk; case: (max_index _ _ _) => //= i; case: (row _ _ _) => //= di; exact: IH.
Qed.
Lemma glh_prefix f k st r : glh_loop v0 le D n f k st = Ok r -> exists e, r.1.1 = st.1.1 ++ e.
Proof.
elim: f st => [|f IH] [[inds hds] d] /=; case: ifP => sk //; try by case=> <-; exists [::]; rewrite cats0.
case: (max_index _ _ _) => //= i; case: (row _ _ _) => //= di /IH [e /= ->]; by exists (i :: e); rewrite cat_rcons.
Qed.
Lemma greedy_lockstep f k st r : glh_loop v0 le D n f k st = Ok r -> (exists e, r.1.1 = st.1.1 ++ e) -> uniq r.1.1 ->
  greedy_loop v0 le D n f k (sort leq st.1.1) st.2 = Ok (sort leq r.1.1).
Proof.
elim: f st => [|f IH] [[inds hds] d]; cbn [glh_loop greedy_loop fst snd]; rewrite size_sort; case: ifP => sk //; try by case=> <-.
case Em: (max_index _ _ _) => [i| | |] //; cbn [obind]; case Er: (row _ _ _) => [di| | |] //; cbn [obind] => E [e ee] un.
have [st' [e' ee']] : exists st', exists e', r.1.1 = rcons inds i ++ e' /\ st' = r.
  have [e' h] := glh_prefix E; by exists r, e'.
rewrite -(IH _ E) //; last by case: ee' => h _; exists e'.
congr greedy_loop; rewrite /set_insert mem_sort ifF; last first.
  apply/negbTE; move: un; have [-> _] := ee'; by rewrite cat_uniq rcons_uniq => /andP[/andP[]].
by apply: srtP; rewrite perm_sym perm_rcons perm_cons perm_sym; apply/permPl; exact: perm_sort.
Qed.
(** greedy_landmarks(D, k, dist, i0), different points, 1 <= k <= n: returns, in increasing order, the first k landmarks of
    greedy_landmarks_hausdorff *)
Theorem C50_greedy_landmarks fuel k i0 : i0 < n -> 0 < k <= n -> k <= fuel -> exists inds hds,
  [/\ glh_k v0 le D n i0 k = Ok (inds, hds), greedy_landmarks v0 le D n fuel k i0 = Ok (sort leq inds) & size inds = k].
Proof.
move=> li /andP[k0 kn] kf; have [inds [hds [E [sz _] _ _ _]]] := C50_greedy_k k li; exists inds, hds; split=> //; last by rewrite sz (maxn_idPl k0).
have un := C50_greedy_distinct li kn E; move: E; rewrite /glh_k /greedy_landmarks row_ok //; cbn [obind].
case El: (glh_loop _ _ _ _ _ _ _) => [st| | |] //; cbn [obind]; case: (max_index _ _ _) => //= i [e1 _].
have El' := glh_loop_fuel El kf; rewrite -e1; apply: (greedy_lockstep El'); last by rewrite e1.
exact: glh_prefix El'.
Qed.
End L.

Section L2.
Variable V : eqType.
Variable v0 z top : V.
Variable le : V -> V -> bool.
Hypothesis le_total : total le.
Hypothesis le_trans : transitive le.
Hypothesis le_anti : antisymmetric le.
Notation lt a b := (~~ le b a).
Variable D : nat -> nat -> V.
Variable n : nat.
Local Notation rowv i := [seq D i j | j <- iota 0 n].
Lemma set_insert_mem s i x : (x \in set_insert s i) = (x == i) || (x \in s).
Proof. by rewrite /set_insert; case: ifP => h; rewrite ?mem_sort ?inE //; case: eqP => // ->. Qed.
Lemma set_insert_sorted s i : sorted ltn s -> sorted ltn (set_insert s i).
Proof. by move=> so; rewrite /set_insert; case: ifP => // /negbT h; apply: srt_ltn; rewrite /= h ltn_uniq. Qed.

(** with fewer different points than landmarks asked for greedy_landmarks does not return: all points the same, k > 2 *)
Theorem C50_greedy_diverges fuel k i0 : i0 < n -> (forall i j, i < n -> j < n -> D i j = z) -> 2 < k ->
  greedy_landmarks v0 le D n fuel k i0 = OutOfFuel.
Proof.
move=> li Dz k2; have n0 : 0 < n by exact: leq_ltn_trans li.
have er i : i < n -> rowv i = nseq n z.
  move=> lin; apply: (@eq_from_nth _ v0); rewrite ?size_map ?size_iota ?size_nseq // => j jn.
  by rewrite (nth_map 0) ?size_iota // nth_iota // Dz // nth_nseq jn.
have eu : upd le (nseq n z) (nseq n z) = nseq n z.
  by rewrite /upd; elim: (n) => //= m ->; rewrite lrr.
have mi : max_index v0 le (nseq n z) = Ok 0.
  rewrite /max_index; case: (n) n0 => //= m _; congr Ok; rewrite size_nseq.
  have H l : all (fun i => i < m.+1) l -> foldl (fun m0 i => if lt (nth v0 (z :: nseq m z) m0) (nth v0 (z :: nseq m z) i) then i else m0) 0 l = 0.
    elim: l => //= i l IH /andP[im al]; have -> : nth v0 (z :: nseq m z) i = z by rewrite -[z :: nseq m z]/(nseq m.+1 z) nth_nseq im.
    by rewrite lrr //; exact: IH.
  by apply: H; apply/allP => i; rewrite mem_iota add1n => /andP[_].
rewrite /greedy_landmarks row_ok // er //; cbn [obind].
have H l : sorted ltn l -> {subset l <= [:: 0; i0]} -> greedy_loop v0 le D n fuel k l (nseq n z) = OutOfFuel.
  elim: fuel l => [|f IH] l so sub; cbn [greedy_loop].
    by rewrite (leq_ltn_trans (uniq_leq_size (ltn_uniq so) sub)).
  rewrite (leq_ltn_trans (uniq_leq_size (ltn_uniq so) sub)) // mi; cbn [obind]; rewrite row_ok //; cbn [obind]; rewrite er // eu.
  apply: IH; first exact: set_insert_sorted.
  by move=> x; rewrite set_insert_mem => /orP[/eqP ->|/sub //]; rewrite mem_head.
by apply: H => // x; rewrite !inE => ->; rewrite orbT.
Qed.

(** hausdorff_landmarks(D, r, dist, i0), every point within r of itself: returns a set that contains i0, is within r of every
    point, and of any two landmarks one is farther than r from the other *)
Theorem C50_hausdorff_landmarks fuel r i0 : i0 < n -> n <= fuel -> (forall i, i < n -> le (D i i) r) ->
  exists L, [/\ hausdorff_landmarks v0 le D n fuel r i0 = Ok L, sorted ltn L /\ i0 \in L, forall i, i \in L -> i < n,
    forall p, p < n -> exists2 i, i \in L & le (D i p) r & forall i j, i \in L -> j \in L -> i != j -> lt r (D i j) \/ lt r (D j i)].
Proof.
move=> li nf Dr; rewrite /hausdorff_landmarks row_ok //; cbn [obind].
have H f L d : n <= f + size L -> dinv v0 le D n L d -> sorted ltn L -> i0 \in L -> (forall i, i \in L -> i < n) ->
    (forall i j, i \in L -> j \in L -> i != j -> lt r (D i j) \/ lt r (D j i)) ->
    exists K, [/\ haus_loop v0 le D n f r L d = Ok K, sorted ltn K /\ i0 \in K, forall i, i \in K -> i < n,
    forall p, p < n -> exists2 i, i \in K & le (D i p) r & forall i j, i \in K -> j \in K -> i != j -> lt r (D i j) \/ lt r (D j i)].
  elim: f L d => [|f IH] L d fu iv so iL al sep.
    have [sd _] := iv; have d0 : d != [::] by rewrite -size_eq0 sd -lt0n; exact: leq_ltn_trans li.
    have [i E [lin mx]] := max_indexP v0 le_total le_trans d0; cbn [haus_loop]; rewrite E; cbn [obind].
    rewrite sd in lin mx; have sub : {subset L <= iota 0 n} by move=> x /al; rewrite mem_iota.
    have [|_ me] := uniq_min_size (ltn_uniq so) sub; first by rewrite size_iota.
    have -> : le (nth v0 d i) r.
      by apply: le_trans (dinv_le le_total iv lin _) (Dr i lin); rewrite me mem_iota.
    exists L; split=> // p pn; have [k kL h] := dinv_ex le_total iv pn; exists k => //; apply: le_trans h (le_trans (mx p pn) _).
    by apply: le_trans (dinv_le le_total iv lin _) (Dr i lin); rewrite me mem_iota.
  have [sd _] := iv; have d0 : d != [::] by rewrite -size_eq0 sd -lt0n; exact: leq_ltn_trans li.
  have [i E [lin mx]] := max_indexP v0 le_total le_trans d0; cbn [haus_loop]; rewrite E; cbn [obind]; rewrite sd in lin mx.
  case: (boolP (le (nth v0 d i) r)) => [ir|ri] /=.
    exists L; split=> // p pn; have [k kL h] := dinv_ex le_total iv pn; exists k => //; exact: le_trans h (le_trans (mx p pn) ir).
  have far k : k \in L -> lt r (D k i).
    by move=> kL; apply: contra ri => h; exact: le_trans (dinv_le le_total iv lin kL) h.
  have niL : i \notin L by apply/negP => /far; rewrite Dr.
  rewrite row_ok //; cbn [obind]; apply: IH.
  - by rewrite /set_insert (negbTE niL) size_sort /= addnS -addSn.
  - apply: dinv_eq (dinv_upd le_total le_trans i iv) => x; by rewrite mem_rcons inE set_insert_mem.
  - exact: set_insert_sorted.
  - by rewrite set_insert_mem iL orbT.
  - by move=> k; rewrite set_insert_mem => /orP[/eqP ->|/al].
  move=> a b; rewrite !set_insert_mem => /orP[/eqP ->|aL] /orP[/eqP ->|bL]; rewrite ?eqxx // => ab.
  - by right; exact: far.
  - by left; exact: far.
  - exact: sep.
apply: H => //.
- by rewrite addn1 ltnW // ltnS.
- exact: dinv_row.
- by rewrite mem_head.
- by move=> i; rewrite inE => /eqP ->.
by move=> i j; rewrite !inE => /eqP -> /eqP ->; rewrite eqxx.
Qed.
(** with r below every distance (a negative r) it does not return *)
Theorem C50_hausdorff_diverges fuel r i0 : i0 < n -> (forall i j, i < n -> j < n -> lt r (D i j)) ->
  hausdorff_landmarks v0 le D n fuel r i0 = OutOfFuel.
Proof.
move=> li Dr; rewrite /hausdorff_landmarks row_ok //; cbn [obind].
suff H f L d : (exists2 K, dinv v0 le D n K d & forall i, i \in K -> i < n) -> haus_loop v0 le D n f r L d = OutOfFuel.
  by apply: H; exists [:: i0]; [exact: dinv_row|move=> i; rewrite inE => /eqP ->].
elim: f L d => [|f IH] L d [K iv al].
  have [sd _] := iv; have d0 : d != [::] by rewrite -size_eq0 sd -lt0n; exact: leq_ltn_trans li.
  have [i E [lin mx]] := max_indexP v0 le_total le_trans d0; cbn [haus_loop]; rewrite E; cbn [obind]; rewrite sd in lin mx.
  have [k kK h] := dinv_ex le_total iv lin; rewrite ifT //; apply: contra (Dr k i (al k kK) lin); exact: le_trans h.
have [sd _] := iv; have d0 : d != [::] by rewrite -size_eq0 sd -lt0n; exact: leq_ltn_trans li.
have [i E [lin mx]] := max_indexP v0 le_total le_trans d0; cbn [haus_loop]; rewrite E; cbn [obind]; rewrite sd in lin mx.
have [k kK h] := dinv_ex le_total iv lin; rewrite ifT; last by apply: contra (Dr k i (al k kK) lin); exact: le_trans h.
rewrite row_ok //; cbn [obind]; apply: IH; exists (rcons K i); first exact: dinv_upd.
by move=> j; rewrite mem_rcons inE => /orP[/eqP ->|/al].
Qed.

(** the version for a matrix agrees on symmetric matrices *)
Theorem C50_matrix i0 : (forall i j, i < n -> j < n -> D i j = D j i) -> glh_mat v0 z le D n i0 = glh v0 z le D n i0.
Proof.
move=> sy; rewrite /glh_mat /glh; case: (row D n i0) => //= d; congr (do st <- _; _).
suff H f k st : glh_loop v0 le (fun i j => D j i) n f k st = glh_loop v0 le D n f k st by exact: H.
elim: f st => [|f IH] [[inds hds] d'] //=; case: ifP => // _; case: (max_index _ _ _) => //= i.
have -> : row (fun i j => D j i) n i = row D n i.
  rewrite /row; case: ifP => // lin; congr Ok; apply/eq_in_map => j; rewrite mem_iota add0n => /andP[_ jn]; exact: sy.
case: (row _ _ _) => //=.
Qed.

(** approx_center(D, dist, k, i0): a point whose largest distance from the first k + 1 landmarks (k = 0: dim + 2) is smallest *)
Theorem C50_approx_center dim k i0 : i0 < n -> exists inds hds c,
  [/\ glh_k v0 le D n i0 (if k == 0 then dim.+1 else k).+1 = Ok (inds, hds), approx_center v0 le D n dim k i0 = Ok c, c < n &
   forall p t, p < n -> (forall i, i \in inds -> le (D i p) t) -> forall i, i \in inds -> le (D i c) t].
Proof.
move=> li; rewrite /approx_center; set kk := if k == 0 then _ else _.
rewrite /glh_k row_ok //; cbn [obind].
pose minv inds (d : seq V) := size d = n /\ forall j, j < n -> forall t, le (nth v0 d j) t = all (fun i => le (D i j) t) inds.
have H m : forall st e, ginv v0 le D n i0 st -> minv st.1.1 e -> exists st' e',
   [/\ glh_loop v0 le D n m (m + size st.1.1) st = Ok st', 
     ofold (fun st _ => do i <- max_index v0 le st.1; do di <- row D n i;
      Ok (upd le st.1 di, [seq (if lt p.2 p.1 then p.1 else p.2) | p <- zip st.2 di])) (st.2, e) (iota 0 m) = Ok (st'.2, e'),
     ginv v0 le D n i0 st' & minv st'.1.1 e'].
  elim: m 0 => [|m IH] o st e iv mv; first by exists st, e; split=> //=; rewrite add0n ltnn.
  have [i [E lin _ iv']] := gstep le_total le_trans iv; cbn [iota ofold glh_loop]; rewrite E; cbn [fst snd obind].
  rewrite row_ok //; cbn [obind fst snd]; rewrite [size _ < _]ltnS leq_addl.
  case: st E iv iv' mv => [[inds hds] d] /= E iv iv' mv; rewrite E; cbn [obind]; rewrite row_ok //; cbn [obind].
  have mv' : minv (rcons inds i) [seq (if lt p.2 p.1 then p.1 else p.2) | p <- zip e (rowv i)].
    case: mv => se h; have sr : size (rowv i) = n by rewrite size_map size_iota.
    split=> [|j jn t]; first by rewrite size_map size_zip se sr minnn.
    rewrite (nth_map (v0, v0)) ?size_zip ?se ?sr ?minnn // nth_zip ?se ?sr //= row_nth // all_rcons -h //.
    case: ifP => c; first by case: (boolP (le (nth v0 e j) t)) => h1; rewrite ?andbF ?andbT //; apply/esym; exact: le_trans (lW le_total c) h1.
    by case: (boolP (le (D i j) t)) => h1 //=; apply/esym; move/negbT: c; rewrite negbK => c; exact: le_trans c h1.
  have [st' [e' [h1 h2 h3 h4]]] := IH o.+1 _ _ iv' mv'; exists st', e'; split=> //.
  by move: h1; rewrite /= size_rcons addnS -addSn.
have mv0 : minv [:: i0] (rowv i0) by split=> [|j jn t]; rewrite ?size_map ?size_iota // row_nth //= andbT.
have [st [e [h1 h2 h3 [se mv]]]] := H kk _ _ (ginv0 v0 le D li) mv0.
have h1' := @glh_loop_fuel _ v0 le D n kk kk.+1 _ _ _ h1 (leqnSn _); rewrite addn1 in h1'; rewrite h1' h2; cbn [obind].
have [i [E lin _ _]] := gstep le_total le_trans h3; rewrite E; cbn [obind snd].
have e0 : e != [::] by rewrite -size_eq0 se -lt0n; exact: leq_ltn_trans li.
have [c Ec [cn mn]] := min_indexP v0 le_total le_trans e0; rewrite se in cn mn.
exists st.1.1, (rcons st.1.2 (nth v0 st.2 i)), c; split=> // p t pn h; apply/allP; rewrite -mv //.
by apply: le_trans (mn p pn) _; rewrite mv //; apply/allP.
Qed.

(** ** enclosing radius *)
(** enclosing_radius(D): some row has no entry above it, every row has an entry at least it *)
Theorem C50_enclosing_radius nrow ncol : 0 < nrow -> 0 < ncol -> (forall v, le v top) -> (forall i j, i < nrow -> j < ncol -> le z (D i j)) ->
  let R := enclosing_radius z top le D nrow ncol in
  (exists2 i, i < nrow & forall j, j < ncol -> le (D i j) R) /\ (forall i, i < nrow -> exists2 j, j < ncol & le R (D i j)).
Proof.
move=> r0 c0 topP Dp; pose rr i := foldl (fun r j => if lt r (D i j) then D i j else r) z (iota 0 ncol).
have -> : enclosing_radius z top le D nrow ncol = foldl (fun r_enc i => if lt r_enc (rr i) then r_enc else rr i) top (iota 0 nrow) by [].
cbv zeta.
have rP i t : i < nrow -> le (rr i) t = all (fun j => le (D i j) t) (iota 0 ncol).
  move=> lin; rewrite /rr; have H l r : le (foldl (fun r j => if lt r (D i j) then D i j else r) r l) t = le r t && all (fun j => le (D i j) t) l.
    elim: l r => [|j l IH] r; rewrite /= ?andbT // IH; case: ifP => c; rewrite andbA; congr (_ && _).
      by case: (boolP (le (D i j) t)) => h; rewrite ?andbF // andbT; apply/esym; exact: le_trans (lW le_total c) h.
    by move/negbT: c; rewrite negbK => c; case: (boolP (le r t)) => h //=; apply/esym; exact: le_trans c h.
  rewrite H; case: (boolP (all _ _)) => h; rewrite ?andbF // andbT; have /allP/(_ 0) := h; rewrite mem_iota add0n c0 => /(_ isT).
  by apply: le_trans; exact: Dp.
have EP t : lt t top \/ t = top -> le (foldl (fun r_enc i => if lt r_enc (rr i) then r_enc else rr i) top (iota 0 nrow)) t = has (fun i => le (rr i) t) (iota 0 nrow).
  have H l r : le (foldl (fun r_enc i => if lt r_enc (rr i) then r_enc else rr i) r l) t = le r t || has (fun i => le (rr i) t) l.
    elim: l r => [|i l IH] r; rewrite /= ?orbF // IH orbA; congr (_ || _); case: ifP => c.
      by case: (boolP (le r t)) => h //=; apply/esym/negP => h1; move: h; rewrite (le_trans (lW le_total c) h1).
    by move/negbT: c; rewrite negbK => c; case: (boolP (le (rr i) t)) => h; rewrite ?orbT // orbF; apply/esym/negP => h1; move: h; rewrite (le_trans c h1).
  rewrite H => -[/negbTE -> //|->]; rewrite topP /=; apply/esym/hasP; exists 0; rewrite ?mem_iota ?r0 ?topP //.
set R := foldl _ top _ in EP *; have Rt t : le R t = has (fun i => le (rr i) t) (iota 0 nrow).
  apply: EP; case: (boolP (le top t)) => h; [right; apply: le_anti; by rewrite topP h|by left].
split.
  have := lrr le_total R; rewrite Rt => /hasP[i]; rewrite mem_iota add0n => /andP[_ lin]; rewrite rP // => /allP al; exists i => // j jn; apply: al.
  by rewrite mem_iota.
move=> i lin; have : le R (rr i) by rewrite Rt; apply/hasP; exists i; rewrite ?mem_iota ?lrr.
case: (boolP (has (fun j => le R (D i j)) (iota 0 ncol))) => [/hasP[j]|/hasPn no].
  by rewrite mem_iota add0n => /andP[_ jn] h _; exists j.
move=> Rr; exfalso.
have [j jn mx] : exists2 j, j < ncol & le (rr i) (D i j).
  have {no Rr}: forall m, m < ncol -> exists2 j, j < ncol & forall j', j' <= m -> le (D i j') (D i j).
    elim=> [|m IH] mc; first by exists 0 => // -[|//] _; exact: lrr.
    have [j jn h] := IH (ltnW mc); case: (boolP (le (D i m.+1) (D i j))) => c.
      by exists j => // j'; rewrite leq_eqVlt => /orP[/eqP ->|] //; exact: h.
    exists m.+1 => // j'; rewrite leq_eqVlt => /orP[/eqP ->|jm]; first exact: lrr.
    exact: le_trans (h _ jm) (lW le_total c).
  case: (ncol) c0 (rP i) => // m _ rP' /(_ m (ltnSn m)) [j jn h]; exists j => //; rewrite rP' //; apply/allP => j'; rewrite mem_iota add0n => /andP[_]; exact: h.
have := no j; rewrite mem_iota add0n jn => /(_ isT) /negP; apply; exact: le_trans Rr mx.
Qed.
(** the Rips complex of a symmetric matrix at the enclosing radius, or above it, is a cone: one point can be added to every
    simplex for which the dimension leaves room *)
Theorem C50_enclosing_cone dmax rmax X : 0 < n -> (forall v, le v top) -> (forall i j, i < n -> j < n -> le z (D i j) /\ D i j = D j i) ->
  le (enclosing_radius z top le D n n) rmax -> rips_complex_mat le D n rmax dmax = Ok X ->
  exists2 c, c < n & forall s, s != [::] -> contains X s -> c \notin s -> size s < max_vertices dmax -> contains X (sort leq (c :: s)).
Proof.
move=> n0 topP Dp Rr E; have [|[c cn ec] _] := @C50_enclosing_radius n n n0 n0 topP; first by move=> i j lin ljn; have [] := Dp i j lin ljn.
have [X' [E' b H]] := C40_rips_complex_matrix le D n rmax dmax; move: E'; rewrite E => -[eX]; rewrite -eX in H.
exists c => // s s0 cX cs sz; have [] := (H s s0).1 cX; move=> [so al wi] _; apply/H; first by rewrite -size_eq0 size_sort.
rewrite size_sort; split=> //; split.
- by apply: srt_ltn; rewrite /= cs ltn_uniq.
- by move=> x; rewrite mem_sort inE => /orP[/eqP ->|/al].
have cr y : y < n -> le (D c y) rmax by move=> yn; exact: le_trans (ec y yn) Rr.
move=> x y; rewrite !mem_sort !inE => /orP[/eqP ->|xs] /orP[/eqP ->|ys] xy.
- by move: xy; rewrite ltnn.
- exact: cr (al _ ys).
- by have [_ ->] := Dp x c (al _ xs) cn; exact: cr (al _ xs).
- exact: wi.
Qed.
End L2.

(** ** the greedy choice is within a factor of two of the best *)
Section Approx.
Import GRing.Theory Order.TTheory Num.Theory.
Local Open Scope ring_scope.
Variable R : realDomainType.
Definition leR (a b : R) : bool := a <= b.
Lemma leR_total : total leR. Proof. by move=> a b; rewrite /leR; exact: le_total. Qed.
Lemma leR_trans : transitive leR. Proof. by move=> b a c; rewrite /leR; exact: le_trans. Qed.
Lemma leR_anti : antisymmetric leR. Proof. by move=> a b; rewrite /leR; exact: le_anti. Qed.
(** in a metric space no k points cover the data with less than half the radius of the first k landmarks *)
Theorem C50_two_approximation (D : nat -> nat -> R) n i0 k inds hds (C : seq nat) (r : R) : (i0 < n)%N -> (0 < k)%N ->
  (forall i j, (i < n)%N -> (j < n)%N -> D i j = D j i) ->
  (forall i j l, (i < n)%N -> (j < n)%N -> (l < n)%N -> D i l <= D i j + D j l) ->
  glh_k 0 leR D n i0 k = Ok (inds, hds) ->
  (size C <= k)%N -> (forall c, c \in C -> (c < n)%N) -> (forall p, (p < n)%N -> exists2 c, c \in C & D c p <= r) ->
  last 0 hds <= r + r.
Proof.
move=> li k0 sy tri E sC Cn cov.
have [inds' [hds' [E' [sz sh] hd fa ha]]] := C50_greedy_k (0 : R) leR_total leR_trans D k li; move: E'; rewrite E => -[e1 e2].
rewrite -e1 -e2 in sz sh hd fa ha => {inds' hds' e1 e2 E}; rewrite (maxn_idPl k0) in sz sh.
have k1 : (k.-1 < size inds)%N by rewrite sz ltn_predL.
have := ha k.-1 k1; rewrite prednK // -{1}sz take_size => -[_ [p pn hp]].
have eh : nth 0 hds k.-1 = last 0 hds by rewrite -sh nth_last.
rewrite eh in hp; set h := last 0 hds in hp *.
pose pts := rcons inds p; have sp : size pts = k.+1 by rewrite size_rcons sz.
have inn j : (j < k)%N -> (nth n inds j < n)%N.
  by case: j => [|j] jk; [rewrite hd|have [] := fa j.+1; rewrite ?sz].
have ptn j : (j < size pts)%N -> (nth n pts j < n)%N.
  rewrite sp ltnS leq_eqVlt nth_rcons sz => /orP[/eqP ->|jk]; first by rewrite ltnn eqxx.
  by rewrite jk; exact: inn.
have sep a b : (a < b < size pts)%N -> h <= D (nth n pts a) (nth n pts b).
  move=> /andP[ab bs]; move: bs; rewrite sp ltnS leq_eqVlt !nth_rcons sz => /orP[/eqP eb|bk].
    by rewrite eb ltnn eqxx -eb ab; apply: hp; rewrite mem_nth // sz -eb.
  rewrite bk (ltn_trans ab bk); have [|_ /(_ p pn) [i it fi]] := fa b; first by rewrite sz bk andbT; exact: leq_ltn_trans ab.
  have := hp i (mem_take it); rewrite /leR => h1; apply: le_trans h1 _; apply: fi.
  by rewrite -(nth_take n ab) mem_nth // size_take sz bk.
pose f q := find (fun c => D c q <= r) C.
have fP q : (q < n)%N -> (f q < size C)%N /\ D (nth 0%N C (f q)) q <= r.
  move=> qn; have hs : has (fun c => D c q <= r) C by apply/hasP; have [c cC h1] := cov q qn; exists c.
  by split; [rewrite /f -has_find|exact: (nth_find 0%N hs)].
have nu : ~~ uniq [seq f q | q <- pts].
  apply/negP => un; have sub : {subset [seq f q | q <- pts] <= iota 0 (size C)}.
    move=> x /mapP[q qp ->]; rewrite mem_iota add0n; have [j js <-] := nthP n qp; have [] := fP _ (ptn j js); by [].
  by have := uniq_leq_size un sub; rewrite size_map sp size_iota leqNgt (leq_ltn_trans sC).
have [a [b [ab bs]]] := uniqPn 0%N nu; rewrite size_map in bs; rewrite !(nth_map n) //; last exact: ltn_trans bs.
move=> ef; have an := ptn a (ltn_trans ab bs); have bn := ptn b bs.
have [ca ra] := fP _ an; have [cb rb] := fP _ bn; rewrite ef in ca ra.
have cn := Cn _ (mem_nth 0%N cb); apply: le_trans (sep a b _) _; first by rewrite ab.
apply: le_trans (tri _ _ _ an cn bn) _; apply: ler_add => //; by rewrite sy.
Qed.
End Approx.

(** ** concrete cases *)
(** the points 0, 1, 3, 7 on a line *)
Definition exn (i j : nat) : nat := let a := nth 0 [:: 0; 1; 3; 7] i in let b := nth 0 [:: 0; 1; 3; 7] j in (a - b) + (b - a).
Theorem C50_example : [/\ glh_k 0 leq exn 4 0 3 = Ok ([:: 0; 3; 2], [:: 7; 3; 1]), glh 0 0 leq exn 4 0 = Ok ([:: 0; 3; 2; 1], [:: 7; 3; 1; 0]),
  greedy_landmarks 0 leq exn 4 3 3 0 = Ok [:: 0; 2; 3], hausdorff_landmarks 0 leq exn 4 4 2 0 = Ok [:: 0; 2; 3] & approx_center 0 leq exn 4 1 0 0 = Ok 2].
Proof. by []. Qed.
Theorem C50_example_hypotheses : [/\ forall i, i < 4 -> exn i i = 0, forall i j, i < 4 -> j < 4 -> i != j -> ~~ (exn i j <= 0),
  forall i j, exn i j = exn j i, forall i j l, exn i l <= exn i j + exn j l & enclosing_radius 0 9 leq exn 4 4 = 4].
Proof.
split=> //.
- by move=> i _; rewrite /exn subnn.
- by move=> [|[|[|[|]]]] // [|[|[|[|]]]].
- by move=> i j; rewrite /exn addnC.
by move=> i j l; rewrite /exn; move: (nth _ _ i) (nth _ _ j) (nth _ _ l) => a b c; lia.
Qed.
(** duplicate points: an index is returned twice *)
Theorem C50_repeats : glh 0 0 leq (fun i j => (i - j) * (j %/ 2) + (j - i) * (j %/ 2)) 2 0 = Ok ([:: 0; 0], [:: 0; 0]).
Proof. by []. Qed.
