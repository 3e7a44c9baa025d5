(** LightSimplicialComplex: representation invariant and operations. *)
From mathcomp Require Import all_ssreflect all_algebra zify.
From Verif Require Import Outcome M_SparseVec M_Perm M_ColMatrix M_CSC M_Simplicial M_Light S_Light P_Outcome P_Simplicial P_ScOps P_ScBuild P_LightKey.
Set Implicit Arguments.
Unset Strict Implicit.
Unset Printing Implicit Defensive.
Import GRing.Theory.

Section Inv.
Variables (n k W : nat) (junk : option nat).
Hypothesis W1 : 1 < W.
Hypothesis Wn : n ^ k.+1 <= W.
Notation ok s := (all (fun x => x < n) s).
Notation key := (skey n).

Definition lcl (cl : cells_t) : Prop := forall d,
  [/\ k < d -> cl d = [::], uniq (cl d) & all (fun s => (size s == d.+1) && ok s) (cl d)].

Definition linv (cl : cells_t) (L : lsc) : Prop :=
  [/\ l_n L = n /\ l_k L = k, offs n k L, size (l_i2k L) = k.+1 /\ size (l_k2i L) = k.+1,
      forall d, d <= k -> nth [::] (l_i2k L) d = map key (cl d) /\
        forall x, hget (nth [::] (l_k2i L) d) x = if x \in map key (cl d) then Some (index x (map key (cl d))) else None &
      lcl cl].

Lemma linv_new : linv (fun _ => [::]) (l_new W n k).
Proof.
split; [by []|exact: off_ok|by rewrite /= !size_nseq| |by move=> d; split].
by move=> d ld; rewrite !nth_nseq ltnS ld.
Qed.

Lemma hget_emplace m x i y : hget m x = None -> hget (hemplace m x i) y = if y == x then Some i else hget m y.
Proof. by move=> e; rewrite /hemplace e /= eq_sym. Qed.

Lemma lcl_mem cl d s : lcl cl -> s \in cl d -> [/\ size s = d.+1, ok s & d <= k].
Proof.
move=> lc si; have [c1 c2 c3] := lc d; have /andP [/eqP e1 e2] := allP c3 _ si; split=> //.
by rewrite leqNgt; apply/negP => /c1 e; rewrite e in si.
Qed.

Lemma key_mem cl s d : lcl cl -> ok s -> size s = d.+1 -> (key s \in map key (cl d)) = (s \in cl d) /\
  index (key s) (map key (cl d)) = index s (cl d).
Proof.
move=> lc os ss; have [_ _ c3] := lc d; have := @index_map_skey n (cl d) s os; rewrite ss => /(_ c3) [-> ->]; by [].
Qed.

Lemma lget cl L d s : linv cl L -> ok s -> size s = d.+1 -> d <= k ->
  hget (nth [::] (l_k2i L) d) (key s) = if s \in cl d then Some (index s (cl d)) else None.
Proof. by move=> [_ _ _ H lc] os ss ld; have [_ ->] := H d ld; have [-> ->] := key_mem lc os ss. Qed.

Lemma lfind_ok cl L s : linv cl L -> lsimplex n k s ->
  l_find W L s = Ok (if s \isin cl then Some (index s (cl (size s).-1)) else None).
Proof.
move=> iv [n0 [ls os]]; have [_ ol [_ sk] _ _] := iv; rewrite /l_find (key_ok W1 Wn ol os ls); cbn [obind].
have ss : size s = (size s).-1.+1 by rewrite prednK // lt0n size_eq0.
have ld : (size s).-1 <= k by rewrite -ltnS -ss.
have -> : forall A (x y : A), (if s is [::] then x else y) = y by move=> A x y; case: (s) n0.
by rewrite /l_find_key (oget_nth [::]) ?sk ?ltnS //; cbn [obind]; rewrite (lget iv os ss ld).
Qed.

Lemma lcl_upd cl d s : lcl cl -> s \notin cl d -> ok s -> size s = d.+1 -> d <= k -> lcl (upd cl d (rcons (cl d) s)).
Proof.
move=> lc ns os ss ld d'; rewrite /upd; case: eqP => [->|_]; last exact: lc.
have [c1 c2 c3] := lc d; split; first by rewrite ltnNge ld.
  by rewrite rcons_uniq ns.
by rewrite all_rcons ss eqxx os.
Qed.

Definition lpush (L : lsc) (d x : nat) : lsc :=
  LSC (l_n L) (l_k L) (l_off L) (set_nth [::] (l_i2k L) d (rcons (nth [::] (l_i2k L) d) x))
      (set_nth [::] (l_k2i L) d (hemplace (nth [::] (l_k2i L) d) x (size (nth [::] (l_i2k L) d)))).

Lemma linv_push cl L d s : linv cl L -> s \notin cl d -> ok s -> size s = d.+1 -> d <= k ->
  linv (upd cl d (rcons (cl d) s)) (lpush L d (key s)).
Proof.
move=> iv ns os ss ld; have [h1 h2 [s1 s2] h4 lc] := iv.
have nk : key s \notin map key (cl d) by have [-> _] := key_mem lc os ss.
split=> //; [by rewrite /= !size_set_nth s1 s2; split; move: ld; clear; lia| |exact: lcl_upd].
move=> d' ld'; rewrite /= !nth_set_nth /= /upd; case: eqP => [_|_]; last exact: h4.
have [e1 e2] := h4 d ld; split; first by rewrite e1 map_rcons.
move=> x; rewrite hget_emplace; last by rewrite e2 (negbTE nk).
rewrite e1 e2 map_rcons mem_rcons inE -cats1 index_cat /=; case: (eqVneq x (key s)) => [->|ne] /=.
  by rewrite (negbTE nk) ?eqxx ?addn0 size_map.
by case: ifP.
Qed.

Lemma ladd_key_ok cl L d s : linv cl L -> ok s -> size s = d.+1 -> d <= k ->
  l_add_key L d (key s) = Ok (if s \in cl d then (L, index s (cl d)) else (lpush L d (key s), size (cl d))).
Proof.
move=> iv os ss ld; have [_ _ [s1 s2] h4 _] := iv; rewrite /l_add_key (oget_nth [::]) ?s1 ?ltnS //; cbn [obind].
rewrite (oget_nth [::]) ?s2 ?ltnS //; cbn [obind]; rewrite (lget iv os ss ld); case: ifP => // _.
rewrite (oset_Ok [::]) ?s2 ?ltnS //; cbn [obind]; rewrite (oset_Ok [::]) ?s1 ?ltnS //; cbn [obind].
by have [e _] := h4 d ld; rewrite /lpush e size_map.
Qed.

Lemma ladd_unsafe_ok cl L d s : linv cl L -> ok s -> size s = d.+1 -> d <= k -> 
  l_add_unsafe_key L d (key s) = Ok (lpush L d (key s), size (cl d)).
Proof.
move=> iv os ss ld; have [_ _ [s1 s2] h4 _] := iv; rewrite /l_add_unsafe_key (oget_nth [::]) ?s1 ?ltnS //; cbn [obind].
rewrite (oget_nth [::]) ?s2 ?ltnS //; cbn [obind].
rewrite (oset_Ok [::]) ?s2 ?ltnS //; cbn [obind]; rewrite (oset_Ok [::]) ?s1 ?ltnS //; cbn [obind].
by have [e _] := h4 d ld; rewrite /lpush e size_map.
Qed.

(** the calls on simplices are the calls on keys *)
Lemma lcall (A : Type) (L : lsc) (f : nat -> nat -> outcome A) s : offs n k L -> lsimplex n k s ->
  (do x <- l_key W L s; if s is [::] then UB else f (size s).-1 x) = f (size s).-1 (key s).
Proof.
by move=> ol [n0 [ls os]]; rewrite (key_ok W1 Wn ol os ls); cbn [obind]; case: (s) n0.
Qed.

Lemma lsimplex_size s : lsimplex n k s -> [/\ ok s, size s = (size s).-1.+1 & (size s).-1 <= k].
Proof.
move=> [n0 [ls os]]; have ss : size s = (size s).-1.+1 by rewrite prednK // lt0n size_eq0.
by split=> //; rewrite -ltnS -ss.
Qed.

(** ** add_recursive *)
Definition lnewfaces (cl cl' : cells_t) : Prop := forall d u, u \in cl' d.+1 -> u \in cl d.+1 \/ faces_in (cl' d) u.

Definition lrec_spec dim : Prop := forall L cl s, linv cl L -> ok s -> size s = dim.+1 -> dim <= k ->
  exists (L' : lsc) (cl' : cells_t) (new : seq (nat * nat)),
  [/\ l_add_rec W junk dim L (key s) = Ok (L', new), linv cl' L' /\ s \in cl' dim,
      [/\ extends cl cl', new_cells cl cl' new & forall d, dim < d -> cl' d = cl d],
      forall d u, u \in cl' d -> u \in cl d \/ subseq u s & lnewfaces cl cl'].

Lemma faces_ext (cl cl' : cells_t) d u : extends cl cl' -> faces_in (cl d) u -> faces_in (cl' d) u.
Proof. by move=> ex fi j lj; apply: extends_mem ex _; exact: fi. Qed.

Lemma lrec_loop dim s : lrec_spec dim -> ok s -> size s = dim.+2 -> dim <= k ->
  forall js L cl acc, all (fun j => j < size s) js -> linv cl L ->
  exists (L' : lsc) (cl' : cells_t) (new : seq (nat * nat)),
  [/\ ofold (fun st (f : nat * int) => do q <- l_add_rec W junk dim st.1 f.1; Ok (q.1, st.2 ++ q.2)) (L, acc)
        [seq (key (skip j s), lsign j) | j <- js] = Ok (L', acc ++ new),
      linv cl' L' /\ (forall j, j \in js -> skip j s \in cl' dim),
      [/\ extends cl cl', new_cells cl cl' new & forall d, dim < d -> cl' d = cl d],
      forall d u, u \in cl' d -> u \in cl d \/ subseq u s & lnewfaces cl cl'].
Proof.
move=> IH os ss ld; elim=> [|j js IHj] L cl acc /= aj iv.
  exists L, cl, [::]; rewrite cats0; split=> //; last by move=> d u; left.
    by split; [exact: extends_refl|exact: new_cells_refl|].
  by move=> d u; left.
case/andP: aj => lj aj; have oj : ok (skip j s) by exact: ok_sub (skip_subseq _ _) os.
have sj : size (skip j s) = dim.+1 by rewrite size_skip // ss.
have [L1 [cl1 [n1 [E1 [iv1 in1] [ex1 nw1 st1] up1 nf1]]]] := IH L cl _ iv oj sj ld.
have [L2 [cl2 [n2 [E2 [iv2 in2] [ex2 nw2 st2] up2 nf2]]]] := IHj L1 cl1 (acc ++ n1) aj iv1.
exists L2, cl2, (n1 ++ n2); rewrite E1; cbn [obind fst snd]; rewrite E2 catA; split=> //.
- split=> // i; rewrite inE => /orP [/eqP ->|]; last exact: in2.
  exact: extends_mem ex2 in1.
- split; [exact: extends_trans ex1 ex2|exact: new_cells_cat ex1 ex2 nw1 nw2|].
  by move=> d l; rewrite st2 // st1.
- move=> d u /up2 [/up1 [h|h]|h]; [by left|right|by right].
  exact: subseq_trans h (skip_subseq _ _).
- move=> d u /nf2 [/nf1 [h|h]|h]; [by left|right|by right].
  exact: faces_ext ex2 h.
Qed.

Lemma lrecS dim L x : l_add_rec W junk dim L x =
  do v <- oget (l_i2k L) dim;
  do m <- oget (l_k2i L) dim;
  if hget m x is Some i then Ok (L, [::])
  else
    do m' <- oset (l_k2i L) dim (hemplace m x (size v));
    do v' <- oset (l_i2k L) dim (rcons v x);
    let L1 := LSC (l_n L) (l_k L) (l_off L) v' m' in
    do r <- (if dim is dim'.+1 then
        do fs <- l_faces W junk L1 dim x;
        ofold (fun st (f : nat * int) => do q <- l_add_rec W junk dim' st.1 f.1; Ok (q.1, st.2 ++ q.2)) (L1, [::]) fs
      else Ok (L1, [::]));
    Ok (r.1, rcons r.2 (dim, size v)).
Proof. by case: dim. Qed.

Lemma new_cells_perm cl cl' a b : perm_eq a b -> new_cells cl cl' a -> new_cells cl cl' b.
Proof. by move=> p [u m]; split; [rewrite -(perm_uniq p)|move=> d i; rewrite -(perm_mem p)]. Qed.

Lemma lrec_head cl L s d : linv cl L -> ok s -> size s = d.+1 -> d <= k ->
  l_add_rec W junk d L (key s) =
  if s \in cl d then Ok (L, [::]) else
    do r <- (if d is dim'.+1 then
        do fs <- l_faces W junk (lpush L d (key s)) d (key s);
        ofold (fun st (f : nat * int) => do q <- l_add_rec W junk dim' st.1 f.1; Ok (q.1, st.2 ++ q.2)) (lpush L d (key s), [::]) fs
      else Ok (lpush L d (key s), [::]));
    Ok (r.1, rcons r.2 (d, size (cl d))).
Proof.
move=> iv os ss ld; have [_ _ [s1 s2] h4 _] := iv; rewrite lrecS (oget_nth [::]) ?s1 ?ltnS //; cbn [obind].
rewrite (oget_nth [::]) ?s2 ?ltnS //; cbn [obind]; rewrite (lget iv os ss ld); case: ifP => // _.
rewrite (oset_Ok [::]) ?s2 ?ltnS //; cbn [obind]; rewrite (oset_Ok [::]) ?s1 ?ltnS //; cbn [obind]; cbv zeta.
by have [e _] := h4 d ld; rewrite /lpush e size_map.
Qed.

Lemma lrec_ok g dim : junk = Some g -> lrec_spec dim.
Proof.
move=> jk; elim: dim => [|dim IH] L cl s iv os ss ld; rewrite (lrec_head iv os ss ld); case: ifP => si.
- exists L, cl, [::]; split=> //; [|by move=> d u; left|by move=> d u; left].
  by split; [exact: extends_refl|exact: new_cells_refl|].
- exists (lpush L 0 (key s)), (upd cl 0 (rcons (cl 0) s)), [:: (0, size (cl 0))]; split=> //.
  + split; first by apply: linv_push => //; rewrite si.
    by rewrite /upd eqxx mem_rcons mem_head.
  + split; [exact: extends_rcons|exact: new_cells_rcons|by move=> [|d]].
  + move=> d u; rewrite /upd; case: eqP => [->|_]; last by left.
    by rewrite mem_rcons inE => /orP [/eqP ->|]; [right|left].
  + by move=> d u; left.
- exists L, cl, [::]; split=> //; [|by move=> d u; left|by move=> d u; left].
  by split; [exact: extends_refl|exact: new_cells_refl|].
have iv1 : linv (upd cl dim.+1 (rcons (cl dim.+1) s)) (lpush L dim.+1 (key s)) by apply: linv_push => //; rewrite si.
set cl1 := upd _ _ _ in iv1; set L1 := lpush _ _ _ in iv1 *.
have ol1 : offs n k L1 by case: iv1.
have n0 : s != [::] by rewrite -size_eq0 ss.
have ls : size s <= k.+1 by rewrite ss.
have := faces_ok W1 Wn ol1 os n0 ls jk; rewrite ss [dim.+2.-1]/= => ->.
cbn [obind]; rewrite /lfaces.
have aj : all (fun j => j < size s) (rev (iota 0 (size s))) by apply/allP => j; rewrite mem_rev mem_iota add0n.
have [L2 [cl2 [n2 [-> [iv2 in2] [ex2 nw2 st2] up2 nf2]]]] := lrec_loop IH os ss (ltnW ld) [::] aj iv1.
cbn [obind fst snd]; rewrite cat0s; exists L2, cl2, (rcons n2 (dim.+1, size (cl dim.+1))).
have ex1 : extends cl cl1 by exact: extends_rcons.
have fs : faces_in (cl2 dim) s by move=> j lj; apply: in2; rewrite mem_rev mem_iota.
split=> //.
- by split=> //; apply: extends_mem ex2 _; rewrite /cl1 /upd eqxx mem_rcons mem_head.
- split; [exact: extends_trans ex1 ex2| |].
    apply: new_cells_perm (new_cells_cat ex1 ex2 (new_cells_rcons cl dim.+1 s) nw2).
    by rewrite perm_sym -cats1 perm_catC.
  move=> d l; rewrite st2 //; last exact: ltnW.
  by rewrite /cl1 /upd; case: eqP => // e; move: l; rewrite e ltnn.
- move=> d u /up2 [|]; last by right.
  rewrite /cl1 /upd; case: eqP => [->|_]; last by left.
  by rewrite mem_rcons inE => /orP [/eqP ->|]; [right|left].
- move=> d u /nf2 [|]; last by right.
  rewrite /cl1 /upd; case: eqP => [[->]|_]; last by left.
  by rewrite mem_rcons inE => /orP [/eqP ->|]; [right|left].
Qed.

Lemma lbuilt_inv L : lbuilt W junk n k L -> exists cl, linv cl L.
Proof.
elim=> {L} [|L s L' i _ [cl iv] sv E|L s L' i _ [cl iv] sv nc E|L s L' r _ [cl iv] sv E|L d x L' i _ [cl iv] ld lx E|L d x L' r _ [cl iv] ld lx E].
- by exists (fun _ => [::]); exact: linv_new.
- have [_ ol _ _ _] := iv; have [os ss ld] := lsimplex_size sv.
  move: E; rewrite /l_add (lcall (l_add_key L) ol sv) (ladd_key_ok iv os ss ld); case: ifP => si [<- _]; first by exists cl.
  by eexists; apply: (linv_push iv _ os ss ld); rewrite si.
- have [_ ol _ _ _] := iv; have [os ss ld] := lsimplex_size sv.
  move: E; rewrite /l_add_unsafe (lcall (l_add_unsafe_key L) ol sv) (ladd_unsafe_ok iv os ss ld) => -[<- _].
  eexists; apply: (linv_push iv _ os ss ld); apply/negP => si; apply: nc; rewrite /lcontains (lfind_ok iv sv) si; by eexists.
- have [_ ol _ _ _] := iv; have [os ss ld] := lsimplex_size sv.
  move: E; rewrite /l_add_recursive (lcall (fun d => l_add_rec W junk d L) ol sv).
  case E: junk => [g|].
    by have [L1 [cl1 [n1 [E1 [iv1 _] _ _ _]]]] := lrec_ok E iv os ss ld; rewrite -E E1 => -[<- _]; exists cl1.
  rewrite -E (lrec_head iv os ss ld); case: ifP => si; first by case=> <- _; exists cl.
  have iv1 : linv (upd cl (size s).-1 (rcons (cl (size s).-1) s)) (lpush L (size s).-1 (key s)) by apply: linv_push => //; rewrite si.
  have [n0 [ls _]] := sv; have [_ ol1 _ _ _] := iv1; have := faces_UB W ol1 os n0 ls E.
  case: (size s).-1 iv1 => [|d'] iv1; first by move=> _ [<- _]; eexists; exact: iv1.
  by move=> ->.
- have os := digs_ok lx; have ss := size_digs n d.+1 x; rewrite -(skey_digs lx) in E.
  move: E; rewrite (ladd_key_ok iv os ss ld); case: ifP => si [<- _]; first by exists cl.
  by eexists; apply: (linv_push iv _ os ss ld); rewrite si.
- have os := digs_ok lx; have ss := size_digs n d.+1 x; rewrite -(skey_digs lx) in E.
  move: E; case E: junk => [g|].
    by have [L1 [cl1 [n1 [E1 [iv1 _] _ _ _]]]] := lrec_ok E iv os ss ld; rewrite -E E1 => -[<- _]; exists cl1.
  rewrite -E (lrec_head iv os ss ld); case: ifP => si; first by case=> <- _; exists cl.
  have iv1 : linv (upd cl d (rcons (cl d) (digs n d.+1 x))) (lpush L d (key (digs n d.+1 x))) by apply: linv_push => //; rewrite si.
  have n0 : digs n d.+1 x != [::] by rewrite -size_eq0 ss.
  have ls : size (digs n d.+1 x) <= k.+1 by rewrite ss ltnS.
  have [_ ol1 _ _ _] := iv1; have := faces_UB W ol1 os n0 ls E; rewrite ss [d.+1.-1]/=.
  by case: (d) iv1 => [|d'] iv1; [move=> _ [<- _]; eexists; exact: iv1|move=> ->].
Qed.

(** reading *)
Lemma lncell_ok cl L d : linv cl L -> d <= k -> l_ncell L d = Ok (size (cl d)).
Proof.
by move=> [_ _ [s1 s2] h4 _] ld; rewrite /l_ncell (oget_nth [::]) ?s1 ?ltnS //; cbn [obind]; have [-> _] := h4 d ld; rewrite size_map.
Qed.

Lemma lsimplex_ok cl L d i : linv cl L -> i < size (cl d) -> l_simplex W L d i = Ok (nth [::] (cl d) i).
Proof.
move=> [_ ol [s1 s2] h4 lc] li; have [ss os ld] := lcl_mem lc (mem_nth [::] li).
rewrite /l_simplex (oget_nth [::]) ?s1 ?ltnS //; cbn [obind]; have [-> _] := h4 d ld.
rewrite (oget_nth 0) ?size_map // (nth_map [::]) //; cbn [obind]; rewrite (key_simplex_ok Wn ol ld).
  by rewrite -ss digs_skey.
by rewrite -ss; exact: skey_lt.
Qed.
End Inv.
