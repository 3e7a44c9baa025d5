(** Every complex the API can build satisfies the representation invariant. *)
From mathcomp Require Import all_ssreflect all_algebra zify.
From Verif Require Import Outcome M_SparseVec M_Perm M_ColMatrix M_CSC M_Simplicial S_Perm S_Simplicial P_Outcome P_Perm P_Sort P_Trie P_Simplicial P_ScOps.
Set Implicit Arguments.
Unset Strict Implicit.
Unset Printing Implicit Defensive.
Import GRing.Theory.

Notation "s \isin cl" := (s \in cl (size s).-1) (at level 70).

(** all simplices, by dimension *)
Definition cell_list (cl : cells_t) (n : nat) : seq (seq nat) := flatten [seq cl k | k <- iota 0 n].

Lemma ofold_cat (A B : Type) (f : A -> B -> outcome A) a l1 l2 : ofold f a (l1 ++ l2) = do b <- ofold f a l1; ofold f b l2.
Proof. by elim: l1 a => [|x l IH] a //=; case: (f a x) => //= b; exact: IH. Qed.

Lemma ofold_eqin (A : Type) (B : eqType) (f g : A -> B -> outcome A) a l : (forall a b, b \in l -> f a b = g a b) ->
  ofold f a l = ofold g a l.
Proof.
elim: l a => [|x l IH] a //= H; rewrite H ?mem_head //; case: (g a x) => //= b.
by apply: IH => c d di; apply: H; rewrite inE di orbT.
Qed.

Lemma ofold_flat (A B C : Type) (f : A -> C -> outcome A) (h : B -> seq C) a l :
  ofold f a (flatten [seq h b | b <- l]) = ofold (fun a b => ofold f a (h b)) a l.
Proof. by elim: l a => [|x l IH] a //=; rewrite ofold_cat; case: (ofold f a (h x)) => //= b; exact: IH. Qed.

Lemma ofold_map (A B C : Type) (f : A -> C -> outcome A) (h : B -> C) a l : ofold f a [seq h b | b <- l] = ofold (fun a b => f a (h b)) a l.
Proof. by elim: l a => [|x l IH] a //=; case: (f a (h x)). Qed.

(** a loop over all simplices of X, k ascending *)
Lemma loop_cells (A : Type) (f : A -> seq nat -> outcome A) cl X a : inv cl X ->
  ofold (fun Z k => do n <- sc_ncell X k; ofold (fun Z i => do s <- sc_simplex X k i; f Z s) Z (iota 0 n)) a (iota 0 (sc_dims X)) =
  ofold f a (cell_list cl (sc_dims X)).
Proof.
move=> iv; rewrite /cell_list ofold_flat; apply: ofold_eqin => Z k; rewrite mem_iota add0n => lk.
rewrite (ncell_ok iv) //; cbn [obind]; rewrite -{2}(mkseq_nth [::] (cl k)) /mkseq ofold_map.
by apply: ofold_eqin => Z' i; rewrite mem_iota add0n => li; rewrite (simplex_ok iv).
Qed.

Lemma mem_cell_list cl X s : inv cl X -> s != [::] -> (s \in cell_list cl (sc_dims X)) = (s \isin cl).
Proof.
move=> iv n0; apply/flatten_mapP/idP => [[k _ si]|si].
  by rewrite (cl_size iv si).
by exists (size s).-1 => //; rewrite mem_iota; exact: in_dims iv si.
Qed.

Lemma cell_list_nonnil cl X s n : inv cl X -> s \in cell_list cl n -> s != [::].
Proof. by move=> iv /flatten_mapP [k _ si]; rewrite -size_eq0 (cl_size iv si). Qed.

Lemma uniq_cell_list cl X n : inv cl X -> uniq (cell_list cl n).
Proof.
move=> iv; elim: n => [|n IH] //.
rewrite /cell_list -addn1 iotaD map_cat flatten_cat cat_uniq [uniq (flatten _)]IH /= cats0.
have [_ u _] := inv_Wc iv n; rewrite add0n u andbT; apply/hasPn => s si.
apply/negP => /flatten_mapP [k]; rewrite mem_iota => lk sk.
by have := cl_size iv si; rewrite (cl_size iv sk); move: lk; clear; lia.
Qed.

Lemma take_cat_le (A : Type) n (s1 s2 : seq A) : n <= size s1 -> take n (s1 ++ s2) = take n s1.
Proof.
by rewrite take_cat; case: ltnP => // l1 l2; rewrite (_ : n - size s1 = 0) ?take0 ?cats0 ?take_oversize //; lia.
Qed.

(** faces come before *)
Lemma cell_list_faces cl X n L1 s L2 : inv cl X -> cell_list cl n = L1 ++ s :: L2 ->
  forall j, j < size s -> 1 < size s -> skip j s \in L1.
Proof.
move=> iv; elim: n L1 s L2 => [|n IH] L1 s L2; first by case: L1.
rewrite {1}/cell_list -addn1 iotaD map_cat flatten_cat /= cats0 add0n -/(cell_list cl n) => E j lj l1.
case: (ltnP (size L1) (size (cell_list cl n))) => lt.
  have E2 : cell_list cl n = L1 ++ s :: take (size (cell_list cl n) - (size L1).+1) L2.
    have := congr1 (take (size (cell_list cl n))) E; rewrite take_size_cat // => e; rewrite [LHS]e.
    rewrite take_cat ltnNge (ltnW lt) /=; congr (_ ++ _).
    by rewrite -(subnSK lt).
  exact: IH E2 j lj l1.
have sn : s \in cl n.
  have := congr1 (drop (size (cell_list cl n))) E; rewrite drop_size_cat // => ->.
  rewrite drop_cat; case: ltnP => [_|l]; first by rewrite mem_cat mem_head orbT.
  by rewrite (eqnP lt : _ = 0) drop0 mem_head.
have sL : skip j s \in cell_list cl n.
  have ss := cl_size iv sn; case: n {E lt IH} sn ss => [|n] sn ss; first by move: l1; rewrite ss.
  have [_ _ cf] := inv_Wc iv n.+1; apply/flatten_mapP; exists n; last exact: cf.
  by rewrite mem_iota; lia.
have := congr1 (take (size (cell_list cl n))) E; rewrite take_size_cat // => e.
by rewrite e take_cat_le // in sL; exact: mem_take sL.
Qed.

Lemma perm_skip j (s : seq nat) : j < size s -> perm_eq (nth 0 s j :: skip j s) s.
Proof.
move=> lt; rewrite -{3}(cat_take_drop j s) (drop_nth 0) // /skip -cat1s perm_catCA perm_refl //.
Qed.

Lemma skip_sort j (s : seq nat) : j < size s -> exists2 j', j' < size s & skip j (sort leq s) = sort leq (skip j' s).
Proof.
move=> lt; have lt' : j < size (sort leq s) by rewrite size_sort.
have p1 := perm_skip lt'; set x := nth 0 _ j in p1.
have xs : x \in s by rewrite -(mem_sort leq) mem_nth.
have li : index x s < size s by rewrite index_mem.
exists (index x s) => //; have := perm_skip li; rewrite nth_index // => p2.
apply: (sorted_eq leq_trans anti_leq).
- by apply: (subseq_sorted leq_trans (skip_subseq j _)); exact: (sort_sorted leq_total).
- exact: (sort_sorted leq_total).
rewrite perm_sym perm_sort perm_sym -(perm_cons x).
by apply: perm_trans p1 _; rewrite perm_sym; apply: perm_trans p2 _; rewrite perm_sym perm_sort.
Qed.

Lemma closed_facesb cl X s : inv cl X -> s != [::] -> s \isin cl -> facesb cl s.
Proof.
move=> iv n0 si; rewrite /facesb; case: (eqVneq (size s) 1) => //= n1; apply/allP => j; rewrite mem_rev mem_iota add0n => lj.
have sz := size_skip lj; rewrite -sz; apply: (inv_sub iv si); last exact: skip_subseq.
by rewrite -size_eq0 sz; case: (s) n0 n1 => //= a [].
Qed.

Lemma mem_upd cl s t : t != [::] -> s != [::] ->
  (t \isin upd cl (size s).-1 (rcons (cl (size s).-1) s)) = (t \isin cl) || (t == s).
Proof.
move=> nt ns; rewrite /upd; case: eqP => e; first by rewrite e mem_rcons inE orbC.
by case: eqP => [et|]; rewrite ?orbF ?orbT //; exfalso; apply: e; rewrite et.
Qed.

Lemma add_step cl X s : inv cl X -> s != [::] -> exists (X' : scx) (r : option nat) (cl' : cells_t),
  [/\ sc_add_directed X s = Ok (X', r), inv cl' X', extends cl cl',
      forall t, t != [::] -> (t \isin cl') = (t \isin cl) || (t == s) && facesb cl s &
      [/\ r = (if s \isin cl' then Some (index s (cl' (size s).-1)) else None),
          s \isin cl -> X' = X & (sc_dims X <= sc_dims X')]].
Proof.
move=> iv n0; have := add_directed_ok iv n0; cbv zeta; case: ifP => si E.
  exists X, (Some (index s (cl (size s).-1))), cl; split=> //; first exact: extends_refl.
    by move=> t nt; case: eqP => [->|_]; rewrite ?si ?orbF.
  by rewrite si; split.
move: E; case: ifP => fi.
  move=> [X' [E iv' e]]; exists X', (Some (size (cl (size s).-1))), (upd cl (size s).-1 (rcons (cl (size s).-1) s)).
  split=> //; first exact: extends_rcons.
    by move=> t nt; rewrite mem_upd // andbT.
  rewrite mem_upd // eqxx orbT; split=> //; last by rewrite e leq_maxr.
  by rewrite /upd eqxx -cats1 index_cat si /= eqxx addn0.
move=> E; have [iv' e] := inv_reserve (size s).-1 iv; exists (sc_reserve (size s).-1 X), None, cl; split=> //.
- exact: extends_refl.
- by move=> t nt; rewrite andbF orbF.
- by rewrite si; split=> //; rewrite e leq_maxr.
Qed.

Lemma rec_step cl X s : inv cl X -> s != [::] -> exists (X' : scx) (r : seq (nat * nat)) (cl' : cells_t),
  [/\ sc_add_directed_recursive X s = Ok (X', r), inv cl' X' /\ sc_dims X <= sc_dims X', extends cl cl',
      forall t, t != [::] -> (t \isin cl') = (t \isin cl) || subseq t s &
      if s \isin cl then X' = X /\ r = [:: ((size s).-1, index s (cl (size s).-1))] else new_cells cl cl' r].
Proof.
move=> iv n0; have := add_directed_rec_ok iv n0; cbv zeta; case: ifP => si E.
  exists X, [:: ((size s).-1, index s (cl (size s).-1))], cl; split=> //; first exact: extends_refl.
  by move=> t nt; case E': (subseq t s); rewrite ?orbF // orbT; exact: inv_sub iv si nt E'.
by have [X' [cl' [new [E1 [iv' e] ex ct nw]]]] := E; exists X', new, cl'; split=> //; rewrite e leq_maxr.
Qed.

Lemma sort_nil s : (sort leq s != [::]) = (s != [::]).
Proof. by rewrite -!size_eq0 size_sort. Qed.

Definition add1 (Z : scx) (s : seq nat) : outcome scx := do r <- sc_add Z s; Ok r.1.

(** adding a list in which faces come first *)
Lemma add_list_ok L Z cl : inv cl Z -> (forall s, s \in L -> s != [::]) ->
  (forall L1 s L2, L = L1 ++ s :: L2 -> forall j, j < size s -> 1 < size s ->
     (sort leq (skip j s) \isin cl) \/ skip j s \in L1) ->
  exists (Z' : scx) (cl' : cells_t), [/\ ofold add1 Z L = Ok Z', inv cl' Z' /\ sc_dims Z <= sc_dims Z', extends cl cl' &
    forall t, t != [::] -> (t \isin cl') = (t \isin cl) || (t \in [seq sort leq s | s <- L])].
Proof.
elim/seq.last_ind: L => [|L s IH] iv nn ff.
  by exists Z, cl; split=> //; [exact: extends_refl|move=> t nt; rewrite in_nil orbF].
have [|L1 s1 L2 e|Z1 [cl1 [E1 [iv1 d1] ex1 ct1]]] := IH iv.
- by move=> u ui; apply: nn; rewrite mem_rcons inE ui orbT.
- by apply: (ff L1 s1 (rcons L2 s)); rewrite e rcons_cat.
have n0 : s != [::] by apply: nn; rewrite mem_rcons mem_head.
have n0' : sort leq s != [::] by rewrite sort_nil.
have [Z2 [r [cl2 [E2 iv2 ex2 ct2 [_ _ d2]]]]] := add_step iv1 n0'.
have fb : facesb cl1 (sort leq s).
  rewrite /facesb size_sort; case: (eqVneq (size s) 1) => //= n1; apply/allP => j.
  rewrite mem_rev mem_iota add0n => lj; have [j' lj' ->] := skip_sort lj.
  have l1 : 1 < size s by case: (s) n0 n1 => //= a [].
  have sz : size (sort leq (skip j' s)) = (size s).-1 by rewrite size_sort size_skip.
  have nz : sort leq (skip j' s) != [::] by rewrite -size_eq0 sz; move: l1; clear; lia.
  rewrite -sz ct1 //.
  have [->//|inL] := ff L s [::] (esym (cats1 _ _)) j' lj' l1.
  by rewrite map_f ?orbT.
exists Z2, cl2; split=> //.
- by rewrite -cats1 ofold_cat E1; cbn [obind]; rewrite /= /add1 /sc_add E2.
- by split=> //; exact: leq_trans d1 d2.
- exact: extends_trans ex1 ex2.
- move=> t nt; rewrite ct2 // ct1 // fb andbT map_rcons mem_rcons inE -orbA; congr orb; by rewrite orbC.
Qed.

Lemma add_all_ok clX X clZ Z : inv clX X -> inv clZ Z ->
  exists (Z' : scx) (cl' : cells_t), [/\ sc_add_all Z X = Ok Z', inv cl' Z' /\ sc_dims Z <= sc_dims Z', extends clZ cl' &
    forall t, t != [::] -> (t \isin cl') = (t \isin clZ) || (t \in [seq sort leq s | s <- cell_list clX (sc_dims X)])].
Proof.
move=> ivX ivZ; have := add_list_ok (L := cell_list clX (sc_dims X)) ivZ.
case=> [s si|L1 s L2 e j lj l1|Z' [cl' [E iv' ex ct]]].
- exact: cell_list_nonnil ivX si.
- by right; exact: cell_list_faces ivX e j lj l1.
exists Z', cl'; split=> //; rewrite -E -(loop_cells add1 Z ivX); exact: erefl.
Qed.

(** intersection *)
Definition inter1 (Y : scx) (Z : scx) (s : seq nat) : outcome scx :=
  do f <- sc_find Y s; if f is Some _ then do r <- sc_add_unsafe Z s; Ok r.1 else Ok Z.

Lemma inter_list_ok clY Y L Z n : inv clY Y -> inv (fun _ => [::]) Z -> sc_dims Z = n ->
  (forall s, s \in L -> s != [::] /\ size s <= n) -> uniq L ->
  (forall L1 s L2, L = L1 ++ s :: L2 -> forall j, j < size s -> 1 < size s -> skip j s \in L1) ->
  exists (Z' : scx) (cl' : cells_t), [/\ ofold (inter1 Y) Z L = Ok Z', inv cl' Z', sc_dims Z' = n &
    forall t, t != [::] -> (t \isin cl') = (t \in L) && (t \isin clY)].
Proof.
move=> ivY ivZ dn; elim/seq.last_ind: L => [|L s IH] nn uL ff.
  by exists Z, (fun _ => [::]); split.
have uL' := uL; rewrite rcons_uniq in uL'; have /andP [sL uL1] := uL'.
have [|//|L1 s1 L2 e|Z1 [cl1 [E1 iv1 dn1 ct1]]] := IH.
- by move=> u ui; apply: nn; rewrite mem_rcons inE ui orbT.
- by apply: (ff L1 s1 (rcons L2 s)); rewrite e rcons_cat.
have [n0 ls] : s != [::] /\ size s <= n by apply: nn; rewrite mem_rcons mem_head.
have [_ _ _ _ TY] := ivY.
rewrite -cats1 ofold_cat E1; cbn [obind]; rewrite ofold_cons /inter1 (find_ok TY n0); cbn [obind].
case: ifP => sY; last first.
  exists Z1, cl1; split=> // t nt; rewrite ct1 // mem_cat inE andb_orl; case: eqP => [->|_]; rewrite ?sY ?andbF ?orbF //.
have nin : s \notin cl1 (size s).-1 by rewrite ct1 // (negbTE sL).
have ld : (size s).-1 < sc_dims Z1 by rewrite dn1; case: (s) n0 ls.
have fb : facesb cl1 s.
  rewrite /facesb; case: (eqVneq (size s) 1) => //= n1; apply/allP => j.
  rewrite mem_rev mem_iota add0n => lj; have sz := size_skip lj.
  have l1 : 1 < size s by case: (s) n0 n1 => //= a [].
  have nz : skip j s != [::] by rewrite -size_eq0 sz -lt0n -ltnS prednK //; apply: ltnW.
  rewrite -sz ct1 // (ff L s [::] (esym (cats1 _ _)) j lj l1) /=.
  exact: inv_sub ivY sY nz (skip_subseq _ _).
have := add_unsafe_ok iv1 n0 ld nin; rewrite fb => -[Z2 [-> iv2 dn2]]; cbn [obind].
exists Z2, (upd cl1 (size s).-1 (rcons (cl1 (size s).-1) s)); split=> //; first by rewrite dn2.
move=> t nt; rewrite mem_upd // ct1 // mem_cat inE andb_orl; congr orb; case: eqP => [->|] //=; by rewrite sY.
Qed.

Lemma sc_dims_gt0 cl X s : inv cl X -> s \isin cl -> 0 < sc_dims X.
Proof. by move=> iv si; apply: leq_ltn_trans (in_dims iv si). Qed.

Lemma inter_ok clX X clY Y : inv clX X -> inv clY Y -> 0 < sc_dims X ->
  exists (Z' : scx) (cl' : cells_t), [/\ sc_inter X Y = Ok Z', inv cl' Z', sc_dims Z' = sc_dims X &
    forall t, t != [::] -> (t \isin cl') = (t \isin clX) && (t \isin clY)].
Proof.
move=> ivX ivY d0.
have dn : sc_dims (sc_new (sc_dims X).-1) = sc_dims X by rewrite /sc_dims size_grow maxn0 prednK.
have := inter_list_ok (L := cell_list clX (sc_dims X)) ivY (inv_new _) dn.
case=> [s si||L1 s L2 e j lj l1|Z' [cl' [E iv' dZ ct]]].
- have n0 := cell_list_nonnil ivX si; split=> //.
  by move: si; rewrite (mem_cell_list ivX n0) => /(in_dims ivX); case: (s) n0.
- exact: uniq_cell_list ivX.
- exact: cell_list_faces ivX e j lj l1.
exists Z', cl'; split=> //.
  by rewrite -E -(loop_cells (inter1 Y) _ ivX); exact: erefl.
by move=> t nt; rewrite ct // (mem_cell_list ivX).
Qed.

Lemma union_ok clX X clY Y : inv clX X -> inv clY Y ->
  exists (Z' : scx) (cl' : cells_t), [/\ sc_union X Y = Ok Z', inv cl' Z', 0 < sc_dims Z' &
    forall t, t != [::] -> (t \isin cl') = (t \in [seq sort leq s | s <- cell_list clX (sc_dims X)])
                                        || (t \in [seq sort leq s | s <- cell_list clY (sc_dims Y)])].
Proof.
move=> ivX ivY; rewrite /sc_union.
have [Z1 [cl1 [-> [iv1 d1] _ ct1]]] := add_all_ok ivX (inv_new 0); cbn [obind].
have [Z2 [cl2 [E [iv2 d2] _ ct2]]] := add_all_ok ivY iv1.
exists Z2, cl2; split=> //; first by apply: leq_trans (leq_trans d1 d2).
by move=> t nt; rewrite ct2 // ct1.
Qed.

Lemma built_inv X : built X -> exists2 cl, inv cl X & 0 < sc_dims X.
Proof.
have sn (s : seq nat) : s = [::] \/ s != [::] by case: s; [left|right].
elim=> {X} [m|X s X' r _ [cl iv d0] E|X s X' r _ [cl iv d0] E|X s X' r _ [cl iv d0] E|X s X' r _ [cl iv d0] E
           |X Y Z _ [cl iv d0] _ [cl' iv' d0'] E|X Y Z _ [cl iv d0] _ [cl' iv' d0'] E|X Y Z _ [cl iv d0] _ [cl' iv' d0'] E].
- by exists (fun _ => [::]); [exact: inv_new|].
- case: (sn s) => [e|n0]; first by rewrite e in E.
  rewrite -sort_nil in n0; have [X1 [r1 [cl1 [E1 iv1 _ _ [_ _ d1]]]]] := add_step iv n0.
  by move: E; rewrite /sc_add E1 => -[<- _]; exists cl1 => //; exact: leq_trans d0 d1.
- case: (sn s) => [e|n0]; first by rewrite e in E.
  have [X1 [r1 [cl1 [E1 iv1 _ _ [_ _ d1]]]]] := add_step iv n0.
  by move: E; rewrite E1 => -[<- _]; exists cl1 => //; exact: leq_trans d0 d1.
- case: (sn s) => [e|n0]; first by rewrite e in E.
  rewrite -sort_nil in n0; have [X1 [r1 [cl1 [E1 [iv1 d1] _ _ _]]]] := rec_step iv n0.
  by move: E; rewrite /sc_add_recursive E1 => -[<- _]; exists cl1 => //; exact: leq_trans d0 d1.
- case: (sn s) => [e|n0]; first by rewrite e in E.
  have [X1 [r1 [cl1 [E1 [iv1 d1] _ _ _]]]] := rec_step iv n0.
  by move: E; rewrite E1 => -[<- _]; exists cl1 => //; exact: leq_trans d0 d1.
- by have [Z1 [cl1 [E1 iv1 d1 _]]] := union_ok iv iv'; move: E; rewrite E1 => -[<-]; exists cl1.
- have [Z1 [cl1 [E1 [iv1 d1] _ _]]] := add_all_ok iv' iv; move: E; rewrite /sc_union_add E1 => -[<-].
  by exists cl1 => //; exact: leq_trans d0 d1.
- by have [Z1 [cl1 [E1 iv1 d1 _]]] := inter_ok iv iv' d0; move: E; rewrite E1 => -[<-]; exists cl1; rewrite // d1.
Qed.
