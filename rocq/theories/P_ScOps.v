(** The operations of SimplicialComplex on states that satisfy the representation invariant. *)
From mathcomp Require Import all_ssreflect all_algebra zify.
From Verif Require Import Outcome M_SparseVec M_Perm M_ColMatrix M_CSC M_Simplicial S_Perm P_Outcome P_Perm P_Sort P_Trie P_Simplicial.
Set Implicit Arguments.
Unset Strict Implicit.
Unset Printing Implicit Defensive.
Import GRing.Theory.

Definition inv (cl : cells_t) (X : scx) := invb (sc_dims X) cl X.
Definition facesb (cl : cells_t) (s : seq nat) :=
  (size s == 1) || all (fun j => skip j s \in cl (size s).-2) (rev (iota 0 (size s))).

Lemma nth_grow (A : Type) (d : A) n s i : nth d (grow d n s) i = nth d s i.
Proof.
rewrite /grow nth_cat; case: ltnP => // le; rewrite nth_nseq if_same nth_default //.
Qed.
Lemma size_grow (A : Type) (d : A) n s : size (grow d n s) = maxn n (size s).
Proof. by rewrite /grow size_cat size_nseq; lia. Qed.
Lemma grow_id (A : Type) (d : A) n s : n <= size s -> grow d n s = s.
Proof. by move=> le; rewrite /grow (_ : _ - _ = 0) ?cats0 //; lia. Qed.

Lemma inv_reserve cl X m : inv cl X -> inv cl (sc_reserve m X) /\ sc_dims (sc_reserve m X) = maxn m.+1 (sc_dims X).
Proof.
move=> [[q1 q2 q3] _ Wi Ci Ti]; have E : sc_dims (sc_reserve m X) = maxn m.+1 (sc_dims X) by rewrite /sc_dims size_grow.
split=> //; split=> //.
- by split; rewrite /= !size_grow; rewrite ?q1 ?q2 ?q3; lia.
- move=> d _; case: (ltnP d (sc_dims X)) => ld.
    by apply: W_ext (Wi d ld) (extends_refl _) _ _ _ _; rewrite //= ?nth_grow.
  have c0 := Ci d ld; split; rewrite ?c0 /= ?nth_grow ?nth_default ?q1 //.
    by split; rewrite c0 //; case: (d).
  by case: d ld c0 => // d ld c0; rewrite /= !nth_grow !nth_default //; rewrite ?q2 ?q3; move: ld; rewrite /sc_dims; lia.
- by move=> d; rewrite -/(sc_dims _) E => ld; apply: Ci; move: ld; rewrite /sc_dims; lia.
Qed.

Lemma reserve_id X m : shape X -> m < sc_dims X -> sc_reserve m X = X.
Proof.
case: X => a b c d t [q1 q2 q3]; rewrite /sc_dims /= => lt; rewrite /= in q1 q2 q3.
by rewrite /sc_reserve /= !grow_id ?q1 ?q2 ?q3 //; lia.
Qed.

Lemma inv_new m : inv (fun _ => [::]) (sc_new m).
Proof.
have h : inv (fun _ => [::]) sc_raw.
  split=> //; split=> //; first exact: alive_new.
  by split=> // -[|a k].
by have [] := inv_reserve m h.
Qed.

(** ** the loop over faces of _add_unsafe *)
Lemma face_loop_ok cl X s ks c fv cv : Tinv cl X -> 1 < size s -> all (fun j => j < size s) ks ->
  exists F C, [/\ face_loop X s ks c fv cv = Ok (all (fun j => skip j s \in cl (size s).-2) ks, fv ++ F, cv ++ C) &
    all (fun j => skip j s \in cl (size s).-2) ks ->
      F = [seq index (skip j s) (cl (size s).-2) | j <- ks] /\ C = [seq (c * (-1) ^+ i)%R | i <- iota 0 (size ks)]].
Proof.
move=> T ls; elim: ks c fv cv => [|j ks IH] c fv cv; first by exists [::], [::]; rewrite !cats0.
rewrite [X in X -> _]/= => /andP [lj al]; rewrite [face_loop _ _ _ _ _ _]/=.
have sz := size_skip lj; have nz : skip j s != [::] by rewrite -size_eq0 sz; lia.
rewrite (find_ok T nz) sz; cbn [obind]; rewrite [all _ (j :: ks)]/=; case: ifP => E; last first.
  by exists [::], [::]; rewrite !cats0.
have [F [C [-> H]]] := IH (- c)%R (rcons fv (index (skip j s) (cl (size s).-2))) (rcons cv c) al.
exists (index (skip j s) (cl (size s).-2) :: F), (c :: C); split; first by rewrite !cat_rcons.
move=> /H [-> ->]; split=> //.
by have := alt_cat c 0 (size ks); rewrite /= expr0 mulr1 => ->.
Qed.

Lemma set_nth_id (A : Type) (d : A) s i : i < size s -> set_nth d s i (nth d s i) = s.
Proof.
move=> lt; apply: (@eq_from_nth _ d); first by rewrite size_set_nth; lia.
by move=> j _; rewrite nth_setE; case: eqP => [->|].
Qed.
Lemma set_nth_back (A : Type) (d : A) s i v : i < size s -> set_nth d (set_nth d s i v) i (nth d s i) = s.
Proof.
move=> lt; apply: (@eq_from_nth _ d); first by rewrite !size_set_nth; lia.
by move=> j _; rewrite !nth_setE; case: eqP => [->|].
Qed.

Lemma inv_Wc cl X : inv cl X -> forall d, Wc cl d.
Proof.
move=> [_ _ Wi Ci _] d; case: (ltnP d (sc_dims X)) => ld; first exact: W_Wc (Wi d ld).
by have c0 := Ci d ld; split; rewrite c0 //; case: (d).
Qed.

Lemma inv_sub cl X s t : inv cl X -> s \in cl (size s).-1 -> t != [::] -> subseq t s -> t \in cl (size t).-1.
Proof.
move=> iv si nt st; apply: (@closed_sub cl (size s).+1 (fun d _ => inv_Wc iv d) (size s).-1 s t _ si nt st); lia.
Qed.

Lemma facesb_sub cl X s t : inv cl X -> facesb cl s -> t != [::] -> subseq t s -> t != s -> t \in cl (size t).-1.
Proof.
move=> iv; rewrite /facesb; case: (eqVneq (size s) 1) => [e _|ne /= al] nt st ns.
  exfalso; have := subseq_eqs st; rewrite e; case: (t) nt ns => //= a u _ /eqP ns /(_ isT) e'; exact: ns.
have lt : size t < size s.
  by rewrite ltnNge; apply/negP => le; rewrite (subseq_eqs st le) eqxx in ns.
have [j lj sj] := subseq_skip st lt.
have sz := size_skip lj.
apply: (inv_sub iv _ nt sj); rewrite sz; apply: (allP al); by rewrite mem_rev mem_iota.
Qed.

Lemma add_unsafe_ok cl X s : inv cl X -> s != [::] -> (size s).-1 < sc_dims X -> s \notin cl (size s).-1 ->
  let d := (size s).-1 in
  if facesb cl s then
    exists X', [/\ sc_add_unsafe X s = Ok (X', Some (size (cl d))), inv (upd cl d (rcons (cl d) s)) X' & sc_dims X' = sc_dims X]
  else sc_add_unsafe X s = Ok (X, None).
Proof.
move=> iv n0 ld ns d; have [sh _ Wi Ci Ti] := iv; have [q1 q2 q3] := sh.
have ss : size s = d.+1 by rewrite /d; case: (s) n0.
have ed : (size s).-1 = d by [].
change (is_true (d < sc_dims X)) in ld; change (is_true (s \notin cl d)) in ns; clearbody d.
have [w1 w2 wc w5] := Wi d ld.
rewrite /sc_add_unsafe ed (oget_nth 0) //; cbn [obind]; rewrite (oset_Ok 0) //; cbn [obind].
rewrite w1; set ncs := set_nth _ _ _ _.
have sncs : size ncs = size (sc_ncells X) by rewrite size_set_nth; rewrite /sc_dims in ld; lia.
case: ifP => Ef; last first.
  have d0 : (d == 0) = false by move: Ef; rewrite /facesb ss eqSS; case: (d == 0).
  have lf : d.-1 < size (sc_faces X) by move: ld d0; rewrite q2 /sc_dims; lia.
  have lc : d.-1 < size (sc_coeff X) by rewrite q3 -q2.
  rewrite d0 (oget_nth [::]) // (oget_nth [::]) //; cbn [obind].
  have [] := @face_loop_ok cl X s (rev (iota 0 d.+1)) (-1)%R (fa X d.-1) (co X d.-1) Ti.
  - by rewrite ss; move: d0; lia.
  - by apply/allP => j; rewrite mem_rev mem_iota ss.
  move=> F [C [-> _]]; cbn [obind].
  have -> : all (fun j => skip j s \in cl (size s).-2) (rev (iota 0 d.+1)) = false.
    by move: Ef; rewrite /facesb ss; case: (_ == _).
  have sfc : size (co X d.-1) = size (fa X d.-1).
    case: (d) d0 w5 wc => // d' _ [/= -> ->] [h _ _].
    rewrite (size_rowsc (d := d'.+1)) //; first by rewrite (size_rows (d := d'.+1)) // => u; exact: size_rowf.
    by move=> u; exact: size_rowc.
  rewrite /resize take_size_cat // -{1}sfc take_size_cat // !grow_id // ?sfc //.
  rewrite (oset_Ok [::]) // (oset_Ok [::]) //; cbn [obind]; rewrite (oset_Ok 0) ?sncs //; cbn [obind].
  by rewrite !set_nth_id // /ncs -w1 set_nth_back //; case: (X).
have sub t : t != [::] -> subseq t s -> t != s -> t \in cl (size t).-1 by exact: facesb_sub iv Ef.
set cl' := upd cl d _.
have Ci' : forall d', sc_dims X <= d' -> cl' d' = [::].
  by move=> d' ld'; rewrite /cl' /upd; case: eqP => [e|_]; [exfalso; move: ld'; rewrite e; move: ld; clear; lia|exact: Ci].
case: (eqVneq d 0) => d0.
  clear ed; subst d.
  have shY : shape (SCX ncs (sc_spx X) (sc_faces X) (sc_coeff X) (sc_trie X)) by split; rewrite /= ?sncs.
  have ldY : 0 < size (sc_ncells (SCX ncs (sc_spx X) (sc_faces X) (sc_coeff X) (sc_trie X))) by rewrite [sc_ncells _]/= sncs.
  have [X' [-> T' [n1 n2] [f1 f2]]] := store_ok shY ldY ss Ti ns erefl sub; cbn [obind]; exists X'; rewrite -/cl' in T'.
  have E : sc_dims X' = sc_dims X by rewrite /sc_dims n1.
  split=> //; split=> //.
  + by split; rewrite ?n1 ?n2 ?f1 ?f2 /= ?sncs // size_set_nth q1; move: ld; rewrite /sc_dims; lia.
  + move=> d' ld'; rewrite E in ld'; case: (eqVneq d' 0) => [->|ne].
      rewrite /W n1 n2 /= /ncs !nth_setE eqxx /cl' /upd eqxx size_rcons flatten_rcons w2; split=> //.
        have [v1 v2 _] := wc; split; rewrite ?eqxx ?all_rcons ?ss ?eqxx ?v1 ?rcons_uniq ?v2 ?andbT //.
    apply: W_ext (Wi d' ld') (extends_rcons _ _ _) _ _ _ _; rewrite ?n1 ?n2 ?f1 ?f2 /= /ncs ?nth_setE ?(negbTE ne) //.
    by rewrite /cl' /upd (negbTE ne).
  + by move=> d' ld'; apply: Ci'; rewrite -E.
have lf : d.-1 < size (sc_faces X) by move: ld d0; rewrite q2 /sc_dims; lia.
have lc : d.-1 < size (sc_coeff X) by rewrite q3 -q2.
rewrite (oget_nth [::]) // (oget_nth [::]) //; cbn [obind].
have [] := @face_loop_ok cl X s (rev (iota 0 d.+1)) (-1)%R (fa X d.-1) (co X d.-1) Ti.
- by rewrite ss; move: d0; lia.
- by apply/allP => j; rewrite mem_rev mem_iota ss.
move=> F [C [-> H]]; cbn [obind].
have al : all (fun j => skip j s \in cl (size s).-2) (rev (iota 0 d.+1)).
  by move: Ef; rewrite /facesb ss eqSS (negbTE d0).
have {H} [-> ->] := H al; rewrite al; cbn [obind].
case Ed : d => [|e]; first by rewrite Ed in d0.
set Y := SCX ncs (sc_spx X) (sc_faces X) (sc_coeff X) (sc_trie X).
have shY : shape Y by split; rewrite /= ?sncs.
have := @tail_ok cl Y s e shY.
rewrite -Ed -/cl' /= sncs /ncs nth_setE eqxx => /(_ ld ss Ti ns sub wc erefl w2) [X' [Et Tt [Wt sht] nct frt]].
move: w5; rewrite {1}Ed => -[w5 w6]; rewrite Ed in w5 w6.
have fE : fa X d.-1 ++ [seq index (skip j s) (cl (size s).-2) | j <- rev (0 :: iota 1 d)] =
    flatten [seq rowf (cl e) s | s <- cl d] ++ rawf (cl e) s.
  by rewrite /rawf ss Ed /= w5.
have cE : co X d.-1 ++ [seq (-1 * (-1) ^+ i)%R | i <- iota 0 (size (rev (0 :: iota 1 d)))] =
    flatten [seq rowc (cl e) s | s <- cl d] ++ rawc (size s).
  rewrite (_ : size (rev _) = d.+1); last by rewrite size_rev /= size_iota.
  by rewrite ss Ed [e.+1.-1]/= w6; congr (_ ++ _); apply: eq_map => i; rewrite exprS.
exists X'; rewrite fE cE; split.
- move: Et; rewrite /sc_tail; case: (range_sort _ _ _ _) => // q; cbn [obind].
  rewrite [sc_faces _]/= [sc_coeff _]/=; case: (oset _ _ _) => // fs; cbn [obind].
  by case: (oset _ _ _) => // cs; cbn [obind] => ->.
- have E : sc_dims X' = sc_dims X by rewrite /sc_dims nct.
  split=> //.
  + move=> d' ld'; rewrite E in ld'; case: (eqVneq d' d) => [->//|ne].
    have [f1 f2] := frt d' ne.
    apply: W_ext (Wi d' ld') (extends_rcons _ _ _) _ _ _ _; rewrite ?nct ?nth_setE ?(negbTE ne) //.
      by rewrite /cl' /upd (negbTE ne).
    by move=> p0; apply: f2; move: p0; clear; lia.
  + by move=> d' ld'; apply: Ci'; rewrite -E.
- by rewrite /sc_dims nct.
Qed.

(** ** the public operations.  An invariant step from (cl, X) to (cl', X'): indices only grow. *)
Lemma count_ok cl X s : Tinv cl X -> s != [::] ->
  tcount s (sc_trie X) = Ok (if s \in cl (size s).-1 then 1 else 0) /\
  (s \in cl (size s).-1 -> tget_at s (sc_trie X) = Ok (index s (cl (size s).-1))).
Proof.
move=> [al [_ T]] n0; have Ts := T s n0; split.
  by rewrite tcount_ok // Ts; case: ifP.
by move=> si; apply: tget_at_ok => //; rewrite Ts si.
Qed.

Lemma in_dims cl X s : inv cl X -> s \in cl (size s).-1 -> (size s).-1 < sc_dims X.
Proof. by move=> [_ _ _ Ci _] si; rewrite ltnNge; apply/negP => le; rewrite Ci in si. Qed.

Lemma add_directed_ok cl X s : inv cl X -> s != [::] -> let d := (size s).-1 in
  if s \in cl d then sc_add_directed X s = Ok (X, Some (index s (cl d)))
  else if facesb cl s then exists X', [/\ sc_add_directed X s = Ok (X', Some (size (cl d))),
            inv (upd cl d (rcons (cl d) s)) X' & sc_dims X' = maxn d.+1 (sc_dims X)]
  else sc_add_directed X s = Ok (sc_reserve d X, None).
Proof.
move=> iv n0 d; have [sh _ _ _ Ti] := iv.
have -> : sc_add_directed X s = do n <- tcount s (sc_trie X);
  if n > 0 then do i <- tget_at s (sc_trie X); Ok (sc_reserve d X, Some i) else sc_add_unsafe (sc_reserve d X) s.
  by rewrite /sc_add_directed /d; case: (s) n0.
have [-> cg] := count_ok Ti n0; cbn [obind]; rewrite -/d in cg *.
case: ifP => si; rewrite si [0 < _]/=.
  rewrite cg //=; rewrite reserve_id //; exact: (in_dims iv si).
have [iv1 e1] := inv_reserve d iv.
have ld : (size s).-1 < sc_dims (sc_reserve d X) by rewrite e1 -/d; lia.
have := add_unsafe_ok iv1 n0 ld (negbT si); rewrite -/d /=.
by case: ifP => // _ [X' [-> iv' e2]]; exists X'; rewrite -e1.
Qed.

Lemma inv_full n cl X cl' X' : invb n cl' X' -> frame n X X' -> extends cl cl' -> (forall d, n <= d -> cl' d = cl d) ->
  inv cl X -> inv cl' X' /\ sc_dims X' = sc_dims X.
Proof.
move=> [sh' lb Wi' Ci' Ti'] [fr1 fr2 fr3] ex st [sh _ Wi Ci Ti].
have E : sc_dims X' = sc_dims X by [].
split=> //; split=> // d ld; case: (ltnP d n) => dn; first exact: Wi'.
have [f1 f2] := fr2 d dn; apply: W_ext (Wi d _) ex _ f1 f2 _; [by rewrite -E|exact: st|].
by move=> p0; apply: fr3; move: p0 dn; clear; lia.
Qed.

Lemma add_directed_rec_ok cl X s : inv cl X -> s != [::] -> let d := (size s).-1 in
  if s \in cl d then sc_add_directed_recursive X s = Ok (X, [:: (d, index s (cl d))])
  else exists (X' : scx) (cl' : cells_t) (new : seq (nat * nat)),
    [/\ sc_add_directed_recursive X s = Ok (X', new), inv cl' X' /\ sc_dims X' = maxn d.+1 (sc_dims X), extends cl cl',
        forall t, t != [::] -> (t \in cl' (size t).-1) = (t \in cl (size t).-1) || subseq t s &
        new_cells cl cl' new].
Proof.
move=> iv n0 d; have [sh _ _ _ Ti] := iv.
have -> : sc_add_directed_recursive X s = do n <- tcount s (sc_trie X);
  if n > 0 then do i <- tget_at s (sc_trie X); Ok (sc_reserve d X, [:: (d, i)])
  else do r <- sc_add_rec (size s) (sc_reserve d X) [::] s; Ok r.1.
  by rewrite /sc_add_directed_recursive /d; case: (s) n0.
have [-> cg] := count_ok Ti n0; cbn [obind]; rewrite -/d in cg *.
case: ifP => si; rewrite si [0 < _]/=.
  rewrite cg //=; rewrite reserve_id //; exact: (in_dims iv si).
have [iv1 e1] := inv_reserve d iv.
have ss : size s = d.+1 by rewrite /d; case: (s) n0.
have ivb : invb d.+1 cl (sc_reserve d X).
  have [sh1 _ Wi1 Ci1 Ti1] := iv1; split=> //; first by move: e1; rewrite /sc_dims => ->; lia.
  by move=> d' ld'; apply: Wi1; rewrite e1; move: ld'; clear; lia.
have [X' [cl' [new [E [iv' fr] [ex c1 st] ct nw]]]] := @rec_ok d (sc_reserve d X) cl [::] s ss ivb (negbT si).
rewrite ss E /=; exists X', cl', new; split=> //; rewrite -e1; exact: inv_full iv' fr ex st iv1.
Qed.

(** reading *)
Lemma flat_seg (A : Type) n (ss : seq (seq A)) i : all (fun s => size s == n) ss -> i < size ss ->
  take n (drop (n * i) (flatten ss)) = nth [::] ss i /\ (n * i + n <= size (flatten ss))%N.
Proof.
elim: ss i => [|s ss IH] // [|i] /= /andP [/eqP e al] lt; rewrite size_cat e.
  by rewrite muln0 drop0 take_size_cat //; split=> //; lia.
by rewrite mulnS drop_cat e ltnNge leq_addr /= addKn; have [-> l] := IH i al lt; split=> //; lia.
Qed.

Lemma ncell_ok cl X k : inv cl X -> k < sc_dims X -> sc_ncell X k = Ok (size (cl k)).
Proof. by move=> [_ _ Wi _ _] lk; rewrite /sc_ncell (oget_nth 0) //; have [->] := Wi k lk. Qed.

Lemma simplex_ok cl X k i : inv cl X -> i < size (cl k) -> sc_simplex X k i = Ok (nth [::] (cl k) i).
Proof.
move=> [[q1 _ _] _ Wi Ci _] li; have lk : k < sc_dims X.
  by rewrite ltnNge; apply/negP => le; rewrite Ci in li.
have [_ w2 [w3 _ _] _] := Wi k lk; rewrite /sc_simplex (oget_nth [::]) ?q1 //; cbn [obind].
rewrite w2 /orange; have [-> ->] := flat_seg w3 li; by [].
Qed.

Lemma cl_size cl X k s : inv cl X -> s \in cl k -> size s = k.+1.
Proof. by move=> iv si; have [w _ _] := inv_Wc iv k; exact/eqP/(allP w). Qed.
