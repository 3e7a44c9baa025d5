(** The representation invariant of SimplicialComplex and its preservation. *)
From mathcomp Require Import all_ssreflect all_algebra zify.
From Verif Require Import Outcome M_SparseVec M_Perm M_ColMatrix M_CSC M_Simplicial S_Perm P_Outcome P_Perm P_Sort P_Trie.
Set Implicit Arguments.
Unset Strict Implicit.
Unset Printing Implicit Defensive.
Import GRing.Theory.

(** ** skip and subsequences *)
Lemma size_skip j (s : seq nat) : j < size s -> size (skip j s) = (size s).-1.
Proof. by move=> lt; rewrite size_cat size_takel ?size_drop; lia. Qed.

Lemma skip0 x s : skip 0 (x :: s) = s. Proof. by rewrite /skip /= drop0. Qed.
Lemma skipS j x s : skip j.+1 (x :: s) = x :: skip j s. Proof. by []. Qed.

Lemma skip_subseq j s : subseq (skip j s) s.
Proof.
elim: s j => [|x s IH] [|j] //; first by rewrite skip0 subseq_cons.
by rewrite skipS /= eqxx.
Qed.

Lemma subseq_skip (t s : seq nat) : subseq t s -> size t < size s ->
  exists2 j, j < size s & subseq t (skip j s).
Proof.
elim: s t => [|x s IH] [|y t] //.
  by move=> _ _; exists 0 => //; exact: sub0seq.
rewrite [subseq _ _]/=; case: (eqVneq y x) => [->|ne] H lt; last by exists 0; rewrite ?skip0.
have [|j lj sj] := IH t H; first by move: lt => /=; lia.
by exists j.+1; rewrite // skipS /= eqxx.
Qed.

Lemma prefix_subseq (t s : seq nat) : prefix t s -> subseq t s.
Proof. by move=> /prefixP [u ->]; exact: prefix_subseq. Qed.

(** ** rows of the face arrays *)
Definition rawf (cl : seq (seq nat)) (s : seq nat) : seq nat := [seq index (skip k2 s) cl | k2 <- rev (iota 0 (size s))].
Definition rawc (n : nat) : seq int := [seq (-1) ^+ k.+1 | k <- iota 0 n]%R.
Definition rowf cl s := [seq nth 0 (rawf cl s) p | p <- sperm (rawf cl s)].
Definition rowc cl s := [seq nth 0%R (rawc (size s)) p | p <- sperm (rawf cl s)].

Lemma size_rawf cl s : size (rawf cl s) = size s.
Proof. by rewrite size_map size_rev size_iota. Qed.
Lemma size_rawc n : size (rawc n) = n. Proof. by rewrite size_map size_iota. Qed.
Lemma size_rowf cl s : size (rowf cl s) = size s.
Proof. by rewrite size_map size_sperm size_rawf. Qed.
Lemma size_rowc cl s : size (rowc cl s) = size s.
Proof. by rewrite size_map size_sperm size_rawf. Qed.

Definition faces_in (cl : seq (seq nat)) s := forall j, j < size s -> skip j s \in cl.

Lemma rawf_cat cl e s : faces_in cl s -> rawf (cl ++ e) s = rawf cl s.
Proof.
move=> H; apply/eq_in_map => j; rewrite mem_rev mem_iota /= add0n => lt.
by rewrite index_cat H.
Qed.
Lemma rowf_cat cl e s : faces_in cl s -> rowf (cl ++ e) s = rowf cl s.
Proof. by move=> H; rewrite /rowf rawf_cat. Qed.
Lemma rowc_cat cl e s : faces_in cl s -> rowc (cl ++ e) s = rowc cl s.
Proof. by move=> H; rewrite /rowc rawf_cat. Qed.

Lemma size_flat (A : Type) (n : nat) (ss : seq (seq A)) : all (fun s => size s == n) ss -> size (flatten ss) = (n * size ss)%N.
Proof. by elim: ss => [|s ss IH] /=; rewrite ?muln0 // => /andP [/eqP e /IH]; rewrite size_cat e mulnS => ->. Qed.

(** ** the invariant.  [cl d] is the list of simplices of dimension d in order of insertion. *)
Notation nc X d := (nth 0 (sc_ncells X) d).
Notation sp X d := (nth [::] (sc_spx X) d).
Notation fa X d := (nth [::] (sc_faces X) d).
Notation co X d := (nth [::] (sc_coeff X) d).

Definition cells_t := nat -> seq (seq nat).

Definition Wc (cl : cells_t) d : Prop :=
  [/\ all (fun s => size s == d.+1) (cl d), uniq (cl d) &
      if d is d'.+1 then forall s, s \in cl d -> faces_in (cl d') s else True].

Definition W (cl : cells_t) (X : scx) d : Prop :=
  [/\ nc X d = size (cl d), sp X d = flatten (cl d), Wc cl d &
   if d is d'.+1 then
     fa X d' = flatten [seq rowf (cl d') s | s <- cl d] /\ co X d' = flatten [seq rowc (cl d') s | s <- cl d]
   else True].

Definition Tinv (cl : cells_t) (X : scx) : Prop :=
  alive (sc_trie X) /\
  tg [::] (sc_trie X) = Some 0 /\
  forall k, k != [::] -> tg k (sc_trie X) = if k \in cl (size k).-1 then Some (index k (cl (size k).-1)) else None.

Definition shape (X : scx) : Prop :=
  [/\ size (sc_spx X) = size (sc_ncells X), size (sc_faces X) = (size (sc_ncells X)).-1 &
      size (sc_coeff X) = (size (sc_ncells X)).-1].

Definition invb (b : nat) (cl : cells_t) (X : scx) : Prop :=
  [/\ shape X, b <= size (sc_ncells X), forall d, d < b -> W cl X d,
      forall d, size (sc_ncells X) <= d -> cl d = [::] & Tinv cl X].

Definition upd (cl : cells_t) d v : cells_t := fun d' => if d' == d then v else cl d'.
Definition extends (cl cl' : cells_t) := forall d, exists e, cl' d = cl d ++ e.

Lemma extends_refl cl : extends cl cl. Proof. by move=> d; exists [::]; rewrite cats0. Qed.
Lemma extends_trans a b c : extends a b -> extends b c -> extends a c.
Proof. by move=> A B d; have [e ->] := B d; have [e' ->] := A d; exists (e' ++ e); rewrite catA. Qed.
Lemma extends_mem a b d s : extends a b -> s \in a d -> s \in b d.
Proof. by move=> A H; have [e ->] := A d; rewrite mem_cat H. Qed.
Lemma extends_rcons cl d s : extends cl (upd cl d (rcons (cl d) s)).
Proof.
move=> d'; rewrite /upd; case: eqP => [->|_]; first by exists [:: s]; rewrite cats1.
by exists [::]; rewrite cats0.
Qed.

(** an unchanged dimension stays fine when lower dimensions grow *)
Lemma W_ext cl cl' X X' d : W cl X d -> extends cl cl' -> cl' d = cl d ->
  nc X' d = nc X d -> sp X' d = sp X d -> (0 < d -> fa X' d.-1 = fa X d.-1 /\ co X' d.-1 = co X d.-1) -> W cl' X' d.
Proof.
move=> [w1 w2 [w3 w4 w5] w6] ex e en es ef; split; rewrite ?e ?en ?es //.
  split; rewrite ?e //; case: d w5 {w1 w2 w3 w4 w6} e en es ef => // d w5 e _ _ _ s si j lj.
  exact: extends_mem ex (w5 s si j lj).
case: d w1 w2 w3 w4 w5 w6 e en es ef => // d w1 w2 w3 w4 w5 [f1 f2] e en es /(_ isT) /= [-> ->].
have [x Ex] := ex d; rewrite Ex f1 f2.
by split; congr flatten; apply/eq_in_map => s si; rewrite ?rowf_cat ?rowc_cat //; exact: w5.
Qed.

Lemma W_Wc cl X d : W cl X d -> Wc cl d. Proof. by case. Qed.

Lemma closed_sub cl b : (forall d, d < b -> Wc cl d) -> forall d s t, d < b -> s \in cl d -> t != [::] -> subseq t s ->
  t \in cl (size t).-1.
Proof.
move=> H; elim=> [|d IH] s t lt si nt st.
  have [w _ _] := H 0 lt; have /eqP ss := allP w _ si.
  have st1 : size t = 1.
    by have := size_subseq st; rewrite ss; case: t nt {st} => //= x t _; lia.
  have := size_subseq_leqif st; rewrite st1 ss => /leqif_refl /eqP ->; rewrite ?ss //.
have [w _ cf] := H _ lt; have /eqP ss := allP w _ si.
case: (ltnP (size t) (size s)) => l.
  have [j lj sj] := subseq_skip st l; apply: (IH (skip j s)) => //; [lia|exact: cf].
have := size_subseq_leqif st; have -> : size t = size s by have := size_subseq st; lia.
by move=> /leqif_refl /eqP ->; rewrite ss.
Qed.

Lemma find_ok cl X s : Tinv cl X -> s != [::] ->
  sc_find X s = Ok (if s \in cl (size s).-1 then Some (index s (cl (size s).-1)) else None).
Proof. by move=> [al [_ H]] n; rewrite /sc_find al H. Qed.
Lemma find_nil cl X : Tinv cl X -> sc_find X [::] = Ok (Some 0).
Proof. by move=> [al [H _]]; rewrite /sc_find al H. Qed.

Lemma Tinv_eq cl X X' : sc_trie X' = sc_trie X -> Tinv cl X -> Tinv cl X'.
Proof. by rewrite /Tinv => ->. Qed.

(** storing a new simplex whose proper subsequences are present *)
Lemma store_ok cl X s dim ind : shape X -> dim < size (sc_ncells X) -> size s = dim.+1 -> Tinv cl X ->
  s \notin cl dim -> ind = size (cl dim) ->
  (forall t, t != [::] -> subseq t s -> t != s -> t \in cl (size t).-1) ->
  exists X', [/\ sc_store X s dim ind = Ok X', Tinv (upd cl dim (rcons (cl dim) s)) X',
    sc_ncells X' = sc_ncells X /\ sc_spx X' = set_nth [::] (sc_spx X) dim (sp X dim ++ s) &
    sc_faces X' = sc_faces X /\ sc_coeff X' = sc_coeff X].
Proof.
move=> [h1 h2 h3] ld ss [al [T0 T]] ns ei sub; rewrite /sc_store.
have [t' [-> al' G]] := tinsert_ok s ind al; cbn [obind].
rewrite (oget_nth [::]) ?h1 //; cbn [obind]; rewrite (oset_Ok [::]) ?h1 //; cbn [obind].
eexists; split; [reflexivity|split=> //=; split=> [|k nk]|by []|by []].
  have e0 : ([::] == s) = false by case: (s) ss.
  by have := G [::]; rewrite e0 prefix0s T0.
rewrite G; case: (eqVneq k s) => [->|ne].
  rewrite /upd ss eqxx mem_rcons inE eqxx /= -cats1 index_cat (negbTE ns) /= eqxx ei addn0 //.
have E : tg k (sc_trie X) = if k \in upd cl dim (rcons (cl dim) s) (size k).-1
           then Some (index k (upd cl dim (rcons (cl dim) s) (size k).-1)) else None.
  rewrite T // /upd; case: eqP => [e|//].
  rewrite e mem_rcons inE (negbTE ne) /= -cats1 index_cat; case: ifP => // kin; by rewrite kin.
rewrite -E; case: ifP => // pf.
by have := sub k nk (prefix_subseq pf) ne; rewrite T // => ->.
Qed.

(** sort the new row, then store: the common end of _add_unsafe and _add_recursive *)
Definition sc_tail (Y : scx) (s : seq nat) (dim ind : nat) (fv : seq nat) (cv : seq int) : outcome scx :=
  do q <- range_sort (dim.+1 * ind) dim.+1 fv cv;
  do fs <- oset (sc_faces Y) dim.-1 q.1;
  do cs <- oset (sc_coeff Y) dim.-1 q.2;
  sc_store (SCX (sc_ncells Y) (sc_spx Y) fs cs (sc_trie Y)) s dim ind.

Lemma size_rows d (f : seq nat -> seq nat) (ss : seq (seq nat)) : (forall s, size (f s) = size s) ->
  all (fun s => size s == d.+1) ss -> size (flatten (map f ss)) = (d.+1 * size ss)%N.
Proof.
move=> e a; rewrite (@size_flat _ d.+1) ?size_map //; apply/allP => u /mapP [s si ->]; by rewrite e (eqP (allP a _ si)).
Qed.
Lemma size_rowsc d (f : seq nat -> seq int) (ss : seq (seq nat)) : (forall s, size (f s) = size s) ->
  all (fun s => size s == d.+1) ss -> size (flatten (map f ss)) = (d.+1 * size ss)%N.
Proof.
move=> e a; rewrite (@size_flat _ d.+1) ?size_map //; apply/allP => u /mapP [s si ->]; by rewrite e (eqP (allP a _ si)).
Qed.

Lemma tail_ok cl Y s d : let dim := d.+1 in let cl' := upd cl dim (rcons (cl dim) s) in
  shape Y -> dim < size (sc_ncells Y) -> size s = dim.+1 -> Tinv cl Y -> s \notin cl dim ->
  (forall t, t != [::] -> subseq t s -> t != s -> t \in cl (size t).-1) ->
  Wc cl dim -> nc Y dim = (size (cl dim)).+1 -> sp Y dim = flatten (cl dim) ->
  exists X', [/\ sc_tail Y s dim (size (cl dim)) (flatten [seq rowf (cl d) s | s <- cl dim] ++ rawf (cl d) s)
                        (flatten [seq rowc (cl d) s | s <- cl dim] ++ rawc (size s)) = Ok X',
    Tinv cl' X', W cl' X' dim /\ shape X', sc_ncells X' = sc_ncells Y &
    forall d', d' != dim -> [/\ sp X' d' = sp Y d' & forall d'', d' = d''.+1 -> fa X' d'' = fa Y d'' /\ co X' d'' = co Y d'']].
Proof.
move=> dim cl' sh ld ss T ns sub wc en es; have [h1 h2 h3] := sh; have [wc1 wc2 wc3] := wc.
have fin : faces_in (cl d) s.
  move=> j lj; have sz := size_skip lj; have := sub (skip j s).
  rewrite sz ss /=; apply; [by rewrite -size_eq0 sz ss|exact: skip_subseq|].
  by apply/eqP => /(congr1 size); rewrite sz ss; lia.
rewrite /sc_tail; set A := flatten _; set B := flatten _.
have sA : size A = (dim.+1 * size (cl dim))%N by apply: size_rows wc1 => // u; exact: size_rowf.
have sB : size B = (dim.+1 * size (cl dim))%N by apply: size_rowsc wc1 => // u; exact: size_rowc.
have := @range_sort_ok _ (0%R : int) A B (rawf (cl d) s) (rawc (size s)) [::] [::].
rewrite !cats0 size_rawf size_rawc sA sB ss => -> //; cbn [obind].
have lf : d < size (sc_faces Y) by rewrite h2; lia.
have lc : d < size (sc_coeff Y) by rewrite h3; lia.
rewrite (oset_Ok [::]) //= (oset_Ok [::]) //; cbn [obind].
set fs := set_nth _ _ _ _; set cs := set_nth _ _ _ _.
have shY : shape (SCX (sc_ncells Y) (sc_spx Y) fs cs (sc_trie Y)).
  by split=> //=; rewrite size_set_nth; lia.
have [X' [-> T' [n1 n2] [f1 f2]]] := store_ok (X := SCX (sc_ncells Y) (sc_spx Y) fs cs (sc_trie Y)) shY ld ss T ns erefl sub.
exists X'; split; [by []|exact: T'| |by []|].
- split; last first.
    by split; rewrite ?n1 ?n2 ?f1 ?f2 /= size_set_nth; lia.
  have ccd : cl' dim = rcons (cl dim) s by rewrite /cl' /upd eqxx.
  have cd : cl' d = cl d by rewrite /cl' /upd; case: eqP => // e; exfalso; move: e; rewrite /dim; lia.
  split; rewrite ?n1 ?n2 ?f1 ?f2 ?ccd.
  + by rewrite [LHS]en size_rcons.
  + by rewrite [sc_spx _]/= nth_setE eqxx es flatten_rcons.
  + split; rewrite ccd ?all_rcons ?wc1 ?ss ?eqxx ?rcons_uniq ?ns ?wc2 // => u; rewrite mem_rcons inE cd.
    by case/orP => [/eqP ->|] //; exact: wc3.
  + change (nth [::] fs d = flatten [seq rowf (cl' d) s0 | s0 <- rcons (cl dim) s] /\
            nth [::] cs d = flatten [seq rowc (cl' d) s0 | s0 <- rcons (cl dim) s]).
    rewrite cd /fs /cs !nth_setE eqxx !map_rcons !flatten_rcons -/A -/B /rowf /rowc ss.
    by split.
- move=> d' ne; rewrite n2 f1 f2 /= nth_setE (negbTE ne); split=> // d'' e.
  rewrite /fs /cs !nth_setE; case: eqP => // e'; by move: ne; rewrite e e' /dim eqxx.
Qed.

Definition frame n (X X' : scx) : Prop :=
  [/\ size (sc_ncells X') = size (sc_ncells X),
      forall d, n <= d -> nc X' d = nc X d /\ sp X' d = sp X d &
      forall d, n <= d.+1 -> fa X' d = fa X d /\ co X' d = co X d].

Lemma frame_trans n X Y Z : frame n X Y -> frame n Y Z -> frame n X Z.
Proof.
move=> [a1 a2 a3] [b1 b2 b3]; split; first by rewrite b1.
  by move=> d ld; have [-> ->] := b2 d ld; exact: a2.
by move=> d ld; have [-> ->] := b3 d ld; exact: a3.
Qed.

(** the new positions, as (dimension, index) *)
Definition new_cells (cl cl' : cells_t) (new : seq (nat * nat)) : Prop :=
  uniq new /\ forall d i, ((d, i) \in new) = (size (cl d) <= i < size (cl' d)).

Lemma extends_size a b d : extends a b -> size (a d) <= size (b d).
Proof. by move=> /(_ d) [e ->]; rewrite size_cat leq_addr. Qed.

Lemma new_cells_cat a b c n1 n2 : extends a b -> extends b c -> new_cells a b n1 -> new_cells b c n2 -> new_cells a c (n1 ++ n2).
Proof.
move=> A B [u1 m1] [u2 m2]; split.
  rewrite cat_uniq u1 u2 andbT; apply/hasPn => -[d i]; rewrite m2 => H.
  have -> : mem n1 (d, i) = ((d, i) \in n1) by [].
  by rewrite m1; lia.
move=> d i; rewrite mem_cat m1 m2; have := extends_size d A; have := extends_size d B; lia.
Qed.

Lemma new_cells_refl a : new_cells a a [::].
Proof. by split=> // d i; rewrite in_nil; lia. Qed.

Lemma new_cells_rcons cl d s : new_cells cl (upd cl d (rcons (cl d) s)) [:: (d, size (cl d))].
Proof.
split=> // d' i; rewrite inE /upd xpair_eqE; case: eqP => [->|_] /=; last lia.
by rewrite size_rcons; lia.
Qed.

(** the body of the loop over faces in _add_recursive *)
Definition rec_body (fuel : nat) (s : seq nat) (dim : nat) (st : scx * seq (nat * nat) * int) (k2 : nat) :
    outcome (scx * seq (nat * nat) * int) :=
  let: (Y, ci, c) := st in
  do i <- sc_find Y (skip k2 s);
  do r <- (match i with
           | Some i => Ok (Y, ci, i)
           | None => sc_add_rec fuel Y ci (skip k2 s)
           end);
  let: (Y1, ci1, i) := r in
  do fv <- oget (sc_faces Y1) dim.-1;
  do cv <- oget (sc_coeff Y1) dim.-1;
  do fs <- oset (sc_faces Y1) dim.-1 (rcons fv i);
  do cs <- oset (sc_coeff Y1) dim.-1 (rcons cv c);
  Ok (SCX (sc_ncells Y1) (sc_spx Y1) fs cs (sc_trie Y1), ci1, (- c)%R).

Lemma sc_add_recS fuel X ci s : sc_add_rec fuel.+1 X ci s =
  let dim := (size s).-1 in
  do ind <- oget (sc_ncells X) dim;
  do nc <- oset (sc_ncells X) dim ind.+1;
  let X0 := SCX nc (sc_spx X) (sc_faces X) (sc_coeff X) (sc_trie X) in
  if dim == 0 then
    do X' <- sc_store X0 s dim ind;
    Ok (X', rcons ci (dim, ind), ind)
  else
    do st <- ofold (rec_body fuel s dim) (X0, ci, (-1)%R) (rev (iota 0 dim.+1));
    let: (Y, ci1, _) := st in
    do fv <- oget (sc_faces Y) dim.-1;
    do cv <- oget (sc_coeff Y) dim.-1;
    do X' <- sc_tail Y s dim ind fv cv;
    Ok (X', rcons ci1 (dim, ind), ind).
Proof.
rewrite [LHS]/=; case: (oget _ _) => //= ind; case: (oset _ _ _) => //= ncs; case: ifP => // _.
case: (ofold _ _ _) => // -[[Y ci1] c] /=; case: (oget _ _) => //= fv; case: (oget _ _) => //= cv.
rewrite /sc_tail; case: (range_sort _ _ _ _) => //= q; case: (oset _ _ _) => //= fs.
by case: (oset _ _ _).
Qed.

Definition rec_spec n := forall X cl ci s, size s = n.+1 -> invb n.+1 cl X -> s \notin cl n ->
  exists (X' : scx) (cl' : cells_t) (new : seq (nat * nat)),
  [/\ sc_add_rec n.+1 X ci s = Ok (X', ci ++ new, size (cl n)),
      invb n.+1 cl' X' /\ frame n.+1 X X',
      [/\ extends cl cl', cl' n = rcons (cl n) s & forall d, n < d -> cl' d = cl d],
      forall t, t != [::] -> (t \in cl' (size t).-1) = (t \in cl (size t).-1) || subseq t s &
      new_cells cl cl' new].

Lemma alt_cat (c : int) k n : [seq (c * (-1) ^+ i)%R | i <- iota k n.+1] = (c * (-1) ^+ k)%R :: [seq (- c * (-1) ^+ i)%R | i <- iota k n].
Proof.
rewrite /= -[k.+1]addn1 addnC iotaDl -map_comp; congr cons; apply: eq_map => i /=.
by rewrite add1n exprS mulN1r mulNr mulrN.
Qed.

Lemma ofold_cons (A B : Type) (f : A -> B -> outcome A) a b l : ofold f a (b :: l) = obind (f a b) (fun a' => ofold f a' l).
Proof. by []. Qed.

Lemma rec_loop n s : rec_spec n -> size s = n.+2 -> forall ks, all (fun j => j < size s) ks ->
  forall Y cl ci c, invb n.+1 cl Y -> n < size (sc_faces Y) ->
  exists (Y' : scx) (cl' : cells_t) (new : seq (nat * nat)) (c' : int),
  [/\ ofold (rec_body n.+1 s n.+1) (Y, ci, c) ks = Ok (Y', ci ++ new, c'),
      [/\ invb n.+1 cl' Y', size (sc_ncells Y') = size (sc_ncells Y) /\
          (forall d, n < d -> [/\ nc Y' d = nc Y d, sp Y' d = sp Y d, fa Y' d = fa Y d & co Y' d = co Y d]),
          fa Y' n = fa Y n ++ [seq index (skip k2 s) (cl' n) | k2 <- ks] &
          co Y' n = co Y n ++ [seq (c * (-1) ^+ i)%R | i <- iota 0 (size ks)]],
      extends cl cl' /\ forall d, n < d -> cl' d = cl d,
      forall t, t != [::] -> (t \in cl' (size t).-1) = (t \in cl (size t).-1) || has (fun k2 => subseq t (skip k2 s)) ks &
      new_cells cl cl' new].
Proof.
move=> IHr ss; elim=> [|k2 ks IH].
  move=> _ Y cl ci c iv _; exists Y, cl, [::], c; split; rewrite ?cats0 //.
  - by split=> //; exact: extends_refl.
  - by move=> t _; rewrite orbF.
  - exact: new_cells_refl.
rewrite [all _ _]/= => /andP [lk al] Y cl ci c iv lf.
have sk : size (skip k2 s) = n.+1 by rewrite size_skip // ss.
have nk : skip k2 s != [::] by rewrite -size_eq0 sk.
have [sh lb Wi Ci Ti] := iv; rewrite ofold_cons [rec_body _ _ _ (Y, ci, c) _]/rec_body (find_ok Ti nk) sk; cbn [obind].
have [Y1 [cl1 [new1 [E1 [iv1 fr1] [ex1 mem1 st1] ct1 nw1]]]] :
  exists (Y1 : scx) (cl1 : cells_t) (new1 : seq (nat * nat)),
  [/\ (match (if skip k2 s \in cl n then Some (index (skip k2 s) (cl n)) else None) with
       | Some i => Ok (Y, ci, i) | None => sc_add_rec n.+1 Y ci (skip k2 s) end) = Ok (Y1, ci ++ new1, index (skip k2 s) (cl1 n)),
      invb n.+1 cl1 Y1 /\ frame n.+1 Y Y1,
      [/\ extends cl cl1, skip k2 s \in cl1 n & forall d, n < d -> cl1 d = cl d],
      forall t, t != [::] -> (t \in cl1 (size t).-1) = (t \in cl (size t).-1) || subseq t (skip k2 s) &
      new_cells cl cl1 new1].
  case: ifP => kin.
    exists Y, cl, [::]; split; rewrite ?cats0 //.
    - by split=> //; exact: extends_refl.
    - move=> t nt; case E: (subseq t (skip k2 s)); rewrite ?orbF // orbT.
      exact: (closed_sub (fun d ld => W_Wc (Wi d ld)) (ltnSn n) kin nt E).
    - exact: new_cells_refl.
  have [Y1 [cl1 [new1 [E [iv1 fr] [ex c1 st] ct nw]]]] := IHr Y cl ci (skip k2 s) sk iv (negbT kin).
  exists Y1, cl1, new1; split=> //.
    rewrite E; congr (Ok (_, _, _)); rewrite c1 -cats1 index_cat kin /= eqxx addn0 //.
  by split=> //; rewrite c1 mem_rcons mem_head.
rewrite E1; cbn [obind]; have [g1 g2 g3] := fr1; have [sh1 lb1 Wi1 Ci1 Ti1] := iv1; have [q1 q2 q3] := sh1.
have [q1' q2' q3'] := sh.
have lf1 : n < size (sc_faces Y1) by rewrite q2 g1 -q2'.
have lc1 : n < size (sc_coeff Y1) by rewrite q3 -q2.
rewrite [n.+1.-1]/= (oget_nth [::]) // (oget_nth [::]) //; cbn [obind].
rewrite (oset_Ok [::]) // (oset_Ok [::]) //; cbn [obind].
set Y2 := SCX _ _ _ _ _.
have iv2 : invb n.+1 cl1 Y2.
  split=> //=; first by split=> //=; rewrite size_set_nth; lia.
  move=> d ld; apply: W_ext (Wi1 d ld) (extends_refl _) _ _ _ _ => //= d0.
  by rewrite !nth_setE; case: eqP => // e; exfalso; lia.
have lf2 : n < size (sc_faces Y2) by rewrite /= size_set_nth; lia.
have [Y3 [cl3 [new3 [c3 [E3 [iv3 [z3 fr3] fa3 co3] [ex3 st3] ct3 nw3]]]]] := IH al Y2 cl1 (ci ++ new1) (- c)%R iv2 lf2.
exists Y3, cl3, (new1 ++ new3), c3; split.
- by rewrite E3 catA.
- split=> //.
  + split; first by rewrite z3 /= g1.
    move=> d ld; have [-> -> -> ->] := fr3 d ld; rewrite /= !nth_setE.
    have [-> ->] := g2 d ld; have [-> ->] := g3 d (leqW ld).
    by case: eqP => [e|//]; exfalso; lia.
  + rewrite fa3 /= nth_setE eqxx cat_rcons; have [-> _] := g3 n (leqnn _).
    by have [e ->] := ex3 n; rewrite index_cat mem1.
  + rewrite co3 /= nth_setE eqxx cat_rcons; have [_ ->] := g3 n (leqnn _).
    have := alt_cat c 0 (size ks); rewrite /= expr0 mulr1 => [[<-]] //.
- by split; [exact: extends_trans ex1 ex3|move=> d ld; rewrite st3 // st1].
- by move=> t nt; rewrite ct3 // ct1 // orbA.
- exact: new_cells_cat ex1 ex3 nw1 nw3.
Qed.

Lemma has_skip (t s : seq nat) : t != [::] -> size t < size s ->
  has (fun k2 => subseq t (skip k2 s)) (rev (iota 0 (size s))) = subseq t s.
Proof.
move=> nt lt; apply/hasP/idP => [[j _ sj]|st]; first exact: subseq_trans sj (skip_subseq j s).
by have [j lj sj] := subseq_skip st lt; exists j => //; rewrite mem_rev mem_iota.
Qed.

Lemma subseq_eqs (t s : seq nat) : subseq t s -> size s <= size t -> t = s.
Proof.
move=> st le; have := size_subseq_leqif st.
have -> : size t = size s by apply/eqP; rewrite eqn_leq le (size_subseq st).
by move=> /leqif_refl /eqP.
Qed.

(** the end of adding s in dimension dim: only this dimension changes *)
Lemma rec_ok n : rec_spec n.
Proof.
elim: n => [|n IH] X cl ci s ss iv ns; have [sh lb Wi Ci Ti] := iv; have [q1 q2 q3] := sh.
  rewrite sc_add_recS; cbv zeta; rewrite ss [1.-1]/= eqxx (oget_nth 0) //; cbn [obind]; rewrite (oset_Ok 0) //; cbn [obind].
  have [w1 w2 [w3 w4 _] _] := Wi 0 isT.
  set X0 := SCX _ _ _ _ _.
  have sh0 : shape X0 by split; rewrite /= size_set_nth; lia.
  have ld : 0 < size (sc_ncells X0) by rewrite /= size_set_nth; lia.
  have sub t : t != [::] -> subseq t s -> t != s -> t \in cl (size t).-1.
    move=> nt st; rewrite (subseq_eqs st) ?eqxx // ss; by case: (t) nt.
  have [X' [E T' [n1 n2] [f1 f2]]] := store_ok sh0 ld ss (Tinv_eq (X := X) (X' := X0) erefl Ti) ns w1 sub.
  rewrite E w1 -cats1; exists X', (upd cl 0 (rcons (cl 0) s)), [:: (0, size (cl 0))]; split=> //.
  - split; last first.
      split; rewrite ?n1 ?n2 ?f1 ?f2 /= ?size_set_nth //; first by lia.
      by move=> [|d] // _; rewrite !nth_setE.
    split=> //.
    + by split; rewrite ?n1 ?n2 ?f1 ?f2 /= !size_set_nth; lia.
    + by rewrite n1 /= size_set_nth; lia.
    + case=> // _; split; rewrite ?n1 ?n2 /= ?nth_setE ?eqxx /= /upd ?eqxx //.
      * by rewrite w1 size_rcons.
      * by rewrite w2 flatten_rcons.
      * by split; rewrite /= ?all_rcons ?ss ?w3 ?rcons_uniq ?ns ?w4.
    + move=> d; rewrite n1 /= size_set_nth => ld'; rewrite /upd; case: eqP => [e|_]; first by exfalso; lia.
      by apply: Ci; lia.
  - by split; [exact: extends_rcons|rewrite /upd eqxx|move=> [|d]].
  - move=> t nt; rewrite /upd; case: eqP => e; last first.
      case E': (subseq t s); rewrite ?orbF ?orbT //; exfalso; apply: e.
      by have := size_subseq E'; rewrite ss; lia.
    rewrite e mem_rcons inE orbC; congr orb; apply/eqP/idP => [->|st]; first exact: subseq_refl.
    by apply: subseq_eqs st _; rewrite ss; case: (t) nt.
  - exact: new_cells_rcons.
have [w1 w2 wc [w5 w6]] := Wi n.+1 (ltnSn _).
rewrite sc_add_recS; cbv zeta; rewrite ss [n.+2.-1]/= (oget_nth 0) //; cbn [obind]; rewrite (oset_Ok 0) //; cbn [obind].
rewrite (_ : (n.+1 == 0) = false) //.
set X0 := SCX _ _ _ _ _.
have iv0 : invb n.+1 cl X0.
  split=> //.
  - by split; rewrite /= size_set_nth; lia.
  - by rewrite /= size_set_nth; lia.
  - move=> d ld; apply: W_ext (Wi d (leqW ld)) (extends_refl _) _ _ _ _ => //=.
    by rewrite nth_setE; case: eqP => // e; exfalso; lia.
  - by move=> d; rewrite /= size_set_nth => ld; apply: Ci; lia.
have lf : n < size (sc_faces X0) by rewrite /= q2; lia.
have al : all (fun j => j < size s) (rev (iota 0 n.+2)).
  by apply/allP => j; rewrite mem_rev mem_iota ss.
have [Y [cl1 [new1 [c1 [E [iv1 [z1 fr1] fa1 co1] [ex1 st1] ct1 nw1]]]]] := rec_loop IH ss al ci (-1)%R iv0 lf.
rewrite E; cbn [obind]; have [shY lbY WiY CiY TiY] := iv1; have [p1 p2 p3] := shY.
have zX0 : size (sc_ncells X0) = size (sc_ncells X) by rewrite /= size_set_nth; lia.
rewrite (oget_nth [::]); last by rewrite p2 z1 zX0; lia.
cbn [obind]; rewrite (oget_nth [::]); last by rewrite p3 z1 zX0; lia.
cbn [obind].
have c1n : cl1 n.+1 = cl n.+1 by apply: st1.
have ns1 : s \notin cl1 n.+1 by rewrite c1n.
have hsk t : t != [::] -> size t < size s -> has (fun k2 => subseq t (skip k2 s)) (rev (iota 0 n.+2)) = subseq t s.
  by move=> nt lt; rewrite -ss has_skip.
have sub t : t != [::] -> subseq t s -> t != s -> t \in cl1 (size t).-1.
  move=> nt st ne; rewrite ct1 // hsk // ?st ?orbT //.
  by rewrite ltnNge; apply/negP => le; rewrite (subseq_eqs st le) eqxx in ne.
have fin : faces_in (cl1 n) s.
  move=> j lj; have := sub (skip j s); rewrite size_skip // ss /=; apply.
  - by rewrite -size_eq0 size_skip // ss.
  - exact: skip_subseq.
  - by apply/eqP => /(congr1 size); rewrite size_skip // ss; lia.
have wc1 : Wc cl1 n.+1.
  have [v1 v2 v3] := wc; split; rewrite ?c1n // => u ui j lj; exact: extends_mem ex1 (v3 u ui j lj).
have [r1 r2 r3 r4] := fr1 n.+1 (ltnSn _).
have nY : nc Y n.+1 = (size (cl1 n.+1)).+1 by rewrite r1 /= nth_setE eqxx w1 c1n.
have sY : sp Y n.+1 = flatten (cl1 n.+1) by rewrite r2 /= w2 c1n.
have ldY : n.+1 < size (sc_ncells Y) by rewrite z1 zX0.
have [X' [Et Tt [Wt sht] nct frt]] := tail_ok shY ldY ss TiY ns1 sub wc1 nY sY.
have fE : fa Y n = flatten [seq rowf (cl1 n) s | s <- cl1 n.+1] ++ rawf (cl1 n) s.
  rewrite fa1 /= w5 c1n /rawf ss; congr (flatten _ ++ _); apply/eq_in_map => u ui.
  by have [e ->] := ex1 n; rewrite rowf_cat //; case: wc => _ _; apply.
have cE : co Y n = flatten [seq rowc (cl1 n) s | s <- cl1 n.+1] ++ rawc (size s).
  rewrite co1 /= w6 c1n; congr (flatten _ ++ _); last first.
    rewrite /rawc ss (_ : size (rev _) = n.+2); last by rewrite size_rev /= size_iota.
    by apply: eq_map => i; rewrite exprS.
  apply/eq_in_map => u ui; by have [e ->] := ex1 n; rewrite rowc_cat //; case: wc => _ _; apply.
rewrite [n.+1.-1]/= fE cE w1 -c1n Et; cbn [obind].
set cl2 := upd cl1 n.+1 (rcons (cl1 n.+1) s) in Tt Wt.
exists X', cl2, (rcons new1 (n.+1, size (cl1 n.+1))); rewrite rcons_cat c1n; split=> //.
- split.
    split=> //.
    + by rewrite nct.
    + move=> d; rewrite ltnS leq_eqVlt => /orP [/eqP ->|ld]; first exact: Wt.
      have [//|f1 f2] := frt d; first by apply/eqP; lia.
      apply: W_ext (WiY d ld) (extends_rcons _ _ _) _ _ _ _ => //.
      * by rewrite /cl2 /upd; case: eqP => // e; exfalso; lia.
      * by rewrite nct.
      * by move=> d0; apply: f2; lia.
    + by move=> d; rewrite nct => ld; rewrite /cl2 /upd; case: eqP => [e|_]; [exfalso; lia|exact: CiY].
  split.
  + by rewrite nct z1.
  + move=> d ld; have [|f1 f2] := frt d; first by apply/eqP; lia.
    have [g1 g2 g3 g4] := fr1 d (ltnW ld); rewrite nct f1 g1 g2 /= nth_setE.
    by case: eqP => // e; exfalso; lia.
  + move=> d ld; have [|f1 f2] := frt d.+1; first by apply/eqP; lia.
    have [-> ->] := f2 d erefl; have ld' : n < d by lia.
    by have [g1 g2 -> ->] := fr1 d ld'.
- split.
  + exact: extends_trans ex1 (extends_rcons _ _ _).
  + by rewrite /cl2 /upd eqxx c1n.
  + by move=> d ld; rewrite /cl2 /upd; case: eqP => [e|_]; [exfalso; lia|apply: st1; lia].
- move=> t nt; have -> : (t \in cl2 (size t).-1) = (t \in cl1 (size t).-1) || (t == s).
    rewrite /cl2 /upd; case: eqP => e; first by rewrite e mem_rcons inE orbC.
    case: eqP => [et|]; rewrite ?orbF ?orbT //; by exfalso; apply: e; rewrite et ss.
  rewrite ct1 // -orbA; congr orb.
  case: (ltnP (size t) (size s)) => lt.
    by rewrite hsk //; case: eqP => [e|]; rewrite ?orbF // e subseq_refl.
  have -> : has (fun k2 => subseq t (skip k2 s)) (rev (iota 0 n.+2)) = false.
    apply/hasP => -[j]; rewrite -ss mem_rev mem_iota /= => lj /size_subseq; rewrite size_skip // => l2.
    by have := leq_trans lt l2; rewrite ss ltnn.
  rewrite /=; apply/eqP/idP => [->|st]; [exact: subseq_refl|exact: subseq_eqs].
- rewrite -cats1 -c1n; exact: new_cells_cat ex1 (extends_rcons _ _ _) nw1 (new_cells_rcons _ _ _).
Qed.
