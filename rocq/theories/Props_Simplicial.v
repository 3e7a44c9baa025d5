(** C23: a SimplicialComplex is closed under faces, knows each simplex by one stable index, and every call is defined. *)
From mathcomp Require Import all_ssreflect all_algebra zify.
From Verif Require Import Outcome M_SparseVec M_Perm M_ColMatrix M_CSC M_Simplicial S_Perm S_Simplicial P_Outcome P_Trie P_Simplicial P_ScOps P_ScBuild.
Set Implicit Arguments.
Unset Strict Implicit.
Unset Printing Implicit Defensive.

Section Helpers.
Lemma contains_iff cl X s : inv cl X -> s != [::] -> contains X s <-> s \isin cl.
Proof.
move=> [_ _ _ _ T] n0; rewrite /contains (find_ok T n0); case: ifP => si; split=> //; first by move=> _; eexists.
by move=> [i].
Qed.

Lemma preserves_ext cl X cl' X' : inv cl X -> inv cl' X' -> extends cl cl' -> preserves X X'.
Proof.
move=> [_ _ _ _ T] [_ _ _ _ T'] ex [|a t] i.
  by rewrite (find_nil T) (find_nil T').
rewrite (find_ok T) // (find_ok T') //; case: ifP => // si [<-].
have [e ->] := ex (size (a :: t)).-1; by rewrite mem_cat si index_cat si.
Qed.

Lemma has_faces_iff cl X s : inv cl X -> s != [::] -> has_faces X s <-> facesb cl s.
Proof.
move=> iv n0; rewrite /facesb; case: (eqVneq (size s) 1) => /= e.
  by split=> // _ j _; rewrite e.
have l1 : 1 < size s by case: (s) n0 e => //= a [].
split=> [H|/allP H j lj _].
  apply/allP => j; rewrite mem_rev mem_iota add0n => lj; have sz := size_skip lj; rewrite -sz.
  have nz : skip j s != [::] by rewrite -size_eq0 sz -lt0n -ltnS prednK //; apply: ltnW.
  by apply/(contains_iff iv nz); exact: H.
have sz := size_skip lj; have nz : skip j s != [::] by rewrite -size_eq0 sz -lt0n -ltnS prednK //; apply: ltnW.
by apply/(contains_iff iv nz); rewrite sz; apply: H; rewrite mem_rev mem_iota.
Qed.

Lemma cell_is_iff cl X k i s : inv cl X -> cell_is X k i s <-> i < size (cl k) /\ s = nth [::] (cl k) i.
Proof.
move=> iv; split=> [[n]|[li ->]].
  case: (ltnP k (sc_dims X)) => lk; last by rewrite /sc_ncell /oget drop_oversize.
  by rewrite (ncell_ok iv lk) => -[<-] [li]; rewrite (simplex_ok iv li) => -[->].
exists (size (cl k)); last by rewrite (simplex_ok iv li).
apply: (ncell_ok iv); rewrite ltnNge; apply/negP => le; case: iv => _ _ _ Ci _; by rewrite Ci in li.
Qed.
End Helpers.

(** Every public call on a complex that the API built is defined: nothing is read or written out of bounds and no
    exception is thrown, except that the empty simplex is refused by all four ways of adding. *)
Theorem C23_defined X Y s : built X -> built Y ->
  [/\ (s != [::] -> [/\ exists X' r, sc_add X s = Ok (X', r), exists X' r, sc_add_directed X s = Ok (X', r),
                        exists X' r, sc_add_recursive X s = Ok (X', r) &
                        exists X' r, sc_add_directed_recursive X s = Ok (X', r)]),
      [/\ sc_add X [::] = Throw, sc_add_directed X [::] = Throw, sc_add_recursive X [::] = Throw &
          sc_add_directed_recursive X [::] = Throw],
      exists r, sc_find X s = Ok r,
      forall k, k < sc_dims X -> exists2 n, sc_ncell X k = Ok n & forall i, i < n -> exists t, sc_simplex X k i = Ok t &
      [/\ exists Z, sc_union X Y = Ok Z, exists Z, sc_union_add X Y = Ok Z, exists Z, sc_inter X Y = Ok Z &
          forall k, exists v, sc_get_indices X Y k = Ok v]].
Proof.
move=> /built_inv [cl iv d0] /built_inv [clY ivY dY].
have [_ _ _ _ T] := iv; split.
- move=> n0; have n0' : sort leq s != [::] by rewrite sort_nil.
  have [X1 [r1 [cl1 [E1 _ _ _ _]]]] := add_step iv n0'; have [X2 [r2 [cl2 [E2 _ _ _ _]]]] := add_step iv n0.
  have [X3 [r3 [cl3 [E3 _ _ _ _]]]] := rec_step iv n0'; have [X4 [r4 [cl4 [E4 _ _ _ _]]]] := rec_step iv n0.
  by split; do 2 eexists; eassumption.
- by [].
- case: (s) => [|a t]; first by rewrite (find_nil T); eexists.
  by rewrite (find_ok T) //; eexists.
- move=> k lk; exists (size (cl k)); first exact: ncell_ok iv lk.
  by move=> i li; rewrite (simplex_ok iv li); eexists.
- split.
  + by have [Z [cl' [E _ _ _]]] := union_ok iv ivY; exists Z.
  + by have [Z [cl' [E _ _ _]]] := add_all_ok ivY iv; exists Z.
  + by have [Z [cl' [E _ _ _]]] := inter_ok iv ivY d0; exists Z.
  + move=> k; rewrite /sc_get_indices; case: ltnP => lk; last by eexists.
    rewrite (ncell_ok ivY lk); cbn [obind].
    have E : forall i, i \in iota 0 (size (clY k)) -> (do s <- sc_simplex Y k i; sc_find X s) =
               Ok (let s := nth [::] (clY k) i in if s \isin cl then Some (index s (cl (size s).-1)) else None).
      move=> i; rewrite mem_iota add0n => li; rewrite (simplex_ok ivY li); cbn [obind]; rewrite (find_ok T) //.
      by rewrite -size_eq0 (cl_size ivY (mem_nth _ li)).
    by rewrite (omapm_Ok_eq E); eexists.
Qed.

(** find_idx inverts get_simplex: it answers i exactly when s is the i-th simplex of its dimension.  In particular
    each simplex is stored once. *)
Theorem C23_find X s i : built X -> s != [::] ->
  sc_find X s = Ok (Some i) <-> cell_is X (size s).-1 i s.
Proof.
move=> /built_inv [cl iv _] n0; have [_ _ _ _ T] := iv; rewrite (find_ok T n0) (cell_is_iff _ _ _ iv).
case: ifP => si; split=> //.
- by move=> [<-]; rewrite index_mem nth_index.
- move=> [li e]; congr (Ok (Some _)); have [_ u _] := inv_Wc iv (size s).-1.
  by have := index_uniq [::] li u; rewrite -e.
- by move=> [li e]; have := mem_nth [::] li; rewrite -e si.
Qed.

(** the simplices of dimension k have k+1 vertices *)
Theorem C23_dimension X k i s : built X -> cell_is X k i s -> size s = k.+1.
Proof. by move=> /built_inv [cl iv _] /(cell_is_iff _ _ _ iv) [li ->]; exact: cl_size iv (mem_nth _ li). Qed.

(** closed under faces: with a simplex the complex contains every nonempty subsequence of its vertices *)
Theorem C23_closed X s t : built X -> contains X s -> t != [::] -> subseq t s -> contains X t.
Proof.
move=> /built_inv [cl iv _] cs nt st; have ns : s != [::] by apply/eqP => e; move: st; rewrite e subseq0; exact/negP.
by apply/(contains_iff iv nt); exact: inv_sub iv ((contains_iff iv ns).1 cs) nt st.
Qed.

(** add_directed(s): s is added exactly when its codimension-one faces are there; the answer is its index, or NO_IND;
    nothing else changes, and adding a simplex that is there changes nothing at all. *)
Theorem C23_add_directed X s X' r : built X -> s != [::] -> sc_add_directed X s = Ok (X', r) ->
  [/\ forall t, t != [::] -> contains X' t <-> contains X t \/ t = s /\ has_faces X s,
      preserves X X', sc_find X' s = Ok r & contains X s -> X' = X].
Proof.
move=> /built_inv [cl iv _] n0 E; have [X1 [r1 [cl1 [E1 iv1 ex1 ct [er k1 _]]]]] := add_step iv n0.
move: E; rewrite E1 => -[<- <-]; split.
- move=> t nt; rewrite (contains_iff iv1 nt) ct //; split.
    case/orP => [h|/andP [/eqP -> h]]; [left; exact/(contains_iff iv nt)|right; split=> //; exact/(has_faces_iff iv n0)].
  by case=> [/(contains_iff iv nt) ->//|[-> /(has_faces_iff iv n0) ->]]; rewrite eqxx orbT.
- exact: preserves_ext iv iv1 ex1.
- by have [_ _ _ _ T1] := iv1; rewrite (find_ok T1 n0) er.
- by move/(contains_iff iv n0).
Qed.

(** add(s) is add_directed of the sorted vertices *)
Theorem C23_add X s X' r : built X -> s != [::] -> sc_add X s = Ok (X', r) ->
  [/\ forall t, t != [::] -> contains X' t <-> contains X t \/ t = sort leq s /\ has_faces X (sort leq s),
      preserves X X', sc_find X' (sort leq s) = Ok r & contains X (sort leq s) -> X' = X].
Proof. by move=> b n0; apply: C23_add_directed => //; rewrite sort_nil. Qed.

(** add_directed_recursive(s): afterwards the complex contains what it had and all nonempty subsequences of s.  When s
    was new the answer lists each new cell (dimension, index) exactly once; otherwise the complex does not change and
    the answer is the cell of s. *)
Theorem C23_add_directed_recursive X s X' r : built X -> s != [::] -> sc_add_directed_recursive X s = Ok (X', r) ->
  [/\ forall t, t != [::] -> contains X' t <-> contains X t \/ subseq t s,
      preserves X X',
      ~ contains X s -> uniq r /\
        forall k i, (k, i) \in r <-> exists2 t, cell_is X' k i t & ~ contains X t &
      contains X s -> X' = X /\ exists2 i, r = [:: ((size s).-1, i)] & sc_find X s = Ok (Some i)].
Proof.
move=> /built_inv [cl iv _] n0 E; have [X1 [r1 [cl1 [E1 [iv1 d1] ex1 ct nw]]]] := rec_step iv n0.
move: E; rewrite E1 => -[<- <-]; split.
- move=> t nt; rewrite (contains_iff iv1 nt) ct //; split.
    by case/orP => h; [left; exact/(contains_iff iv nt)|right].
  by case=> [/(contains_iff iv nt) ->//|->]; rewrite orbT.
- exact: preserves_ext iv iv1 ex1.
- move=> /(contains_iff iv n0) /negP ns; rewrite (negbTE ns) in nw; have [u m] := nw; split=> // k i; rewrite m.
  have cin t : t \in cl1 k -> contains X t <-> t \in cl k.
    move=> ti; have st := cl_size iv1 ti; have nt : t != [::] by rewrite -size_eq0 st.
    by rewrite (contains_iff iv nt) st.
  have [e Ee] := ex1 k; have [_ u1 _] := inv_Wc iv1 k; split.
    move=> /andP [l1 l2]; exists (nth [::] (cl1 k) i); first exact/(cell_is_iff _ _ _ iv1).
    move=> /(cin _ (mem_nth _ l2)) h; have := index_uniq [::] l2 u1.
    by rewrite {2}Ee index_cat h => e2; move: h; rewrite -index_mem e2 ltnNge l1.
  move=> [t /(cell_is_iff _ _ _ iv1) [li et] ncx]; rewrite li andbT leqNgt; apply/negP => l2; apply: ncx.
  have ti : t \in cl1 k by rewrite et mem_nth.
  by apply/(cin t ti); rewrite et Ee nth_cat l2 mem_nth.
- move=> /(contains_iff iv n0) si; rewrite si in nw; have [-> ->] := nw; split=> //.
  by exists (index s (cl (size s).-1)) => //; have [_ _ _ _ T] := iv; rewrite (find_ok T n0) si.
Qed.

Theorem C23_add_recursive X s X' r : built X -> s != [::] -> sc_add_recursive X s = Ok (X', r) ->
  [/\ forall t, t != [::] -> contains X' t <-> contains X t \/ subseq t (sort leq s),
      preserves X X',
      ~ contains X (sort leq s) -> uniq r /\
        forall k i, (k, i) \in r <-> exists2 t, cell_is X' k i t & ~ contains X t &
      contains X (sort leq s) -> X' = X /\ exists2 i, r = [:: ((size s).-1, i)] & sc_find X (sort leq s) = Ok (Some i)].
Proof.
move=> b n0 E; have n0' : sort leq s != [::] by rewrite sort_nil.
by have := C23_add_directed_recursive b n0' E; rewrite size_sort.
Qed.

(** simplicial_union and union_add contain the sorted versions of the simplices of both (of the second); intersection
    contains the common simplices.  union_add keeps all indices of the first complex. *)
Theorem C23_union X Y Z t : built X -> built Y -> t != [::] -> sc_union X Y = Ok Z ->
  contains Z t <-> (exists2 s, contains X s /\ s != [::] & t = sort leq s) \/
                   (exists2 s, contains Y s /\ s != [::] & t = sort leq s).
Proof.
move=> /built_inv [cl iv d0] /built_inv [clY ivY dY] nt E.
have [Z1 [cl1 [E1 iv1 _ ct]]] := union_ok iv ivY; move: E; rewrite E1 => -[<-].
have H clW W : inv clW W -> (t \in [seq sort leq s | s <- cell_list clW (sc_dims W)]) <-> exists2 s, contains W s /\ s != [::] & t = sort leq s.
  move=> ivW; split.
    move=> /mapP [s si ->]; have ns := cell_list_nonnil ivW si; exists s => //; split=> //.
    by apply/(contains_iff ivW ns); rewrite -(mem_cell_list ivW ns).
  move=> [s [cs ns] ->]; apply: map_f; rewrite (mem_cell_list ivW ns); exact/(contains_iff ivW ns).
rewrite (contains_iff iv1 nt) ct //; split.
  by case/orP => /H h; [left; exact: h|right; exact: h].
by case=> h; [rewrite (H _ _ iv).2|rewrite (H _ _ ivY).2 ?orbT].
Qed.

Theorem C23_union_add X Y Z t : built X -> built Y -> t != [::] -> sc_union_add X Y = Ok Z ->
  preserves X Z /\ (contains Z t <-> contains X t \/ (exists2 s, contains Y s /\ s != [::] & t = sort leq s)).
Proof.
move=> /built_inv [cl iv d0] /built_inv [clY ivY dY] nt E.
have [Z1 [cl1 [E1 [iv1 _] ex ct]]] := add_all_ok ivY iv; move: E; rewrite /sc_union_add E1 => -[<-].
split; first exact: preserves_ext iv iv1 ex.
rewrite (contains_iff iv1 nt) ct //; split.
  case/orP => [h|/mapP [s si ->]]; [left; exact/(contains_iff iv nt)|right].
  have ns := cell_list_nonnil ivY si; exists s => //; split=> //.
  by apply/(contains_iff ivY ns); rewrite -(mem_cell_list ivY ns).
case=> [/(contains_iff iv nt) ->//|[s [cs ns] ->]].
rewrite map_f ?orbT // (mem_cell_list ivY ns); exact/(contains_iff ivY ns).
Qed.

Theorem C23_intersection X Y Z t : built X -> built Y -> t != [::] -> sc_inter X Y = Ok Z ->
  contains Z t <-> contains X t /\ contains Y t.
Proof.
move=> /built_inv [cl iv d0] /built_inv [clY ivY dY] nt E.
have [Z1 [cl1 [E1 iv1 _ ct]]] := inter_ok iv ivY d0; move: E; rewrite E1 => -[<-].
by rewrite (contains_iff iv1 nt) ct // (contains_iff iv nt) (contains_iff ivY nt); split=> [/andP|[-> ->]].
Qed.

(** get_indices(A, k) lists find_idx of the k-simplices of A, in A's order *)
Theorem C23_get_indices X A k v : built X -> built A -> sc_get_indices X A k = Ok v ->
  (forall n, sc_ncell A k = Ok n -> size v = n) /\
  forall i s, cell_is A k i s -> sc_find X s = Ok (nth None v i).
Proof.
move=> /built_inv [cl iv d0] /built_inv [clY ivY dY]; rewrite /sc_get_indices.
case: ltnP => lk E; last first.
  split=> [n|i s]; first by rewrite /sc_ncell /oget drop_oversize.
  by move=> [n]; rewrite /sc_ncell /oget drop_oversize.
move: E; rewrite (ncell_ok ivY lk); cbn [obind] => E; have [sv nv] := omapm_inv 0 None E.
split=> [n [<-]|i s /(cell_is_iff _ _ _ ivY) [li ->]]; first by rewrite sv size_iota.
have := nv i; rewrite size_iota nth_iota // add0n (simplex_ok ivY li) => /(_ li) <- //.
Qed.

(** Two quirks: find_idx of the empty simplex answers 0, although no complex contains it, and repeated vertices are
    accepted. *)
Theorem C23_empty_simplex X : built X -> sc_find X [::] = Ok (Some 0).
Proof. by move=> /built_inv [cl [_ _ _ _ T] _]; exact: find_nil T. Qed.

Definition ex_of (r : outcome (scx * seq (nat * nat))) : scx := if r is Ok (X, _) then X else sc_new 0.
Definition ex_degenerate : scx := Eval vm_compute in ex_of (sc_add_recursive (sc_new 0) [:: 3; 3]).
Definition ex_triangle : scx := Eval vm_compute in ex_of (sc_add_recursive (sc_new 0) [:: 2; 0; 1]).
Definition ex_complex : scx := Eval vm_compute in ex_of (sc_add_recursive ex_triangle [:: 1; 3]).

Theorem C23_degenerate : built ex_degenerate /\ contains ex_degenerate [:: 3; 3].
Proof.
have E : sc_add_recursive (sc_new 0) [:: 3; 3] = Ok (ex_degenerate, [:: (0, 0); (1, 0)]) by vm_compute.
by split; [exact: built_add_recursive (built_new 0) E|exists 0].
Qed.

(** a full triangle and a second edge; an edge with its vertices there and one without *)
Theorem C23_nonvacuous :
  [/\ sc_add_recursive (sc_new 0) [:: 2; 0; 1] =
        Ok (ex_triangle, [:: (0, 0); (0, 1); (1, 0); (0, 2); (1, 1); (1, 2); (2, 0)]),
      sc_add_recursive ex_triangle [:: 1; 3] = Ok (ex_complex, [:: (0, 3); (1, 3)]), built ex_complex,
      cell_is ex_complex 2 0 [:: 0; 1; 2] &
      (exists X3, sc_add ex_complex [:: 3; 0] = Ok (X3, Some 4)) /\ sc_add ex_complex [:: 4; 0] = Ok (ex_complex, None)].
Proof.
have E1 : sc_add_recursive (sc_new 0) [:: 2; 0; 1] =
        Ok (ex_triangle, [:: (0, 0); (0, 1); (1, 0); (0, 2); (1, 1); (1, 2); (2, 0)]) by vm_compute.
have E2 : sc_add_recursive ex_triangle [:: 1; 3] = Ok (ex_complex, [:: (0, 3); (1, 3)]) by vm_compute.
split; [exact: E1|exact: E2| | |].
- exact: built_add_recursive (built_add_recursive (built_new 0) E1) E2.
- by clear; exists 1.
- clear; split; last by vm_compute.
  have e : (if sc_add ex_complex [:: 3; 0] is Ok (_, Some 4) then true else false) by vm_compute.
  by move: e; case: (sc_add _ _) => // -[X3 [[|[|[|[|[|i]]]]]|]] // _; exists X3.
Qed.

(** ** C39: copy assignment *)
Lemma tch_nil X cl : inv cl X -> (if tch (sc_trie X) is [::] then true else false) <-> forall s, s != [::] -> ~ contains X s.
Proof.
move=> iv; have [_ _ _ _ [al [_ T]]] := iv; split.
  case E: (tch (sc_trie X)) => // _ [//|a s] _ /(contains_iff (s := a :: s) iv isT) si.
  by have := T (a :: s) isT; rewrite si; case: (sc_trie X) E => v d c /= ->.
case E: (tch (sc_trie X)) => [//|[a u] c] H; exfalso; apply: (H [:: a] isT); apply/(contains_iff (s := [:: a]) iv isT).
have := T [:: a] isT; case: (sc_trie X) E => v d c' /= ->; rewrite /= eqxx.
by case: (_ \in _).
Qed.

(** X = Y copies Y, unless X has simplices and Y has none *)
Theorem C39_assign X Y : built X -> built Y ->
  (exists2 s, s != [::] & contains Y s) \/ (forall s, s != [::] -> ~ contains X s) -> sc_assign X Y = Ok Y.
Proof.
move=> /built_inv [cl iv d0] /built_inv [clY ivY dY] H.
have [_ _ _ _ [al _]] := iv; have [_ _ _ _ [alY [T0 _]]] := ivY.
rewrite /sc_assign /tassign (alive_dead al) (alive_dead alY).
have H2 : tch (sc_trie Y) = [::] -> tch (sc_trie X) = [::].
  move=> e; case: H => [[s ns cs]|hX].
    by exfalso; apply: ((tch_nil ivY).1 _ s ns cs); rewrite e.
  by move/(tch_nil iv): hX; case: (tch (sc_trie X)).
case: Y {H T0 ivY dY} alY H2 => a b c d [v dd ch] alY /= H2; have /= ed := alive_dead alY.
by case: ch H2 {alY} => [|p ch] H2; rewrite ?H2 //= ed.
Qed.

(** ... in which case the assignment goes through and every later use of X is undefined *)
Theorem C39_assign_empty X Y s : built X -> built Y -> (exists2 t, t != [::] & contains X t) ->
  (forall t, t != [::] -> ~ contains Y t) -> s != [::] ->
  exists Z, [/\ sc_assign X Y = Ok Z, sc_find Z s = UB, sc_add Z s = UB, sc_add_recursive Z s = UB & sc_assign Z Y = UB].
Proof.
move=> /built_inv [cl iv d0] /built_inv [clY ivY dY] [t nt ct] hY ns.
have [_ _ _ _ [al _]] := iv; have [_ _ _ _ [alY [T0 _]]] := ivY.
rewrite /sc_assign /tassign (alive_dead al) (alive_dead alY) /=.
move/(tch_nil ivY): hY; case: (tch (sc_trie Y)) => // _.
have : tch (sc_trie X) <> [::] by move=> e; apply: ((tch_nil iv).1 _ t nt ct); rewrite e.
case: (tch (sc_trie X)) => // p ch _; cbn [obind]; eexists; split; first reflexivity.
- by case: (s) ns.
- rewrite /sc_add /sc_add_directed; have : sort leq s != [::] by rewrite sort_nil.
  by case: (sort leq s).
- rewrite /sc_add_recursive /sc_add_directed_recursive; have : sort leq s != [::] by rewrite sort_nil.
  by case: (sort leq s).
- by [].
Qed.

Theorem C39_nonvacuous : [/\ built ex_complex, contains ex_complex [:: 0], built (sc_new 0) &
  forall t, t != [::] -> ~ contains (sc_new 0) t].
Proof.
have [_ _ b _ _] := C23_nonvacuous; split; [exact: b|by clear; exists 0|exact: built_new|].
by clear => -[|a t] // _ [i].
Qed.
