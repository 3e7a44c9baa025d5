(** C26: LightSimplicialComplex. *)
From mathcomp Require Import all_ssreflect all_algebra zify.
From Verif Require Import Outcome M_SparseVec M_Perm M_ColMatrix M_CSC M_Simplicial M_Light S_Perm S_Linalg S_Homology S_Light P_Outcome P_Perm P_Sort P_SparseVec P_SparseVec2 P_Trie P_Simplicial P_ScOps P_ScBuild P_ScBoundary P_LightKey P_Light P_LightBoundary.
Set Implicit Arguments.
Unset Strict Implicit.
Unset Printing Implicit Defensive.
Import GRing.Theory.

Section Props.
(** W: the number of values of the index type; n^(k+1) <= W says that every key fits *)
Variables (n k W : nat).
Hypothesis W1 : 1 < W.
Hypothesis Wn : n ^ k.+1 <= W.
Notation key := (skey n).

Section Any.
Variable junk : option nat.
Notation lb := (lbuilt W junk n k).

Lemma lcontains_iff cl L s : linv n k cl L -> lsimplex n k s -> lcontains W L s <-> s \in cl (size s).-1.
Proof.
move=> iv sv; rewrite /lcontains (lfind_ok W1 Wn iv sv); case: ifP => si; split=> //; first by eexists.
by move=> [].
Qed.

Lemma lcell_is_iff cl L d i s : linv n k cl L -> lcell_is W L d i s <-> i < size (cl d) /\ s = nth [::] (cl d) i.
Proof.
move=> iv; split.
  move=> [m]; have [_ _ [s1 _] _ lc] := iv; case: (leqP d k) => ld; last by rewrite /l_ncell /oget drop_oversize // s1.
  by rewrite (lncell_ok iv ld) => -[<-] [li]; rewrite (lsimplex_ok Wn iv li) => -[<-].
move=> [li ->]; have [_ _ _ _ lc] := iv; have [_ _ ld] := lcl_mem lc (mem_nth [::] li).
by exists (size (cl d)); [exact: lncell_ok iv ld|split=> //; rewrite (lsimplex_ok Wn iv li)].
Qed.

Lemma lcl_simplex cl L d s : linv n k cl L -> s \in cl d -> lsimplex n k s /\ size s = d.+1.
Proof.
by move=> [_ _ _ _ lc] /(lcl_mem lc) [ss os ld]; split=> //; split; [rewrite -size_eq0 ss|rewrite ss].
Qed.

Lemma lpreserves_ext cl cl' L L' : linv n k cl L -> linv n k cl' L' -> extends cl cl' ->
  forall t i, lsimplex n k t -> l_find W L t = Ok (Some i) -> l_find W L' t = Ok (Some i).
Proof.
move=> iv iv' ex t i sv; rewrite (lfind_ok W1 Wn iv sv) (lfind_ok W1 Wn iv' sv).
by have [e ->] := ex (size t).-1; rewrite mem_cat index_cat; case: ifP.
Qed.

(** ** Keys *)
(** simplex_key is a number below n^size, and key_to_simplex gives the simplex back: different simplices of one dimension
    have different keys. *)
Theorem C26_key L s : lb L -> lsimplex n k s ->
  exists x, [/\ l_key W L s = Ok x, x < n ^ size s & l_key_simplex W L (size s).-1 x = Ok s].
Proof.
move=> b; have [cl iv] := lbuilt_inv W1 Wn b => sv; have [_ ol _ _ _] := iv; have [os ss ld] := lsimplex_size sv.
exists (key s); split; [by apply: (key_ok W1 Wn ol os); rewrite ss|exact: skey_lt|].
by rewrite (key_simplex_ok Wn ol ld) -?ss ?digs_skey //; exact: skey_lt.
Qed.

(** every number below n^(d+1) is the key of one simplex of dimension d *)
Theorem C26_key_onto L d x : lb L -> d <= k -> x < n ^ d.+1 ->
  exists s, [/\ l_key_simplex W L d x = Ok s, lsimplex n k s, size s = d.+1 & l_key W L s = Ok x].
Proof.
move=> b; have [cl iv] := lbuilt_inv W1 Wn b => ld lx; have [_ ol _ _ _] := iv.
have os := digs_ok lx; have ss := size_digs n d.+1 x; exists (digs n d.+1 x); split=> //.
- exact: (key_simplex_ok Wn ol ld).
- by split; [rewrite -size_eq0 ss|rewrite ss].
- by rewrite (key_ok W1 Wn ol os) ?ss // skey_digs.
Qed.

(** a simplex with more than k+1 vertices runs past the offset table *)
Theorem C26_too_large L s : lb L -> k.+1 < size s ->
  [/\ l_key W L s = UB, l_find W L s = UB, l_add W L s = UB & l_add_recursive W junk L s = UB].
Proof.
move=> b; have [cl iv] := lbuilt_inv W1 Wn b => ls; have [_ ol _ _ _] := iv.
by rewrite /l_find /l_add /l_add_recursive (key_long _ ol ls).
Qed.

(** ** Finding *)
Theorem C26_find L s i : lb L -> lsimplex n k s -> l_find W L s = Ok (Some i) <-> lcell_is W L (size s).-1 i s.
Proof.
move=> b sv; have [cl iv] := lbuilt_inv W1 Wn b; rewrite (lfind_ok W1 Wn iv sv) (lcell_is_iff _ _ _ iv).
case: ifP => si; split=> //.
- by move=> [<-]; rewrite index_mem nth_index.
- move=> [li e]; congr (Ok (Some _)); have [_ _ _ _ lc] := iv; have [_ u _] := lc (size s).-1.
  by have := index_uniq [::] li u; rewrite -e.
- by move=> [li e]; have := mem_nth [::] li; rewrite -e si.
Qed.

Theorem C26_cell L d i s : lb L -> lcell_is W L d i s -> lsimplex n k s /\ size s = d.+1.
Proof. by move=> b; have [cl iv] := lbuilt_inv W1 Wn b => /(lcell_is_iff _ _ _ iv) [li ->]; exact: lcl_simplex iv (mem_nth _ li). Qed.

(** find_idx never fails on a simplex of the range, and finds nothing in a new complex *)
Theorem C26_find_defined L s : lb L -> lsimplex n k s -> exists r, l_find W L s = Ok r.
Proof. by move=> b sv; have [cl iv] := lbuilt_inv W1 Wn b; eexists; exact: (lfind_ok W1 Wn iv sv). Qed.

Theorem C26_new s : lsimplex n k s -> l_find W (l_new W n k) s = Ok None.
Proof. by move=> sv; rewrite (lfind_ok W1 Wn (linv_new W1 Wn) sv). Qed.

(** ** Adding one simplex *)
(** add(s) adds exactly s - its faces are not looked at -, and returns its index; when s was there nothing happens *)
Theorem C26_add L s : lb L -> lsimplex n k s -> exists L' i,
  [/\ l_add W L s = Ok (L', i), forall t, lsimplex n k t -> lcontains W L' t <-> lcontains W L t \/ t = s,
      forall t j, lsimplex n k t -> l_find W L t = Ok (Some j) -> l_find W L' t = Ok (Some j), l_find W L' s = Ok (Some i) &
      lcontains W L s -> L' = L].
Proof.
move=> b sv; have [cl iv] := lbuilt_inv W1 Wn b; have [_ ol _ _ _] := iv; have [os ss ld] := lsimplex_size sv.
rewrite {1}/l_add (lcall W1 Wn (l_add_key L) ol sv) (ladd_key_ok iv os ss ld); case: ifP => si.
  exists L, (index s (cl (size s).-1)); split=> //; last by rewrite (lfind_ok W1 Wn iv sv) si.
  by move=> t tv; split=> [|[//|->]]; [left|apply/(lcontains_iff iv sv)].
have ns : s \notin cl (size s).-1 by rewrite si.
have iv' := linv_push iv ns os ss ld; set cl' := upd _ _ _ in iv'.
have ex : extends cl cl' by exact: extends_rcons.
exists (lpush L (size s).-1 (key s)), (size (cl (size s).-1)); split=> //.
- move=> t tv; rewrite (lcontains_iff iv' tv) (lcontains_iff iv tv) /cl' /upd; case: eqP => [e|ne].
    by rewrite -e mem_rcons inE; split=> [/orP [/eqP|]|[|->]]; [right|left|move=> ->; rewrite orbT|rewrite eqxx].
  by split=> [|[//|e]]; [left|rewrite e in ne].
- exact: lpreserves_ext iv iv' ex.
- rewrite (lfind_ok W1 Wn iv' sv) /cl' /upd eqxx mem_rcons mem_head; congr (Ok (Some _)).
  by rewrite -cats1 index_cat (negbTE ns) /= eqxx addn0.
- by move/(lcontains_iff iv sv); rewrite si.
Qed.

(** add_unsafe(s) is the same when s is not there *)
Theorem C26_add_unsafe L s : lb L -> lsimplex n k s -> ~ lcontains W L s -> l_add_unsafe W L s = l_add W L s.
Proof.
move=> b sv; have [cl iv] := lbuilt_inv W1 Wn b => hnc; have [_ ol _ _ _] := iv; have [os ss ld] := lsimplex_size sv.
rewrite /l_add (lcall W1 Wn (l_add_key L) ol sv) (ladd_key_ok iv os ss ld).
rewrite /l_add_unsafe (lcall W1 Wn (l_add_unsafe_key L) ol sv) (ladd_unsafe_ok iv os ss ld).
by case: ifP => // si; case: hnc; apply/(lcontains_iff iv sv).
Qed.
End Any.

(** ** With a machine that reads something at _offset[-1] *)
Section Reads.
Variable g : nat.
Let junk := Some g.
Notation lb := (lbuilt W junk n k).

(** the boundary iterator: the faces of s without its vertex j, from the last vertex to the first, with sign (-1)^j *)
Theorem C26_faces L s x : lb L -> lsimplex n k s -> l_key W L s = Ok x -> exists fs,
  [/\ l_faces W junk L (size s).-1 x = Ok fs, size fs = size s &
      forall j, j < size s -> exists2 y, l_key W L (take j s ++ drop j.+1 s) = Ok y &
        nth (0, 0%R) fs (size s - j.+1) = (y, ((-1) ^+ j)%R)].
Proof.
move=> b sv; have [cl iv] := lbuilt_inv W1 Wn b; have [_ ol _ _ _] := iv; have [os ss ld] := lsimplex_size sv.
have ls : size s <= k.+1 by case: sv => _ [].
have n0 : s != [::] by case: sv.
rewrite (key_ok W1 Wn ol os ls) => -[<-]; exists (lfaces n s); split.
- exact: (faces_ok W1 Wn ol os n0 ls erefl).
- by rewrite size_map size_rev size_iota.
- move=> j lj; exists (key (skip j s)).
    rewrite -/(skip j s) (key_ok W1 Wn ol) //; first exact: ok_sub (skip_subseq _ _) os.
    by rewrite size_skip //; apply: leq_trans (leq_pred _) ls.
  have l2 : size s - j.+1 < size s by move: lj; clear; lia.
  rewrite /lfaces (nth_map 0) ?size_rev ?size_iota // nth_rev ?size_iota // nth_iota; last by move: lj l2; clear; lia.
  by have -> : 0 + (size s - (size s - j.+1).+1) = j by [move: lj l2; clear; lia].
Qed.

(** add_recursive(s): everything that was there stays, s is there; what is new is a subsequence of s; the answer lists
    exactly the new cells.  When the complex was closed under faces, all subsequences of s are there and it is closed
    again.  When s was there already, nothing changes and the answer is empty. *)
Theorem C26_add_recursive L s : lb L -> lsimplex n k s -> exists L' r,
  [/\ l_add_recursive W junk L s = Ok (L', r),
      [/\ lcontains W L' s, forall t, lsimplex n k t -> lcontains W L' t -> lcontains W L t \/ subseq t s &
          forall t j, lsimplex n k t -> l_find W L t = Ok (Some j) -> l_find W L' t = Ok (Some j)],
      uniq r /\ forall d i, (d, i) \in r <-> exists2 t, lcell_is W L' d i t & ~ lcontains W L t,
      lclosed W n k L -> lclosed W n k L' /\
        forall t, lsimplex n k t -> lcontains W L' t <-> lcontains W L t \/ subseq t s &
      lcontains W L s -> L' = L /\ r = [::]].
Proof.
move=> b sv; have [cl iv] := lbuilt_inv W1 Wn b; have [_ ol _ _ _] := iv; have [os ss ld] := lsimplex_size sv.
have [L' [cl' [r [E [iv' si] [ex nw up] sub nf]]]] := @lrec_ok n k W junk W1 Wn g (size s).-1 erefl L cl s iv os ss ld.
have E' : l_add_recursive W junk L s = Ok (L', r).
  by rewrite /l_add_recursive (lcall W1 Wn (fun d x => l_add_rec W junk d L x) ol sv).
exists L', r; split=> //; [split| | |].
- by apply/(lcontains_iff iv' sv).
- move=> t tv /(lcontains_iff iv' tv) /sub [ti|]; last by right.
  by left; apply/(lcontains_iff iv tv).
- exact: lpreserves_ext iv iv' ex.
- case: nw => u m; split=> // d i; rewrite m; split.
  + move=> /andP [h1 h2]; exists (nth [::] (cl' d) i); first by apply/(lcell_is_iff _ _ _ iv').
    have [tv st] := lcl_simplex iv' (mem_nth [::] h2); move/(lcontains_iff iv tv); rewrite st /= => ti.
    have [e e'] := ex d; have [_ _ _ _ lc'] := iv'; have [_ u' _] := lc' d.
    have := index_uniq [::] h2 u'; move: ti; move: (nth [::] (cl' d) i) => u0 ti; rewrite e' index_cat ti => e2.
    by move: h1; rewrite leqNgt -e2 index_mem ti.
  + move=> [t /(lcell_is_iff _ _ _ iv') [h2 ->]] hnc; rewrite h2 andbT.
    have [tv st] := lcl_simplex iv' (mem_nth [::] h2).
    rewrite leqNgt; apply/negP => h3; apply: hnc; apply/(lcontains_iff iv tv); rewrite st /=.
    by have [e ->] := ex d; rewrite nth_cat h3 mem_nth.
- move=> lcd; have cls : lclosed W n k L'.
    move=> a t av ca nt st; suff H : forall m a t, size a - size t = m -> lsimplex n k a -> a \in cl' (size a).-1 -> t != [::] -> subseq t a -> t \in cl' (size t).-1.
      have tv : lsimplex n k t.
        case: av => na [la oa]; split=> //; split; first exact: leq_trans (size_subseq st) la.
        exact: ok_sub st oa.
      by apply/(lcontains_iff iv' tv); apply: (H _ a t erefl av _ nt st); apply/(lcontains_iff iv' av).
    move=> {a t av ca nt st}; elim=> [|m IH] a t sz av ai nt st.
      have e : size a = size t by apply/eqP; rewrite eqn_leq (size_subseq st) -subn_eq0 sz eqxx.
      by have /size_subseq_leqif [_] := st; rewrite e eqxx => /esym /eqP ->.
    have lt : size t < size a by rewrite -subn_gt0 sz.
    (* a has its faces, or was there before *)
    have [oa sa la] := lsimplex_size av.
    have p2 : (size a).-1 = (size a).-2.+1.
      by rewrite prednK //; move: lt; case: (t) nt => // x t' _ /=; clear; lia.
    have [j lj sj] := subseq_skip st lt.
    have av' : lsimplex n k (skip j a).
      split; first by rewrite -size_eq0 size_skip // p2.
      split; last exact: ok_sub (skip_subseq _ _) oa.
      by rewrite size_skip //; apply: leq_trans (leq_pred _) _; case: av => _ [].
    have fa : skip j a \in cl' (size (skip j a)).-1.
      rewrite size_skip //; have := nf (size a).-2 a; rewrite -p2 => /(_ ai) [ai'|]; last exact.
      have ca : lcontains W L a by apply/(lcontains_iff iv av).
      have /(lcontains_iff iv av') : lcontains W L (skip j a).
        by apply: (lcd a) => //; [case: av'|exact: skip_subseq].
      by rewrite size_skip // => h; exact: extends_mem ex h.
    by apply: (IH (skip j a)) => //; rewrite size_skip //; move: sz lt; clear; lia.
  split=> // t tv; split.
  + move=> /(lcontains_iff iv' tv) /sub [ti|]; last by right.
    by left; apply/(lcontains_iff iv tv).
  + move=> [/(lcontains_iff iv tv) h|st]; first by apply/(lcontains_iff iv' tv); exact: extends_mem ex h.
    by apply: (cls s) => //; [apply/(lcontains_iff iv' sv)|case: tv].
- move/(lcontains_iff iv sv) => h; have := lrec_head W junk iv os ss ld; rewrite h E.
  by move=> -[-> ->].
Qed.

(** ** Boundaries *)
(** boundary(d+1, i) of the cell s: if all its faces are in the complex, their indices in increasing order, each with the
    sign (-1)^j of the vertex left out; if one is missing (add does not check) it throws *)
Theorem C26_boundary L d i s : lb L -> lcell_is W L d.+1 i s ->
  ((forall j, j < d.+2 -> lcontains W L (take j s ++ drop j.+1 s)) -> exists f c (ix : nat -> nat),
    [/\ l_boundary W junk L d.+1 i = Ok (f, c), size f = d.+2 /\ size c = d.+2, sorted leq f,
        forall j, j < d.+2 -> l_find W L (take j s ++ drop j.+1 s) = Ok (Some (ix j)) &
        perm_eq (zip f c) [seq (ix j, (-1) ^+ j)%R | j <- iota 0 d.+2]]) /\
  (forall j, j < d.+2 -> ~ lcontains W L (take j s ++ drop j.+1 s) -> l_boundary W junk L d.+1 i = Throw).
Proof.
move=> b; have [cl iv] := lbuilt_inv W1 Wn b => /(lcell_is_iff _ _ _ iv) [li ->]; set s' := nth _ _ _.
have si : s' \in cl d.+1 by exact: mem_nth.
have [sv ss] := lcl_simplex iv si; have [os _ _] := lsimplex_size sv.
have fv j : j < d.+2 -> lsimplex n k (skip j s') /\ size (skip j s') = d.+1.
  move=> lj; have sz : size (skip j s') = d.+1 by rewrite size_skip ss.
  split=> //; split; first by rewrite -size_eq0 sz.
  split; last exact: ok_sub (skip_subseq _ _) os.
  by rewrite sz; case: sv => _ [+ _]; rewrite ss; exact: ltnW.
have [B1 B2] := @lboundary_ok n k W g W1 Wn cl L d i iv li; split.
  move=> H; have fi : faces_in (cl d) s'.
    move=> j; rewrite ss => lj; have [v sz] := fv j lj.
    by have /(lcontains_iff iv v) := H j lj; rewrite sz.
  exists (rowf (cl d) s'), (lrowc (cl d) s'), (fun j => index (skip j s') (cl d)); split.
  - exact: B1.
  - by rewrite size_rowf size_lrowc ss.
  - exact: rowf_sorted.
  - move=> j lj; have [v sz] := fv j lj; rewrite -/(skip j s') (lfind_ok W1 Wn iv v) sz /=.
    by rewrite fi // ss.
  - by apply: perm_trans (lrow_pairs _ _) _; rewrite /lpairs ss.
move=> j lj hnc; apply: B2 => fi; apply: hnc; have [v sz] := fv j lj; apply/(lcontains_iff iv v).
by rewrite sz; apply: fi; rewrite ss.
Qed.

Lemma lclosed_faces cl L : linv n k cl L -> lclosed W n k L -> forall d s, s \in cl d.+1 -> faces_in (cl d) s.
Proof.
move=> iv lcd d s si j lj; have [sv ss] := lcl_simplex iv si; have [os _ _] := lsimplex_size sv.
have sz : size (skip j s) = d.+1 by rewrite size_skip // ss.
have v : lsimplex n k (skip j s).
  split; first by rewrite -size_eq0 sz.
  split; last exact: ok_sub (skip_subseq _ _) os.
  by rewrite sz; case: sv => _ [+ _]; rewrite ss; exact: ltnW.
have /(lcontains_iff iv v) : lcontains W L (skip j s).
  apply: (lcd s) => //; [|by case: v|exact: skip_subseq].
  by apply/(lcontains_iff iv sv); rewrite ss.
by rewrite sz.
Qed.

(** boundary_csc(d+1) of a closed complex has one column per cell, and column i holds what boundary(d+1, i) returns *)
Theorem C26_matrix (T : Type) (conv : int -> T) L d : lb L -> lclosed W n k L -> d < k ->
  exists A M, [/\ l_boundary_csc W junk L d.+1 = Ok A, cm_of_csc conv A = Ok M,
    l_ncell L d = Ok (nrow M), l_ncell L d.+1 = Ok (ncol M) &
    size (cols M) = ncol M /\ forall i, i < ncol M -> exists f c,
      l_boundary W junk L d.+1 i = Ok (f, c) /\ nth [::] (cols M) i = zip f (map conv c)].
Proof.
move=> b lcd ld; have [cl iv] := lbuilt_inv W1 Wn b; have cf := lclosed_faces iv lcd.
have [A [EA EM]] := @lboundary_csc_ok n k W g W1 Wn cl L d iv ld (cf d).
do 2 eexists; split; [exact: EA|exact: EM|exact: lncell_ok iv (ltnW ld)|exact: lncell_ok iv ld|].
rewrite /= size_map; split=> // i li; have [B1 _] := @lboundary_ok n k W g W1 Wn cl L d i iv li.
by do 2 eexists; split; [apply: B1; apply: cf; exact: mem_nth|rewrite (nth_map [::])].
Qed.

Section OverField.
Variable F : fieldType.
Local Open Scope ring_scope.
Let conv (z : int) : F := z%:~R.

Definition lbmat (cl : cells_t) (d : nat) : cmat F :=
  if d is d'.+1 then CMat (size (cl d')) (size (cl d)) [seq lbcol F (cl d') s | s <- cl d]
  else CMat 1 (size (cl 0%N)) (nseq (size (cl 0%N)) [::]).

Lemma lbmat_csc cl L d : linv n k cl L -> lclosed W n k L -> (d < k)%N -> exists A,
  l_boundary_csc W junk L d.+1 = Ok A /\ cm_of_csc conv A = Ok (lbmat cl d.+1).
Proof.
move=> iv lcd ld; have cf := lclosed_faces iv lcd.
have [A [EA EM]] := @lboundary_csc_ok n k W g W1 Wn cl L d iv ld (cf d).
by exists A; split=> //; rewrite (EM F conv).
Qed.

Lemma lbmat_square cl L d : linv n k cl L -> lclosed W n k L ->
  mxc (nrow (lbmat cl d)) (ncol (lbmat cl d)) (cols (lbmat cl d)) *m
  mxc (ncol (lbmat cl d)) (size (cl d.+1)) (cols (lbmat cl d.+1)) = 0.
Proof.
move=> iv lcd; have cf := lclosed_faces iv lcd; apply/matrixP => r c; rewrite mxE [RHS]mxE; case: d r c => [|d] r c.
  apply: big1 => i _; rewrite !mxE /= nth_nseq; case: ifP; rewrite coef_nil mul0r //.
have si : nth [::] (cl d.+2) c \in cl d.+2 by exact: mem_nth.
have [_ ss] := lcl_simplex iv si; have [_ _ _ _ lc] := iv; have [_ _ al] := lc d.+1.
have al' : all (fun t => size t == (size (nth [::] (cl d.+2) c)).-1) (cl d.+1).
  by rewrite ss; apply: sub_all al => t /andP [].
have H := @lbcol_square F (cl d) (cl d.+1) (nth [::] (cl d.+2) c) r (cf _ _ si) al'.
apply: etrans H; apply: eq_bigr => i _; rewrite !mxE /=.
by rewrite (nth_map [::]) // (nth_map [::]).
Qed.

(** consecutive boundaries of a closed complex compose to zero *)
Theorem C26_square L d : lb L -> lclosed W n k L -> (d.+1 < k)%N ->
  exists A B (MA MB : cmat F),
  [/\ l_boundary_csc W junk L d.+1 = Ok A, l_boundary_csc W junk L d.+2 = Ok B, cm_of_csc conv A = Ok MA,
      cm_of_csc conv B = Ok MB &
      nrow MB = ncol MA /\ mxc (nrow MA) (ncol MA) (cols MA) *m mxc (ncol MA) (ncol MB) (cols MB) = 0].
Proof.
move=> b lcd ld; have [cl iv] := lbuilt_inv W1 Wn b.
have [A [EA EM]] := lbmat_csc iv lcd (ltnW ld); have [B [EB EMB]] := lbmat_csc iv lcd ld.
exists A, B, (lbmat cl d.+1), (lbmat cl d.+2); split=> //.
by split=> //; exact: lbmat_square iv lcd.
Qed.

Lemma lbmx_chain cl m d : (d < m)%N -> bmx [seq lbmat cl k | k <- iota 0 m] d = lbmat cl d.
Proof. by move=> lk; rewrite /bmx (nth_map 0%N) ?size_iota // nth_iota. Qed.

(** ChainComplex(X) of a closed complex without repeated vertices is well formed, with k+1 dimensions (the empty ones
    included) and one cell per simplex, and has the properties C14-C22 ask of complexes *)
Theorem C26_chain L : lb L -> lclosed W n k L ->
  (forall s, lsimplex n k s -> lcontains W L s -> uniq s) ->
  exists C, [/\ l_chain W junk conv L = Ok C, size C = k.+1, chain_wf C, cells_like C &
    forall d, (d <= k)%N -> l_ncell L d = Ok (ncol (bmx C d))].
Proof.
move=> b lcd nd; have [cl iv] := lbuilt_inv W1 Wn b; have cf := lclosed_faces iv lcd; have [[_ ek] _ _ _ lc] := iv.
exists [seq lbmat cl d | d <- iota 0 k.+1].
have nz d s : s \in cl d.+1 -> sv_wf (size (cl d)) (lbcol F (cl d) s).
  move=> si; have [sv ss] := lcl_simplex iv si; apply: lbcol_wf; first exact: cf.
  by apply: nd => //; apply/(lcontains_iff iv sv); rewrite ss.
split.
- rewrite /l_chain ek; apply: omapm_Ok_eq => -[|d]; rewrite mem_iota add0n => ld.
    by rewrite [0%N == 0%N]/= (lncell_ok iv (leq0n k)).
  by have [A [EA EM]] := lbmat_csc iv lcd ld; rewrite [d.+1 == 0%N]/= EA; cbn [obind].
- by rewrite size_map size_iota.
- split; first by rewrite size_map size_iota.
    rewrite all_map; apply/allP => -[|d]; rewrite mem_iota add0n => ld.
      by rewrite /= /cm_wf /= size_nseq eqxx all_nseq orbT.
    by rewrite /= /cm_wf /= size_map eqxx all_map /=; apply/allP => s; exact: nz.
  move=> d; rewrite size_map size_iota => ld; rewrite !lbmx_chain //; last exact: ltnW.
  by split; [case: (d)|exact: lbmat_square iv lcd].
- split.
  + move=> i j; rewrite lbmx_chain //= => lj; rewrite nth_nseq; case: ifP => _; exact: coef_nil.
  + move=> j; case: (ltnP 1 k.+1) => l1; last by rewrite /bmx nth_default ?size_map ?size_iota.
    rewrite lbmx_chain //= => lj; rewrite (nth_map [::]) //.
    have si : nth [::] (cl 1%N) j \in cl 1%N by exact: mem_nth.
    have [_ ss] := lcl_simplex iv si; move: (cf _ _ si) ss; set s := nth _ _ _ => fin ss.
    under eq_bigr do rewrite coef_lbcol.
    have -> : \sum_(i < size (cl 0%N)) alt (delta F (cl 0%N) i) s = alt (fun _ => 1) s.
      rewrite /alt exchange_big /=; apply: eq_bigr => j' _; rewrite -mulr_sumr; congr (_ * _).
      have lt : (index (skip j' s) (cl 0%N) < size (cl 0%N))%N by rewrite index_mem; exact: fin.
      rewrite (bigD1 (Ordinal lt)) //= /delta eqxx big1 ?addr0 // => i ne.
      by case: eqP => // e; case/eqP: ne; apply: val_inj.
    by rewrite /alt ss !big_ord_recl big_ord0 /= expr0 expr1 !mulr1 addr0 subrr.
  + move=> [|d] j // _; rewrite size_map size_iota => ld; rewrite lbmx_chain //= => lj; rewrite (nth_map [::]) //.
    have si : nth [::] (cl d.+1) j \in cl d.+1 by exact: mem_nth.
    have /and3P [so _ nzr] := nz _ _ si; have [_ ss] := lcl_simplex iv si.
    case E: (lbcol F (cl d) _) so nzr => [|p v] so nzr.
      by move/(congr1 size): E; rewrite /lbcol size_zip size_rowf size_map size_lrowc ss minnn.
    by exists p.1; rewrite coef_head //; case/andP: nzr.
- move=> d ld; rewrite lbmx_chain ?ltnS // (lncell_ok iv ld); by case: (d).
Qed.
End OverField.
End Reads.

(** ** By the letter of the C++ standard *)
(** the boundary iterator reads _offset[i-1] at i = 0, before the beginning of the table: every boundary, and every
    add_recursive of a new simplex that is not a vertex, is undefined *)
Theorem C26_undefined L s : lbuilt W None n k L -> lsimplex n k s -> 1 < size s ->
  (~ lcontains W L s -> l_add_recursive W None L s = UB) /\
  (forall i, lcell_is W L (size s).-1 i s -> l_boundary W None L (size s).-1 i = UB).
Proof.
move=> b sv s1; have [cl iv] := lbuilt_inv W1 Wn b; have [_ ol [z1 z2] h4 _] := iv; have [os ss ld] := lsimplex_size sv.
have ls : size s <= k.+1 by case: sv => _ [].
have n0 : s != [::] by case: sv.
split.
  move=> hnc; rewrite /l_add_recursive (lcall W1 Wn (fun d x => l_add_rec W None d L x) ol sv).
  rewrite (lrec_head W None iv os ss ld); case: ifP => [si|_]; first by case: hnc; apply/(lcontains_iff iv sv).
  have := @faces_UB n W k None (lpush L (size s).-1 (key s)) s ol os n0 ls erefl.
  by case: (size s) s1 => [|[|m]] // _; rewrite [m.+2.-1]/= => ->.
move=> i /(lcell_is_iff _ _ _ iv) [li e]; rewrite /l_boundary (oget_nth [::]) ?z1 ?ltnS //; cbn [obind].
have [-> _] := h4 _ ld; rewrite (oget_nth 0) ?size_map // (nth_map [::]) //; cbn [obind]; rewrite -e.
by have := @faces_UB n W k None L s ol os n0 ls erefl => ->.
Qed.
End Props.

(** ** Outside the range *)
(** a vertex not below n: two different edges share a key *)
Theorem C26_vertex_range n : 1 < n -> n ^ 2 <= 2 ^ 64 -> let L := l_new (2 ^ 64) n 1 in
  l_key (2 ^ 64) L [:: n; 0] = l_key (2 ^ 64) L [:: 0; 1] /\
  exists L', l_add (2 ^ 64) L [:: n; 0] = Ok (L', 0) /\ l_find (2 ^ 64) L' [:: 0; 1] = Ok (Some 0).
Proof.
set W := 2 ^ 64 => n1 nW L.
have W1 : 1 < W by rewrite /W; apply: (@leq_trans (2 ^ 1)) => //; rewrite leq_exp2l.
have ol : l_off L = mkseq (expn n) 2 by exact: off_ok.
have nl : n < W by apply: leq_trans nW; rewrite -{1}(expn1 n) ltn_exp2l.
have K a b : a + b * n < W -> a < W -> b * n < W -> l_key W L [:: a; b] = Ok (a + b * n).
  move=> h1 h2 h3; rewrite /l_key ol /= /lw expn0 expn1 muln1 add0n.
  by rewrite /oget /= !modn_mod (modn_small h2) (modn_small h3) (modn_small h1).
have k1 : l_key W L [:: n; 0] = Ok n by rewrite K ?mul0n ?addn0 //; exact: ltnW.
have k2 : l_key W L [:: 0; 1] = Ok n by rewrite K ?mul1n ?add0n //; exact: ltnW.
split; first by rewrite k1 k2.
exists (lpush L 1 n); split; first by rewrite /l_add k1.
have k3 : l_key W (lpush L 1 n) [:: 0; 1] = Ok n by rewrite -k2.
by rewrite /l_find k3; cbn [obind]; rewrite /l_find_key /= eqxx.
Qed.

Lemma key_total W n k s : 0 < W -> size s <= k.+1 -> exists2 x, l_key W (l_new W n k) s = Ok x & x < W.
Proof.
move=> W0 ls; rewrite /l_key; have so : size (l_off (l_new W n k)) = k.+1 by rewrite /= size_map size_iota.
have H m : m <= size s -> exists2 x, ofold (fun key j => do x <- oget s j; do o <- oget (l_off (l_new W n k)) j;
    Ok (lw W (key + lw W (x * o)))) 0 (iota 0 m) = Ok x & x < W.
  elim: m => [|m IH] lm; first by exists 0.
  have [x E lx] := IH (ltnW lm); rewrite -addn1 iotaD ofold_cat E; cbn [obind]; rewrite ofold_cons add0n.
  rewrite (oget_nth 0) //; cbn [obind]; rewrite (oget_nth 0) ?so; last exact: leq_trans lm ls.
  by cbn [obind ofold]; eexists; first reflexivity; rewrite ltn_mod.
exact: H.
Qed.

(** the bound n^(k+1) <= W cannot be weakened: above it two different simplices of dimension k share a key *)
Theorem C26_bound_tight W n k : 0 < W -> W < n ^ k.+1 ->
  exists s t, [/\ lsimplex n k s /\ size s = k.+1, lsimplex n k t /\ size t = k.+1, s <> t &
    l_key W (l_new W n k) s = l_key W (l_new W n k) t].
Proof.
move=> W0 lt; pose f (i : 'I_(n ^ k.+1)) := if l_key W (l_new W n k) (digs n k.+1 i) is Ok x then x else 0.
have fl i : f i < W.
  rewrite /f; have [|x -> //] := @key_total W n k (digs n k.+1 i) W0; by rewrite size_digs.
pose g i : 'I_W := Ordinal (fl i).
have : ~~ injectiveb g by apply/injectiveP => /leq_card; rewrite !card_ord leqNgt lt.
move=> /injectivePn [i [j ne e]].
have lsd x : x < n ^ k.+1 -> lsimplex n k (digs n k.+1 x) /\ size (digs n k.+1 x) = k.+1.
  move=> lx; have ss := size_digs n k.+1 x; split=> //; split; first by rewrite -size_eq0 ss.
  by rewrite ss; split=> //; exact: digs_ok.
exists (digs n k.+1 i), (digs n k.+1 j); split; [exact: lsd|exact: lsd| |].
- move=> h; case/eqP: ne; apply: val_inj => /=; rewrite -(skey_digs (ltn_ord i)) -(skey_digs (ltn_ord j)).
  by rewrite h.
- have [|x Ex _] := @key_total W n k (digs n k.+1 i) W0; first by rewrite size_digs.
  have [|y Ey _] := @key_total W n k (digs n k.+1 j) W0; first by rewrite size_digs.
  by move/(congr1 val): e; rewrite /= /f Ex Ey => ->.
Qed.

(** with 2^32 vertices and triangles in 64 bits an offset wraps to zero: a triangle can be added but not read back *)
Theorem C26_overflow n : 1 < n -> let W := n * n in let L := l_new W n 2 in exists L',
  [/\ lbuilt W None n 2 L', l_add W L [:: 0; 1; 1] = Ok (L', 0), l_find W L' [:: 0; 1; 0] = Ok (Some 0) &
      l_simplex W L' 2 0 = UB].
Proof.
move=> n1 W L; have n0 : 0 < n by exact: ltnW.
have nW : n < W by rewrite /W -{1}(mul1n n) ltn_mul2r n0.
have W1 : 1 < W by exact: ltn_trans nW.
have ol : l_off L = [:: 1; n; 0].
  by rewrite /L /l_new /mkseq /= /lw (modn_small W1) muln1 (modn_small nW) -/W modnn.
have K c : l_key W L [:: 0; 1; c] = Ok n.
  by rewrite /l_key ol /oget /= /lw mul0n mul1n muln0 !mod0n !add0n addn0 !modn_mod (modn_small nW).
exists (lpush L 2 n); have E : l_add W L [:: 0; 1; 1] = Ok (lpush L 2 n, 0) by rewrite /l_add K.
split=> //.
- apply: (lb_add (lb_new _ _ _ _) _ E); split=> //; split=> //=; by rewrite n0 n1.
- have -> : l_find W (lpush L 2 n) [:: 0; 1; 0] = l_find_key (lpush L 2 n) 2 n.
    by rewrite /l_find; have -> : l_key W (lpush L 2 n) [:: 0; 1; 0] = Ok n by exact: K.
  by rewrite /l_find_key /= eqxx.
- rewrite /l_simplex /=; cbn [obind]; rewrite /l_key_simplex.
  by have -> : forall L0, l_off L0 = l_off L -> l_simplex_loop W L0 2 n [::] = UB by move=> L0 e; cbn [l_simplex_loop]; rewrite e ol.
Qed.

(** a triangle and an edge in a complex over 4 vertices *)
Definition exl_of (r : outcome (lsc * seq (nat * nat))) : lsc := if r is Ok (X, _) then X else l_default.
Definition exl_triangle : lsc := Eval vm_compute in exl_of (l_add_recursive 64 (Some 5) (l_new 64 4 2) [:: 0; 1; 2]).
Definition exl_edge : lsc := Eval vm_compute in (if l_add 64 exl_triangle [:: 1; 3] is Ok (X, _) then X else l_default).

Theorem C26_nonvacuous :
  [/\ 4 ^ 3 <= 64 /\ lbuilt 64 (Some 5) 4 2 exl_triangle,
      l_add_recursive 64 (Some 5) (l_new 64 4 2) [:: 0; 1; 2] =
        Ok (exl_triangle, [:: (0, 0); (0, 1); (1, 0); (0, 2); (1, 1); (1, 2); (2, 0)]),
      lclosed 64 4 2 exl_triangle,
      forall s, lsimplex 4 2 s -> lcontains 64 exl_triangle s -> uniq s &
      l_add 64 exl_triangle [:: 1; 3] = Ok (exl_edge, 3) /\ l_boundary 64 (Some 5) exl_edge 1 3 = Throw].
Proof.
have b0 : lbuilt 64 (Some 5) 4 2 (l_new 64 4 2) := lb_new _ _ _ _.
have sv : lsimplex 4 2 [:: 0; 1; 2] by [].
have Wn : 4 ^ 3 <= 64 by [].
have W1 : 1 < 64 by [].
have c0 : lclosed 64 4 2 (l_new 64 4 2).
  by move=> s t vs [i]; rewrite (C26_new W1 Wn vs).
have [L' [r [E' [h1 h2 h3] _ h4 _]]] := C26_add_recursive W1 Wn b0 sv.
have E : l_add_recursive 64 (Some 5) (l_new 64 4 2) [:: 0; 1; 2] =
        Ok (exl_triangle, [:: (0, 0); (0, 1); (1, 0); (0, 2); (1, 1); (1, 2); (2, 0)]) by vm_compute.
have eL : exl_triangle = L' by move: E'; rewrite E; case.
split; [split; [exact: Wn|exact: lb_add_recursive b0 sv E]|exact: E| | |by clear; vm_compute].
- by clear E; rewrite eL; have [] := h4 c0.
- move=> s vs; clear E; rewrite eL => /(h2 s vs) [[i]|st]; first by rewrite (C26_new W1 Wn vs).
  exact: subseq_uniq st _.
Qed.
