(** C57: CellComplex. *)
From mathcomp Require Import all_ssreflect all_algebra zify.
From Verif Require Import Outcome M_SparseVec M_Perm M_ColMatrix M_CSC M_Simplicial M_Cell S_Perm S_Linalg S_CSC P_Outcome P_Perm P_Trie P_Util P_ScOps P_CSC P_CSC2 P_Sort.
Set Implicit Arguments.
Unset Strict Implicit.
Unset Printing Implicit Defensive.
Import GRing.Theory.

(** ** specification: a history of public calls and what was given to it *)
Inductive cop := OpCell of seq nat & seq int & nat | OpVertex | OpVertices of nat.
Definition apply_op (X : cellx) (o : cop) : outcome (cellx * nat) :=
  match o with OpCell b c k => ce_add X b c k | OpVertex => ce_add_vertex X | OpVertices k => ce_add_vertices X k end.
Definition run (X : cellx) (ops : seq cop) : outcome cellx := ofold (fun X o => do r <- apply_op X o; Ok r.1) X ops.
(** every call gives as many coefficients as boundary cells (dimension 0 ignores both) *)
Definition ok_op (o : cop) : bool := if o is OpCell b c k then (k == 0) || (size b == size c) else true.
(** the boundaries given for dimension k, in order *)
Definition given (k : nat) (ops : seq cop) : seq (svec int) :=
  pmap (fun o => if o is OpCell b c k' then if k' == k then Some (zip b c) else None else None) ops.
(** the number of cells of dimension k *)
Definition cells (k : nat) (ops : seq cop) : nat :=
  if k is 0 then sumn [seq match o with OpCell _ _ 0 => 1 | OpCell _ _ _ => 0 | OpVertex => 1 | OpVertices n => n end | o <- ops]
  else size (given k ops).
(** the largest dimension *)
Definition topdim (m : nat) (ops : seq cop) : nat := foldl maxn m [seq if o is OpCell _ _ k then k else 0 | o <- ops].

(** ** proofs *)
Definition cinvar (D : nat) (cs : nat -> seq (svec int)) (nv : nat) (X : cellx) : Prop :=
  [/\ size (ce_ncells X) = D.+1, [/\ size (ce_ptr X) = D, size (ce_bdr X) = D & size (ce_coeff X) = D],
      forall k, nth 0 (ce_ncells X) k = if k is 0 then nv else size (cs k) &
      forall k, [/\ nth [:: 0] (ce_ptr X) k = ptrs (cs k.+1), nth [::] (ce_bdr X) k = unzip1 (flatten (cs k.+1)) &
                    nth [::] (ce_coeff X) k = unzip2 (flatten (cs k.+1))]].

Lemma cinvar_new m : cinvar m (fun _ => [::]) 0 (ce_new m).
Proof.
split; first by rewrite size_grow maxn0.
- by split; rewrite size_grow maxn0.
- by move=> k; rewrite nth_grow nth_nil; case: k.
- by move=> k; split; rewrite nth_grow nth_nil.
Qed.
Lemma cinvar_reserve D cs nv X k : cinvar D cs nv X -> cinvar (maxn k D) cs nv (ce_reserve k X).
Proof.
move=> [h1 [h2 h3 h4] h5 h6]; split; first by rewrite size_grow h1; lia.
- by split; rewrite size_grow ?h2 ?h3 ?h4.
- by move=> j; rewrite nth_grow h5.
- by move=> j; rewrite !nth_grow; exact: h6.
Qed.
Lemma cinvar_vertices D cs nv X k : cinvar D cs nv X ->
  exists2 X', ce_add_vertices X k = Ok (X', nv + k) & cinvar D cs (nv + k) X'.
Proof.
move=> [h1 h2 h5 h6]; rewrite /ce_add_vertices (oget_nth 0) ?h1 // h5; cbn [obind].
rewrite (oset_Ok 0) ?h1 //; cbn [obind]; eexists; first by [].
split=> //=; first by rewrite size_set_nth h1 maxnE; lia.
by move=> [|j]; rewrite nth_setE //= h5.
Qed.
Lemma cinvar_vertex D cs nv X : cinvar D cs nv X -> exists2 X', ce_add_vertex X = Ok (X', nv) & cinvar D cs nv.+1 X'.
Proof.
move=> [h1 h2 h5 h6]; rewrite /ce_add_vertex (oget_nth 0) ?h1 // h5; cbn [obind].
rewrite (oset_Ok 0) ?h1 //; cbn [obind]; eexists; first by [].
split=> //=; first by rewrite size_set_nth h1 maxnE; lia.
by move=> [|j]; rewrite nth_setE //= h5.
Qed.
Lemma cinvar_cell D cs nv X b c k : cinvar D cs nv X -> size b = size c ->
  exists2 X', ce_add X b c k.+1 = Ok (X', size (cs k.+1)) &
    cinvar (maxn k.+1 D) (fun j => if j == k.+1 then rcons (cs j) (zip b c) else cs j) nv X'.
Proof.
move=> /(cinvar_reserve k.+1) iv e; rewrite /ce_add; cbn [eqn]; rewrite eqE /= e eqxx /=.
move: (ce_reserve k.+1 X) iv => {X} Y [h1 [h2 h3 h4] h5 h6]; have lk : k < maxn k.+1 D by lia.
rewrite /ce_add_unsafe [k.+1.-1]/=; have [p1 p2 p3] := h6 k.
rewrite (oget_nth [::]) ?h3 // p2; cbn [obind]; rewrite (oset_Ok [::]) ?h3 //; cbn [obind].
rewrite (oget_nth [::]) ?h4 // p3; cbn [obind]; rewrite (oset_Ok [::]) ?h4 //; cbn [obind].
rewrite (oget_nth [:: 0]) ?h2 // p1; cbn [obind]; rewrite (oset_Ok [:: 0]) ?h2 //; cbn [obind].
rewrite (oget_nth 0) ?h1 ?ltnS // h5; cbn [obind]; rewrite (oset_Ok 0) ?h1 ?ltnS //; cbn [obind].
eexists; first by [].
have mx n : n < maxn k.+1 D -> maxn n.+1 (maxn k.+1 D) = maxn k.+1 D by lia.
split; cbn [ce_ncells ce_ptr ce_bdr ce_coeff].
- by rewrite size_set_nth h1; lia.
- by rewrite !size_set_nth h2 h3 h4 mx.
- move=> [|j]; rewrite nth_setE; first by rewrite h5.
  by case: (j.+1 =P k.+1) => [->|ne]; rewrite ?size_rcons // h5.
move=> j; rewrite !nth_setE eqSS; case: (j =P k) => [->|ne]; last exact: h6.
rewrite ptrs_rcons -!(cats1 (cs _)) flatten_cat [flatten [:: _]]/= cats0 /unzip1 /unzip2 !map_cat -/unzip1 -/unzip2.
rewrite -/(unzip1 (zip b c)) -/(unzip2 (zip b c)) unzip1_zip ?e // unzip2_zip ?e //.
by split=> //; rewrite !size_cat size_map size_zip e minnn.
Qed.

Lemma given_rcons k ops o : given k (rcons ops o) = given k ops ++ given k [:: o].
Proof. by rewrite -cats1 /given pmap_cat. Qed.
Lemma cells0_rcons ops o : cells 0 (rcons ops o) = cells 0 ops + cells 0 [:: o].
Proof. by rewrite /= map_rcons sumn_rcons addn0. Qed.
Lemma cinvar_ext D cs cs' nv nv' X : (forall k, cs k.+1 = cs' k.+1) -> nv = nv' -> cinvar D cs nv X -> cinvar D cs' nv' X.
Proof.
by move=> e <- [h1 h2 h5 h6]; split=> // [[|k]|k]; rewrite -?e //; exact: h5.
Qed.
Lemma run_inv m ops X : run (ce_new m) ops = Ok X -> cinvar (topdim m ops) (fun k => given k ops) (cells 0 ops) X.
Proof.
elim/seq.last_ind: ops X => [|ops o IH] X; first by move=> [<-]; exact: cinvar_new.
rewrite /run ofold_rcons; case E: (ofold _ _ _) => [Y| | |] //; cbn [obind]; have iv := IH Y E.
rewrite /topdim map_rcons foldl_rcons -/(topdim m ops) cells0_rcons.
have nog k : (if o is OpCell _ _ _ then false else true) -> given k (rcons ops o) = given k ops.
  by rewrite given_rcons; case: o {E} => //= *; rewrite cats0.
case: o nog => [b c [|k]||n] nog; cbn [apply_op].
- have [Z EZ ivZ] := cinvar_vertex iv; rewrite /ce_add eqxx EZ; cbn [obind] => -[<-]; rewrite maxn0 /= addn1.
  apply: cinvar_ext ivZ => // k; by rewrite given_rcons /= cats0.
- rewrite {1}/ce_add; cbn [eqn]; rewrite eqE /=; case: eqP => //= e.
  have [Z EZ ivZ] := cinvar_cell k iv e; move: EZ; rewrite /ce_add eqE /= e eqxx /= => ->; cbn [obind] => -[<-].
  rewrite maxnC; apply: cinvar_ext ivZ => [j|]; last by rewrite /cells /= !addn0.
  rewrite given_rcons /= [k.+1 == j.+1]eq_sym; case: eqP => _ /=; by rewrite ?cats1 ?cats0.
- have [Z EZ ivZ] := cinvar_vertex iv; rewrite EZ; cbn [obind] => -[<-]; rewrite maxn0 /= addn1.
  by apply: cinvar_ext ivZ => // k; rewrite nog.
have [Z EZ ivZ] := cinvar_vertices n iv; rewrite EZ; cbn [obind] => -[<-]; rewrite maxn0 /= addn0.
by apply: cinvar_ext ivZ => // k; rewrite nog.
Qed.

(** a history fails exactly when some call gives a wrong number of coefficients, and then the assertion stops it *)
Theorem C57_defined m ops : if all ok_op ops then exists X, run (ce_new m) ops = Ok X else run (ce_new m) ops = Throw.
Proof.
elim/seq.last_ind: ops => [|ops o]; first by exists (ce_new m).
rewrite all_rcons /run ofold_rcons -/(run _ _); case: (all ok_op ops); last by rewrite andbF => ->.
move=> [X E]; rewrite E andbT; cbn [obind]; have iv := run_inv E.
case: o => [b c [|k]||n]; cbn [apply_op ok_op].
- by have [Z EZ _] := cinvar_vertex iv; rewrite /ce_add eqxx EZ; exists Z.
- rewrite orFb; case: eqP => e; first by have [Z EZ _] := cinvar_cell k iv e; rewrite EZ; exists Z.
  by rewrite /ce_add eqE /=; case: eqP.
- by have [Z EZ _] := cinvar_vertex iv; rewrite EZ; exists Z.
by have [Z EZ _] := cinvar_vertices n iv; rewrite EZ; exists Z.
Qed.

(** the dimension, the numbers of cells, and the index that the next call of add returns *)
Theorem C57_counts m ops X k : run (ce_new m) ops = Ok X ->
  [/\ ce_maxdim X = topdim m ops, ce_ncell X k = Ok (cells k ops) &
      forall b c, size b = size c -> exists X', ce_add X b c k = Ok (X', cells k ops)].
Proof.
move=> E; have iv := run_inv E; have [h1 h2 h5 h6] := iv; split; first by rewrite /ce_maxdim h1.
  rewrite /ce_ncell /ce_maxdim h1 [_.+1.-1]/=; case: leqP => lk; first by rewrite (oget_nth 0) ?h1 ?ltnS // h5; case: (k).
  have := h5 k; rewrite nth_default ?h1 //; case: k lk => // k _ e; by rewrite /cells -e.
move=> b c e; case: k => [|k]; last by have [Z EZ _] := cinvar_cell k iv e; exists Z.
by rewrite /ce_add eqxx; have [Z EZ _] := cinvar_vertex iv; exists Z.
Qed.

Lemma oget_at (T : Type) (X : seq T) a Y n : size X = n -> oget (X ++ a :: Y) n = Ok a.
Proof. by move=> <-; rewrite /oget drop_size_cat. Qed.
Lemma cm_of_pack (T : Type) (conv : int -> T) m cs :
  cm_of_csc conv (pack m cs) = Ok (CMat m (size cs) [seq [seq (p.1, conv p.2) | p <- c] | c <- cs]).
Proof.
rewrite /cm_of_csc; cbn [pack c_n c_m c_colptr c_rowind c_val].
have R c X Y : omapm (fun i => do r <- oget (unzip1 (X ++ c ++ Y)) i; do v <- oget (unzip2 (X ++ c ++ Y)) i; Ok (r, conv v)) (iota (size X) (size c)) =
    Ok [seq (p.1, conv p.2) | p <- c].
  elim: c X => [|[r v] c IH] X //; cbn [size iota omapm].
  have e1 : oget (unzip1 (X ++ ((r, v) :: c) ++ Y)) (size X) = Ok r by rewrite /unzip1 map_cat /=; apply: oget_at; rewrite size_map.
  have e2 : oget (unzip2 (X ++ ((r, v) :: c) ++ Y)) (size X) = Ok v by rewrite /unzip2 map_cat /=; apply: oget_at; rewrite size_map.
  rewrite e1 e2; cbn [obind]; have := IH (rcons X (r, v)); rewrite size_rcons cat_rcons => ->; by [].
rewrite (@omapm_Ok_eq _ _ _ (fun j => [seq (p.1, conv p.2) | p <- nth [::] cs j])); last first.
  move=> j; rewrite mem_iota add0n => /andP [_ lt].
  rewrite !(oget_nth 0) ?size_ptrs ?ltnS ?(ltnW lt) //; cbn [obind].
  rewrite !ptrs_nth ?(ltnW lt) // take_nth_cat // -cats1 flatten_cat /= cats0 size_cat addKn (split_flat lt).
  exact: R.
cbn [obind]; congr (Ok (CMat _ _ _)).
by rewrite -[in RHS](mkseq_nth [::] cs) /mkseq -map_comp; apply: eq_map.
Qed.

Lemma cell_perm (c : svec int) : perm_eq (scol (0%R : int) c) c.
Proof.
pose p := sortperm (fun a b => a < b) 0 (unzip1 c).
have e : scol (0%R : int) c = [seq nth (0, 0%R) c i | i <- p].
  rewrite /scol -/p; have al : all (fun i => i < size c) p.
    by apply/allP => i; rewrite (is_perm_mem _ (sperm_perm _)) size_sperm size_map.
  elim: (p) al => //= i l IH /andP [lt al]; rewrite -IH // /unzip1 /unzip2 !(nth_map (0, 0%R)) //; by case: (nth _ c i).
rewrite e; have pp : perm_eq p (iota 0 (size c)) by have := sperm_perm (unzip1 c); rewrite /is_perm size_sperm size_map.
apply: perm_trans (perm_map _ pp) _; by rewrite -/(mkseq _ _) mkseq_nth.
Qed.

Lemma cell_sorted (c : svec int) : sorted leq (unzip1 (scol (0%R : int) c)).
Proof.
rewrite /scol unzip1_zip ?size_map //; apply/(sortedP 0) => i; rewrite size_map size_sperm => lt.
rewrite !(nth_map 0) ?size_sperm ?(ltnW lt) //.
by have := @sortperm_le _ Order.NatOrder.orderType 0 (unzip1 c) i i.+1 (leqnSn i) lt.
Qed.


(** boundary(dim) has one row per (dim-1)-cell and one column per dim-cell; column j consists of the entries given for the j-th cell of
    dimension dim, sorted by row *)
Theorem C57_boundary (T : Type) (conv : int -> T) m ops X d : run (ce_new m) ops = Ok X -> d < topdim m ops ->
  exists cs, ce_boundary conv X d.+1 = Ok (CMat (cells d ops) (cells d.+1 ops) [seq [seq (p.1, conv p.2) | p <- c] | c <- cs]) /\
    [/\ size cs = size (given d.+1 ops), forall j, perm_eq (nth [::] cs j) (nth [::] (given d.+1 ops) j) &
        forall j, sorted leq (unzip1 (nth [::] cs j))].
Proof.
move=> E ld; have [_ e1 _] := C57_counts d E; have [_ e2 _] := C57_counts d.+1 E.
have [_ [s1 s2 s3] _ h6] := run_inv E; have [p1 p2 p3] := h6 d.
exists (map (scol (0%R : int)) (given d.+1 ops)); split.
  rewrite /ce_boundary /ce_boundary_csc e1 e2; cbn [obind].
  rewrite (oget_nth [:: 0]) ?s1 // (oget_nth [::]) ?s2 // (oget_nth [::]) ?s3 // p1 p2 p3; cbn [obind].
  rewrite /csc_make -/(pack (cells d ops) (given d.+1 ops)) (csc_sortE (0%R : int)); cbn [obind].
  by rewrite cm_of_pack size_map.
split=> [|j|j]; first by rewrite size_map.
- case: (ltnP j (size (given d.+1 ops))) => lj; last by rewrite !nth_default ?size_map.
  rewrite (nth_map [::]) //; exact: cell_perm.
case: (ltnP j (size (given d.+1 ops))) => lj; last by rewrite nth_default ?size_map.
rewrite (nth_map [::]) //; exact: cell_sorted.
Qed.

(** boundary(0) and a dimension above maxdim() read outside the vectors *)
Theorem C57_range (T : Type) (conv : int -> T) m ops X d : run (ce_new m) ops = Ok X -> d = 0 \/ topdim m ops < d -> ce_boundary conv X d = UB.
Proof.
move=> E; case: d => [|d] //= [//|ld]; rewrite /ce_boundary /ce_boundary_csc.
have [_ -> _] := C57_counts d E; have [_ -> _] := C57_counts d.+1 E; cbn [obind].
have [_ [s1 _ _] _ _] := run_inv E.
by rewrite {1}/oget drop_oversize // s1.
Qed.

(** the boundary over a field: the entry (i, j) is the sum of the coefficients given for i *)
Theorem C57_matrix (F : fieldType) m ops X d i j : run (ce_new m) ops = Ok X -> d < topdim m ops -> j < cells d.+1 ops ->
  exists2 A, ce_boundary (fun z : int => (z%:~R : F)%R) X d.+1 = Ok A &
    coef (nth [::] (cols A) j) i = (\sum_(p <- nth [::] (given d.+1 ops) j | p.1 == i) (p.2)%:~R)%R.
Proof.
move=> E ld lj; have [cols [EA [sc pc _]]] := C57_boundary (fun z : int => (z%:~R : F)%R) E ld; eexists; first exact: EA.
rewrite /= (nth_map [::]) ?sc // /coef big_map /=; exact: perm_big (pc j).
Qed.

(** a circle with two edges; and a boundary that names a cell that does not exist is accepted *)
Theorem C57_examples :
  let circle := [:: OpVertices 2; OpCell [:: 1; 0] [:: 1; -1]%R 1; OpCell [:: 0; 1] [:: -1; 1]%R 1] in
  [/\ all ok_op circle, topdim 0 circle = 1,
      (do X <- run (ce_new 0) circle; ce_boundary id X 1) = Ok (CMat 2 2 [:: [:: (0, (-1)%R : int); (1, 1%R : int)]; [:: (0, (-1)%R : int); (1, 1%R : int)]]) &
      (do X <- run (ce_new 0) [:: OpCell [:: 5] [:: 1%R] 1]; ce_boundary id X 1) = Ok (CMat 0 1 [:: [:: (5, 1%R : int)]])].
Proof. by split. Qed.
