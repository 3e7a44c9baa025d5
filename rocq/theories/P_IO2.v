(** Saving and loading a SimplicialComplex. *)
From Coq Require Import ZArith.
From mathcomp Require Import all_ssreflect all_algebra zify.
From Verif Require Import Outcome P_Outcome M_SparseVec M_ColMatrix M_CSC M_Field M_Simplicial M_IO S_Simplicial P_Simplicial P_ScOps P_ScBuild P_IO.
Set Implicit Arguments.
Unset Strict Implicit.
Unset Printing Implicit Defensive.

Definition stokens (s : seq nat) : seq nat := flatten [seq t ++ [:: ch_comma] | t <- map dec s].

Lemma write_simplexE s : write_simplex s = stokens s ++ [:: ch_nl].
Proof. by rewrite /write_simplex /stokens -map_comp. Qed.

Lemma stokens_nl s : ch_nl \notin stokens s.
Proof.
apply/negP => /flattenP [t /mapP [u /mapP [x _ ->] ->]].
by rewrite mem_cat inE (negbTE (@dec_notin ch_nl x isT)).
Qed.

Lemma read_simplexE s : read_simplex (stokens s) = if all ind_ok s then Ok s else Throw.
Proof.
rewrite /read_simplex /stokens split_onE; last by apply/allP => t /mapP [x _ ->]; exact: dec_notin.
cbn [obind]; have -> : [seq t <- map dec s | 0 < size t] = map dec s.
  by apply/all_filterP/allP => t /mapP [x _ ->]; have [_ _] := dec_spec x; case: (dec x).
elim: s => //= x s IH; have := @stoi_dec x [::] isT; rewrite cats0 -/(ind_ok x) => ->.
by case: (ind_ok x) => //; cbn [obind]; rewrite to_size_nat IH; case: all.
Qed.

Lemma save_complexE cl X : inv cl X ->
  save_complex X = Ok (hdr_complex ++ ch_nl :: flatten [seq t ++ [:: ch_nl] | t <- map stokens (cell_list cl (sc_dims X))]).
Proof.
move=> iv; rewrite /save_complex (omapm_Ok_eq (g := fun k => [seq write_simplex s | s <- cl k])).
  cbn [obind]; rewrite -[flatten (map _ (iota _ _))]/(flatten (map ((fun l => map write_simplex l) \o cl) _)).
  rewrite map_comp -map_flatten -/(cell_list _ _) -map_comp.
  by congr (Ok (_ ++ _ :: flatten _)); apply: eq_map => s /=; rewrite write_simplexE.
move=> k; rewrite mem_iota add0n => /= lk; rewrite (ncell_ok iv lk); cbn [obind].
rewrite (omapm_Ok_eq (g := fun i => write_simplex (nth [::] (cl k) i))).
  by congr Ok; rewrite -[in RHS](mkseq_nth [::] (cl k)) /mkseq -map_comp.
by move=> i; rewrite mem_iota add0n => /= li; rewrite (simplex_ok iv li).
Qed.

Definition add_one (Z : scx) (s : seq nat) : outcome scx := do (Z', _) <- sc_add Z s; Ok Z'.

Lemma load_savedE (ss : seq (seq nat)) :
  load_complex (hdr_complex ++ ch_nl :: flatten [seq t ++ [:: ch_nl] | t <- map stokens ss]) =
  ofold (fun Z s => if all ind_ok s then add_one Z s else Throw) (sc_new 0) ss.
Proof.
rewrite /load_complex; set F := _ ++ _; rewrite getline_hit // getlinesE; last 2 first.
- by apply/allP => t /mapP [s _ ->]; exact: stokens_nl.
- rewrite size_map /F size_cat /=.
  have : size ss <= size (flatten [seq t ++ [:: ch_nl] | t <- map stokens ss]).
    by elim: (ss) => //= s l IH; rewrite !size_cat /=; lia.
  lia.
cbn [obind]; rewrite ofold_map; apply: ofold_eqin => Z s _; rewrite read_simplexE; case: ifP => //.
Qed.

(** the cells added in this order, each with its faces before it *)
Lemma inv_ext cl cl' X : (forall d, cl' d = cl d) -> inv cl X -> inv cl' X.
Proof.
move=> e [s b Wi Ci Ti]; split=> //.
- move=> d /Wi; rewrite /W /Wc; case: d => [|d]; rewrite !e //.
- by move=> d /Ci; rewrite e.
- by case: Ti => a [r h]; do 2 split=> //; move=> k /h; rewrite e.
Qed.

Definition by_dim (ss : seq (seq nat)) : cells_t := fun d => [seq s <- ss | size s == d.+1].

Lemma by_dim_rcons ss s d : by_dim (rcons ss s) d = upd (by_dim ss) (size s).-1 (rcons (by_dim ss (size s).-1) s) d \/ s = [::].
Proof.
case: s => [|a s]; [by right | left]; rewrite /by_dim /upd filter_rcons /=.
by rewrite eqSS eq_sym; case: eqP => [->|].
Qed.

Lemma add_seq (ss : seq (seq nat)) : uniq ss -> all (fun s => s != [::]) ss -> all (sorted leq) ss ->
  (forall p s q, ss = p ++ s :: q -> facesb (by_dim p) s) ->
  exists2 Y, ofold add_one (sc_new 0) ss = Ok Y & inv (by_dim ss) Y.
Proof.
elim/seq.last_ind: ss => [|ss s IH] u n0 so h; first by exists (sc_new 0) => //; exact: inv_new.
move: u n0 so; rewrite rcons_uniq !all_rcons => /andP [ns u] /andP [s0 n0] /andP [ss' so].
have [|Y E iv] := IH u n0 so.
  by move=> p t q e; apply: (h p t (rcons q s)); rewrite e rcons_cat.
have fb : facesb (by_dim ss) s by apply: (h ss s [::]); rewrite cats1.
rewrite -cats1 ofold_cat E; cbn [obind]; rewrite /= /add_one /sc_add sorted_sort //; last exact: leq_trans.
have := add_directed_ok iv s0; cbv zeta; have -> : s \in by_dim ss (size s).-1 = false by rewrite mem_filter (negbTE ns) andbF.
rewrite fb => -[Y' [-> iv' _]]; exists Y' => //; apply: inv_ext iv' => d; rewrite cats1.
by have [//|e] := by_dim_rcons ss s d; rewrite e in s0.
Qed.

Lemma by_dim_cells cl X d : inv cl X -> by_dim (cell_list cl (sc_dims X)) d = cl d.
Proof.
move=> iv; rewrite /by_dim /cell_list filter_flatten -map_comp.
have E k : ([seq s <- cl k | size s == d.+1] = if k == d then cl d else [::]).
  case: eqP => [->|ne].
    by apply/all_filterP/allP => s /(cl_size iv) ->; rewrite eqxx.
  apply/eqP; rewrite -size_eq0 size_filter -leqn0 leqNgt -has_count; apply/hasP => -[s /(cl_size iv) -> /eqP [e]]; exact: ne.
rewrite (eq_map (f2 := fun k => if k == d then cl d else [::])) //.
have [ld|ld] := ltnP d (sc_dims X); last first.
  have -> : cl d = [::] by case: iv => _ _ _ C _; exact: C.
  by elim: (iota _ _) => //= k l ->; case: eqP.
have -> : iota 0 (sc_dims X) = iota 0 d ++ d :: iota d.+1 (sc_dims X - d.+1).
  by rewrite -[d :: _]/(iota d (sc_dims X - d.+1).+1) -iotaD; congr iota; lia.
have H l : d \notin l -> flatten [seq (if k == d then cl d else [::]) | k <- l] = [::].
  by elim: l => //= k l IH'; rewrite inE negb_or eq_sym => /andP [/negbTE -> /IH' ->].
by rewrite map_cat flatten_cat /= eqxx !H ?cats0 // mem_iota; lia.
Qed.

Lemma cells_faces cl X p s q : inv cl X -> cell_list cl (sc_dims X) = p ++ s :: q -> facesb (by_dim p) s.
Proof.
move=> iv e; have si : s \in cell_list cl (sc_dims X) by rewrite e mem_cat mem_head orbT.
have s0 := cell_list_nonnil iv si; rewrite /facesb; case: (eqVneq (size s) 1) => //= n1; apply/allP => j.
rewrite mem_rev mem_iota add0n => lj; have sz := size_skip lj.
have l1 : 1 < size s by case: (s) s0 n1 => //= a [].
have m := cell_list_faces iv e lj l1; rewrite mem_filter m andbT sz; move: l1; clear; lia.
Qed.

Lemma load_save_ok cl X : inv cl X -> (forall s, s \in cell_list cl (sc_dims X) -> all ind_ok s) ->
  exists2 f, save_complex X = Ok f & load_complex f = sc_add_all (sc_new 0) X.
Proof.
move=> iv h; eexists; first exact: save_complexE iv.
rewrite load_savedE /sc_add_all (loop_cells add1 _ iv); apply: ofold_eqin => Z s si; rewrite h //.
by rewrite /add_one /add1; case: (sc_add Z s) => // -[].
Qed.

Lemma load_save_sorted cl X : inv cl X -> (forall s, s \in cell_list cl (sc_dims X) -> all ind_ok s && sorted leq s) ->
  exists2 f, save_complex X = Ok f & exists2 Y, load_complex f = Ok Y & inv cl Y.
Proof.
move=> iv h; eexists; first exact: save_complexE iv.
rewrite load_savedE; have [||||Y E iv'] := @add_seq (cell_list cl (sc_dims X)).
- exact: uniq_cell_list iv.
- by apply/allP => s; exact: cell_list_nonnil iv.
- by apply/allP => s /h /andP [].
- by move=> p s q; exact: cells_faces.
exists Y; last by apply: inv_ext iv' => d; rewrite by_dim_cells.
by rewrite -E; apply: ofold_eqin => Z s /h /andP [-> _].
Qed.

Lemma load_big (ss : seq (seq nat)) Z : inv Z.2 Z.1 -> all (fun s => s != [::]) ss -> ~~ all (all ind_ok) ss ->
  ofold (fun Z s => if all ind_ok s then add_one Z s else Throw) Z.1 ss = Throw.
Proof.
elim: ss Z => //= s ss IH [Z cl] /= iv /andP [s0 n0]; case: (all ind_ok s) => //= nb.
have s0' : sort leq s != [::] by rewrite sort_nil.
have [Z1 [r1 [cl1 [E1 iv1 _ _ _]]]] := add_step iv s0'.
by rewrite /add_one /sc_add E1; cbn [obind]; exact: (IH (Z1, cl1)).
Qed.

Lemma load_any_ok (ls : seq (seq nat)) Z : built Z ->
  let r := ofold (fun X l => do s <- read_simplex l; do (X', _) <- sc_add X s; Ok X') Z ls in
  safe r /\ forall Y, r = Ok Y -> built Y.
Proof.
elim: ls Z => [|l ls IH] Z b; cbv zeta; cbn [ofold]; first by split=> // Y [<-].
case: read_simplex (safe_read_simplex l) => //= s _.
have [->|s0] := eqVneq s [::]; first by split.
have [cl iv _] := built_inv b; have s0' : sort leq s != [::] by rewrite sort_nil.
have [Z1 [r1 [cl1 [E1 _ _ _ _]]]] := add_step iv s0'.
have E2 : sc_add Z s = Ok (Z1, r1) := E1; rewrite E2 /=; apply: IH; exact: built_add b E2.
Qed.
