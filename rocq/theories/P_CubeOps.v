(** The operations of CubicalComplex on states that satisfy the representation invariant. *)
From mathcomp Require Import all_ssreflect all_algebra zify.
From Verif Require Import Outcome M_SparseVec M_Perm M_ColMatrix M_CSC M_Simplicial M_Cubical P_Outcome P_Trie P_Simplicial P_ScOps P_ScBuild P_CubeList P_Cubical.
Set Implicit Arguments.
Unset Strict Implicit.
Unset Printing Implicit Defensive.
Import GRing.Theory.

Lemma resize_cat (A : Type) (d : A) s t : resize d (size s) (s ++ t) = s.
Proof. by rewrite /resize take_size_cat // grow_id. Qed.

Lemma cinv_eq D cl X : cinv D cl X -> cinvb D D.+1 cl X. Proof. by []. Qed.

Lemma cinv_new D : cinv D (fun _ => [::]) (cc_new D).
Proof.
rewrite /cc_new /cc_reserve /=; split=> //.
- by split; rewrite /= ?size_cat ?size_nseq ?maxnn //=; lia.
- by move=> d ld; split=> //; rewrite ?nth_grow ?nth_nil //; case: (d) => // m; rewrite /= ?nth_grow ?nth_nil.
- by split=> //; [exact: alive_new|move=> [|a k]].
Qed.

Section D.
Variable D : nat.
Notation cinv := (cinv D).
Notation cTinv := (cTinv D).

Lemma cinv_Wc cl X d : cinv cl X -> cWc D cl d.
Proof.
move=> [_ _ Wi Ci _]; case: (leqP d D) => ld; first by case: (Wi d).
by rewrite /cWc Ci //; split=> //; case: (d).
Qed.

Lemma cl_cube cl X d s : cinv cl X -> s \in cl d -> [/\ cval D s, cdim s = d & d <= D].
Proof.
move=> iv si; have [w _ _] := cinv_Wc d iv; have /andP [v /eqP e] := allP w _ si; split=> //.
by rewrite -e (cdim_le v).
Qed.

Lemma csub_closed cl X s t : cinv cl X -> s \in cl (cdim s) -> subc t s -> t \in cl (cdim t).
Proof.
move=> iv si; have [_ _ ld] := cl_cube iv si; move: ld si; rewrite -ltnS.
by apply: (cclosed_sub (D := D) (b := D.+1)) => d _; exact: cinv_Wc iv.
Qed.

Lemma cfin_iff cl X s : cinv cl X -> cval D s ->
  reflect (cfin (cl (cdim s).-1) s) (all (fun f => f.1 \in cl (cdim f.1)) (cfaces s)).
Proof.
move=> iv vs; apply: (iffP allP) => H f fi; have := H f fi; have [_ ->] := cfaces_val vs fi => //.
Qed.

Hypothesis D0 : 0 < D.

Lemma cface_loop_ok cl X s ds c fv cv : cTinv cl X -> all (fun f => cval D f.1) (floop s ds c) ->
  exists F C, [/\ cface_loop X s ds c fv cv = Ok (all (fun f => f.1 \in cl (cdim f.1)) (floop s ds c), fv ++ F, cv ++ C) &
    all (fun f => f.1 \in cl (cdim f.1)) (floop s ds c) ->
      F = [seq index f.1 (cl (cdim f.1)) | f <- floop s ds c] /\ C = [seq f.2 | f <- floop s ds c]].
Proof.
move=> T; elim: ds c fv cv => [|i ds IH] c fv cv; first by exists [::], [::]; rewrite !cats0.
cbn [floop cface_loop]; case: eqP => _; first exact: IH.
cbn [all]; cbn [fst snd]; move=> /and3P [vu vl al].
rewrite (cfind_ok T (val_nonnil D0 vu) (size_cval vu)); cbn [obind].
case: ifP => mu; last by exists [::], [::]; rewrite !cats0.
rewrite (cfind_ok T (val_nonnil D0 vl) (size_cval vl)); cbn [obind].
case: ifP => ml; last by exists [:: index (face_up s i) (cl (cdim (face_up s i)))], [:: c]; rewrite !cats1.
have [F [C [-> H]]] := IH (- c)%R (rcons (rcons fv (index (face_up s i) (cl (cdim (face_up s i))))) (index (face_lo s i) (cl (cdim (face_lo s i))))) (rcons (rcons cv c) (- c)%R) al.
by do 2 eexists; rewrite !cat_rcons; split; first reflexivity; move=> /H [-> ->].
Qed.

Lemma floop1 s : size s = (2 * D)%N -> floop s (iota 0 D) 1%R = cfaces s.
Proof. by move=> ss; rewrite floopE // -[RHS]map_id; apply: eq_map => -[f c]; rewrite mul1r. Qed.

Lemma size_cidx cl s : size (cidx cl s) = size (cfaces s). Proof. by rewrite size_map. Qed.
Lemma size_ccf s : size (ccf s) = size (cfaces s). Proof. by rewrite size_map. Qed.

Lemma add_unsafe_ok cl X s : cinv cl X -> cval D s -> s \notin cl (cdim s) -> let d := cdim s in
  if all (fun f => f.1 \in cl (cdim f.1)) (cfaces s) then
    exists2 X', cc_add_unsafe X s = Ok (X', (d, Some (size (cl d)))) & cinv (upd cl d (rcons (cl d) s)) X'
  else cc_add_unsafe X s = Ok (X, (d, None)).
Proof.
move=> iv vs ns d; have [[q1 q2 q3 q4 q5] _ Wi Ci Ti] := iv; have ss := size_cval vs; have ld : d <= D := cdim_le vs.
rewrite /cc_add_unsafe q5 (cdimP ss) -/d.
have tail Y : cshape D Y -> cc_trie Y = cc_trie X -> cc_ncells Y = cc_ncells X -> cc_spx Y = cc_spx X ->
    (forall d', d'.+1 <> d -> fac Y d' = fac X d' /\ coc Y d' = coc X d') -> cfin (cl d.-1) s ->
    (0 < d -> fac Y d.-1 = flatten [seq cidx (cl d.-1) u | u <- cl d] ++ cidx (cl d.-1) s /\
            coc Y d.-1 = flatten [seq ccf u | u <- cl d] ++ ccf s) ->
    exists2 X', cc_store Y s d = Ok (X', size (cl d)) & cinv (upd cl d (rcons (cl d) s)) X'.
  move=> sh e1 e2 e3 e4 fin e5; have [w1 w2 wc _] := Wi d ld.
  have iv0 : cinvb D d cl Y.
    split=> //; first exact: leqW.
      move=> d' ld'; apply: cW_ext (Wi d' _) (extends_refl _) _ _ _ _; rewrite ?e2 ?e3 //; first exact: leq_trans ld' (leqW ld).
      by move=> p; apply: e4; rewrite prednK //; move: ld'; clear; lia.
    by case: Ti => a b c; split; rewrite e1.
  have [] := tail_ok D0 iv0 ld vs (erefl : cdim s = d) ns wc _ _ (fun _ => fin) e5; rewrite ?e2 ?e3 // => X' [E ivx fr [f1 f2]].
  exists X' => //; have [shx _ Wx Cx Tx] := ivx; split=> // d' ld'; case: (ltnP d' d.+1) => l; first exact: Wx.
  have [a b] := fr d' l; apply: cW_ext (Wi d' ld') (extends_rcons _ _ _) _ _ _ _; rewrite ?a ?b ?e2 ?e3 //.
    by rewrite /upd (_ : d' == d = false) //; move: l; clear; lia.
  by move=> p; rewrite f1 f2; apply: e4; rewrite prednK //; move: l; clear; lia.
case: (d =P 0) => e0.
  have cf0 : cfaces s = [::] by apply/nilP; rewrite /nilp (cfaces_size vs) -/d e0.
  rewrite cf0 [all _ _]/=; have [|||X' E ivx] := tail X _ erefl erefl erefl (fun _ _ => conj erefl erefl) _ _.
  - by split.
  - by move=> f; rewrite cf0.
  - by rewrite e0.
  by exists X' => //; rewrite E.
have d0 : 0 < d by rewrite lt0n; apply/eqP.
have ldD : d.-1 < D by rewrite prednK.
rewrite (oget_nth [::]) ?q3 // (oget_nth [::]) ?q4 //; cbn [obind].
have [_ _ wc wf] := Wi d ld; have [fe ce] : fac X d.-1 = flatten [seq cidx (cl d.-1) u | u <- cl d] /\ coc X d.-1 = flatten [seq ccf u | u <- cl d].
  by case: (d) d0 wf => // m _ [-> ->].
have [|F [C []]] := @cface_loop_ok cl X s (iota 0 D) 1%R (fac X d.-1) (coc X d.-1) Ti; rewrite floop1 //.
  by apply/allP => f fi; have [] := cfaces_val vs fi.
move=> -> H; cbn [obind]; case: ifP => al; rewrite al; last first.
  have szfc : size (fac X d.-1) = size (coc X d.-1).
    rewrite fe ce !size_flatten /seq.shape -!map_comp; congr sumn; apply: eq_map => u /=; by rewrite size_cidx size_ccf.
  rewrite resize_cat szfc resize_cat (oset_Ok [::]) ?q3 //; cbn [obind]; rewrite (oset_Ok [::]) ?q4 //; cbn [obind].
  by rewrite !set_nth_id ?q3 ?q4 // -q5; case: (X).
rewrite (oset_Ok [::]) ?q3 //; cbn [obind]; rewrite (oset_Ok [::]) ?q4 //; cbn [obind].
have [eF eC] := H al; set Y := CCX _ _ _ _ _ _.
have [||||X' E ivx] := tail Y _ erefl erefl erefl _ _ _.
- by split; rewrite /= ?size_set_nth ?q3 ?q4 //; apply/maxn_idPr.
- move=> d' ne; rewrite /Y /= !nth_setE (_ : d' == d.-1 = false) //; apply/eqP => e; apply: ne; rewrite e prednK //.
- exact/(cfin_iff iv vs).
- move=> _; rewrite /Y /= !nth_setE eqxx fe ce eF eC; split=> //; congr (_ ++ _); apply/eq_in_map => f fi.
  by have [_ e] := cfaces_val vs fi; rewrite /d e.
by exists X' => //; rewrite E.
Qed.

Lemma ccount_ok cl X s : cTinv cl X -> s != [::] -> size s = (2 * D)%N ->
  tcount s (cc_trie X) = Ok (s \in cl (cdim s) : nat) /\
  (s \in cl (cdim s) -> tget_at s (cc_trie X) = Ok (index s (cl (cdim s)))).
Proof.
move=> [al _ T] n0 ss; have := T s n0 ss; rewrite tcount_ok //; case: ifP => _ e; rewrite e; split=> // _.
exact: tget_at_ok.
Qed.

Lemma add_ok cl X s : cinv cl X -> cval D s -> let d := cdim s in
  if s \in cl d then cc_add X s = Ok (X, (d, Some (index s (cl d))))
  else if all (fun f => f.1 \in cl (cdim f.1)) (cfaces s) then
    exists2 X', cc_add X s = Ok (X', (d, Some (size (cl d)))) & cinv (upd cl d (rcons (cl d) s)) X'
  else cc_add X s = Ok (X, (d, None)).
Proof.
move=> iv vs d; have [[_ _ _ _ q5] _ _ _ Ti] := iv; have ss := size_cval vs; have n0 := val_nonnil D0 vs.
rewrite /cc_add q5 cvalP vs [~~ true]/= (cdimP ss) -/d; have [-> g] := ccount_ok Ti n0 ss; cbn [obind]; rewrite -/d in g *.
case: ifP => si; rewrite si [0 < _]/=; first by rewrite g.
exact: add_unsafe_ok iv vs (negbT si).
Qed.

Lemma rec_ok cl X s : cinv cl X -> cval D s -> let d := cdim s in
  if s \in cl d then cc_add_recursive X s = Ok (X, [:: (d, index s (cl d))])
  else exists (X' : ccx) (cl' : cells_t) (new : seq (nat * nat)),
    [/\ cc_add_recursive X s = Ok (X', new), cinv cl' X', extends cl cl',
        forall t, cval D t -> (t \in cl' (cdim t)) = (t \in cl (cdim t)) || subc t s &
        new_cells cl cl' new].
Proof.
move=> iv vs d; have [[q1 q2 q3 q4 q5] _ Wi Ci Ti] := iv; have ss := size_cval vs; have n0 := val_nonnil D0 vs.
have ld : d <= D := cdim_le vs.
rewrite /cc_add_recursive q5 cvalP vs [~~ true]/= (cdimP ss) -/d; have [-> g] := ccount_ok Ti n0 ss; cbn [obind]; rewrite -/d in g *.
case: ifP => si; rewrite si [0 < _]/=; first by rewrite g.
have ivb : cinvb D d.+1 cl X by split=> // d' ld'; apply: Wi; exact: leq_trans ld' _.
have [X' [cl' [new [E [iv' [f1 f2]] [ex c1 st] ct nw]]]] := crec_ok D0 ld [::] vs (erefl : cdim s = d) ivb (negbT si).
exists X', cl', new; split=> //; first by rewrite E.
have [shx _ Wx Cx Tx] := iv'; split=> // d' ld'; case: (ltnP d' d.+1) => l; first exact: Wx.
exact: cW_frame (Wi d' ld') ex (st d' l) (conj f1 f2) l.
Qed.

(** reading *)
Lemma cncell_ok cl X k : cinv cl X -> k <= D -> cc_ncell X k = Ok (size (cl k)).
Proof. by move=> [[q _ _ _ _] _ Wi _ _] lk; rewrite /cc_ncell (oget_nth 0) ?q //; have [->] := Wi k lk. Qed.

Lemma all_size cl X k : cinv cl X -> all (fun s => size s == 2 * D)%N (cl k).
Proof. by move=> iv; apply/allP => s /(cl_cube iv) [/size_cval -> _ _]. Qed.

Lemma ccube_ok cl X k i : cinv cl X -> i < size (cl k) -> cc_cube X k i = Ok (nth [::] (cl k) i).
Proof.
move=> iv li; have [_ _ lk] := cl_cube iv (mem_nth [::] li); have [[_ q _ _ q5] _ Wi Ci _] := iv.
have [_ w2 _ _] := Wi k lk; rewrite /cc_cube (oget_nth [::]) ?q //; cbn [obind].
by rewrite w2 q5 /orange; have [-> ->] := flat_seg (all_size k iv) li.
Qed.

Lemma chunks_seg w c u v : size (c ++ u) = w -> 0 < size u -> chunks w c (u ++ v) = (c ++ u) :: chunks w [::] v.
Proof.
elim: u c => [|x u IH] c //= sw _; rewrite size_rcons; case: u IH sw => [|y u] IH sw.
  by move: sw; rewrite size_cat addn1 => <-; rewrite eqxx cats1.
rewrite (_ : (size c).+1 == w = false); last by move: sw; rewrite size_cat /=; lia.
rewrite IH // cat_rcons //.
Qed.

Lemma chunks_flat w (ss : seq (seq nat)) : 0 < w -> all (fun s => size s == w) ss -> chunks w [::] (flatten ss) = ss.
Proof.
by move=> w0; elim: ss => [|s ss IH] //= /andP [/eqP e al]; rewrite chunks_seg ?e //= IH.
Qed.

Lemma ccubes_ok cl X k : cinv cl X -> k <= D -> cc_cubes X k = Ok (cl k).
Proof.
move=> iv lk; have [[_ q _ _ q5] _ Wi _ _] := iv; have [_ w2 _ _] := Wi k lk.
by rewrite /cc_cubes (oget_nth [::]) ?q //; cbn [obind]; rewrite w2 q5 chunks_flat ?(all_size k iv) //; lia.
Qed.
End D.

(** ** all complexes *)
Lemma cinv_reserve D cl X m : cinv D cl X -> (forall d, cl d = [::]) -> cinv (maxn D m) cl (cc_reserve m X).
Proof.
move=> [[q1 q2 q3 q4 q5] _ Wi Ci [al T0 T]] c0; split=> //.
- by split; rewrite /= ?size_grow ?q1 ?q2 ?q3 ?q4 ?q5; lia.
- move=> d _; have H : cW D cl X d.
    case: (leqP d D) => ld; first exact: Wi.
    split; rewrite ?c0 ?nth_default ?q1 ?q2 //; first by rewrite /cWc c0; split=> //; case: (d).
    case: (d) ld => // d' ld; rewrite c0 !nth_default ?q3 ?q4 //.
  have [w1 w2 w3 w4] := H; split; rewrite /= ?nth_grow //; first by rewrite /cWc c0; split=> //; case: (d).
  by move: w4; case: (d) => // d'; rewrite !nth_grow.
- split=> //.
  by move=> [|a k] // _ _; rewrite /= T0 // c0.
Qed.

Lemma ctotal_ok D cl X : cinv D cl X -> cc_total X = Ok (sumn [seq size (cl k) | k <- iota 0 D.+1]).
Proof.
move=> iv; rewrite /cc_total; have [[_ _ _ _ ->] _ _ _ _] := iv.
have -> : forall l a, all (fun k => k <= D) l -> ofold (fun ct k => do n <- cc_ncell X k; Ok (ct + n)) a l = Ok (a + sumn [seq size (cl k) | k <- l]).
  elim=> [|k l IH] a; first by rewrite /= addn0.
  by move=> /andP [lk al]; rewrite ofold_cons (cncell_ok iv lk); cbn [obind]; rewrite IH //= addnA.
- by rewrite add0n.
by apply/allP => k; rewrite mem_iota.
Qed.

Lemma ctotal_0 D cl X : cinv D cl X -> (exists2 n, cc_total X = Ok n & n == 0) -> forall d, cl d = [::].
Proof.
move=> iv [n]; rewrite (ctotal_ok iv) => -[<-] h d; case: (leqP d D) => ld; last by case: iv => _ _ _ Ci _; exact: Ci.
apply/nilP; rewrite /nilp -leqn0; move/eqP: h => <-.
have : size (cl d) \in [seq size (cl k) | k <- iota 0 D.+1] by apply/mapP; exists d; rewrite ?mem_iota.
have H : forall x l, x \in l -> x <= sumn l.
  by move=> x; elim=> //= y l IH; rewrite inE => /orP [/eqP ->|/IH h]; [exact: leq_addr|exact: leq_trans h (leq_addl _ _)].
exact: H.
Qed.

Lemma add0 cl X s : cinv 0 cl X -> cval 0 s -> cc_add X s = Ok (X, (0, Some (tval (cc_trie X)))) /\
  cc_add_recursive X s = Ok (X, [:: (0, tval (cc_trie X))]).
Proof.
by move=> [[_ _ _ _ q5] _ _ _ _]; case: s => // _; rewrite /cc_add /cc_add_recursive q5.
Qed.
