(** C33: zeroth persistence by union-find. *)
From mathcomp Require Import all_ssreflect all_algebra zify.
From Verif Require Import Outcome M_SparseVec M_Perm M_ColMatrix M_Reduce M_Homology M_Persist M_UnionFind
  S_Linalg S_Perm S_Homology S_Persist S_UnionFind P_Outcome P_SparseVec P_Sort P_Persist P_Pairs P_Barcode P_UnionFind P_UnionFind2 P_UnionFind3
  Ex_Reduction Props_Persist.
Set Implicit Arguments.
Unset Strict Implicit.
Unset Printing Implicit Defensive.
Import GRing.Theory Order.TTheory.
Local Open Scope ring_scope.

Section Order.
Variables (disp : unit) (V : orderType disp) (v0 : V).
Notation ltv := (fun x y : V => (x < y)%O).
Notation fsp := (filtration_sortperm ltv v0).

Lemma sorted_cut (v : seq V) t k : sorted <=%O v -> (k < size v)%N -> (nth v0 v k <= t)%O = (k < count (fun x => x <= t)%O v)%N.
Proof.
elim: v k => [|x v IH] k //= pv; have sv := path_sorted pv.
case: (leP x t) => xt; last first.
  have -> : count (fun x => x <= t)%O v = 0%N.
    apply/eqP; rewrite -leqn0 leqNgt -has_count; apply/hasPn => y yv; rewrite -ltNge; apply: lt_le_trans xt _.
    by have /allP /(_ y yv) := order_path_min le_trans pv.
  rewrite addn0 ltn0; case: k => [|k] /= lk; first by rewrite leNgt xt.
  apply/negbTE; rewrite -ltNge; apply: lt_le_trans xt _.
  by have /allP /(_ (nth v0 v k) (mem_nth v0 lk)) := order_path_min le_trans pv.
by case: k => [|k] lk /=; rewrite ?xt //; rewrite IH // add1n ltnS.
Qed.

Lemma sortperm_sorted (v : seq V) : sorted <=%O v -> sortperm ltv v0 v = iota 0 (size v).
Proof.
move=> sv; apply: sorted_sort.
  by move=> b a c; rewrite -!leNgt; exact: le_trans.
apply/(sortedP 0%N) => i; rewrite size_iota => li; rewrite !nth_iota ?(ltnW li) // !add0n -leNgt.
by apply: (sortedP v0 _) li.
Qed.

Lemma min_elt (T : eqType) (le : rel T) (l : seq T) : total le -> transitive le -> l != [::] ->
  exists2 x, x \in l & forall y, y \in l -> le x y.
Proof.
move=> tot tr; elim: l => // a l IH _; case: (eqVneq l [::]) => [->|ne].
  by exists a; rewrite ?mem_head // => y; rewrite inE => /eqP ->; have := tot a a; rewrite orbb.
have [x xl H] := IH ne; case/orP: (tot a x) => h.
  exists a; rewrite ?mem_head // => y; rewrite inE => /orP [/eqP ->|/H]; last exact: tr.
  by have := tot a a; rewrite orbb.
by exists x => [|y]; rewrite inE ?xl ?orbT // => /orP [/eqP ->|/H].
Qed.

(** a multiset of pairs is determined by its counts in lower-left quadrants *)
Lemma quadrants (l1 l2 : seq (V * V)) :
  (forall s t, count (fun p => (p.1 <= s)%O && (p.2 <= t)%O) l1 = count (fun p => (p.1 <= s)%O && (p.2 <= t)%O) l2) -> perm_eq l1 l2.
Proof.
move: {2}(size (l1 ++ l2)) (leqnn (size (l1 ++ l2))) => b; elim: b l1 l2 => [|b IH] l1 l2 sz H.
  by move: sz; rewrite leqn0 size_eq0; case: l1 l2 {H} => [|? ?] [|? ?].
case: (eqVneq (l1 ++ l2) [::]) => [|ne]; first by case: l1 l2 {sz H} => [|? ?] [|? ?].
pose lex := fun x y : V * V => (x.1 < y.1)%O || (x.1 == y.1) && (x.2 <= y.2)%O.
have tot : total lex.
  move=> x y; rewrite /lex; case: (ltgtP x.1 y.1) => //= _; exact: le_total.
have tr : transitive lex.
  move=> y x z; rewrite /lex => /orP [h1|/andP [/eqP e1 h1]] /orP [h2|/andP [/eqP e2 h2]].
  - by rewrite (lt_trans h1 h2).
  - by rewrite -e2 h1.
  - by rewrite e1 h2.
  - by rewrite e1 e2 eqxx (le_trans h1 h2) orbT.
have [x xl mn] := min_elt tot tr ne.
have Q (l : seq (V * V)) : {subset l <= l1 ++ l2} -> (0 < count (fun p => (p.1 <= x.1)%O && (p.2 <= x.2)%O) l)%N -> x \in l.
  move=> sub; rewrite -has_count => /hasP [y yl /andP [h1 h2]].
  suff -> : x = y by [].
  have := mn y (sub y yl); rewrite /lex => /orP [h|/andP [/eqP e1 h]]; first by move: (lt_le_trans h h1); rewrite ltxx.
  by case: x y {xl mn yl sub} h1 h2 e1 h => [x1 x2] [y1 y2] /= h1 h2 -> h3; congr (_, _); apply: le_anti; rewrite h2 h3.
have Q' (l : seq (V * V)) : x \in l -> (0 < count (fun p => (p.1 <= x.1)%O && (p.2 <= x.2)%O) l)%N.
  by move=> xi; rewrite -has_count; apply/hasP; exists x => //; rewrite !lexx.
have sub1 : {subset l1 <= l1 ++ l2} by move=> y yl; rewrite mem_cat yl.
have sub2 : {subset l2 <= l1 ++ l2} by move=> y yl; rewrite mem_cat yl orbT.
have [x1 x2] : x \in l1 /\ x \in l2.
  move: xl; rewrite mem_cat => /orP [h|h]; split=> //; apply: Q => //; first by rewrite -H; exact: Q'.
  by rewrite H; exact: Q'.
have P1 := perm_to_rem x1; have P2 := perm_to_rem x2.
apply: (perm_trans P1); rewrite perm_sym; apply: (perm_trans P2); rewrite perm_cons perm_sym.
apply: IH.
  move: sz; rewrite !size_cat (perm_size P1) (perm_size P2) /= addnS !addSn !ltnS; exact: leq_trans (leqnSn _).
move=> s t; have := H s t; rewrite (permP P1) (permP P2) /=; exact: addnI.
Qed.
End Order.

Section P.
Variables (F : fieldType) (disp : unit) (V : orderType disp) (v0 inf : V).
Notation ltv := (fun x y : V => (x < y)%O).
Notation fsp := (filtration_sortperm ltv v0).

(** every column of the boundary in dimension 1 has two entries *)
Definition edges2 (C : seq (cmat F)) : Prop :=
  forall j, (j < ncol (bmx C 1))%N -> size (nth [::] (cols (bmx C 1)) j) = 2%N.

Lemma edges_col2 (C : seq (cmat F)) k : chain_wf C -> (1 < size C)%N -> cells_like C -> edges2 C -> (k < ncol (bmx C 1))%N ->
  exists i j c, [/\ nth [::] (cols (bmx C 1)) k = [:: (i, c); (j, - c)], c != 0, (i < nrow (bmx C 1))%N & (j < nrow (bmx C 1))%N].
Proof.
move=> [_ /all_nthP cw _] C2 [_ cz _] e2 lk; have := cw (CMat 0 0 [::]) 1%N C2; rewrite -/(bmx C 1) => /andP [/eqP sc /all_nthP aw].
have := aw [::] k; rewrite sc => /(_ lk) /and3P [so be nz]; have := cz k lk; have := e2 k lk.
case E: (nth _ _ _) so be nz => [|[i a] [|[j b] [|]]] //= so /and3P [li lj _] /and3P [na nb _] _.
under eq_bigr do rewrite coef_cons coef_cons coef_nil addr0 /=.
have S (x : nat) (d : F) : (x < nrow (bmx C 1))%N -> \sum_(y < nrow (bmx C 1)) (if x == y then d else 0) = d.
  move=> lx; rewrite (bigD1 (Ordinal lx)) //= eqxx big1 ?addr0 // => y ne; case: eqP => // e1.
  by case/eqP: ne; apply: val_inj.
rewrite big_split /= !S // => /eqP; rewrite addr_eq0 => /eqP e1.
by exists i, j, a; rewrite e1 opprK; split=> //; rewrite -e1.
Qed.

Variables (Fl : Type) (fl : V -> Fl) (ltf : Fl -> Fl -> bool).

Lemma fcc_sorted (C : seq (cmat F)) val : chain_wf C -> (1 < size C)%N -> aug_const C -> vals_ok C val ->
  sorted <=%O (nth [::] val 0) -> sorted <=%O (nth [::] val 1) ->
  exists D p, [/\ fcc_make ltv v0 val C = Ok (FCC val D p), size D = size C & bmx D 1 = bmx C 1].
Proof.
move=> CW C2 AC VO s0 s1; have [D [E [sD RO] DW]] := fcc_make_spec v0 CW C2 AC VO.
exists D, (fsp val); split=> //; have [sv vz] := VO.
have [r1 r2 r3] := RO 1%N C2; have C1 : (0 < size C)%N by exact: ltnW.
have wf (A : seq (cmat F)) : chain_wf A -> (1 < size A)%N -> cm_wf (bmx A 1).
  by move=> [_ /all_nthP cw _] A2; exact: cw.
have := wf D DW; rewrite sD => /(_ C2) /andP [/eqP sc /all_nthP aw]; have /andP [/eqP sc' /all_nthP aw'] := wf C CW C2.
have nr : nrow (bmx C 1) = ncol (bmx C 0) by have [_ _ /(_ 0%N C2) []] := CW.
have ec : cols (bmx D 1) = cols (bmx C 1).
  apply: (@eq_from_nth _ [::]); first by rewrite sc sc' r2.
  move=> j; rewrite sc r2 => lj; have := aw [::] j; rewrite sc r2 => /(_ lj) /and3P [a1 a2 a3].
  have := aw' [::] j; rewrite sc' => /(_ lj) /and3P [b1 b2 b3]; apply: sv_ext => // i.
  case: (ltnP i (nrow (bmx C 1))) => li; last by rewrite !(@coef_ge _ (nrow (bmx C 1))) // -r1.
  have li' : (i < ncol (bmx C 0))%N by rewrite -nr.
  by have := r3 i j li lj; rewrite !fsp_nth ?sv // !sortperm_sorted // !vz // !nth_iota ?add0n //.
by case: (bmx D 1) (bmx C 1) r1 r2 ec => [a b c] [a' b' c'] /= -> -> ->.
Qed.

Hypothesis flm : forall x y, (x < y)%O -> ltf (fl x) (fl y) /\ ~~ ltf (fl y) (fl x).

Section One.
Variables (C : seq (cmat F)) (val : seq (seq V)).
Hypothesis CW : chain_wf C.
Hypothesis C2 : (1 < size C)%N.
Hypothesis CL : cells_like C.
Hypothesis E2 : edges2 C.
Hypothesis VO : vals_ok C val.
Hypothesis s0 : sorted <=%O (nth [::] val 0).
Hypothesis s1 : sorted <=%O (nth [::] val 1).
Let n := ncol (bmx C 0).
Let birth v := nth v0 (nth [::] val 0) v.
Let dval k := nth inf (nth [::] val 1) k.
Let vle a b := is_true (birth a <= birth b)%O.
Let E := [seq edge (0%N, 0 : F) c | c <- cols (bmx C 1)].

Lemma cl_aug : aug_const C.
Proof. by have [z _ _] := CL; move=> i j j' lj lj'; rewrite !z. Qed.

Lemma uf_run : exists X ps, [/\ fcc_make ltv v0 val C = Ok X, union_find_pairs inf fl ltf X = Ok ps & ufdone n inf birth dval vle E ps].
Proof.
have [D [p [EX sD eB]]] := fcc_sorted CW C2 cl_aug VO s0 s1; exists (FCC val D p).
have nr : nrow (bmx C 1) = n by have [_ _ /(_ 0%N C2) []] := CW.
have [sv vz] := VO; have C1 : (0 < size C)%N by exact: ltnW.
have sc : size (cols (bmx C 1)) = ncol (bmx C 1).
  by have [_ /all_nthP cw _] := CW; have := cw (CMat 0 0 [::]) 1%N C2; rewrite -/(bmx C 1) => /andP [/eqP].
have oB : oget (fc_C (FCC val D p)) 1 = Ok (bmx C 1) by rewrite -eB (oget_nth (CMat 0 0 [::])) // sD.
have P0 : omapm (fun k => do b <- oget (nth [::] val 0) k; Ok (PPair 0 k None b inf)) (iota 0 n) = Ok (mkseq (upair inf birth dval (fun _ => None)) n).
  apply: omapm_Ok => k /In_mem; rewrite mem_iota add0n => lk; rewrite (oget_nth v0) //.
  by rewrite vz.
have cs2 : all (fun c => (1 < size c)%N) (cols (bmx C 1)).
  by apply/(all_nthP [::]) => k; rewrite sc => lk; rewrite (E2 lk).
have Ein a b : (a, b) \in E -> (a < n)%N /\ (b < n)%N.
  move=> /(nthP (0%N, 0%N)) [k]; rewrite size_map sc => lk; rewrite (nth_map [::]) ?sc //.
  have [i [j [c [-> _ li lj]]]] := edges_col2 CW C2 CL E2 lk; rewrite /edge /= => -[<- <-].
  by rewrite -nr.
have v1s : (size (cols (bmx C 1)) <= size (nth [::] val 1))%N by rewrite sc vz.
have vr a : vle a a by exact: lexx.
have vt a b c : vle a b -> vle b c -> vle a c by exact: le_trans.
have vT a b : (a < n)%N -> (b < n)%N -> ltf (fl (birth a)) (fl (birth b)) -> vle a b.
  by move=> _ _ h; rewrite /vle leNgt; apply/negP => /flm [_]; rewrite h.
have vF a b : (a < n)%N -> (b < n)%N -> ~~ ltf (fl (birth a)) (fl (birth b)) -> vle b a.
  by move=> _ _ h; rewrite /vle leNgt; apply/negP => /flm [h' _]; rewrite h' in h.
have [st Est dn] := @uf_loop_ok V F n inf birth (nth [::] val 1) Fl fl ltf vle vt vT vF (0%N, 0 : F) (cols (bmx C 1)) cs2 Ein v1s _ 0%N 0%N _ _ (drop0 _) (leq0n _) (@ufinv_init V n inf birth dval vle vr E).
exists st.2; split=> //; rewrite /union_find_pairs oB; cbn [obind]; rewrite nr.
have -> : (match n with 0%N => Ok [::] | _.+1 => oget (fc_val (FCC val D p)) 0 end) = Ok (if n is 0%N then [::] else nth [::] val 0).
  by case: (n) => // ?; rewrite (oget_nth [::]) // sv.
cbn [obind]; have -> : omapm (fun k => do b <- oget (if n is 0%N then [::] else nth [::] val 0) k; Ok (PPair 0 k None b inf)) (iota 0 n) = Ok (mkseq (upair inf birth dval (fun _ => None)) n).
  by rewrite -P0; case: (n).
cbn [obind]; have -> : (match ncol (bmx C 1) with 0%N => Ok [::] | _.+1 => oget (fc_val (FCC val D p)) 1 end) = Ok (if ncol (bmx C 1) is 0%N then [::] else nth [::] val 1).
  by case: (ncol _) => // ?; rewrite (oget_nth [::]) // sv.
cbn [obind]; rewrite -sc take_size.
have -> : uf_loop fl ltf n (if size (cols (bmx C 1)) is 0%N then [::] else nth [::] val 1) (cols (bmx C 1)) 0 0 (iota 0 n, mkseq (upair inf birth dval (fun _ => None)) n)
  = uf_loop fl ltf n (nth [::] val 1) (cols (bmx C 1)) 0 0 (iota 0 n, mkseq (upair inf birth dval (fun _ => None)) n) by case: (cols _).
by rewrite Est.
Qed.

(** C33. When the vertices and the edges were added in filtration order, union_find_pairs returns one bar per vertex, and
    for all thresholds the number of bars born by s and alive after t is the rank of H_0(K_s) -> H_0(K_t). *)
Theorem C33_union_find : exists X ps, [/\ fcc_make ltv v0 val C = Ok X, union_find_pairs inf fl ltf X = Ok ps,
  size ps = ncol (bmx C 0),
  forall v, (v < size ps)%N -> let p := nth (PPair 0 0 None v0 inf) ps v in
    [/\ pp_dim p = 0%N, pp_birth_ind p = v, pp_birth p = cval v0 val 0 v &
     if pp_death_ind p is Some k then (k < ncol (bmx C 1))%N /\ pp_death p = cval v0 val 1 k else pp_death p = inf] &
  forall s t, (t < inf)%O -> count (fun p => (pp_birth p <= s)%O && (t < pp_death p)%O) ps =
    pbetti C 0 (fun i => (cval v0 val 0 i <= s)%O) (fun j => (cval v0 val 1 j <= t)%O)].
Proof.
have [X [ps [EX Eps [D [eps dl hi]]]]] := uf_run; exists X, ps.
have [sv vz] := VO; have C1 : (0 < size C)%N by exact: ltnW.
have sc : size (cols (bmx C 1)) = ncol (bmx C 1).
  by have [_ /all_nthP cw _] := CW; have := cw (CMat 0 0 [::]) 1%N C2; rewrite -/(bmx C 1) => /andP [/eqP].
have nr : nrow (bmx C 1) = n by have [_ _ /(_ 0%N C2) []] := CW.
have sE : size E = ncol (bmx C 1) by rewrite size_map sc.
have sps : size ps = n by rewrite eps size_mkseq.
split=> //.
  move=> v; rewrite sps => lv; rewrite eps nth_mkseq //; split=> //.
  rewrite /upair /=; case e: (D v) => [k|] //; have lk := dl v k lv e; rewrite sE in lk; split=> //.
  by rewrite /dval /cval; apply: set_nth_default; rewrite vz.
move=> s t ti; set m := count (fun x => x <= t)%O (nth [::] val 1).
have mE : (m <= size E)%N by rewrite sE -vz // count_size.
have [rho st al] := hi m mE.
have tm k : (k < ncol (bmx C 1))%N -> (cval v0 val 1 k <= t)%O = (k < m)%N.
  by move=> lk; rewrite /cval; apply: sorted_cut => //; rewrite vz.
rewrite /pbetti.
have -> := @rank_stage F n (ncol (bmx C 1)) (cols (bmx C 1)) sc _ m (fun j => (cval v0 val 1 j <= t)%O) rho vle tm st _ (mx (bmx C 0)) (fun i => (cval v0 val 0 i <= s)%O).
- rewrite eps /mkseq count_map; apply: eq_in_count => v; rewrite mem_iota add0n => lv /=.
  rewrite andbC -[cval _ _ _ _]/(birth v) (al v lv) /alive /upair /=; congr (_ && _).
  case e: (D v) => [k|]; last by rewrite ti.
  have lk := dl v k lv e; rewrite sE in lk; rewrite leqNgt -tm // -ltNge /cval; congr (_ < _)%O.
  by apply: set_nth_default; rewrite vz.
- by move=> k lk; rewrite -nr; exact: edges_col2.
- apply/matrixP => i j; rewrite !mxE; have [z _ _] := CL; exact: z.
- move=> i li; have [_ _ _ s4] := st; exact: le_trans (s4 i li).
Qed.
End One.
End P.
