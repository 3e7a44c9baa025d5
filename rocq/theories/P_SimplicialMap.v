(** Simplicial maps: columns, chain map property, composition. *)
From mathcomp Require Import all_ssreflect all_algebra zify.
From Verif Require Import Outcome M_SparseVec M_Perm M_ColMatrix M_CSC M_Sorted M_Simplicial M_Cubical M_SimplicialMap S_Perm S_Linalg S_Simplicial S_SimplicialMap P_Outcome P_SparseVec P_SparseVec2 P_Trie P_Simplicial P_Inv P_SumReduce P_ScOps P_ScBuild P_ScBoundary P_Sign.
Set Implicit Arguments.
Unset Strict Implicit.
Unset Printing Implicit Defensive.
Import GRing.Theory.

Lemma omapm_throw (A : eqType) B (f : A -> outcome B) (l : seq A) :
  (forall a, a \in l -> f a = Throw \/ exists b, f a = Ok b) ->
  (exists2 a, a \in l & f a = Throw) \/ exists bs, omapm f l = Ok bs.
Proof.
elim: l => [|a l IH] H; first by right; exists [::].
have [E|[b E]] := H a (mem_head _ _); first by left; exists a; rewrite ?mem_head.
have [|[c ci Ec]|[bs Eb]] := IH; first by move=> c ci; apply: H; rewrite inE ci orbT.
  by left; exists c; rewrite // inE ci orbT.
by right; exists (b :: bs); rewrite /= E /= Eb.
Qed.

Lemma omapm_throw1 (A : eqType) B (f : A -> outcome B) (l : seq A) :
  (forall a, a \in l -> f a = Throw \/ exists b, f a = Ok b) -> (exists2 a, a \in l & f a = Throw) -> omapm f l = Throw.
Proof.
elim: l => [|a l IH] H [c] //; rewrite inE => /orP [/eqP <- E|ci E]; first by rewrite /= E.
have [Ea|[b Ea]] := H a (mem_head _ _); rewrite /= Ea //= IH //; first by move=> d di; apply: H; rewrite inE di orbT.
by exists c.
Qed.

Lemma oget_image f0 s : omapm (oget f0) s = if all (fun x => x < size f0) s then Ok (image f0 s) else UB.
Proof.
elim: s => [|x s IH] //=; case: ltnP => lx; last by rewrite /oget drop_oversize.
by rewrite (oget_nth 0) //= IH; case: (all _ _).
Qed.

Definition icol (clk : seq (seq nat)) (t : seq nat) : svec int :=
  if uniq t then [:: (index (sort leq t) clk, sign_of t)] else [::].

Lemma smap_col_ok clY Y f0 s k : inv clY Y -> size s = k.+1 -> all (fun x => x < size f0) s ->
  smap_col Y f0 s = if uniq (image f0 s) && (sort leq (image f0 s) \notin clY k) then Throw else Ok (icol (clY k) (image f0 s)).
Proof.
move=> iv ss al; rewrite /smap_col oget_image al; cbn [obind]; set t := image f0 s.
have [s' [g [E pe so eg]]] := simplex_signE t; rewrite E; cbn [obind fst snd]; rewrite eg.
have -> : s' = sort leq t.
  by apply: (sorted_eq leq_trans anti_leq so (sort_sorted leq_total _)); rewrite perm_sym perm_sort perm_sym.
rewrite /icol; have [u|nu] := boolP (uniq t); last by [].
rewrite [true && _]/=.
have st : size (sort leq t) = k.+1 by rewrite size_sort size_map.
have nz : sort leq t != [::] by rewrite -size_eq0 st.
have [_ _ _ _ T] := iv; have sg : sgn_int (if odd (inversions t) then Minus else Plus) = sign_of t.
  by rewrite /sign_of -signr_odd; case: (odd _).
rewrite sg (_ : sign_of t != 0%R); last by rewrite /sign_of signr_eq0.
by rewrite (find_ok T nz) st; cbn [obind]; rewrite [k.+1.-1]/=; case: (sort leq t \in _).
Qed.

Definition fdim (cl clY : cells_t) (g : seq nat -> seq nat) k : cmat int :=
  CMat (size (clY k)) (size (cl k)) [seq icol (clY k) (g s) | s <- cl k].

Lemma ncell_lt X k n : sc_ncell X k = Ok n -> k < size (sc_ncells X).
Proof. by rewrite /sc_ncell; case: (ltnP k (size (sc_ncells X))) => // h; rewrite /oget drop_oversize. Qed.

Lemma cl_mem_nonnil cl X k s : inv cl X -> s \in cl k -> s != [::].
Proof. by move=> iv si; rewrite -size_eq0 (cl_size iv si). Qed.

Lemma sc_dimsE X : sc_dims X = size (sc_ncells X). Proof. by []. Qed.

(** in range: one column per simplex, or an exception *)
Lemma smap_dim cl X clY Y f0 k : inv cl X -> inv clY Y -> k < sc_dims X -> k < sc_dims Y ->
  (forall s, s \in cl k -> all (fun x => x < size f0) s) ->
  let r := do nx <- sc_ncell X k;
    do cs <- omapm (fun i => do s <- sc_simplex X k i; smap_col Y f0 s) (iota 0 nx);
    do ny <- sc_ncell Y k;
    Ok (CMat ny nx cs) in
  if has (fun s => uniq (image f0 s) && (sort leq (image f0 s) \notin clY k)) (cl k) then r = Throw
  else r = Ok (fdim cl clY (image f0) k).
Proof.
move=> iv ivY lk lY rg r; rewrite /r (ncell_ok iv lk); cbn [obind].
have S i : i \in iota 0 (size (cl k)) -> (do s <- sc_simplex X k i; smap_col Y f0 s) =
    let s := nth [::] (cl k) i in
    if uniq (image f0 s) && (sort leq (image f0 s) \notin clY k) then Throw else Ok (icol (clY k) (image f0 s)).
  rewrite mem_iota add0n => li; rewrite (simplex_ok iv li); cbn [obind]; have si := mem_nth [::] li.
  exact: smap_col_ok ivY (cl_size iv si) (rg _ si).
case: ifP => [/hasP [s si hs]|/negbT hn].
  rewrite omapm_throw1 //; first by move=> i /S ->; cbv zeta; case: (uniq _ && _); [left|right; eexists].
  exists (index s (cl k)); first by rewrite mem_iota add0n index_mem.
  by rewrite S ?mem_iota ?add0n ?index_mem //= nth_index // hs.
rewrite (omapm_Ok_eq (g := fun i => icol (clY k) (image f0 (nth [::] (cl k) i)))).
  rewrite (ncell_ok ivY lY); cbn [obind]; rewrite /fdim; congr (Ok (CMat _ _ _)).
  by rewrite -[in RHS](mkseq_nth [::] (cl k)) /mkseq -map_comp.
move=> i ii; rewrite S // /=; rewrite (negbTE (hasPn hn _ _)) //; apply: mem_nth; by move: ii; rewrite mem_iota.
Qed.

(** whatever comes out is right *)
Lemma smap_inv cl X clY Y f0 Fs : inv cl X -> inv clY Y -> simplicial_map X Y f0 = Ok Fs ->
  [/\ sc_dims X <= sc_dims Y, Fs = [seq fdim cl clY (image f0) k | k <- iota 0 (sc_dims X)],
      forall k s, s \in cl k -> all (fun x => x < size f0) s &
      forall k s, s \in cl k -> uniq (image f0 s) -> sort leq (image f0 s) \in clY k].
Proof.
move=> iv ivY E; have [sF nF] := omapm_inv 0 (CMat 0 0 [::]) E; rewrite size_iota in sF nF.
have P k : k < sc_dims X -> [/\ k < sc_dims Y, nth (CMat 0 0 [::]) Fs k = fdim cl clY (image f0) k,
    forall s, s \in cl k -> all (fun x => x < size f0) s &
    forall s, s \in cl k -> uniq (image f0 s) -> sort leq (image f0 s) \in clY k].
  move=> lk; have := nF k lk; rewrite nth_iota // add0n => Ek.
  have lY : k < sc_dims Y.
    rewrite sc_dimsE; move: Ek; rewrite (ncell_ok iv lk); cbn [obind]; case: (omapm _ _) => // cs; cbn [obind].
    by case EY: (sc_ncell Y k) => [m| | |] // _; exact: ncell_lt EY.
  have rg s : s \in cl k -> all (fun x => x < size f0) s.
    move=> si; move: Ek; rewrite (ncell_ok iv lk); cbn [obind]; case Ec: (omapm _ _) => [cs| | |] // _.
    have [_ nc] := omapm_inv 0 [::] Ec; rewrite size_iota in nc.
    have li : index s (cl k) < size (cl k) by rewrite index_mem.
    have := nc _ li; rewrite nth_iota // add0n (simplex_ok iv li); cbn [obind]; rewrite nth_index // /smap_col oget_image.
    by case: (all _ _).
  have := smap_dim iv ivY lk lY rg; rewrite /=; case: ifP => [_|/negbT hn]; rewrite Ek // => -[->]; split=> // s si u.
  by have := hasPn hn s si; rewrite u /= negbK.
split.
- case: (posnP (sc_dims X)) => [->//|d0]; have ld : (sc_dims X).-1 < sc_dims X by rewrite prednK.
  by have [h _ _ _] := P _ ld; move: h d0; clear; lia.
- apply: (@eq_from_nth _ (CMat 0 0 [::])); first by rewrite sF size_map size_iota.
  by move=> k; rewrite sF => lk; have [_ -> _ _] := P k lk; rewrite (nth_map 0) ?size_iota // nth_iota.
- move=> k s si; have lk : k < sc_dims X by rewrite ltnNge; apply/negP => h; case: iv si => _ _ _ Ci _; rewrite Ci.
  by have [_ _ rg _] := P k lk; exact: rg.
- move=> k s si; have lk : k < sc_dims X by rewrite ltnNge; apply/negP => h; case: iv si => _ _ _ Ci _; rewrite Ci.
  by have [_ _ _ h] := P k lk; exact: h.
Qed.

Section Alg.
Variable F : fieldType.
Local Open Scope ring_scope.
Let conv (z : int) : F := z%:~R.

Definition icolF (clk : seq (seq nat)) (t : seq nat) : svec F := [seq (p.1, conv p.2) | p <- icol clk t].

Lemma sign_conv t : conv (sign_of t) = (-1) ^+ invl t.
Proof. by rewrite /conv /sign_of inversionsE rmorphX /= rmorphN /= rmorph1. Qed.

Lemma coef_icol clk t r : coef (icolF clk t) r = sg F t * delta F clk r (sort leq t).
Proof.
rewrite /icolF /icol /sg /delta; case: ifP => u /=; last by rewrite coef_nil mul0r.
rewrite /coef big_cons big_nil /= sign_conv; case: eqP => _; by rewrite ?addr0 ?mulr1 ?mulr0.
Qed.

Lemma icolF_wf clk t : (uniq t -> sort leq t \in clk) -> sv_wf (size clk) (icolF clk t).
Proof.
rewrite /icolF /icol; case: ifP => // u /(_ isT) h; apply/and3P; split=> //=; rewrite ?andbT ?index_mem //.
by rewrite sign_conv signr_eq0.
Qed.

(** sum over a delta *)
Lemma sum_delta (clk : seq (seq nat)) (g : nat -> F) t : t \in clk -> \sum_(i < size clk) g i * delta F clk i t = g (index t clk).
Proof.
move=> ti; have lt : (index t clk < size clk)%N by rewrite index_mem.
rewrite (bigD1 (Ordinal lt)) //= /delta eqxx mulr1 big1 ?addr0 // => i ne.
by case: eqP => [e|_]; [case/eqP: ne; apply: val_inj|rewrite mulr0].
Qed.

Lemma alt_map (h : nat -> nat) (G : seq nat -> F) s : alt G (map h s) = alt (fun t => G (map h t)) s.
Proof.
rewrite /alt size_map; apply: eq_bigr => j _; congr (_ * G _).
by rewrite /skip map_cat map_take map_drop.
Qed.

(** column form of  D_Y F_{k+1} = F_k D_X *)
Lemma icol_chain clA clB clX (h : nat -> nat) s (r : nat) :
  (uniq (map h s) -> sort leq (map h s) \in clB) -> faces_in clX s ->
  \sum_(i < size clB) coef (bcol F clA (nth [::] clB i)) r * coef (icolF clB (map h s)) i =
  \sum_(i < size clX) coef (icolF clA (map h (nth [::] clX i))) r * coef (bcol F clX s) i.
Proof.
move=> inB fin.
have -> : \sum_(i < size clB) coef (bcol F clA (nth [::] clB i)) r * coef (icolF clB (map h s)) i =
    (-1) ^+ size s * (sg F (map h s) * alt (delta F clA r) (sort leq (map h s))).
  have [u|nu] := boolP (uniq (map h s)); last first.
    rewrite /sg (negbTE nu) mul0r mulr0; apply: big1 => i _; by rewrite coef_icol /sg (negbTE nu) mul0r mulr0.
  have ti := inB u.
  under eq_bigr => i _ do rewrite coef_icol mulrCA.
  rewrite -mulr_sumr (sum_delta (fun i => coef (bcol F clA (nth [::] clB i)) r) ti) nth_index // coef_bcol size_sort size_map.
  by rewrite mulrCA.
rewrite -alt_sg alt_map /alt mulr_sumr.
have E (i : 'I_(size clX)) : coef (icolF clA (map h (nth [::] clX i))) r * coef (bcol F clX s) i =
    \sum_(j < size s) (-1) ^+ size s * (-1) ^+ j * (coef (icolF clA (map h (nth [::] clX i))) r * delta F clX i (skip j s)).
  rewrite coef_bcol /alt mulr_sumr mulr_sumr; apply: eq_bigr => j _; by rewrite mulrCA -mulrA; congr (_ * _); rewrite mulrCA.
rewrite (eq_bigr _ (fun i _ => E i)) exchange_big /=; apply: eq_bigr => j _.
rewrite -mulr_sumr (sum_delta (fun i => coef (icolF clA (map h (nth [::] clX i))) r)); last exact: fin.
by rewrite nth_index; [rewrite coef_icol !mulrA|exact: fin].
Qed.

(** column form of the composition *)
Lemma icol_comp clZ clY (h g : nat -> nat) s (r : nat) :
  (uniq (map h s) -> sort leq (map h s) \in clY) ->
  \sum_(i < size clY) coef (icolF clZ (map g (nth [::] clY i))) r * coef (icolF clY (map h s)) i =
  coef (icolF clZ (map (fun x => g (h x)) s)) r.
Proof.
move=> inY; have [u|nu] := boolP (uniq (map h s)); last first.
  rewrite big1 => [|i _]; last by rewrite [X in _ * X]coef_icol /sg (negbTE nu) mul0r mulr0.
  rewrite coef_icol /sg (_ : uniq _ = false) ?mul0r //; apply/negbTE; apply: contra nu.
  by rewrite (map_comp g h) => /map_uniq.
under eq_bigr => i _ do rewrite [X in _ * X]coef_icol mulrCA.
rewrite -mulr_sumr (sum_delta (fun i => coef (icolF clZ (map g (nth [::] clY i))) r) (inY u)) nth_index ?inY //.
rewrite !coef_icol mulrA -sg_map // -map_comp; congr (_ * delta _ _ _ _).
by apply/(perm_sortP leq_total leq_trans anti_leq); rewrite [X in perm_eq _ X](map_comp g h); apply: perm_map; rewrite perm_sort.
Qed.
End Alg.
