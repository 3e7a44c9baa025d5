(** Boundaries of LightSimplicialComplex. *)
From mathcomp Require Import all_ssreflect all_algebra zify.
From Verif Require Import Outcome M_SparseVec M_Perm M_ColMatrix M_CSC M_Simplicial M_Light S_Perm S_Linalg S_Homology S_Light P_Outcome P_Perm P_Sort P_SparseVec P_SparseVec2 P_Trie P_Simplicial P_ScOps P_ScBuild P_ScBoundary P_LightKey P_Light.
Set Implicit Arguments.
Unset Strict Implicit.
Unset Printing Implicit Defensive.
Import GRing.Theory.

Section Csc.
Variables (T : Type) (t0 : T) (X : Type) (f : X -> seq nat) (c : X -> seq T) (w : nat).
Hypothesis fw : forall x, size (f x) = w.
Hypothesis cw : forall x, size (c x) = w.

Definition f' x := [seq nth 0 (f x) p | p <- sperm (f x)].
Definition c' x := [seq nth t0 (c x) p | p <- sperm (f x)].

Lemma size_f' x : size (f' x) = w. Proof. by rewrite size_map size_sperm. Qed.
Lemma size_c' x : size (c' x) = w. Proof. by rewrite size_map size_sperm. Qed.

Lemma flat_w (A : Type) (h : X -> seq A) l : (forall x, size (h x) = w) -> size (flatten (map h l)) = (w * size l)%N.
Proof. by move=> e; elim: l => [|x l IH] /=; rewrite ?muln0 // size_cat e IH mulnS. Qed.

Lemma csc_sort_cols m n cp l1 l2 : (forall i, i < n.+1 -> nth 0 cp i = (w * i)%N) -> size cp = n.+1 -> size l1 + size l2 = n ->
  ofold (@csc_sort_col T) (CSC m n cp (flatten (map f' l1) ++ flatten (map f l2)) (flatten (map c' l1) ++ flatten (map c l2)))
        (iota (size l1) (size l2)) =
  Ok (CSC m n cp (flatten (map f' (l1 ++ l2))) (flatten (map c' (l1 ++ l2)))).
Proof.
move=> hcp scp; elim: l2 l1 => [|x l2 IH] l1 sz; first by rewrite /= !cats0.
cbn [iota size]; rewrite ofold_cons.
have lj : size l1 < n by rewrite -sz /=; clear; lia.
have -> : csc_sort_col (CSC m n cp (flatten (map f' l1) ++ flatten (map f (x :: l2))) (flatten (map c' l1) ++ flatten (map c (x :: l2)))) (size l1) =
  Ok (CSC m n cp (flatten (map f' (rcons l1 x)) ++ flatten (map f l2)) (flatten (map c' (rcons l1 x)) ++ flatten (map c l2))).
  rewrite /csc_sort_col /= (oget_nth 0) ?scp ?(leqW lj) //; cbn [obind].
  rewrite (oget_nth 0) ?scp ?ltnS //; cbn [obind]; rewrite !hcp ?ltnS ?(ltnW lj) //.
  have -> : (w * (size l1).+1 - w * size l1 = w)%N by rewrite mulnS addnK.
  have := @range_sort_ok T t0 (flatten (map f' l1)) (flatten (map c' l1)) (f x) (c x) (flatten (map f l2)) (flatten (map c l2)).
  rewrite !(flat_w _ size_f') !(flat_w _ size_c') fw cw => -> //; cbn [obind fst snd].
  by rewrite !map_rcons !flatten_rcons -!catA.
cbn [obind]; rewrite -[(size l1).+1](size_rcons l1 x) IH ?cat_rcons //.
by rewrite size_rcons -sz /= addnS.
Qed.

Lemma csc_make_ok m n cp l : (forall i, i < n.+1 -> nth 0 cp i = (w * i)%N) -> size cp = n.+1 -> size l = n ->
  csc_make m n cp (flatten (map f l)) (flatten (map c l)) = Ok (CSC m n cp (flatten (map f' l)) (flatten (map c' l))).
Proof. by move=> h1 h2 h3; have := @csc_sort_cols m n cp [::] l h1 h2 h3; rewrite /= h3. Qed.
End Csc.

Definition lrawc (m : nat) : seq int := [seq lsign j | j <- rev (iota 0 m)].
Definition lrowc (cl : seq (seq nat)) s := [seq nth 0%R (lrawc (size s)) p | p <- sperm (rawf cl s)].

Lemma size_lrawc m : size (lrawc m) = m. Proof. by rewrite size_map size_rev size_iota. Qed.
Lemma size_lrowc cl s : size (lrowc cl s) = size s.
Proof. by rewrite size_map size_sperm size_rawf. Qed.

(** the pairs of a row *)
Definition lpairs (cl : seq (seq nat)) (s : seq nat) : seq (nat * int) := [seq (index (skip j s) cl, lsign j) | j <- iota 0 (size s)].

Lemma lrow_pairs cl s : perm_eq (zip (rowf cl s) (lrowc cl s)) (lpairs cl s).
Proof.
rewrite /rowf /lrowc zip_map.
apply: (@perm_trans _ [seq (nth 0 (rawf cl s) p, nth 0%R (lrawc (size s)) p) | p <- iota 0 (size (rawf cl s))]).
  by apply: perm_map; exact: sperm_iota.
rewrite -zip_map size_rawf -{1}(size_rawf cl s) map_nth_iota -{2}(size_lrawc (size s)) map_nth_iota.
by rewrite /rawf /lrawc zip_map /lpairs map_rev perm_rev.
Qed.

Section Bd.
Variables (n k W g : nat).
Hypothesis W1 : 1 < W.
Hypothesis Wn : n ^ k.+1 <= W.
Let junk := Some g.
Notation key := (skey n).

Lemma face_index cl L d s : linv n k cl L -> s \in cl d.+1 -> faces_in (cl d) s ->
  omapm (fun f : nat * int => hat (nth [::] (l_k2i L) d) f.1) (lfaces n s) = Ok (rawf (cl d) s).
Proof.
move=> iv si fi; have [_ _ _ _ lc] := iv; have [ss os ld] := lcl_mem lc si.
rewrite /lfaces /rawf; set js := rev _; have : all (fun j => j < size s) js by apply/allP => j; rewrite mem_rev mem_iota add0n.
elim: js => [|j js IH] //= /andP [lj aj]; rewrite {1}/hat (lget iv) ?(fi j lj) //=.
- by rewrite IH.
- exact: ok_sub (skip_subseq _ _) os.
- by rewrite size_skip // ss.
- exact: ltnW.
Qed.

Lemma face_missing cl L d s : linv n k cl L -> s \in cl d.+1 -> ~ faces_in (cl d) s ->
  omapm (fun f : nat * int => hat (nth [::] (l_k2i L) d) f.1) (lfaces n s) = Throw.
Proof.
move=> iv si fi; have [_ _ _ _ lc] := iv; have [ss os ld] := lcl_mem lc si.
have H js : all (fun j => j < size s) js -> ~~ all (fun j => skip j s \in cl d) js ->
   omapm (fun f : nat * int => hat (nth [::] (l_k2i L) d) f.1) [seq (key (skip j s), lsign j) | j <- js] = Throw.
  elim: js => [|j js IH] //= /andP [lj aj]; rewrite {1}/hat (lget iv).
  - by case: ifP => //= _; rewrite ?andTb => h; rewrite IH.
  - exact: ok_sub (skip_subseq _ _) os.
  - by rewrite size_skip // ss.
  - exact: ltnW.
apply: H; first by apply/allP => j; rewrite mem_rev mem_iota add0n.
by apply/negP => /allP h; apply: fi => j lj; apply: h; rewrite mem_rev mem_iota.
Qed.

Lemma lboundary_ok cl L d i : linv n k cl L -> i < size (cl d.+1) ->
  let s := nth [::] (cl d.+1) i in
  (faces_in (cl d) s -> l_boundary W junk L d.+1 i = Ok (rowf (cl d) s, lrowc (cl d) s)) /\
  (~ faces_in (cl d) s -> l_boundary W junk L d.+1 i = Throw).
Proof.
move=> iv li s; have [_ ol [s1 s2] h4 lc] := iv; have si : s \in cl d.+1 by exact: mem_nth.
have [ss os ld] := lcl_mem lc si.
have n0 : s != [::] by rewrite -size_eq0 ss.
have ls : size s <= k.+1 by rewrite ss.
have E : l_boundary W junk L d.+1 i = do ind <- omapm (fun f : nat * int => hat (nth [::] (l_k2i L) d) f.1) (lfaces n s);
    let p := sortperm (fun a b => a < b) 0 ind in
    do ind' <- apply_perm p ind; do val' <- apply_perm p (map snd (lfaces n s)); Ok (ind', val').
  rewrite /l_boundary (oget_nth [::]) ?s1 ?ltnS //; cbn [obind]; have [-> _] := h4 _ ld.
  rewrite (oget_nth 0) ?size_map // (nth_map [::]) //; cbn [obind].
  have := @faces_ok n W k junk W1 Wn g L s ol os n0 ls erefl; rewrite ss [d.+2.-1]/= => ->; cbn [obind].
  by rewrite (oget_nth [::]) ?s2 ?ltnS ?(ltnW ld).
split=> fi; rewrite {}E.
  rewrite (face_index iv si fi); cbn [obind]; cbv zeta.
  have sl : map snd (lfaces n s) = lrawc (size s) by rewrite /lfaces -map_comp.
  have P := sperm_perm (rawf (cl d) s).
  rewrite (apply_perm_pre 0 P) ?size_sperm //; cbn [obind].
  rewrite sl (apply_perm_pre 0%R P) ?size_sperm ?size_rawf ?size_lrawc //; cbn [obind].
  by rewrite !drop_oversize ?cats0 ?size_rawf ?size_lrawc.
by rewrite (face_missing iv si fi).
Qed.

Lemma lboundary_csc_ok cl L d : linv n k cl L -> d < k -> (forall s, s \in cl d.+1 -> faces_in (cl d) s) -> exists A,
  l_boundary_csc W junk L d.+1 = Ok A /\
  forall (T' : Type) (conv : int -> T'), cm_of_csc conv A =
    Ok (CMat (size (cl d)) (size (cl d.+1)) [seq zip (rowf (cl d) s) (map conv (lrowc (cl d) s)) | s <- cl d.+1]).
Proof.
move=> iv ld fi; have [_ ol [s1 s2] h4 lc] := iv.
rewrite /l_boundary_csc (lncell_ok iv (ltnW ld)) (lncell_ok iv ld); cbn [obind].
rewrite (oget_nth [::]) ?s1 ?ltnS // (oget_nth [::]) ?s2 ?ltnS ?(ltnW ld) //; cbn [obind]; have [-> _] := h4 _ ld.
set F := (fun k0 : nat => _).
have -> : omapm F [seq key s | s <- cl d.+1] = Ok [seq zip (rawf (cl d) s) (lrawc (size s)) | s <- cl d.+1].
  suff H l : all (fun s => s \in cl d.+1) l -> omapm F [seq key s | s <- l] = Ok [seq zip (rawf (cl d) s) (lrawc (size s)) | s <- l].
    by apply: H; apply/allP.
  elim: l => [|s l IH] // /andP [si al]; cbn [omapm map]; rewrite IH // {1}/F.
  have [ss os _] := lcl_mem lc si; have n0 : s != [::] by rewrite -size_eq0 ss.
  have ls : size s <= k.+1 by rewrite ss.
  have := @faces_ok n W k junk W1 Wn g L s ol os n0 ls erefl; rewrite ss [d.+2.-1]/= => ->; cbn [obind].
  have := face_index iv si (fi s si); rewrite -ss /lfaces /rawf /lrawc.
  elim: (rev _) => [|j js IHj] //=; case: (hat _ _) => [a|||] //=; case E1: (omapm _ _) => [b|||] //= -[ea eb].
  by have := IHj; rewrite E1 eb => /(_ erefl); case: (omapm _ _) => [b'|||] //= -[->]; rewrite ea.
cbn [obind].
have e1 : map fst (flatten [seq zip (rawf (cl d) s) (lrawc (size s)) | s <- cl d.+1]) = flatten [seq rawf (cl d) s | s <- cl d.+1].
  rewrite map_flatten -map_comp; congr flatten; apply: eq_map => s /=; rewrite -[map fst _]/(unzip1 _) unzip1_zip //.
  by rewrite size_rawf size_lrawc.
have e2 : map snd (flatten [seq zip (rawf (cl d) s) (lrawc (size s)) | s <- cl d.+1]) = flatten [seq lrawc (size s) | s <- cl d.+1].
  rewrite map_flatten -map_comp; congr flatten; apply: eq_map => s /=; rewrite -[map snd _]/(unzip2 _) unzip2_zip //.
  by rewrite size_rawf size_lrawc.
rewrite e1 e2.
set m := size (cl d.+1); set cp := [seq _ | j <- iota 0 m.+1].
have h1 i : i < m.+1 -> nth 0 cp i = (d.+2 * i)%N by move=> li; rewrite (nth_map 0) ?size_iota // nth_iota.
have h2 : size cp = m.+1 by rewrite size_map size_iota.
(* all columns have d+2 entries: restrict to a type of such simplices *)
pose X := {s : seq nat | size s == d.+2}.
have [l el] : exists l : seq X, map val l = cl d.+1.
  have : all (fun s => size s == d.+2) (cl d.+1) by apply/allP => s /(lcl_mem lc) [-> _ _].
  elim: (cl d.+1) => [|s l IH] /=; first by exists [::].
  by case/andP => es /IH [l' <-]; exists (Sub s es :: l') => /=.
have sl : size l = m by rewrite /m -el size_map.
have := @csc_make_ok int 0%R X (fun x => rawf (cl d) (val x)) (fun x => lrawc (size (val x))) d.+2 _ _ (size (cl d)) m cp l h1 h2 sl.
have r1 : [seq rawf (cl d) (val x) | x <- l] = [seq rawf (cl d) s | s <- cl d.+1] by rewrite -el -map_comp.
have r2 : [seq lrawc (size (val x)) | x <- l] = [seq lrawc (size s) | s <- cl d.+1] by rewrite -el -map_comp.
rewrite r1 r2 => -> //; [|by move=> x; rewrite size_rawf (eqP (valP x))|by move=> x; rewrite size_lrawc (eqP (valP x))].
eexists; split; first reflexivity.
have r3 : [seq f' (fun x : X => rawf (cl d) (val x)) x | x <- l] = [seq rowf (cl d) s | s <- cl d.+1] by rewrite -el -map_comp.
have r4 : [seq c' 0%R (fun x : X => rawf (cl d) (val x)) (fun x => lrawc (size (val x))) x | x <- l] = [seq lrowc (cl d) s | s <- cl d.+1].
  by rewrite -el -map_comp.
rewrite r3 r4 => T' conv.
have w3 s : s \in cl d.+1 -> size s == d.+2 by move=> /(lcl_mem lc) [-> _ _].
have a1 : all (fun s => size s == d.+2) [seq rowf (cl d) s | s <- cl d.+1].
  by apply/allP => u /mapP [s si ->]; rewrite size_rowf w3.
have a2 : all (fun s => size s == d.+2) [seq lrowc (cl d) s | s <- cl d.+1].
  by apply/allP => u /mapP [s si ->]; rewrite size_lrowc w3.
have z1 : size [seq rowf (cl d) s | s <- cl d.+1] = m by rewrite size_map.
have z2 : size [seq lrowc (cl d) s | s <- cl d.+1] = m by rewrite size_map.
rewrite (cm_of_csc_ok (0%R : int) conv _ h1 h2 z1 z2 a1 a2); congr (Ok (CMat _ _ _)).
apply: (@eq_from_nth _ [::]); first by rewrite !size_map size_iota.
by move=> i; rewrite size_map size_iota => li; rewrite (nth_map 0) ?size_iota // nth_iota // !(nth_map [::]).
Qed.
End Bd.

Section Alg.
Variable F : fieldType.
Local Open Scope ring_scope.

Definition lbcol (cl : seq (seq nat)) (s : seq nat) : svec F := zip (rowf cl s) (map (fun z : int => z%:~R) (lrowc cl s)).

Lemma coef_lbcol cl s r : coef (lbcol cl s) r = alt (delta F cl r) s.
Proof.
rewrite /lbcol zip_mapr (coef_perm (perm_map _ (lrow_pairs cl s))) /coef /lpairs -map_comp big_map big_mkcond.
have -> : iota 0 (size s) = index_iota 0 (size s) by rewrite /index_iota subn0.
rewrite big_mkord /alt; apply: eq_bigr => j _ /=; rewrite /delta /lsign.
by case: eqP => _; rewrite ?mulr0 // mulr1 rmorphX /= rmorphN /= rmorph1.
Qed.

Lemma lbcol_bcol cl s r : coef (lbcol cl s) r = (-1) ^+ size s * coef (bcol F cl s) r.
Proof. rewrite coef_lbcol coef_bcol mulrA -exprD.
by rewrite addnn -mul2n exprM sqrrN !expr1n mul1r.
Qed.

Lemma lbcol_square (clA clB : seq (seq nat)) s (r : nat) : faces_in clB s -> all (fun t => size t == (size s).-1) clB ->
  \sum_(i < size clB) coef (lbcol clA (nth [::] clB i)) r * coef (lbcol clB s) i = 0.
Proof.
move=> fin al; have := bcol_square F clA r fin al => E.
rewrite (eq_bigr (fun i : 'I_(size clB) => ((-1) ^+ (size s).-1 * (-1) ^+ size s) * (coef (bcol F clA (nth [::] clB i)) r * coef (bcol F clB s) i))).
  by rewrite -mulr_sumr E mulr0.
by move=> i _; rewrite !lbcol_bcol (eqP (allP al _ (mem_nth _ (ltn_ord i)))) mulrACA.
Qed.

Lemma lbcol_wf cl s : faces_in cl s -> uniq s -> sv_wf (size cl) (lbcol cl s).
Proof.
move=> fin u; have /and3P [w1 w2 w3] := bcol_wf F fin u.
have z1 : unzip1 (bcol F cl s) = rowf cl s by rewrite /bcol unzip1_zip // size_rowf size_map size_rowc.
have z2 : unzip1 (lbcol cl s) = rowf cl s by rewrite /lbcol unzip1_zip // size_rowf size_map size_lrowc.
apply/and3P; split.
- by move: w1; rewrite /sv_sorted -[map _ _]/(unzip1 _) z1 -[map _ (lbcol _ _)]/(unzip1 _) z2.
- have : all (fun i => i < size cl)%N (unzip1 (lbcol cl s)).
    by rewrite z2 -z1 /unzip1 all_map.
  by rewrite /unzip1 all_map.
- rewrite /sv_nonzero; apply/allP => -[i v]; rewrite /lbcol zip_mapr => /mapP [[i' z]].
  rewrite (perm_mem (lrow_pairs cl s)) => /mapP [j _ [_ ->]] [_ ->] /=.
  by rewrite /lsign rmorphX /= rmorphN /= expf_neq0 // oppr_eq0 oner_neq0.
Qed.
End Alg.
