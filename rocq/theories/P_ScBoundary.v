(** Boundaries of simplicial complexes. *)
From mathcomp Require Import all_ssreflect all_algebra zify.
From Verif Require Import Outcome M_SparseVec M_Perm M_ColMatrix M_CSC M_Simplicial S_Perm S_Linalg S_Homology S_Simplicial P_Outcome P_Perm P_Sort P_SparseVec P_SparseVec2 P_Trie P_Simplicial P_ScOps P_ScBuild.
Set Implicit Arguments.
Unset Strict Implicit.
Unset Printing Implicit Defensive.
Import GRing.Theory.

(** ** sorting a row *)
Lemma sperm_sorted s : sorted leq s -> sperm s = iota 0 (size s).
Proof.
move=> ss; rewrite /sortperm; set r := (fun a b => _).
have tr : transitive r by move=> b a c; rewrite /r -!leqNgt; exact: leq_trans.
apply: (sorted_sort tr); apply/(sortedP 0) => i; rewrite size_iota => li.
rewrite /r -leqNgt !nth_iota ?add0n //; last exact: ltnW.
by move/(sortedP 0): ss; apply.
Qed.

Lemma map_nth_iota (A : Type) (d : A) s : [seq nth d s i | i <- iota 0 (size s)] = s.
Proof. exact: mkseq_nth. Qed.

Lemma row_sorted (s : seq nat) : sorted leq [seq nth 0 s p | p <- sperm s].
Proof.
apply/(sortedP 0) => i; rewrite size_map size_sperm => li; rewrite !(nth_map 0) ?size_sperm ?(ltnW li) //.
exact: (@sortperm_le _ Order.NatOrder.orderType 0 s i i.+1 (leqnSn i) li).
Qed.
Lemma rowf_sorted cl s : sorted leq (rowf cl s). Proof. exact: row_sorted. Qed.

Lemma sperm_iota s : perm_eq (sperm s) (iota 0 (size s)).
Proof. by have := sperm_perm s; rewrite /is_perm size_sperm. Qed.

(** the (index, sign) pairs of a row are those of the raw faces *)
Lemma row_pairs cl s : perm_eq (zip (rowf cl s) (rowc cl s)) (zip (rawf cl s) (rawc (size s))).
Proof.
rewrite /rowf /rowc zip_map.
have -> : zip (rawf cl s) (rawc (size s)) = [seq (nth 0 (rawf cl s) p, nth 0%R (rawc (size s)) p) | p <- iota 0 (size (rawf cl s))].
  rewrite -zip_map; congr zip; first by rewrite map_nth_iota.
  by rewrite size_rawf -{3}(size_rawc (size s)) map_nth_iota.
by apply: perm_map; exact: sperm_iota.
Qed.

(** raw faces, indexed by the vertex that is dropped *)
Definition fpairs (cl : seq (seq nat)) (s : seq nat) : seq (nat * int) :=
  [seq (index (skip j s) cl, (-1) ^+ (size s - j))%R | j <- iota 0 (size s)].

Lemma raw_pairs cl s : perm_eq (zip (rawf cl s) (rawc (size s))) (fpairs cl s).
Proof.
have -> : zip (rawf cl s) (rawc (size s)) = rev (fpairs cl s); last by rewrite perm_rev.
rewrite /fpairs -map_rev; apply: (@eq_from_nth _ (0, 0%R)).
  by rewrite size_zip size_rawf size_rawc minnn size_map size_rev size_iota.
move=> i; rewrite size_zip size_rawf size_rawc minnn => li.
have e : nth 0 (rev (iota 0 (size s))) i = size s - i.+1.
  by rewrite nth_rev ?size_iota // nth_iota //; lia.
have -> : nth (0, 0%R) (zip (rawf cl s) (rawc (size s))) i = (nth 0 (rawf cl s) i, nth 0%R (rawc (size s)) i).
  by rewrite nth_zip ?size_rawf ?size_rawc.
have -> : nth 0 (rawf cl s) i = index (skip (size s - i.+1) s) cl by rewrite /rawf (nth_map 0) ?size_rev ?size_iota // e.
have -> : nth 0%R (rawc (size s)) i = ((-1) ^+ i.+1)%R by rewrite /rawc (nth_map 0) ?size_iota // nth_iota.
by rewrite (nth_map 0) ?size_rev ?size_iota // e subKn.
Qed.

Lemma row_fpairs cl s : perm_eq (zip (rowf cl s) (rowc cl s)) (fpairs cl s).
Proof. exact: perm_trans (row_pairs _ _) (raw_pairs _ _). Qed.

(** ** boundary(k, i) *)
Lemma boundary_ok cl X k i : inv cl X -> i < size (cl k.+1) ->
  sc_boundary X k.+1 i = Ok (rowf (cl k) (nth [::] (cl k.+1) i), rowc (cl k) (nth [::] (cl k.+1) i)).
Proof.
move=> [[q1 q2 q3] _ Wi Ci _] li; have lk : k.+1 < sc_dims X.
  by rewrite ltnNge; apply/negP => le; rewrite Ci in li.
have [_ _ [w3 _ _] [w5 w6]] := Wi k.+1 lk.
have lf : k < size (sc_faces X) by rewrite q2; move: lk; rewrite /sc_dims; lia.
have lc : k < size (sc_coeff X) by rewrite q3 -q2.
rewrite /sc_boundary (oget_nth [::]) // (oget_nth [::]) //; cbn [obind]; rewrite w5 w6 /orange.
have a1 : all (fun s => size s == k.+2) [seq rowf (cl k) s | s <- cl k.+1].
  by apply/allP => u /mapP [s si ->]; rewrite size_rowf (eqP (allP w3 _ si)).
have a2 : all (fun s => size s == k.+2) [seq rowc (cl k) s | s <- cl k.+1].
  by apply/allP => u /mapP [s si ->]; rewrite size_rowc (eqP (allP w3 _ si)).
have [] := flat_seg a1 (i := i); first by rewrite size_map.
have [] := flat_seg a2 (i := i); first by rewrite size_map.
by move=> -> -> -> ->; cbn [obind]; rewrite !(nth_map [::]).
Qed.

(** ** boundary_csc *)
Section Sort.
Variable T : Type.
Variable t0 : T.
Lemma sort_col_id m n (cp : seq nat) (FS : seq (seq nat)) (CS : seq (seq T)) w j :
  (forall i, i < n.+1 -> nth 0 cp i = (w * i)%N) -> size cp = n.+1 -> size FS = n -> size CS = n ->
  all (fun s => size s == w) FS -> all (fun s => size s == w) CS -> all (sorted leq) FS -> j < n ->
  csc_sort_col (CSC m n cp (flatten FS) (flatten CS)) j = Ok (CSC m n cp (flatten FS) (flatten CS)).
Proof.
move=> hcp scp sF sC aF aC so lj; rewrite /csc_sort_col /= (oget_nth 0) ?scp ?(leqW lj) //; cbn [obind].
rewrite (oget_nth 0) ?scp ?ltnS //; cbn [obind]; rewrite !hcp ?ltnS ?(ltnW lj) //.
have -> : (w * j.+1 - w * j = w)%N by rewrite mulnS addnK.
have lF : j < size FS by rewrite sF.
have lC : j < size CS by rewrite sC.
set A := flatten (take j FS); set B := flatten (take j CS).
have sA : size A = (w * j)%N.
  by rewrite (@size_flat _ w) ?size_takel ?sF ?(ltnW lj) //; apply/allP => s /mem_take; exact: (allP aF).
have sB : size B = (w * j)%N.
  rewrite (@size_flat _ w) ?size_takel ?sC ?(ltnW lj) //.
  by rewrite -(cat_take_drop j CS) all_cat in aC; case/andP: aC.
have eF : flatten FS = A ++ nth [::] FS j ++ flatten (drop j.+1 FS).
  by rewrite -{1}(cat_take_drop j FS) flatten_cat (drop_nth [::] lF).
have eC : flatten CS = B ++ nth [::] CS j ++ flatten (drop j.+1 CS).
  by rewrite -{1}(cat_take_drop j CS) flatten_cat (drop_nth [::] lC).
have wF : size (nth [::] FS j) = w by apply/eqP/(allP aF)/mem_nth.
have wC : size (nth [::] CS j) = w by apply/eqP/(all_nthP [::] aC).
have := @range_sort_ok T t0 A B (nth [::] FS j) (nth [::] CS j) (flatten (drop j.+1 FS)) (flatten (drop j.+1 CS)).
rewrite sA sB wF wC -eF -eC => -> //; cbn [obind].
have sp : sperm (nth [::] FS j) = iota 0 w.
  by rewrite sperm_sorted ?wF //; exact: (allP so _ (mem_nth _ lF)).
rewrite sp -{1}wF map_nth_iota -wC map_nth_iota [X in CSC _ _ _ X.1 _]/= [X in CSC _ _ _ _ X.2]/=.
by rewrite /= -eF -eC.
Qed.

Lemma csc_make_id m n cp (FS : seq (seq nat)) (CS : seq (seq T)) w :
  (forall i, i < n.+1 -> nth 0 cp i = (w * i)%N) -> size cp = n.+1 -> size FS = n -> size CS = n ->
  all (fun s => size s == w) FS -> all (fun s => size s == w) CS -> all (sorted leq) FS ->
  csc_make m n cp (flatten FS) (flatten CS) = Ok (CSC m n cp (flatten FS) (flatten CS)).
Proof.
move=> h1 h2 h3 h4 h5 h6 h7; rewrite /csc_make /csc_sort [c_n _]/=.
have : all (fun j => j < n) (iota 0 n) by apply/allP => j; rewrite mem_iota.
elim: (iota 0 n) => [|j l IH] //= /andP [lj al].
by rewrite (sort_col_id m h1 h2 h3 h4 h5 h6 h7 lj) /=; exact: IH.
Qed.

Lemma cm_of_csc_ok (T' : Type) (conv : T -> T') m n cp (FS : seq (seq nat)) (CS : seq (seq T)) w :
  (forall i, i < n.+1 -> nth 0 cp i = (w * i)%N) -> size cp = n.+1 -> size FS = n -> size CS = n ->
  all (fun s => size s == w) FS -> all (fun s => size s == w) CS ->
  cm_of_csc conv (CSC m n cp (flatten FS) (flatten CS)) =
  Ok (CMat m n [seq zip (nth [::] FS j) (map conv (nth [::] CS j)) | j <- iota 0 n]).
Proof.
move=> hcp scp sF sC aF aC; rewrite /cm_of_csc [c_n _]/=.
rewrite (@omapm_Ok_eq _ _ _ (fun j => zip (nth [::] FS j) (map conv (nth [::] CS j)))) //= => j.
rewrite mem_iota add0n => lj; rewrite (oget_nth 0) ?scp ?(leqW lj) //; cbn [obind].
rewrite (oget_nth 0) ?scp ?ltnS //; cbn [obind]; rewrite !hcp ?ltnS ?(ltnW lj) //.
have -> : (w * j.+1 - w * j = w)%N by rewrite mulnS addnK.
have lF : j < size FS by rewrite sF.
have lC : j < size CS by rewrite sC.
have [eF bF] := flat_seg aF lF; have [eC bC] := flat_seg aC lC.
have wF : size (nth [::] FS j) = w by apply/eqP/(allP aF)/mem_nth.
have wC : size (nth [::] CS j) = w by apply/eqP/(all_nthP [::] aC).
rewrite (@omapm_Ok_eq _ _ _ (fun i => (nth 0 (flatten FS) i, conv (nth t0 (flatten CS) i)))); last first.
  move=> i; rewrite mem_iota => li; rewrite (oget_nth 0) ?(oget_nth t0) //; move: li bF bC; clear; lia.
congr Ok; apply: (@eq_from_nth _ (0, conv t0)).
  by rewrite size_map size_iota size_zip size_map wF wC minnn.
move=> i; rewrite size_map size_iota => li; rewrite (nth_map 0) ?size_iota // nth_iota // nth_zip ?size_map ?wF //.
rewrite (nth_map t0) ?wC // -eF -eC !nth_take // !nth_drop //.
Qed.
End Sort.

Lemma boundary_csc_ok cl X k : inv cl X -> k.+1 < sc_dims X -> exists A,
  sc_boundary_csc X k.+1 = Ok A /\
  forall (T' : Type) (conv : int -> T'), cm_of_csc conv A =
    Ok (CMat (size (cl k)) (size (cl k.+1)) [seq zip (rowf (cl k) s) (map conv (rowc (cl k) s)) | s <- cl k.+1]).
Proof.
move=> iv lk; have [[q1 q2 q3] _ Wi Ci _] := iv; have [_ _ [w3 _ _] [w5 w6]] := Wi k.+1 lk.
have lf : k < size (sc_faces X) by rewrite q2; move: lk; rewrite /sc_dims; lia.
have lc : k < size (sc_coeff X) by rewrite q3 -q2.
rewrite /sc_boundary_csc; have := ncell_ok iv (ltnW lk); have := ncell_ok iv lk; rewrite /sc_ncell => -> ->; cbn [obind].
rewrite (oget_nth [::]) // (oget_nth [::]) //; cbn [obind]; rewrite w5 w6.
set n := size (cl k.+1); set cp := [seq _ | j <- iota 0 n.+1].
have h1 i : i < n.+1 -> nth 0 cp i = (k.+2 * i)%N.
  by move=> li; rewrite (nth_map 0) ?size_iota // nth_iota.
have h2 : size cp = n.+1 by rewrite size_map size_iota.
have a1 : all (fun s => size s == k.+2) [seq rowf (cl k) s | s <- cl k.+1].
  by apply/allP => u /mapP [s si ->]; rewrite size_rowf (eqP (allP w3 _ si)).
have a2 : all (fun s => size s == k.+2) [seq rowc (cl k) s | s <- cl k.+1].
  by apply/allP => u /mapP [s si ->]; rewrite size_rowc (eqP (allP w3 _ si)).
have a3 : all (sorted leq) [seq rowf (cl k) s | s <- cl k.+1].
  by apply/allP => u /mapP [s si ->]; exact: rowf_sorted.
have s1 : size [seq rowf (cl k) s | s <- cl k.+1] = n by rewrite size_map.
have s2 : size [seq rowc (cl k) s | s <- cl k.+1] = n by rewrite size_map.
rewrite (csc_make_id (0%R : int) _ h1 h2 s1 s2 a1 a2 a3); eexists; split; first reflexivity.
move=> T' conv; rewrite (cm_of_csc_ok (0%R : int) conv _ h1 h2 s1 s2 a1 a2); congr (Ok (CMat _ _ _)).
apply: (@eq_from_nth _ [::]); first by rewrite !size_map size_iota.
by move=> i; rewrite size_map size_iota => li; rewrite (nth_map 0) ?size_iota // nth_iota // !(nth_map [::]).
Qed.

(** ** the boundary operator *)
Section Alg.
Variable F : fieldType.
Local Open Scope ring_scope.

Definition alt (f : seq nat -> F) (s : seq nat) : F := \sum_(j < size s) (-1) ^+ j * f (skip j s).

Lemma alt_cons f x s : alt f (x :: s) = f s - alt (fun t => f (x :: t)) s.
Proof.
rewrite /alt /= big_ord_recl expr0 mul1r skip0; congr (_ + _).
by rewrite -sumrN; apply: eq_bigr => j _; rewrite lift0 exprS mulN1r skipS mulNr.
Qed.

Lemma alt_sub f g s : alt (fun t => f t - g t) s = alt f s - alt g s.
Proof. by rewrite /alt -sumrB; apply: eq_bigr => j _; rewrite mulrBr. Qed.

Lemma eq_alt f g s : f =1 g -> alt f s = alt g s.
Proof. by move=> e; apply: eq_bigr => j _; rewrite e. Qed.

(** the alternating sum of faces, twice, vanishes *)
Lemma alt_alt f s : alt (alt f) s = 0.
Proof.
elim: s f => [|x s IH] f; first by rewrite /alt big_ord0.
rewrite alt_cons.
have -> : alt (fun t => alt f (x :: t)) s = alt (fun t => f t - alt (fun u => f (x :: u)) t) s.
  by apply: eq_alt => t; rewrite alt_cons.
by rewrite alt_sub IH subr0 subrr.
Qed.

Definition bcol (cl : seq (seq nat)) (s : seq nat) : svec F := zip (rowf cl s) (map (fun z : int => z%:~R) (rowc cl s)).
Definition delta (cl : seq (seq nat)) (r : nat) (t : seq nat) : F := (index t cl == r)%:R.

Lemma zip_mapr (A B C : Type) (h : B -> C) (a : seq A) b : zip a (map h b) = [seq (p.1, h p.2) | p <- zip a b].
Proof. by elim: a b => [|x a IH] [|y b] //=; rewrite IH. Qed.

Lemma coef_bcol cl s r : coef (bcol cl s) r = (-1) ^+ size s * alt (delta cl r) s.
Proof.
rewrite /bcol zip_mapr (coef_perm (perm_map _ (row_fpairs cl s))) /coef /fpairs -map_comp big_map big_mkcond.
have -> : iota 0 (size s) = index_iota 0 (size s) by rewrite /index_iota subn0.
rewrite big_mkord /alt mulr_sumr; apply: eq_bigr => j _ /=; rewrite /delta mulrA -exprD.
case: eqP => _; rewrite ?mulr0 // mulr1 rmorphX /= rmorphN /= rmorph1.
by rewrite -signr_odd -[RHS]signr_odd oddB ?oddD // ltnW.
Qed.

(** D_k D_{k+1} = 0, column by column *)
Lemma bcol_square (clA clB : seq (seq nat)) s (r : nat) : faces_in clB s -> all (fun t => size t == (size s).-1) clB ->
  \sum_(i < size clB) coef (bcol clA (nth [::] clB i)) r * coef (bcol clB s) i = 0.
Proof.
move=> fin al.
have E (i : 'I_(size clB)) : coef (bcol clA (nth [::] clB i)) r * coef (bcol clB s) i =
    (-1) ^+ (size s).-1 * (-1) ^+ size s * \sum_(j < size s) (-1) ^+ j * (alt (delta clA r) (nth [::] clB i) * delta clB i (skip j s)).
  rewrite !coef_bcol (eqP (allP al _ (mem_nth _ (ltn_ord i)))) mulrACA; congr (_ * _).
  by rewrite /alt mulr_sumr; apply: eq_bigr => j _; rewrite mulrCA.
rewrite (eq_bigr _ (fun i _ => E i)) -mulr_sumr exchange_big /=.
have -> : \sum_(j < size s) \sum_(i < size clB) (-1) ^+ j * (alt (delta clA r) (nth [::] clB i) * delta clB i (skip j s)) =
          alt (alt (delta clA r)) s; last by rewrite alt_alt mulr0.
apply: eq_bigr => j _; rewrite -mulr_sumr; congr (_ * _).
have lt : (index (skip j s) clB < size clB)%N by rewrite index_mem; exact: fin.
rewrite (bigD1 (Ordinal lt)) //= /delta eqxx mulr1 nth_index -?index_mem // big1 ?addr0 // => i ne.
case: eqP => [e|_]; last by rewrite mulr0.
by case/eqP: ne; apply: val_inj.
Qed.

(** well formed columns *)
Lemma skip_inj (s : seq nat) i j : uniq s -> (i < size s)%N -> (j < size s)%N -> skip i s = skip j s -> i = j.
Proof.
elim: s i j => [|x s IH] [|i] [|j] //= /andP [nx u].
- by rewrite skip0 skipS => _ lj e; move: nx; rewrite e mem_head.
- by rewrite skip0 skipS => li _ e; move: nx; rewrite -e mem_head.
- by rewrite !skipS => li lj [] /(IH _ _ u li lj) ->.
Qed.

Lemma bcol_wf cl s : faces_in cl s -> uniq s -> sv_wf (size cl) (bcol cl s).
Proof.
move=> fin u; have zp : unzip1 (bcol cl s) = rowf cl s by rewrite /bcol unzip1_zip // size_rowf size_map size_rowc.
have pr : perm_eq (rowf cl s) [seq index (skip j s) cl | j <- iota 0 (size s)].
  have := perm_map fst (row_fpairs cl s); rewrite -[map fst (zip _ _)]/(unzip1 _) unzip1_zip ?size_rowf ?size_rowc // => h.
  by apply: perm_trans h _; rewrite /fpairs /unzip1 -map_comp perm_refl.
apply/and3P; split.
- rewrite /sv_sorted -[map _ _]/(unzip1 _) zp ltn_sorted_uniq_leq rowf_sorted andbT (perm_uniq pr).
  rewrite map_inj_in_uniq ?iota_uniq // => i j; rewrite !mem_iota !add0n => li lj e.
  apply: (skip_inj u li lj); rewrite -(nth_index [::] (fin i li)) -(nth_index [::] (fin j lj)); by rewrite e.
- rewrite /sv_below; have : all (fun i => i < size cl)%N (unzip1 (bcol cl s)).
    rewrite zp (perm_all _ pr); apply/allP => i /mapP [j]; rewrite mem_iota add0n => lj ->; by rewrite index_mem; exact: fin.
  by rewrite /unzip1 all_map.
- rewrite /sv_nonzero; apply/allP => -[i v]; rewrite /bcol zip_mapr => /mapP [[i' z]].
  rewrite (perm_mem (row_fpairs cl s)) => /mapP [j _ [_ ->]] [_ ->] /=.
  by rewrite rmorphX /= rmorphN /= expf_neq0 // oppr_eq0 oner_neq0.
Qed.
End Alg.
