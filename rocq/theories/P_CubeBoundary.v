(** Boundary matrices of cubical complexes; skeleta. *)
From mathcomp Require Import all_ssreflect all_algebra zify.
From Verif Require Import Outcome M_SparseVec M_Perm M_ColMatrix M_CSC M_Simplicial M_Cubical S_Perm S_Linalg S_Homology P_Outcome P_Perm P_Sort P_SparseVec P_SparseVec2 P_Trie P_Simplicial P_ScOps P_ScBuild P_ScBoundary P_CubeList P_Cubical P_CubeOps.
Set Implicit Arguments.
Unset Strict Implicit.
Unset Printing Implicit Defensive.
Import GRing.Theory.

(** ** the CSCMatrix constructor sorts each column *)
Definition srt (f : seq nat) : seq nat := [seq nth 0 f p | p <- sperm f].
Definition srtc (T : Type) (t0 : T) (f : seq nat) (c : seq T) : seq T := [seq nth t0 c p | p <- sperm f].

Lemma size_srt f : size (srt f) = size f. Proof. by rewrite size_map size_sperm. Qed.
Lemma size_srtc (T : Type) (t0 : T) f c : size (srtc t0 f c) = size f. Proof. by rewrite size_map size_sperm. Qed.

Lemma srt_pairs (T : eqType) (t0 : T) f c : size f = size c -> perm_eq (zip (srt f) (srtc t0 f c)) (zip f c).
Proof.
move=> e; rewrite /srt /srtc zip_map.
have -> : zip f c = [seq (nth 0 f p, nth t0 c p) | p <- iota 0 (size f)].
  by rewrite -zip_map map_nth_iota e map_nth_iota.
by apply: perm_map; exact: sperm_iota.
Qed.

Section Sort.
Variable T : Type.
Variable t0 : T.
Lemma sort_col_gen m n (cp : seq nat) (FS : seq (seq nat)) (CS : seq (seq T)) w j :
  (forall i, i < n.+1 -> nth 0 cp i = (w * i)%N) -> size cp = n.+1 -> size FS = n -> size CS = n ->
  all (fun s => size s == w) FS -> all (fun s => size s == w) CS -> j < n ->
  csc_sort_col (CSC m n cp (flatten FS) (flatten CS)) j =
  Ok (CSC m n cp (flatten (set_nth [::] FS j (srt (nth [::] FS j)))) (flatten (set_nth [::] CS j (srtc t0 (nth [::] FS j) (nth [::] CS j))))).
Proof.
move=> hcp scp sF sC aF aC lj; rewrite /csc_sort_col /= (oget_nth 0) ?scp ?(leqW lj) //; cbn [obind].
rewrite (oget_nth 0) ?scp ?ltnS //; cbn [obind]; rewrite !hcp ?ltnS ?(ltnW lj) //.
have -> : (w * j.+1 - w * j = w)%N by rewrite mulnS addnK.
have lF : j < size FS by rewrite sF.
have lC : j < size CS by rewrite sC.
set A := flatten (take j FS); set B := flatten (take j CS).
have sA : size A = (w * j)%N.
  by rewrite (@size_flat _ w) ?size_takel ?sF ?(ltnW lj) //; apply/allP => s /mem_take; exact: (allP aF).
have sB : size B = (w * j)%N.
  rewrite (@size_flat _ w) ?size_takel ?sC ?(ltnW lj) //.
  by rewrite -(cat_take_drop j CS) all_cat in aC; case/andP: aC.
have eF : flatten FS = A ++ nth [::] FS j ++ flatten (drop j.+1 FS).
  by rewrite -{1}(cat_take_drop j FS) flatten_cat (drop_nth [::] lF).
have eC : flatten CS = B ++ nth [::] CS j ++ flatten (drop j.+1 CS).
  by rewrite -{1}(cat_take_drop j CS) flatten_cat (drop_nth [::] lC).
have wF : size (nth [::] FS j) = w by apply/eqP/(allP aF)/mem_nth.
have wC : size (nth [::] CS j) = w by apply/eqP/(all_nthP [::] aC).
have := @range_sort_ok T t0 A B (nth [::] FS j) (nth [::] CS j) (flatten (drop j.+1 FS)) (flatten (drop j.+1 CS)).
rewrite sA sB wF wC -eF -eC => -> //; cbn [obind]; cbn [fst snd].
by rewrite !set_nthE sF sC lj !flatten_cat /=.
Qed.

Definition srows (FS : seq (seq nat)) := map srt FS.
Definition scoefs (FS : seq (seq nat)) (CS : seq (seq T)) := [seq srtc t0 (nth [::] FS j) (nth [::] CS j) | j <- iota 0 (size FS)].

Lemma csc_make_sort m n cp (FS : seq (seq nat)) (CS : seq (seq T)) w :
  (forall i, i < n.+1 -> nth 0 cp i = (w * i)%N) -> size cp = n.+1 -> size FS = n -> size CS = n ->
  all (fun s => size s == w) FS -> all (fun s => size s == w) CS ->
  csc_make m n cp (flatten FS) (flatten CS) = Ok (CSC m n cp (flatten (srows FS)) (flatten (scoefs FS CS))).
Proof.
move=> h1 h2 h3 h4 h5 h6; rewrite /csc_make /csc_sort [c_n _]/=.
pose Fj j := mkseq (fun i => if i < j then srt (nth [::] FS i) else nth [::] FS i) n.
pose Cj j := mkseq (fun i => if i < j then srtc t0 (nth [::] FS i) (nth [::] CS i) else nth [::] CS i) n.
have wF i : i < n -> size (nth [::] FS i) = w by move=> li; apply/eqP/(allP h5)/mem_nth; rewrite h3.
have wC i : i < n -> size (nth [::] CS i) = w by move=> li; apply/eqP/(all_nthP [::] h6); rewrite h4.
have [||r E Er] := @ofold_iota_ind (csc T) (@csc_sort_col T) (fun j A => A = CSC m n cp (flatten (Fj j)) (flatten (Cj j))) n (CSC m n cp (flatten FS) (flatten CS)).
- by congr (CSC _ _ _ (flatten _) (flatten _)); rewrite -[LHS](mkseq_nth [::]) ?h3 ?h4; apply: eq_mkseq.
- move=> j A lj ->; rewrite (@sort_col_gen m n cp (Fj j) (Cj j) w j h1 h2) ?size_mkseq //.
  + eexists; first reflexivity.
    rewrite !nth_mkseq // ltnn; congr (CSC _ _ _ (flatten _) (flatten _)).
      apply: (@eq_from_nth _ [::]) => [|i]; rewrite size_set_nth !size_mkseq; first by apply/maxn_idPr.
      rewrite (maxn_idPr lj) => li; rewrite nth_set_nth /= !nth_mkseq // ltnS.
      by case: (ltngtP i j) => [_|_|->].
    apply: (@eq_from_nth _ [::]) => [|i]; rewrite size_set_nth !size_mkseq; first by apply/maxn_idPr.
    rewrite (maxn_idPr lj) => li; rewrite nth_set_nth /= !nth_mkseq // ltnS.
    by case: (ltngtP i j) => [_|_|->].
  + apply/allP => u /mapP [i]; rewrite mem_iota add0n => li ->; case: ifP => _; by rewrite ?size_srt wF.
  + apply/(all_nthP [::]) => i; rewrite size_mkseq => li; rewrite nth_mkseq //; case: ifP => _; by rewrite ?size_srtc ?wF ?wC.
rewrite E Er; congr (Ok (CSC _ _ _ (flatten _) (flatten _))).
  apply: (@eq_from_nth _ [::]) => [|i]; rewrite size_mkseq ?size_map // => li.
  by rewrite nth_mkseq // li (nth_map [::]) ?h3.
by rewrite /Cj /scoefs h3; apply/eq_in_map => i; rewrite mem_iota add0n => /= li; rewrite li.
Qed.
End Sort.

(** ** boundary_csc *)
Definition ccol (T : Type) (conv : int -> T) (cl : seq (seq nat)) (s : seq nat) : seq (nat * T) :=
  zip (srt (cidx cl s)) (map conv (srtc 0%R (cidx cl s) (ccf s))).

Lemma cboundary_ok D cl X k : cinv D cl X -> k.+1 <= D -> exists A,
  cc_boundary_csc X k.+1 = Ok A /\
  forall (T' : Type) (conv : int -> T'), cm_of_csc conv A =
    Ok (CMat (size (cl k)) (size (cl k.+1)) [seq ccol conv (cl k) s | s <- cl k.+1]).
Proof.
move=> iv lk; have [[q1 q2 q3 q4 q5] _ Wi Ci _] := iv; have [_ _ [w3 _ _] [w5 w6]] := Wi k.+1 lk.
rewrite /cc_boundary_csc; have := cncell_ok iv (ltnW lk); have := cncell_ok iv lk; rewrite /cc_ncell => -> ->; cbn [obind].
rewrite (oget_nth [::]) ?q3 // (oget_nth [::]) ?q4 //; cbn [obind]; rewrite w5 w6.
set n := size (cl k.+1); set cp := [seq _ | j <- iota 0 n.+1].
have h1 i : i < n.+1 -> nth 0 cp i = (2 * k.+1 * i)%N.
  by move=> li; rewrite (nth_map 0) ?size_iota // nth_iota.
have h2 : size cp = n.+1 by rewrite size_map size_iota.
have sz s : s \in cl k.+1 -> size (cfaces s) = (2 * k.+1)%N.
  by move=> si; have /andP [v /eqP d] := allP w3 _ si; rewrite (cfaces_size v) d.
set FS := [seq cidx (cl k) s | s <- cl k.+1]; set CS := [seq ccf s | s <- cl k.+1].
have a1 : all (fun s => size s == 2 * k.+1)%N FS by apply/allP => u /mapP [s si ->]; rewrite size_cidx sz.
have a2 : all (fun s => size s == 2 * k.+1)%N CS by apply/allP => u /mapP [s si ->]; rewrite size_ccf sz.
have s1 : size FS = n by rewrite size_map.
have s2 : size CS = n by rewrite size_map.
rewrite (csc_make_sort (0%R : int) _ h1 h2 s1 s2 a1 a2); eexists; split; first reflexivity.
move=> T' conv; have nF j : j < n -> nth [::] FS j = cidx (cl k) (nth [::] (cl k.+1) j) by move=> lj; rewrite (nth_map [::]).
have nC j : j < n -> nth [::] CS j = ccf (nth [::] (cl k.+1) j) by move=> lj; rewrite (nth_map [::]).
have b1 : all (fun s => size s == 2 * k.+1)%N (srows FS) by rewrite all_map; apply: sub_all a1 => u /= /eqP; rewrite size_srt => ->.
have b2 : all (fun s => size s == 2 * k.+1)%N (scoefs (0%R : int) FS CS).
  by apply/allP => u /mapP [j]; rewrite mem_iota add0n s1 => lj ->; rewrite size_srtc nF // size_cidx sz // mem_nth.
have z1 : size (srows FS) = n by rewrite size_map.
have z2 : size (scoefs (0%R : int) FS CS) = n by rewrite size_map size_iota.
rewrite (cm_of_csc_ok (0%R : int) conv _ h1 h2 z1 z2 b1 b2); congr (Ok (CMat _ _ _)).
apply: (@eq_from_nth _ [::]); first by rewrite !size_map size_iota.
move=> i; rewrite size_map size_iota => li; rewrite (nth_map 0) ?size_iota // nth_iota // add0n (nth_map [::]) // /ccol.
by rewrite /srows (nth_map [::]) ?s1 // /scoefs (nth_map 0) ?size_iota ?s1 // nth_iota ?s1 // add0n nF // nC.
Qed.

Section Alg.
Variable F : fieldType.
Local Open Scope ring_scope.
Notation bcolc := (@ccol F (fun z : int => z%:~R)).

Lemma ccol_pairs cl s : perm_eq (bcolc cl s) [seq (index f.1 cl, f.2%:~R) | f <- cfaces s].
Proof.
rewrite /ccol zip_mapr; have e : size (cidx cl s) = size (ccf s) by rewrite !size_map.
apply: perm_trans (perm_map _ (srt_pairs (0 : int) e)) _.
by rewrite /cidx /ccf zip_map -map_comp perm_refl.
Qed.

Lemma coef_ccol cl s r : coef (bcolc cl s) r = cbd (fun t => ((index t cl == r)%:R : F)) s.
Proof.
rewrite (coef_perm (ccol_pairs cl s)) /coef big_map big_mkcond; apply: eq_bigr => f _ /=.
by case: eqP => _; rewrite ?mulr1 ?mulr0.
Qed.

Lemma ccol_square D (clA clB : seq (seq nat)) s (r : nat) : size s = (2 * D)%N -> cfin clB s ->
  \sum_(i < size clB) coef (bcolc clA (nth [::] clB i)) r * coef (bcolc clB s) i = 0.
Proof.
move=> ss fin; set g := fun t => ((index t clA == r)%:R : F).
have E (i : 'I_(size clB)) : coef (bcolc clA (nth [::] clB i)) r * coef (bcolc clB s) i =
    \sum_(f <- cfaces s) f.2%:~R * (cbd g (nth [::] clB i) * (index f.1 clB == i)%:R).
  rewrite !coef_ccol {2}/cbd mulr_sumr; apply: eq_bigr => f _; by rewrite mulrCA.
rewrite (eq_bigr _ (fun i _ => E i)) exchange_big /=.
transitivity (\sum_(f <- cfaces s) f.2%:~R * cbd g f.1); last exact: (cbd_cbd g ss).
rewrite big_seq [RHS]big_seq; apply: eq_bigr => f fi; rewrite -mulr_sumr; congr (_ * _).
have lt : (index f.1 clB < size clB)%N by rewrite index_mem; exact: fin.
rewrite (bigD1 (Ordinal lt)) //= eqxx mulr1 nth_index -?index_mem // big1 ?addr0 // => i ne.
case: eqP => [e|_]; last by rewrite mulr0.
by case/eqP: ne; apply: val_inj.
Qed.

Lemma ccol_wf cl s : cfin cl s -> sv_wf (size cl) (bcolc cl s).
Proof.
move=> fin; have zp : unzip1 (bcolc cl s) = srt (cidx cl s) by rewrite /ccol unzip1_zip // size_srt size_map size_srtc.
have pr : perm_eq (srt (cidx cl s)) (cidx cl s).
  have := perm_map (nth 0%N (cidx cl s)) (sperm_iota (cidx cl s)); by rewrite map_nth_iota.
apply/and3P; split.
- rewrite /sv_sorted -[map _ _]/(unzip1 _) zp ltn_sorted_uniq_leq row_sorted andbT (perm_uniq pr).
  rewrite /cidx (_ : [seq _ | f <- _] = [seq index t cl | t <- map fst (cfaces s)]); last by rewrite -map_comp.
  rewrite map_inj_in_uniq ?cfaces_uniq // => _ _ /mapP [f fi ->] /mapP [g gi ->] e.
  by rewrite -(nth_index [::] (fin f fi)) -(nth_index [::] (fin g gi)) e.
- rewrite /sv_below; have : all (fun i => i < size cl)%N (unzip1 (bcolc cl s)).
    by rewrite zp (perm_all _ pr); apply/allP => i /mapP [f fi ->]; rewrite index_mem; exact: fin.
  by rewrite /unzip1 all_map.
- rewrite /sv_nonzero (perm_all _ (ccol_pairs cl s)); apply/allP => _ /mapP [f /cfaces_coef [h|h] ->] /=; rewrite h ?oner_neq0 //.
  by rewrite mulrNz oppr_eq0 oner_neq0.
Qed.
End Alg.

(** ** skeleton *)
Section Skel.
Variable D : nat.
Hypothesis D0 : 0 < D.

Lemma skel_dim cl X clY Y d : cinv D cl X -> cinv D clY Y -> d <= D -> (forall j, j < d -> clY j = cl j) -> clY d = [::] ->
  exists Y' clY', [/\ ofold (fun Y c => do r <- cc_add_unsafe Y c; Ok r.1) Y (cl d) = Ok Y', cinv D clY' Y', clY' d = cl d &
    forall j, j != d -> clY' j = clY j].
Proof.
move=> iv ivY ld low c0; have [al un cf] := cinv_Wc d iv.
have H : forall l2 l1 clY Y, cl d = l1 ++ l2 -> cinv D clY Y -> (forall j, j < d -> clY j = cl j) -> clY d = l1 ->
  exists Y' clY', [/\ ofold (fun Y c => do r <- cc_add_unsafe Y c; Ok r.1) Y l2 = Ok Y', cinv D clY' Y', clY' d = cl d &
    forall j, j != d -> clY' j = clY j].
  elim=> [|s l2 IH] l1 {ivY low c0}clY {}Y e ivY low c0; first by exists Y, clY; split=> //; rewrite c0 e cats0.
  have si : s \in cl d by rewrite e mem_cat mem_head orbT.
  have /andP [v /eqP ds] := allP al _ si.
  have ns : s \notin clY (cdim s) by rewrite ds c0; move: un; rewrite e cat_uniq => /and3P [_ /hasPn /(_ s (mem_head _ _))].
  have := add_unsafe_ok D0 ivY v ns; rewrite ds.
  have -> : all (fun f => f.1 \in clY (cdim f.1)) (cfaces s).
    apply/allP => f fi; have [_ e1] := cfaces_val v fi; rewrite ds in e1; rewrite low ?e1 //.
    by move: (cf); rewrite e1 => /(_ s); rewrite -e1 => /(_ si); apply.
  move=> [Y1 E1 iv1]; rewrite ofold_cons E1; cbn [obind]; cbn [fst].
  have [|||Y' [clY' [E' iv' e' st]]] := IH (rcons l1 s) _ _ _ iv1.
  - by rewrite cat_rcons.
  - by move=> j lj; rewrite /upd (ltn_eqF lj); exact: low.
  - by rewrite /upd eqxx c0.
  by exists Y', clY'; split=> // j nj; rewrite st // /upd (negbTE nj).
exact: (H (cl d) [::] clY Y).
Qed.

Lemma skeleton_ok cl X k : cinv D cl X -> k <= D -> exists Y clY,
  [/\ cc_skeleton X k = Ok Y, cinv D clY Y & forall j, clY j = if j <= k then cl j else [::]].
Proof.
move=> iv lk; have [[_ _ _ _ q5] _ _ _ _] := iv; rewrite /cc_skeleton q5 ltnNge lk; cbn [negb].
have H : forall n, n <= k.+1 -> exists Y clY, [/\ ofold (fun Y d => do cs <- cc_cubes X d; ofold (fun Y c => do r <- cc_add_unsafe Y c; Ok r.1) Y cs)
    (cc_new D) (iota 0 n) = Ok Y, cinv D clY Y & forall j, clY j = if j < n then cl j else [::]].
  elim=> [|n IH] ln; first by exists (cc_new D), (fun _ => [::]); split=> //; exact: cinv_new.
  have [Y [clY [E ivY cY]]] := IH (ltnW ln); have ldn : n <= D by apply: leq_trans lk.
  have [||Y' [clY' [E' iv' e' st]]] := skel_dim iv ivY ldn.
  - by move=> j lj; rewrite cY lj.
  - by rewrite cY ltnn.
  exists Y', clY'; split=> //.
    by rewrite -[n.+1]addn1 iotaD ofold_cat E; cbn [obind]; rewrite add0n ofold_cons (ccubes_ok D0 iv ldn); cbn [obind]; rewrite E'.
  move=> j; case: (eqVneq j n) => [->|nj]; first by rewrite e' ltnSn.
  by rewrite st // cY [in RHS]ltnS [in RHS]leq_eqVlt (negbTE nj).
have [Y [clY [E ivY cY]]] := H k.+1 (leqnn _); by exists Y, clY.
Qed.
End Skel.
