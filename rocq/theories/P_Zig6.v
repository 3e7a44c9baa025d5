(** Zigzag barcodes: the index lists and the two insertion maps. *)
From mathcomp Require Import all_ssreflect all_algebra zify.
From Verif Require Import Outcome P_Outcome RingTac M_SparseVec M_Perm M_ColMatrix M_Reduce M_Homology M_Induced M_Zigzag
  S_Linalg S_Perm S_Homology S_Induced S_Zigzag S_Fact P_SparseVec P_SparseVec2 P_Pairing P_Reduce P_ColMatrix P_Solve P_Homology
  P_Betti P_Rep P_Induced P_Den P_Zig1.
Set Implicit Arguments.
Unset Strict Implicit.
Unset Printing Implicit Defensive.
Import GRing.Theory.
Local Open Scope ring_scope.

Notation lowbd := M_Zigzag.lowb.
Section Lists.
Local Open Scope nat_scope.
Variables (Ix : seq nat) (i : nat).
Hypothesis so : sorted ltn Ix.

Lemma so_nth x y : x < y -> y < size Ix -> nth 0 Ix x < nth 0 Ix y.
Proof. by move=> xy ys; apply: (sorted_ltn_nth ltn_trans) => //; rewrite inE ?(ltn_trans xy). Qed.

Lemma nth_uppb x : x < size Ix -> (nth 0 Ix x <= i) = (x < uppb Ix i).
Proof.
move=> xs; case: (ltnP x (uppb Ix i)) => h; first by rewrite leqNgt (before_find 0 h).
have hs : uppb Ix i < size Ix by apply: leq_ltn_trans h xs.
have hi : i < nth 0 Ix (uppb Ix i) by apply: (@nth_find _ 0 (fun x => i < x)); rewrite has_find.
apply/negbTE; rewrite -ltnNge; apply: leq_trans hi _; move: h; rewrite leq_eqVlt => /orP[/eqP <- //|h].
exact: ltnW (so_nth h xs).
Qed.

Lemma uppb_size : uppb Ix i <= size Ix. Proof. exact: find_size. Qed.

Lemma size_ins : size (ins_at Ix i) = (size Ix).+1.
Proof. by rewrite /ins_at size_cat /= size_drop size_takel ?uppb_size // addnS subnKC // uppb_size. Qed.
Lemma nth_ins x : nth 0 (ins_at Ix i) x = if x < uppb Ix i then nth 0 Ix x else if x == uppb Ix i then i else nth 0 Ix x.-1.
Proof.
rewrite /ins_at nth_cat size_takel ?uppb_size //; case: (ltngtP x (uppb Ix i)) => h.
- by rewrite nth_take.
- have -> : x - uppb Ix i = (x.-1 - uppb Ix i).+1 by move: h; clear; lia.
  by rewrite /= nth_drop subnKC // -ltnS (ltn_predK h).
- by rewrite h subnn.
Qed.
Lemma mem_ins j : (j \in ins_at Ix i) = (j == i) || (j \in Ix).
Proof. by rewrite /ins_at mem_cat inE orbCA -mem_cat cat_take_drop. Qed.
Lemma sorted_ins : i \notin Ix -> sorted ltn (ins_at Ix i).
Proof.
move=> ni; apply/(sortedP 0) => x; rewrite size_ins !nth_ins => xs.
have ne y : y < size Ix -> nth 0 Ix y != i by move=> ys; apply: contraNneq ni => <-; apply: mem_nth.
case: (ltngtP x (uppb Ix i)) => h.
- have xs' : x < size Ix by apply: leq_trans h uppb_size.
  case: (ltngtP x.+1 (uppb Ix i)) => h'; [|by exfalso; move: h h'; clear; lia|].
    by apply: so_nth => //; apply: leq_trans h' uppb_size.
  by rewrite /= ltn_neqAle ne // nth_uppb.
- have -> : (x.+1 < uppb Ix i) = false by move: h; clear; lia.
  have -> : (x.+1 == uppb Ix i) = false by move: h; clear; lia.
  by apply: so_nth; move: h xs; clear; lia.
- have -> : (x.+1 < uppb Ix i) = false by move: h; clear; lia.
  have -> : (x.+1 == uppb Ix i) = false by move: h; clear; lia.
  rewrite /= h.
  have us : uppb Ix i < size Ix by move: xs; rewrite h.
  by rewrite ltnNge nth_uppb // ltnn.
Qed.
Lemma nth_lt x : i \notin Ix -> x < size Ix -> (nth 0 Ix x < i) = (x < uppb Ix i).
Proof.
move=> ni xs; rewrite -nth_uppb // [RHS]leq_eqVlt; case: eqP => //= e.
by move: ni; rewrite -e mem_nth.
Qed.

(** removing i *)
Lemma lowb_in : i \in Ix -> [/\ lowbd Ix i < size Ix, nth 0 Ix (lowbd Ix i) = i,
   sorted ltn (take (lowbd Ix i) Ix ++ drop (lowbd Ix i).+1 Ix) &
   forall j, (j \in take (lowbd Ix i) Ix ++ drop (lowbd Ix i).+1 Ix) = (j \in Ix) && (j != i)].
Proof.
move=> iI; have hs : has (fun x => i <= x) Ix by apply/hasP; exists i.
have ls : lowbd Ix i < size Ix by rewrite -has_find.
have un : uniq Ix by apply: (sorted_uniq ltn_trans ltnn).
have e : nth 0 Ix (lowbd Ix i) = i.
  apply/eqP; rewrite eqn_leq (nth_find 0 hs) andbT leqNgt; apply/negP => lt.
  have [y ys ey] := nthP 0 iI; have h : y < lowbd Ix i.
    rewrite ltnNge leq_eqVlt; apply/negP => /orP[/eqP h|h]; first by rewrite h ey ltnn in lt.
    by have := so_nth h ys; rewrite ey; move: lt; clear; lia.
  by have := before_find 0 h; rewrite ey leqnn.
have eI : Ix = take (lowbd Ix i) Ix ++ i :: drop (lowbd Ix i).+1 Ix.
  by rewrite -[LHS](cat_take_drop (lowbd Ix i)) (drop_nth 0) // e.
split=> //.
  apply: (subseq_sorted ltn_trans) so; rewrite [X in subseq _ X]eI; apply: cat_subseq => //; exact: subseq_cons.
move=> j; move: un; rewrite {1}eI cat_uniq /= negb_or => /and3P[_ /andP[n1 _] /andP[n2 _]].
rewrite [in RHS]eI !mem_cat inE; case: (eqVneq j i) => [->|_] /=; last by rewrite andbT.
by rewrite (negPf n1) (negPf n2) andbF.
Qed.
End Lists.

Lemma ins_rem (Ix J : seq nat) i : sorted ltn Ix -> sorted ltn J -> i \in Ix -> (forall j, (j \in J) = (j \in Ix) && (j != i)) ->
  Ix = ins_at J i.
Proof.
move=> s1 s2 iI H; apply: (irr_sorted_eq ltn_trans ltnn) => //.
  by apply: sorted_ins => //; rewrite H eqxx andbF.
by move=> j; rewrite mem_ins H; case: (eqVneq j i) => [->|_]; rewrite ?iI ?andbT.
Qed.
Lemma take_last (Ix : seq nat) i : sorted ltn Ix -> i \in Ix -> (forall j, j \in Ix -> (j <= i)%N) ->
  sorted ltn (take (size Ix).-1 Ix) /\ forall j, (j \in take (size Ix).-1 Ix) = (j \in Ix) && (j != i).
Proof.
case/lastP: Ix => [|J x] // so; rewrite size_rcons /= -cats1 take_size_cat // => iI H.
have so' : sorted ltn J by apply: (subseq_sorted ltn_trans) so; apply: subseq_rcons.
have lt j : j \in J -> (j < x)%N.
  move=> jJ; have [y ys <-] := nthP 0%N jJ.
  have := @so_nth (rcons J x) so y (size J) ys; rewrite size_rcons => /(_ (ltnSn _)).
  by rewrite !nth_rcons ys ltnn eqxx.
have ex : i = x.
  apply/eqP; rewrite eqn_leq; have := H x; rewrite mem_cat inE eqxx orbT => /(_ isT) ->; rewrite andbT.
  by move: iI; rewrite mem_cat inE => /orP[/lt/ltnW|/eqP ->].
split=> // j; rewrite mem_cat inE ex; case: (eqVneq j x) => [->|_] /=; last by rewrite orbF andbT.
by rewrite andbF; apply/negP => /lt; rewrite ltnn.
Qed.

Section Maps.
Variable F : fieldType.
Notation O := (ops_of F).
Notation svec := (svec F).
Notation cmat := (cmat F).
Notation nz := (nth [::]).

Definition Wof n (cs : seq svec) (Ix : seq nat) : 'M[F]_(n, size Ix) := \matrix_(i, x) coef (nz cs (nth 0%N Ix x)) i.

Lemma den_cols m n (cs : seq svec) : size cs = n -> all (sv_wf m) cs -> den (CMat m n cs) (mxc m n cs).
Proof. by move=> s w; split=> //; rewrite /cm_wf /= s eqxx. Qed.

Lemma cim_ok n (cs : seq svec) (Ix J : seq nat) j : sorted ltn Ix -> j \notin Ix -> J = ins_at Ix j ->
  exists B (M : 'M[F]_(size J, size Ix)), [/\ cycle_insertion_map O J j = Ok B, den B M &
    Wof n cs Ix = Wof n cs J *m M].
Proof.
move=> so nj eJ; have sJ : size J = (size Ix).+1 by rewrite eJ size_ins.
set us := [seq sv_unit O (if (nth 0%N J k < j)%N then k else k.+1) | k <- iota 0 (size Ix)].
have -> : cycle_insertion_map O J j = Ok (CMat (size Ix).+1 (size Ix) us) by rewrite /cycle_insertion_map sJ.
have su : size us = size Ix by rewrite size_map size_iota.
have nu x : (x < size Ix)%N -> nz us x = sv_unit O (if (x < uppb Ix j)%N then x else x.+1).
  move=> xs; rewrite (nth_map 0%N) ?size_iota // nth_iota // add0n eJ; congr sv_unit.
  rewrite nth_ins; case: (ltngtP x (uppb Ix j)) => h; first by rewrite nth_lt ?h.
    rewrite nth_lt //; last by move: xs h; clear; lia.
    by rewrite ltnNge -ltnS (ltn_predK h) h.
  by rewrite ltnn.
exists (CMat (size Ix).+1 (size Ix) us), (mxc (size J) (size Ix) us); split=> //.
  rewrite -sJ; apply: den_cols => //; apply/(all_nthP [::]) => x; rewrite su => xs; rewrite nu //.
  by apply: sv_wf_unit; rewrite sJ; case: ifP => _; rewrite ?ltnS // ltnW.
apply/matrixP => r x; rewrite !mxE.
have lx : ((if (x < uppb Ix j)%N then x : nat else x.+1) < size J)%N by rewrite sJ; case: ifP => _; rewrite ?ltnS // ltnW.
rewrite (bigD1 (Ordinal lx)) //= big1 ?addr0.
  rewrite !mxE /= nu // coef_unit eqxx mulr1; congr (coef (nz cs _) _).
  rewrite eJ nth_ins; case: (ltnP x (uppb Ix j)) => h; first by rewrite h.
  by rewrite ltnNge (leqW h) /= gtn_eqF.
move=> y ne; rewrite !mxE nu // coef_unit; case: eqP => [e|_]; last by rewrite mulr0.
by case/eqP: ne; apply: val_inj.
Qed.

Lemma bim_fold (Ix : seq nat) i (v : svec) n : sorted ltn Ix -> i \notin Ix -> (n <= size Ix)%N ->
  exists cs, [/\ ofold (bim_step O Ix i v) (nseq (size Ix).+1 [::], false) (iota 0 n) = Ok (cs, uppb Ix i < n)%N,
    size cs = (size Ix).+1 &
    forall x, nz cs x = if (x < minn n (uppb Ix i))%N then sv_unit O x else
       if (uppb Ix i < n)%N && (x == uppb Ix i) then v else if (uppb Ix i < x <= n)%N then sv_unit O x.-1 else [::]].
Proof.
move=> so ni; elim: n => [|n IH] nI.
  exists (nseq (size Ix).+1 [::]); split=> //; first by rewrite size_nseq.
  move=> x; rewrite nth_nseq min0n !ltn0 andFb; case: ifP => _; case: ifP => //; clear; lia.
have [cs [e s H]] := IH (ltnW nI).
have E : iota 0 n.+1 = iota 0 n ++ [:: n] by rewrite -addn1 iotaD.
rewrite E ofold_cat e; cbn [obind ofold]; rewrite /bim_step (oget_nth 0%N) //; cbn [obind fst snd].
rewrite nth_lt //; case: (ltngtP n (uppb Ix i)) => h.
- rewrite (oset_Ok [::]) ?s; last by apply: leqW.
  cbn [obind].
  have u1 : (uppb Ix i < n.+1)%N = false by move: h; clear; lia.
  have u0 : (uppb Ix i < n)%N = false by move: h; clear; lia.
  rewrite !u1.
  eexists; split; first by []; first by rewrite size_set_nth s; apply/maxn_idPr; apply: leqW.
  move=> x; rewrite nth_set_nth /= H; case: (eqVneq x n) => [->|ne].
    by rewrite (_ : (n < minn _ _)%N) //; move: h; clear; lia.
  have -> : (x < minn n (uppb Ix i))%N = (x < minn n.+1 (uppb Ix i))%N by move: h ne; clear; lia.
  by case: ifP => // _; rewrite u0 !andFb; case: ifP; case: ifP => //; move: h; clear; lia.
- cbn [obind]; rewrite (oset_Ok [::]) ?s //; cbn [obind].
  rewrite (_ : (uppb Ix i < n.+1)%N); last exact: ltnW.
  eexists; split; first by []; first by rewrite size_set_nth s; apply/maxn_idPr.
  move=> x; rewrite nth_set_nth /= H h; case: (eqVneq x n.+1) => [->|ne].
    have -> : (n.+1 < minn n.+1 (uppb Ix i))%N = false by move: h; clear; lia.
    rewrite gtn_eqF; last by apply: ltnW.
    by rewrite ltnS (ltnW h) leqnn.
  have -> : (x < minn n (uppb Ix i))%N = (x < minn n.+1 (uppb Ix i))%N by move: h ne; clear; lia.
  by rewrite /=; have -> : (x <= n)%N = (x <= n.+1)%N by move: ne; clear; lia.
- cbn [obind]; rewrite (oset_Ok [::]) ?s; last by apply: leqW.
  cbn [obind]; rewrite (oset_Ok [::]) ?size_set_nth ?s; last by move: nI; clear; lia.
  cbn [obind]; rewrite -h ltnSn.
  eexists; split; first by []; first by rewrite !size_set_nth s; move: nI; clear; lia.
  move=> x; rewrite !nth_setE H -h ltnn andTb andFb; case: (eqVneq x n.+1) => [->|ne].
    by rewrite (_ : (n.+1 < minn _ _)%N = false) ?ltnSn ?leqnn ?gtn_eqF //; clear; lia.
  case: (eqVneq x n) => [->|ne2]; first by rewrite (_ : (n < minn _ _)%N = false) //; clear; lia.
  have -> : (x < minn n n)%N = (x < minn n.+1 n)%N by clear; lia.
  by case: ifP => // _; case: ifP; case: ifP => //; move: ne ne2; clear; lia.
Qed.

Lemma bim_ok (n : nat) (cs : seq svec) (Ix J : seq nat) i v : sorted ltn Ix -> i \notin Ix -> J = ins_at Ix i -> sv_wf (size Ix) v ->
  exists B (M : 'M[F]_(size Ix, size J)), [/\ boundary_insertion_map O Ix i v = Ok B, den B M &
    forall x : 'I_(size J), if nth 0%N J x == i then col x M = vec (size Ix) v else col x (Wof n cs J) = Wof n cs Ix *m col x M].
Proof.
move=> so ni eJ Wv; have sJ : size J = (size Ix).+1 by rewrite eJ size_ins.
rewrite /boundary_insertion_map; have [cs0 [-> s0 H0]] := bim_fold v so ni (leqnn _); cbn [obind fst snd].
have us : (uppb Ix i <= size Ix)%N by exact: uppb_size.
have [us1 e1 [s1 H1]] : exists2 us1, (if (uppb Ix i < size Ix)%N then Ok cs0 else oset cs0 (size Ix) v) = Ok us1 &
   size us1 = (size Ix).+1 /\ forall x, (x <= size Ix)%N -> nz us1 x = if (x < uppb Ix i)%N then sv_unit O x else if x == uppb Ix i then v else sv_unit O x.-1.
  case: (ltnP (uppb Ix i) (size Ix)) => h.
    exists cs0 => //; split=> // x xs; rewrite H0 (minn_idPr us) h /=; case: (ltngtP x (uppb Ix i)) => // h'; by rewrite xs.
  have eu : uppb Ix i = size Ix by apply/eqP; rewrite eqn_leq us.
  rewrite (oset_Ok [::]) ?s0 //; eexists; first by []; split; first by rewrite size_set_nth s0; apply/maxn_idPr.
  move=> x xs; rewrite nth_set_nth /= H0 eu minnn ltnn /=; case: (eqVneq x (size Ix)) => [->|ne]; first by rewrite ltnn.
  by rewrite ltn_neqAle ne xs.
rewrite e1; cbn [obind]; exists (CMat (size Ix) (size Ix).+1 us1), (mxc (size Ix) (size J) us1); split=> //.
  rewrite -sJ; apply: den_cols; rewrite ?sJ //; apply/(all_nthP [::]) => x; rewrite s1 ltnS => xs; rewrite H1 //.
  case: ifP => h; first by apply: sv_wf_unit; apply: leq_trans h us.
  by case: eqP => // ne; apply: sv_wf_unit; move: xs h ne; clear; lia.
move=> x; have xs : (x <= size Ix)%N by rewrite -ltnS -sJ.
have cM (y : nat) : nz us1 x = sv_unit O y -> (y < size Ix)%N -> col x (mxc (size Ix) (size J) us1) = vec _ (sv_unit O y).
  by move=> e _; apply/colP => r; rewrite !mxE e.
have cW (y : nat) : (y < size Ix)%N -> Wof n cs Ix *m vec _ (sv_unit O y) = vec n (nz cs (nth 0%N Ix y)).
  move=> ys; apply/colP => r; rewrite !mxE (bigD1 (Ordinal ys)) //= big1 ?addr0.
    by rewrite !mxE coef_unit eqxx mulr1.
  move=> z ne; rewrite !mxE coef_unit; case: eqP => [e|_]; last by rewrite mulr0.
  by case/eqP: ne; apply: val_inj.
have eW : col x (Wof n cs J) = vec n (nz cs (nth 0%N J x)) by apply/colP => r; rewrite !mxE.
have eN : nth 0%N J x = if (x < uppb Ix i)%N then nth 0%N Ix x else if (x : nat) == uppb Ix i then i else nth 0%N Ix x.-1.
  by move: (nat_of_ord x) => y; rewrite eJ nth_ins.
have := H1 x xs; rewrite eW eN.
have ne y : (y < size Ix)%N -> (nth 0%N Ix y == i) = false by move=> ys; apply: contraNF ni => /eqP <-; apply: mem_nth.
case: (ltngtP x (uppb Ix i)) => h.
- move=> e; have xs' : (x < size Ix)%N by apply: leq_trans h us.
  by rewrite ne // (cM _ e) // cW.
- move=> e; have xs' : (x.-1 < size Ix)%N by rewrite (ltn_predK h).
  by rewrite ne // (cM _ e) // cW.
- by move=> e; rewrite eqxx; apply/colP => r; rewrite !mxE e.
Qed.
End Maps.
