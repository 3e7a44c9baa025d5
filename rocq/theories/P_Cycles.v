(** remove_extra_cycles (C37). *)
From mathcomp Require Import all_ssreflect all_algebra zify.
From Verif Require Import Outcome P_Outcome RingTac M_SparseVec M_Perm M_ColMatrix M_Reduce M_Homology M_Induced
  S_Linalg S_Perm S_Homology S_Induced P_SparseVec P_Pairing P_Reduce P_ColMatrix P_Homology P_Betti P_Rep P_Induced.
From Coq Require Import Ring Field.
Set Implicit Arguments.
Unset Strict Implicit.
Unset Printing Implicit Defensive.
Import GRing.Theory.
Local Open Scope ring_scope.

Section S.
Variable F : fieldType.
Notation O := (ops_of F).
Add Field Ff : (F_field_theory F).
Notation svec := (svec F).
Notation inds v := [seq p.1 | p <- v].
Implicit Types (c d : svec).

Lemma sv_sorted_cat c d : sv_sorted (c ++ d) =
  [&& sv_sorted c, sv_sorted d & all (fun p : nat * F => all (fun q : nat * F => (p.1 < q.1)%N) d) c].
Proof.
elim: c => [|p c IH]; first by rewrite /= andbT.
rewrite cat_cons !sv_sorted_cons IH map_cat all_cat /= -!andbA.
have -> : all (ltn p.1) (inds d) = all (fun q : nat * F => (p.1 < q.1)%N) d by rewrite all_map.
by case: (all (ltn p.1) _) => //=; case: (all _ d); rewrite ?andbF //= ?andbF.
Qed.

(** adding a multiple of a vector that ends at index k touches only indices <= k *)
Lemma axpy_zip m a d c A k v S : sv_wf m c -> sv_wf m d -> c = A ++ (k, v) :: S ->
  (forall i, (k < i)%N -> coef d i = 0) ->
  exists A', axpy O a d c = A' ++ (if v + a * coef d k == 0 then [::] else [:: (k, v + a * coef d k)]) ++ S /\
    all (fun p : nat * F => (p.1 < k)%N) A'.
Proof.
move=> Wc Wd E D; have /and3P[Sr Br Nr] := sv_wf_axpy a Wc Wd; set r := axpy O a d c in Sr Br Nr *.
have /and3P[Sc Bc Nc] := Wc.
have := Sc; rewrite E sv_sorted_cat => /and3P[SA]; rewrite sv_sorted_cons => /andP[kS SS] /allP AS.
have ck : coef c k = v by rewrite (coef_in (p := (k, v)) Sc) // E mem_cat mem_head orbT.
have NS : sv_nonzero S by move: Nc; rewrite E /sv_nonzero all_cat /= => /andP[_ /andP[]].
exists [seq p <- r | (p.1 < k)%N]; split; last by apply/allP => p; rewrite mem_filter => /andP[].
set mid := (if _ then _ else _); have Emid : forall p, p \in mid -> p.1 = k.
  by rewrite /mid; case: ifP => // _ p; rewrite mem_seq1 => /eqP ->.
have cm i : coef mid i = if i == k then v + a * coef d k else 0.
  rewrite /mid; case: ifP => [/eqP ->|_]; first by rewrite coef_nil if_same.
  by rewrite coef_cons coef_nil addr0 /= eq_sym.
apply: sv_ext => //.
- rewrite sv_sorted_cat sv_sorted_filter // sv_sorted_cat SS.
  have -> : sv_sorted mid by rewrite /mid; case: ifP.
  have -> : all (fun p : nat * F => all (fun q : nat * F => (p.1 < q.1)%N) S) mid.
    by apply/allP => p /Emid ->; move: kS; rewrite all_map.
  apply/allP => p; rewrite mem_filter all_cat => /andP[pk _]; apply/andP; split.
    by apply/allP => q /Emid ->.
  apply/allP => q qS; apply: ltn_trans pk _; by move: kS; rewrite all_map => /allP/(_ q qS).
- move: NS; rewrite /sv_nonzero !all_cat => ->; rewrite andbT (all_filter_sub _ Nr) /mid; case: ifP => //= e.
  by rewrite e.
move=> i; rewrite !coef_cat (coef_filter (fun x => x < k)%N) cm /r coef_axpy.
have cS : coef c i = coef A i + ((if k == i then v else 0) + coef S i) by rewrite E coef_cat coef_cons.
have cA0 : (k <= i)%N -> coef A i = 0.
  move=> ki; apply: coef0_notin; apply/negP => /mapP[p pA Ep].
  have /andP[lt _] : (p.1 < k)%N && all (fun q : nat * F => p.1 < q.1)%N S := AS p pA.
  by move: lt; rewrite ltnNge -Ep ki.
have cS0 : (i <= k)%N -> coef S i = 0.
  move=> ik; apply: coef0_notin; apply/negP => iS; have /= := allP kS i iS; move: ik; clear; lia.
case: (ltngtP i k) => ik.
- by rewrite cS0 1?ltnW // !addr0.
- by rewrite D // mulr0 addr0 !add0r cS cA0 1?ltnW // (ltn_eqF ik) !add0r.
- by move: cS0; rewrite ik ck => -> //; rewrite addr0 add0r.
Qed.

Definition udiag n (U : seq svec) : Prop :=
  [/\ size U = n, all (sv_wf n) U & forall k, (k < n)%N -> last_ind (nth [::] U k) = Some k].

Lemma udiag_nz n U k : udiag n U -> (k < n)%N ->
  [/\ coef (nth [::] U k) k != 0, lastnz (nth [::] U k) = Ok (k, coef (nth [::] U k) k) &
      forall i, (k < i)%N -> coef (nth [::] U k) i = 0].
Proof.
move=> [s W L] kn; have Wk := nth_wf k W; have /and3P[Sk _ Nk] := Wk.
have [nz H] := (last_ind_spec k Sk Nk).1 (L k kn); split=> //.
have [|i [v [-> Li _ cv _]]] := lastnz_spec Wk; first by move=> E; move: (L k kn); rewrite E.
by move: Li; rewrite L // => -[e]; subst i; rewrite cv.
Qed.

Lemma udiag_set n U j k a : udiag n U -> (k < j)%N -> (j < n)%N ->
  udiag n (set_nth [::] U j (axpy O a (nth [::] U k) (nth [::] U j))).
Proof.
move=> UD kj jn; have [s W L] := UD; have jU : (j < size U)%N by rewrite s.
have Wr := sv_wf_axpy a (nth_wf j W) (nth_wf k W).
have kn := ltn_trans kj jn.
split; first by rewrite size_set_nth s; apply/maxn_idPr.
  exact: set_nth_wf.
move=> i iN; rewrite nth_set_nth /=; case: (i =P j) => [->|_]; last exact: L.
have /and3P[Sr _ Nr] := Wr; apply/(last_ind_spec j Sr Nr).
have [nj _ zj] := udiag_nz UD jn; have [_ _ zk] := udiag_nz UD kn.
split; first by rewrite coef_axpy zk // mulr0 addr0.
by move=> i' lt; rewrite coef_axpy zj // zk ?(ltn_trans kj lt) // mulr0 addr0.
Qed.

Lemma rec_colE m n (R : seq svec) fuel U j A S : size R = n -> udiag n U -> (j < n)%N ->
  nth [::] U j = A ++ S -> S != [::] -> all (fun p : nat * F => (p.1 < fuel)%N) A ->
  (forall p, p \in S -> p.1 = j \/ nth [::] R p.1 <> [::]) ->
  exists U', [/\ rec_col O fuel.+1 R U j (size S).+1 = Ok U', udiag n U',
    exists W : 'M[F]_n, [/\ upper W, diag1 W, mxc n n U' = mxc n n U *m W & mxc m n R *m W = mxc m n R],
    (forall i, i != j -> nth [::] U' i = nth [::] U i) &
    exists h T, [/\ nth [::] U' j = h ++ T, (size h <= 1)%N &
      forall p, p \in T -> p.1 = j \/ nth [::] R p.1 <> [::]]].
Proof.
move=> sR; elim: fuel U A S => [|fuel IH] U A S UD jn E SN Af HS; have [s W L] := UD;
  have jU : (j < size U)%N by rewrite s.
  have A0 : A = [::] by case: A Af {E} => [//|p A] /andP[].
  exists U; rewrite [rec_col _ _ _ _ _ _]/= (oget_nth [::]) //; cbn [obind].
  rewrite E A0 /= ltnNge leqnSn; split=> //; last by exists [::], S.
  by exists 1%:M; rewrite !mulmx1; split=> //; [exact: upper1|exact: diag11].
rewrite -[rec_col _ _ _ _ _ _]/(do c <- oget U j; if ((size S).+1 < size c)%N then
      do (k, v) <- oget c (size c - (size S).+1);
      do rk <- oget R k;
      if rk is [::] then
        do uk <- oget U k;
        do (_, w) <- lastnz uk;
        do a <- odiv O v w;
        do U' <- oset U j (axpy O (fopp O a) uk c);
        rec_col O fuel.+1 R U' j (size S).+1
      else rec_col O fuel.+1 R U j (size S).+2
    else Ok U).
rewrite (oget_nth [::]) //; cbn [obind]; rewrite E size_cat.
case: (leqP (size A) 1) => [sA|].
  have -> : ((size S).+1 < size A + size S)%N = false by move: sA; clear; lia.
  exists U; split=> //; last by exists A, S.
  by exists 1%:M; rewrite !mulmx1; split=> //; [exact: upper1|exact: diag11].
case/lastP: A E Af => [//|A [k v]] E Af; rewrite size_rcons => sA.
have -> : ((size S).+1 < (size A).+1 + size S)%N by move: sA; clear; lia.
have -> : ((size A).+1 + size S - (size S).+1 = size A)%N by clear; lia.
rewrite cat_rcons /oget drop_size_cat //; cbn [obind].
have kj : (k < j)%N.
  have Wj := nth_wf j W; have /and3P[Sj _ Nj] := Wj.
  have [_ _ zj] := udiag_nz UD jn.
  have kin : (k, v) \in nth [::] U j by rewrite E cat_rcons mem_cat mem_head orbT.
  have le : (k <= j)%N.
    rewrite leqNgt; apply/negP => jk; have := coef_in Sj kin; rewrite /= zj // => v0.
    by have := allP Nj _ kin; rewrite /= -v0 eqxx.
  rewrite ltn_neqAle le andbT; apply/eqP => e.
  have := Sj; rewrite E cat_rcons sv_sorted_cat sv_sorted_cons => /and3P[_ /andP[kS _] _].
  case: S SN E kS {IH HS sA} => [//|q S] _ E /andP[/= kq _].
  have qin : q \in nth [::] U j by rewrite E mem_cat mem_head orbT.
  have := coef_in Sj qin; rewrite zj -?e // => v0.
  by have := allP Nj _ qin; rewrite -v0 eqxx.
have kn := ltn_trans kj jn.
rewrite -/(oget R k) (oget_nth [::]) ?sR //; cbn [obind].
case Rk: (nth [::] R k) => [|p0 r0]; last first.
  have := @IH U A ((k, v) :: S) UD jn; rewrite E cat_rcons => /(_ erefl isT) H; apply: H.
    apply/allP => p pA; have := Af; rewrite all_rcons => /andP[kf _].
    have /and3P[Sj _ _] := nth_wf j W; move: Sj; rewrite E cat_rcons sv_sorted_cat => /and3P[_ _ /allP/(_ p pA)] /= /andP[pk _].
    by move: kf pk => /=; clear; lia.
  move=> p; rewrite in_cons => /orP[/eqP -> /=|/HS //]; by right; rewrite Rk.
rewrite -/(oget U k) (oget_nth [::]) ?s //; cbn [obind].
have [uk lk zk] := udiag_nz UD kn; rewrite lk; cbn [obind].
rewrite /odiv is0E (negPf uk); cbn [obind]; rewrite -cat_rcons -E (oset_Ok [::]) //; cbn [obind].
set a := fopp O _; set U1 := set_nth _ _ _ _.
have UD1 : udiag n U1 := udiag_set a UD kj jn.
have E' : nth [::] U j = A ++ (k, v) :: S by rewrite E cat_rcons.
have [A' [EA lA]] := axpy_zip a (nth_wf j W) (nth_wf k W) E' zk.
have cancel : v + a * coef (nth [::] U k) k == 0.
  by apply/eqP; rewrite /a /=; ffield F.
rewrite cancel /= in EA.
have E1 : nth [::] U1 j = A' ++ S by rewrite nth_set_nth /= eqxx.
have Af1 : all (fun p : nat * F => (p.1 < fuel)%N) A'.
  apply: sub_all lA => p /= pk; have := Af; rewrite all_rcons => /andP[/= kf _]; move: kf pk; clear; lia.
have [U' [-> UD' [X [Xu Xd XU XR]] oth last']] := IH U1 A' S UD1 jn E1 SN Af1 HS.
exists U'; split=> //; last first.
  by move=> i ij; rewrite oth // nth_set_nth /= (negPf ij).
pose ko := Ordinal kn; pose jo := Ordinal jn.
exists (colop ko jo a *m X); split.
- by apply: upper_mul => //; apply: upper_colop.
- apply: diag1_mul => //; [exact: upper_colop|exact: diag1_colop].
- by rewrite XU mulmxA; congr (_ *m _); rewrite -(@mxc_colop _ _ _ U ko jo).
rewrite mulmxA; suff -> : mxc m n R *m colop ko jo a = mxc m n R by [].
rewrite /colop mulmxDr mulmx1 -scalemxAr.
suff -> : mxc m n R *m delta_mx ko jo = 0 by rewrite scaler0 addr0.
apply/matrixP => i l; rewrite !mxE big1 // => k' _; rewrite !mxE.
by case: (k' =P ko) => [->|_] /=; rewrite ?mulr0 // Rk coef_nil mul0r.
Qed.

Lemma upper_udiag n U : size U = n -> all (sv_wf n) U -> upper (mxc n n U) -> diagn0 (mxc n n U) -> udiag n U.
Proof.
move=> s W Uu Ud; split=> // k kn; have Wk := nth_wf k W; have /and3P[Sk Bk Nk] := Wk.
apply/(last_ind_spec k Sk Nk); split; first by have := Ud (Ordinal kn); rewrite mxE.
move=> i lt; case: (ltnP i n) => im; last by rewrite (coef_ge Bk).
by have := Uu (Ordinal im) (Ordinal kn) lt; rewrite mxE.
Qed.
Lemma udiag_upper n U : udiag n U -> upper (mxc n n U).
Proof. by move=> UD i j lt; rewrite mxE; have [_ _ ->] := udiag_nz UD (ltn_ord j). Qed.

Lemma remove_extra_cyclesE (R U : cmat F) : cm_wf R -> cm_wf U -> nrow U = ncol U -> ncol R = ncol U ->
  upper (mxc (ncol U) (ncol U) (cols U)) -> diagn0 (mxc (ncol U) (ncol U) (cols U)) ->
  exists U', [/\ remove_extra_cycles O R U = Ok (CMat (ncol U) (ncol U) U'), udiag (ncol U) U',
    exists W : 'M[F]_(ncol U), [/\ upper W, diag1 W,
      mxc (ncol U) (ncol U) U' = mxc (ncol U) (ncol U) (cols U) *m W &
      mxc (nrow R) (ncol U) (cols R) *m W = mxc (nrow R) (ncol U) (cols R)] &
    forall j, (j < ncol U)%N -> exists h T, [/\ nth [::] U' j = h ++ T, (size h <= 1)%N &
      forall p, p \in T -> p.1 = j \/ nth [::] (cols R) p.1 <> [::]]].
Proof.
case: R => m n' R; case: U => n0 n U /= /cm_wfP[/= sR WR] /cm_wfP[/= sU WU] e1 e2 Uu Ud.
rewrite /remove_extra_cycles; cbn [negb nrow ncol cols]; have sR0 : size R = n by rewrite sR e2.
subst n0; rewrite e2 eqxx; cbn [negb]; clear sR; rename sR0 into sR.
have UD := upper_udiag sU WU Uu Ud.
have [||U' -> [UD' HW HT]] := ofold_iota_ind (g := fun U0 j => rec_col O n.+2 R U0 j 2) (a := U) (n := n)
  (P := fun k U' => [/\ udiag n U',
    exists W : 'M[F]_n, [/\ upper W, diag1 W, mxc n n U' = mxc n n U *m W & mxc m n R *m W = mxc m n R] &
    forall j, (j < k)%N -> exists h T, [/\ nth [::] U' j = h ++ T, (size h <= 1)%N &
      forall p, p \in T -> p.1 = j \/ nth [::] R p.1 <> [::]]]).
- split=> //; by exists 1%:M; rewrite !mulmx1; split=> //; [exact: upper1|exact: diag11].
- move=> j V jn [VD [W [Wu Wd WV WR']] HT].
  have [sV AV LV] := VD; have Lj := LV j jn.
  case Ec: (nth [::] V j) Lj => [//|p c] [Lj].
  have Ec' : nth [::] V j = belast p c ++ [:: last p c] by rewrite Ec lastI cats1.
  have Af : all (fun p : nat * F => (p.1 < n.+1)%N) (belast p c).
    have /and3P[_ Bj _] := nth_wf j AV; move: Bj; rewrite Ec' /sv_below all_cat => /andP[Bj _].
    by apply: sub_all Bj => q /=; clear; lia.
  have HS q : q \in [:: last p c] -> q.1 = j \/ nth [::] R q.1 <> [::].
    by rewrite mem_seq1 => /eqP ->; left.
  have [V' [-> VD' [X [Xu Xd XV XR]] oth lst]] := @rec_colE m n R n.+1 V j _ _ sR VD jn Ec' isT Af HS.
  exists V' => //; split=> //.
    exists (W *m X); split; [exact: upper_mul|exact: diag1_mul|by rewrite mulmxA -WV|by rewrite mulmxA WR' XR].
  move=> i; rewrite ltnS leq_eqVlt => /orP[/eqP -> //|lt]; rewrite oth; [exact: HT|by rewrite ltn_eqF].
by exists U'.
Qed.
End S.
