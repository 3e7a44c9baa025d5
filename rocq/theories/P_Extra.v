(** The extra reduction is right when no nonzero combination of columns has a single nonzero entry. *)
From mathcomp Require Import all_ssreflect all_algebra zify.
From Verif Require Import Outcome P_Outcome RingTac M_SparseVec M_Perm M_ColMatrix M_Reduce M_Homology
  S_Linalg S_Homology P_SparseVec P_Pairing P_Reduce P_Homology P_Betti.
From Coq Require Import Ring Field.
Set Implicit Arguments.
Unset Strict Implicit.
Unset Printing Implicit Defensive.
Import GRing.Theory.
Local Open Scope ring_scope.

Section R.
Variable F : fieldType.
Notation O := (ops_of F).
Add Field Ff : (F_field_theory F).
Notation svec := (svec F).
Notation cmat := (cmat F).
Implicit Types (c d : svec).
Notation z0 := (0%N, 0 : F).

(** a sorted vector split at position pos *)
Lemma sorted_split_at c pos : sv_sorted c -> (pos < size c)%N ->
  let i := (nth z0 c pos).1 in
  [/\ [seq q <- c | (q.1 < i)%N] = take pos c, [seq q <- c | (i < q.1)%N] = drop pos.+1 c,
      size [seq q <- c | (i < q.1)%N] = (size c - pos.+1)%N &
      forall a, (a < pos)%N -> ((nth z0 c a).1 < i)%N].
Proof.
move=> S lt i.
have lts a b : (a < b)%N -> (b < size c)%N -> ((nth z0 c a).1 < (nth z0 c b).1)%N.
  move=> ab bs; have := sorted_ltn_nth ltn_trans 0%N S.
  move=> /(_ a b); rewrite !inE !size_map => H; have := H (ltn_trans ab bs) bs ab.
  by rewrite !(nth_map z0) //; apply: ltn_trans ab bs.
have At : all (fun q : nat * F => (q.1 < i)%N) (take pos c).
  apply/(all_nthP z0) => a; rewrite size_take lt => ap; rewrite nth_take //; exact: lts.
have Ad : all (fun q : nat * F => (i < q.1)%N) (drop pos.+1 c).
  apply/(all_nthP z0) => a; rewrite size_drop => ap; rewrite nth_drop; apply: lts; lia.
have E : c = take pos c ++ nth z0 c pos :: drop pos.+1 c by rewrite -drop_nth // cat_take_drop.
have F1 : [seq q <- c | (q.1 < i)%N] = take pos c.
  rewrite {1}E filter_cat (all_filterP At) /= ltnn.
  suff -> : [seq q <- drop pos.+1 c | (q.1 < i)%N] = [::] by rewrite cats0.
  by apply/eqP; rewrite -[_ == _]negbK -has_filter; apply/hasPn => q /(allP Ad); rewrite -leqNgt => /ltnW.
have F2 : [seq q <- c | (i < q.1)%N] = drop pos.+1 c.
  rewrite {1}E filter_cat /= ltnn (all_filterP Ad).
  suff -> : [seq q <- take pos c | (i < q.1)%N] = [::] by [].
  by apply/eqP; rewrite -[_ == _]negbK -has_filter; apply/hasPn => q /(allP At); rewrite -leqNgt => /ltnW.
split=> //; first by rewrite F2 size_drop.
by move=> a ap; apply: lts.
Qed.

Lemma sorted_split3 c i : sv_sorted c -> coef c i = 0 -> sv_nonzero c ->
  c = [seq q <- c | (q.1 < i)%N] ++ [seq q <- c | (i < q.1)%N].
Proof.
move=> S c0 N; case: (boolP (has (fun q : nat * F => (i < q.1)%N) c)) => [H|/hasPn H]; last first.
  have -> : [seq q <- c | (i < q.1)%N] = [::].
    by apply/eqP; rewrite -[_ == _]negbK -has_filter; apply/hasPn.
  rewrite cats0; apply/esym/all_filterP/allP => q Hq; have := H q Hq; rewrite -leqNgt leq_eqVlt.
  case: eqP => [E|] //= _; by move: (allP N _ Hq); rewrite -(coef_in S Hq) E c0 eqxx.
set pos := find (fun q : nat * F => (i < q.1)%N) c.
have lt : (pos < size c)%N by rewrite -has_find.
have Hpos : (i < (nth z0 c pos).1)%N by apply: (nth_find z0 H).
have [F1 F2 _ lts] := sorted_split_at S lt.
have At : all (fun q : nat * F => (q.1 < i)%N) (take pos c).
  apply/(all_nthP z0) => a; rewrite size_take lt => ap; rewrite nth_take //.
  have := before_find z0 ap => /negbT; rewrite -leqNgt leq_eqVlt; case: eqP => [E|] //= _.
  have Hq : nth z0 c a \in c by apply: mem_nth; apply: ltn_trans ap lt.
  by move: (allP N _ Hq); rewrite -(coef_in S Hq) E c0 eqxx.
have Ad : all (fun q : nat * F => (i < q.1)%N) (drop pos c).
  rewrite (drop_nth z0 lt) /= Hpos /=; apply/allP => q; rewrite -F2 mem_filter => /andP[h _].
  exact: ltn_trans Hpos h.
rewrite -{1 2 3}(cat_take_drop pos c) !filter_cat (all_filterP At) (all_filterP Ad).
have -> : [seq q <- drop pos c | (q.1 < i)%N] = [::].
  by apply/eqP; rewrite -[_ == _]negbK -has_filter; apply/hasPn => q /(allP Ad); rewrite -leqNgt => /ltnW.
have -> : [seq q <- take pos c | (i < q.1)%N] = [::].
  by apply/eqP; rewrite -[_ == _]negbK -has_filter; apply/hasPn => q /(allP At); rewrite -leqNgt => /ltnW.
by rewrite cats0.
Qed.

(** bound on the indices not yet visited *)
Definition below_off c off b := forall pos, (pos + off <= size c)%N -> ((nth z0 c pos).1 < b)%N.

Lemma elim_off m c d pos off : sv_wf m c -> sv_wf m d ->
  (0 < off)%N -> (off <= size c)%N -> pos = (size c - off)%N ->
  last_ind d = Some (nth z0 c pos).1 ->
  let i := (nth z0 c pos).1 in
  let e := axpy O (- ((nth z0 c pos).2 / coef d i)) d c in
  [/\ sv_wf m e, coef e i = 0, (forall i', (i < i')%N -> coef e i' = coef c i') & below_off e off i].
Proof.
move=> Wc Wd off0 le Epos Ld i e.
have /and3P[Sc Bc Nc] := Wc; have /and3P[Sd Bd Nd] := Wd.
have We : sv_wf m e by apply: sv_wf_axpy.
have /and3P[Se Be Ne] := We.
move/(last_ind_spec _ Sd Nd): Ld => [d1 d2].
have lt : (pos < size c)%N by clear -Epos off0 le; lia.
have ci : coef c i = (nth z0 c pos).2 by apply: coef_in => //; apply: mem_nth.
have ei : coef e i = 0 by rewrite coef_axpy ci; ffield F.
have eh i' : (i < i')%N -> coef e i' = coef c i'.
  by move=> h; rewrite coef_axpy (d2 _ h) mulr0 addr0.
split=> // a.
have [_ _ sz _] := sorted_split_at Sc lt; rewrite -/i in sz.
have E := sorted_split3 Se ei Ne.
have Ef : [seq q <- e | (i < q.1)%N] = [seq q <- c | (i < q.1)%N].
  apply: sv_ext; try exact: sv_sorted_filter; try exact: all_filter_sub.
  move=> x; rewrite !(coef_filter (fun h => (i < h)%N)).
  by case: ifP => // /eh.
rewrite E Ef size_cat sz => h; rewrite nth_cat.
have ha : (a < size [seq q <- e | (q.1 < i)%N])%N by move: h Epos le off0; clear; move: (size _) (size c); lia.
rewrite ha; have := mem_nth z0 ha; rewrite mem_filter => /andP[] //.
Qed.


(** elimination in column j with a column k < j keeps the linear algebra part of rinv *)
Lemma rinv_elim m n mu (M0 : 'M[F]_(m, n)) (U0 : 'M[F]_(mu, n)) j R U p k a l :
  (j < n)%N -> (k < j)%N -> rinv M0 U0 l R U p ->
  last_ind (axpy O a (nth [::] R k) (nth [::] R j)) = last_ind (nth [::] R j) \/ (l <= j)%N ->
  rinv M0 U0 l (set_nth [::] R j (axpy O a (nth [::] R k) (nth [::] R j)))
               (set_nth [::] U j (axpy O a (nth [::] U k) (nth [::] U j))) p.
Proof.
move=> jn kj [[sR sU sp] WR WU [V [Vu Vd RV UV]] Hp] HL.
have kn : (k < n)%N by lia.
have jR : (j < size R)%N by rewrite sR.
have jU : (j < size U)%N by rewrite sU.
pose kO := Ordinal kn; pose jO := Ordinal jn.
split.
- by rewrite !size_set_nth sR sU sp; split=> //; apply/maxn_idPr.
- by apply: set_nth_wf => //; apply: sv_wf_axpy; apply: nth_wf.
- by apply: set_nth_wf => //; apply: sv_wf_axpy; apply: nth_wf.
- exists (V *m colop kO jO a); split.
  + by apply: upper_mul => //; apply: upper_colop.
  + by apply: diag1_mul => //; [apply: upper_colop | apply: diag1_colop].
  + by rewrite mulmxA -RV -(mxc_colop m kO jO).
  + by rewrite mulmxA -UV -(mxc_colop mu kO jO).
- move=> i' k' im'; rewrite Hp // nth_setE.
  case: (k' =P j) => [->|] //; case: HL => [->|le] //.
  by split=> -[]; lia.
Qed.

Lemma red_col_extraU_spec m n mu (M0 : 'M[F]_(m, n)) (U0 : 'M[F]_(mu, n)) fuel j off b R U p :
  nosingle M0 ->
  (j < n)%N -> (0 < off)%N ->
  rinv M0 U0 (if off == 1%N then j else j.+1) R U p ->
  below_off (nth [::] R j) off b -> (b < fuel)%N -> (off <= (size (nth [::] R j)).+1)%N ->
  exists R' U' p', red_col_extraU O fuel R U p j off = Ok (R', U', p') /\ rinv M0 U0 j.+1 R' U' p'.
Proof.
move=> NS jn; elim: fuel off b R U p => [|fuel IH] off b R U p off0 I Hb Hf Hoff //.
have [[sR sU sp] WR WU [V [Vu Vd RV UV]] Hp] := I.
have jR : (j < size R)%N by rewrite sR.
have jU : (j < size U)%N by rewrite sU.
have Wc : sv_wf m (nth [::] R j) by apply: nth_wf.
have /and3P[Sc Bc Nc] := Wc.
rewrite /= (oget_nth [::] jR) /=.
set c := nth [::] R j in Hb Hoff Wc Sc Bc Nc *.
case: ifP => [lt|/negbT]; last first.
  rewrite -leqNgt => ge; exists R, U, p; split=> //.
  case: (altP (off =P 1%N)) I => [off1|//] I.
  (* off = 1: the column has at most one entry, hence none *)
  have c0 : c = [::].
    move: ge; rewrite off1; case Ec: (c) => [//|q [|q' c']] //= _; exfalso.
    have im : (q.1 < m)%N by move: Bc; rewrite Ec /= => /andP[].
    have cE i : (M0 *m col (Ordinal jn) V) i 0 = coef c i.
      by rewrite colE mulmxA -colE -RV !mxE.
    have := NS (col (Ordinal jn) V) (Ordinal im); rewrite cE /= Ec coef_cons eqxx coef_nil addr0.
    move=> []; first by move: Nc; rewrite Ec /= => /andP[].
    move=> i' ne; rewrite cE Ec coef_cons coef_nil addr0 ifN ?eqxx //.
    by apply: contra ne => /eqP E; apply/eqP/val_inj.
  split=> //; first by exists V.
  move=> i k im; case: I => _ _ _ _ Hp'; rewrite Hp' //; split=> [[kj ->]|[kj L]]; first by split=> //; lia.
  split=> //; move: kj; rewrite ltnS leq_eqVlt => /orP[/eqP Ek|//].
  by move: L; rewrite Ek -/c c0.
set pos := (size c - off)%N.
have lp : (pos < size c)%N by rewrite /pos; lia.
rewrite (oget_nth z0 lp) /=; case Eq: (nth z0 c pos) => [i v].
have Ei : (nth z0 c pos).1 = i by rewrite Eq.
have Ev : (nth z0 c pos).2 = v by rewrite Eq.
have im : (i < m)%N by rewrite -Ei; apply: (allP Bc); apply: mem_nth.
have ib : (i < b)%N by rewrite -Ei; apply: Hb; rewrite /pos; lia.
have [_ _ _ lts] := sorted_split_at Sc lp; rewrite Ei in lts.
have Hb1 : below_off c off.+1 i by move=> a ha; apply: lts; rewrite /pos; lia.
rewrite /= (oget_nth None) ?sp //=.
case Ep: (nth None p i) => [k|]; last first.
  case: (altP (off =P 1%N)) => [off1|offn].
    rewrite (oset_Ok None) ?sp //=.
    apply: (IH _ i) => //; try by [exact: leq_trans ib _ | rewrite ltnS; exact: ltnW].
    rewrite off1 /=.
    split=> //.
    - by split=> //; rewrite size_set_nth sp; apply/maxn_idPr.
    - by exists V.
    have Li : last_ind c = Some i.
      rewrite -Ei /pos off1; case: (c) lp => [|q c'] //= _; congr Some; by rewrite subn1 /= (last_nth z0).
    move: Hp; rewrite off1 eqxx => Hp.
    move=> i' k' im'; rewrite nth_setE; case: eqP => [->|nei].
      split=> [[<-]|[kj L]]; first by split.
      congr Some; move: kj; rewrite ltnS leq_eqVlt => /orP[/eqP //|kj].
      by have : nth None p i = Some k' by [apply/Hp]; rewrite Ep.
    rewrite Hp //; split=> [[kj ->]|[kj L]]; first by split=> //; lia.
    split=> //; move: kj; rewrite ltnS leq_eqVlt => /orP[/eqP Ek|//].
    by move: L; rewrite Ek -/c Li => -[/esym].
  apply: (IH _ i) => //; try by [exact: leq_trans ib _ | rewrite ltnS; exact: ltnW].
  have -> : (off.+1 == 1%N) = false by move: off0; case: (off).
  by move: I; rewrite (negbTE offn).
(* elimination *)
have [kj' Lk] := (Hp i k im).1 Ep.
have kj : (k < j)%N.
  move: kj'; case: eqP => [//|offn]; rewrite ltnS leq_eqVlt => /orP[/eqP Ek|//]; exfalso.
  move: Lk; rewrite Ek -/c; case Ec: (c) => [//|q c'] [].
  rewrite (last_nth z0) -[q :: c']/(q :: c') -Ec => El.
  have pl : (pos < size c')%N.
    by move: lt off0 offn; rewrite /pos Ec /=; clear; move: (size c'); lia.
  have sl : (size c' < size c)%N by rewrite Ec.
  have [_ _ _ lts'] := sorted_split_at Sc sl; have := lts' _ pl.
  by rewrite El Ei ltnn.
have kR : (k < size R)%N by lia.
have kU : (k < size U)%N by lia.
have Wk : sv_wf m (nth [::] R k) by apply: nth_wf.
have nek : nth [::] R k <> [::] by move=> E; move: Lk; rewrite E.
have [i2 [w [Ln2 Li2 _ cw wn]]] := lastnz_spec Wk nek.
have Ei2 : i2 = i by move: Li2; rewrite Lk => -[].
subst i2; rewrite (oget_nth [::] kR) /= Ln2 /= /odiv is0E (negbTE wn) /=.
rewrite (oset_Ok [::]) //= (oget_nth [::] jU) (oget_nth [::] kU) /= (oset_Ok [::]) //=.
have [|||We e0 eh Hbe] := @elim_off m c (nth [::] R k) pos off Wc Wk off0; rewrite ?Ei //; first exact: ltnW.
rewrite Ev Ei cw in We e0 eh Hbe.
have /and3P[Se Be Ne] := We.
apply: (IH _ i) => //.
- apply: rinv_elim => //; rewrite -/c.
  case: (altP (off =P 1%N)) => [off1|offn]; [by right | left].
  have lastc : exists il, last_ind c = Some il /\ (i < il)%N.
    case Ec: (c) lp => [//|q c'] _; exists (last q c').1; split=> //.
    have sl : (size c' < size c)%N by rewrite Ec.
    have [_ _ _ lts'] := sorted_split_at Sc sl.
    have pl : (pos < size c')%N.
      by move: lt off0 offn; rewrite /pos Ec /=; clear; move: (size c'); lia.
    by have := lts' pos pl; rewrite Ei Ec /= (last_nth z0).
  case: lastc => il [Ll il_gt]; rewrite Ll; apply/last_ind_spec => //.
  move/(last_ind_spec _ Sc Nc): Ll => [l1 l2]; split; first by rewrite eh.
  by move=> i' h; rewrite eh ?l2 //; exact: ltn_trans il_gt h.
- by rewrite nth_setE eqxx -/c.
- exact: leq_trans ib _.
- rewrite nth_setE eqxx -/c.
  have Ec := sorted_split3 Se e0 Ne; have [_ _ sz _] := sorted_split_at Sc lp; rewrite Ei in sz.
  set e := axpy _ _ _ _ in Se Ne Ec eh e0 *.
  have Ef : [seq q <- e | (i < q.1)%N] = [seq q <- c | (i < q.1)%N].
    apply: sv_ext; try exact: sv_sorted_filter; try exact: all_filter_sub.
    by move=> x; rewrite !(coef_filter (fun h => (i < h)%N)); case: ifP => // /eh.
  rewrite Ec Ef size_cat sz /pos; move: lt off0; clear; move: (size c) (size _); lia.
Qed.

Lemma reduce_extraU_rinv (M U : cmat) : cm_wf M -> cm_wf U -> ncol M = ncol U ->
  nosingle (mxc (nrow M) (ncol M) (cols M)) ->
  exists R U' p,
    reduce_extraU O M U = Ok (CMat (nrow M) (ncol M) R, CMat (nrow U) (ncol U) U', p) /\
    rinv (mxc (nrow M) (ncol M) (cols M)) (mxc (nrow U) (ncol M) (cols U)) (ncol M) R U' p.
Proof.
move=> /andP[/eqP sM WM] /andP[/eqP sU WU] En NS.
set M0 := mxc _ _ (cols M) in NS *; set U0 := mxc _ _ (cols U).
rewrite /reduce_extraU.
have -> : (ncol M != ncol U) = false by rewrite En eqxx.
have [||st E I] := @ofold_iota_ind (seq svec * seq svec * seq (option nat))
  (fun st j => red_col_extraU O (nrow M).+2 st.1.1 st.1.2 st.2 j 1)
  (fun j st => rinv M0 U0 j st.1.1 st.1.2 st.2) (ncol M)
  (cols M, cols U, nseq (nrow M) None).
- split=> //=; first by rewrite size_nseq; split=> //; rewrite sU En.
    by exists 1%:M; rewrite !mulmx1; split=> //; [apply: upper1 | apply: diag11].
  by move=> i k im; rewrite nth_nseq; case: ifP => _; split=> // -[].
- move=> j [[R U'] p] jn I.
  have Hb : below_off (nth [::] R j) 1 (nrow M).
    move=> pos; rewrite addn1 => lt; have [_ WR _ _ _] := I.
    by have /and3P[_ Bc _] := nth_wf j WR; apply: (allP Bc); apply: mem_nth.
  have [R2 [U2 [p2 [E2 I2]]]] := @red_col_extraU_spec (nrow M) (ncol M) (nrow U) M0 U0 (nrow M).+2 j 1
     (nrow M) R U' p NS jn isT I Hb (leqnSn _) isT.
  by exists (R2, U2, p2).
- by rewrite E; case: st I {E} => [[R U'] p] I /=; exists R, U', p.
Qed.

Lemma red_col_extra_proj fuel R (U : seq svec) p j off : (j < size U)%N -> (size R <= size U)%N ->
  (0 < off)%N ->
  red_col_extra O fuel R p j off (off != 1%N) =
  omap (fun r => (r.1.1, r.2)) (red_col_extraU O fuel R U p j off).
Proof.
elim: fuel R U p off => //= fuel IH R U p off jU le off0.
case Ec: (oget R j) => [c| | |] //=; case: ifP => // lt.
case: (oget c (size c - off)) => [[i v]| | |] //=.
case Ep: (oget p i) => [e| | |] //=.
case: e Ep => [k|] Ep /=; last first.
  case: (altP (off =P 1%N)) => [->|offn] /=.
    by case: (oset p i (Some j)) => //= p'; rewrite -IH.
  rewrite -IH //; congr (red_col_extra _ _ _ _ _ _ _).
  by case: off offn off0 {lt} => [|[|]].
case Ek: (oget R k) => [ck| | |] //=; have [kR _] := oget_Ok [::] Ek.
case: (lastnz ck) => [[? w]| | |] //=; case: (odiv O v w) => [a| | |] //=.
have [jR _] := oget_Ok [::] Ec.
rewrite (oset_Ok [::] _ jR) /= (oget_nth [::] jU) /= (oget_nth [::]) /=; last exact: leq_trans kR le.
rewrite (oset_Ok [::] _ jU) /= -IH ?size_set_nth //; last by rewrite !(maxn_idPr _).
by rewrite leq_max jU orbT.
Qed.

Lemma red_col_extraU_size fuel R (U : seq svec) p j off R2 U2 p2 :
  (j < size U)%N -> (size R <= size U)%N ->
  red_col_extraU O fuel R U p j off = Ok (R2, U2, p2) -> size R2 = size R /\ size U2 = size U.
Proof.
elim: fuel R U p off => //= fuel IH R U p off jU le.
case Ec: (oget R j) => [c| | |] //=; case: ifP => [lt|_]; last by move=> [<- <-].
case: (oget c (size c - off)) => [[i v]| | |] //=.
case Ep: (oget p i) => [e| | |] //=.
case: e Ep => [k|] Ep /=; last first.
  case: ifP => _; last exact: IH.
  case: (oset p i (Some j)) => //= p'; exact: IH.
case Ek: (oget R k) => [ck| | |] //=; have [kR _] := oget_Ok [::] Ek.
case: (lastnz ck) => [[? w]| | |] //=; case: (odiv O v w) => [a| | |] //=.
have [jR _] := oget_Ok [::] Ec.
rewrite (oset_Ok [::] _ jR) /= (oget_nth [::] jU) /= (oget_nth [::]) /=; last exact: leq_trans kR le.
rewrite (oset_Ok [::] _ jU) /= => /IH; rewrite !size_set_nth !(maxn_idPr _) //; apply => //.
Qed.

Lemma reduce_extra_proj (M U : cmat) : cm_wf M -> cm_wf U -> ncol M = ncol U ->
  reduce_extra O M = omap (fun r => (r.1.1, r.2)) (reduce_extraU O M U).
Proof.
move=> /andP[/eqP sM _] /andP[/eqP sU _] En; rewrite /reduce_extra /reduce_extraU.
have -> : (ncol M != ncol U) = false by rewrite En eqxx.
set f := fun st j => red_col_extraU O _ _ _ _ _ _; set g := fun st j => red_col_extra O _ _ _ _ _ _.
suff H l st : all (fun j => j < size st.1.2)%N l -> (size st.1.1 <= size st.1.2)%N ->
   ofold g (st.1.1, st.2) l = omap (fun r => (r.1.1, r.2)) (ofold f st l).
  rewrite (H (iota 0 (ncol M)) (cols M, cols U, nseq (nrow M) None)) /=; last by lia.
    by case: (ofold f _ _) => [[[? ?] ?]| | |].
  by apply/allP => j; rewrite mem_iota; lia.
elim: l st => [|j l IH] [[R U'] p] //= /andP[jU aU] le.
have -> : g (R, p) j = omap (fun r => (r.1.1, r.2)) (f (R, U', p) j).
  exact: (@red_col_extra_proj _ R U' p j 1).
case E: (f (R, U', p) j) => [[[R2 U2] p2]| | |] //=; rewrite /f in E; cbn [fst snd] in E.
have [sR sU'] := red_col_extraU_size jU le E.
by rewrite -(IH (R2, U2, p2)) //= ?sR ?sU'.
Qed.

Lemma rcc_extra_spec (C : seq cmat) : chain_wf C ->
  (forall k, (k < size C)%N -> nosingle (mx (bmx C k))) ->
  exists X, [/\ rcc_extra O C = Ok X,
     rc_I X = [seq hinds C k | k <- iota 0 (size C)],
     size (rc_R X) = size C /\ size (rc_p2c X) = size C &
     forall k, (k < size C)%N ->
       grec (bmx C k) (bmx (rc_R X) k) (nth [::] (rc_p2c X) k)].
Proof.
move=> CW NS; rewrite /rcc_extra.
have [|rs [-> sr G]] := @omapm_exists _ _ (fun B => reduce_extra O B)
  (fun B x => grec B x.1 x.2) C (CMat 0 0 [::]) (CMat 0 0 [::], [::]).
  move=> k kC; have Wk := chain_wf_nth k CW; rewrite -/(bmx C k).
  have [R [U [p [E I]]]] := reduce_extraU_rinv Wk (cm_wf_identity F (ncol (bmx C k))) erefl (NS k kC).
  rewrite (reduce_extra_proj Wk (cm_wf_identity F (ncol (bmx C k))) erefl) E.
  by eexists; first by []; split=> //=; apply: rinv_pgood I.
cbn [obind].
have Gn k : (k < size C)%N -> grec (bmx C k) (nth (CMat 0 0 [::]) [seq x.1 | x <- rs] k)
          (nth [::] [seq x.2 | x <- rs] k).
  by move=> kC; rewrite !(nth_map (CMat 0 0 [::], [::])) ?sr //; apply: G.
rewrite (set_indices_spec CW) ?size_map //.
by cbn [obind]; eexists; split; [by [] | by [] | rewrite /= !size_map | exact: Gn].
Qed.

Lemma cells_nosingle (C : seq cmat) : chain_wf C -> cells_like C ->
  forall k, (k < size C)%N -> nosingle (mx (bmx C k)).
Proof.
move=> CW [Z0 S1 NZ] k kC y i; have [_ _ H] := CW.
case: k kC y i => [|k] kC y i.
  have -> : mx (bmx C 0) = 0 by apply/matrixP => a b; rewrite !mxE Z0 // ltn_ord.
  by rewrite mul0mx mxE eqxx.
have [En D] := H k kC.
move=> ne; case: (pickP (fun i' => (i' != i) && ((mx (bmx C k.+1) *m y) i' 0 != 0))) => [i' /andP[]|no].
  by exists i'.
exfalso.
have Z i' : i' != i -> (mx (bmx C k.+1) *m y) i' 0 = 0.
  by move=> ni; apply/eqP; rewrite -[_ == _]negbK; apply/negP => nz; have := no i'; rewrite ni nz.
case: k kC y i En D ne no Z => [|k] kC y i En D ne no Z.
  have E : \sum_(i' < nrow (bmx C 1)) (mx (bmx C 1) *m y) i' 0 = 0.
    under eq_bigr do rewrite mxE.
    rewrite exchange_big /= big1 // => j _; rewrite -mulr_suml.
    have := S1 j (ltn_ord j); under eq_bigr do rewrite mxE.
    by move=> ->; rewrite mul0r.
  by move: ne; rewrite (bigD1 i) //= (big1 _ (fun i' => i' != i)) // addr0 in E; rewrite E eqxx.
have iw : (i < ncol (bmx C k.+1))%N by rewrite -En.
have [i0 nz] := NZ k.+1 i isT (ltnW kC) iw.
have i0w : (i0 < nrow (bmx C k.+1))%N.
  rewrite ltnNge; apply/negP => ge; move: nz; have /andP[_ A] := chain_wf_nth k.+1 CW.
  by have /and3P[_ B _] := nth_wf i A; rewrite (coef_ge B ge) eqxx.
have : (mxc (nrow (bmx C k.+1)) (ncol (bmx C k.+1)) (cols (bmx C k.+1)) *m
        (mxc (ncol (bmx C k.+1)) (ncol (bmx C k.+2)) (cols (bmx C k.+2)) *m y)) (Ordinal i0w) 0 = 0.
  by rewrite mulmxA D mul0mx mxE.
have E (j : 'I_(ncol (bmx C k.+1))) (j' : 'I_(nrow (bmx C k.+2))) : (j : nat) = j' ->
   (mxc (ncol (bmx C k.+1)) (ncol (bmx C k.+2)) (cols (bmx C k.+2)) *m y) j 0 =
   (mx (bmx C k.+2) *m y) j' 0.
  by move=> e; rewrite !mxE; apply: eq_bigr => a _; rewrite !mxE e.
rewrite mxE (bigD1 (Ordinal iw)) //= big1 ?addr0 => [|j nj].
  rewrite (E (Ordinal iw) i) // mxE => /eqP; rewrite mulf_eq0 (negbTE nz) /=.
  by rewrite (negbTE ne).
have jw : (j < nrow (bmx C k.+2))%N by rewrite En.
rewrite (E j (Ordinal jw)) // Z ?mulr0 //.
Qed.

Lemma rcc_extraU_spec (C : seq cmat) : chain_wf C ->
  (forall k, (k < size C)%N -> nosingle (mx (bmx C k))) ->
  exists X, [/\ rcc_extraU O C = Ok X,
     rc_I X = [seq hinds C k | k <- iota 0 (size C)],
     [/\ size (rc_R X) = size C, size (rc_U X) = size C & size (rc_p2c X) = size C] &
     forall k, (k < size C)%N ->
       urec (bmx C k) (bmx (rc_R X) k) (bmx (rc_U X) k) (nth [::] (rc_p2c X) k)].
Proof.
move=> CW NS; rewrite /rcc_extraU.
have [|rs [-> sr G]] := @omapm_exists _ _ (fun B => reduce_extraU O B (cm_identity O (ncol B)))
  (fun B x => urec B x.1.1 x.1.2 x.2) C (CMat 0 0 [::]) (CMat 0 0 [::], CMat 0 0 [::], [::]).
  move=> k kC; have Wk := chain_wf_nth k CW; rewrite -/(bmx C k).
  have [R [U [p [-> Ir]]]] := reduce_extraU_rinv Wk (cm_wf_identity F (ncol (bmx C k))) erefl (NS k kC).
  eexists; first by []; have red := rinv_reduced Ir; have PG := rinv_pgood Ir; split=> //.
  rewrite mxc_identity /= in Ir.
  case: Ir => [[sR sU sp] WR WU [V [Vu Vd ER EU]] Hp].
  split=> //=; [by rewrite /cm_wf /= sU eqxx | by rewrite /cm_wf /= sR eqxx |].
  by exists V; rewrite EU mul1mx; split=> //; apply: diag1_n0.
cbn [obind].
have Gn k : (k < size C)%N -> urec (bmx C k) (nth (CMat 0 0 [::]) [seq x.1.1 | x <- rs] k)
    (nth (CMat 0 0 [::]) [seq x.1.2 | x <- rs] k) (nth [::] [seq x.2 | x <- rs] k).
  by move=> kC; rewrite !(nth_map (CMat 0 0 [::], CMat 0 0 [::], [::])) ?sr //; apply: G.
rewrite (set_indices_spec CW) ?size_map //; last by move=> k /Gn[].
by cbn [obind]; eexists; split; [by [] | by [] | rewrite /= !size_map | exact: Gn].
Qed.

Lemma pivots_exact_inj m n (B : 'M[F]_(m, n)) p1 p2 :
  pivots_exact B p1 -> pivots_exact B p2 -> p1 = p2.
Proof.
move=> [s1 P1] [s2 P2]; apply: (@eq_from_nth _ None); rewrite s1 ?s2 // => i im.
case E1: (nth None p1 i) => [j|].
  by move/(P1 i im): E1 => /(P2 i im) ->.
case E2: (nth None p2 i) => [j|] //.
by move/(P2 i im): E2 => /(P1 i im); rewrite E1.
Qed.

Lemma urec_open (B R U : cmat) p : urec B R U p -> exists Rc Uc,
      let R' := CMat (nrow B) (ncol B) Rc in let U' := CMat (ncol B) (ncol B) Uc in
      [/\ R = R', U = U', mx R' = mx B *m mx U', upper (mx U') /\ diagn0 (mx U') & reduced (mx R')].
Proof.
case: R U => nr nc Rc [nr' nc' Uc] [[/= En Em _] [/= En' Em' _ _ [V [Vu Vd EU ER red]]]].
by exists Rc, Uc; subst nr nc nr' nc'; split; rewrite // /mx /= EU.
Qed.

End R.
