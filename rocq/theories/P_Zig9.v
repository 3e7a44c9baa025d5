(** Zigzag barcodes: the recording of one map in one homology dimension. *)
From mathcomp Require Import all_ssreflect all_fingroup all_algebra zify.
From Verif Require Import Outcome P_Outcome RingTac M_SparseVec M_Perm M_ColMatrix S_Linalg P_SparseVec P_SparseVec2 P_Reduce
  P_ColMatrix M_Fact S_Fact P_Den P_Fact3 P_Fact4 P_Fact5 P_Fact6 P_Fact7 M_Quiver S_Quiver P_Quiver1 P_Quiver2 P_Quiver5 P_Quiver6
  M_Homology M_Zigzag S_Zigzag P_Zig1 P_Zig2 P_Zig4 P_Zig7.
Set Implicit Arguments.
Unset Strict Implicit.
Unset Printing Implicit Defensive.
Import GRing.Theory.
Local Open Scope ring_scope.

Section S.
Variable F : fieldType.
Notation O := (ops_of F).
Notation svec := (svec F).
Notation cmat := (cmat F).
Variables (A : Type) (vmax : A).

(** the basis kept by the program in one dimension *)
Definition isB (L P : cmat) (dir : bool) n (B : 'M[F]_n) : Prop :=
  exists ML MP, [/\ den L ML, den P MP, ltri ML, is_permmx MP & B = if dir then MP *m ML else invmx (ML *m MP)].
Lemma isB_unit L P dir n (B : 'M[F]_n) : isB L P dir B -> B \in unitmx.
Proof.
move=> [ML [MP [_ _ t p ->]]]; have u1 := ltri_unit t; have u2 := permmx_unit' p.
by case: dir; rewrite ?unitmx_inv unitmx_mul u1 u2.
Qed.

Lemma apply_ok L P dir n n' (B : 'M[F]_n) (v : arrow F n n') X : isB L P dir B -> dene X v ->
  exists2 X', apply_basis O X L P dir (~~ is_lft v) = Ok X' &
    match v with Lft M => den X' (invmx B *m M) | Rgt M => den X' (M *m B) end.
Proof.
move=> [ML [MP [dL dP tL pP ->]]] dX; have u1 := ltri_unit tL; have u2 := permmx_unit' pP.
have [Li eLi dLi] : exists2 C, l_inv O L = Ok C & den C (invmx ML) by case: tL => a b; apply: den_l_inv.
have [Pt ePt dPt] := den_transpose dP.
rewrite /apply_basis; case: v dX => M dX /=; case: dir => /=.
- have [Y eY dY] := mul_ok eLi ePt dLi dPt; have [Z eZ dZ] := mul_ok eY (erefl (Ok X)) dY dX; exists Z => //.
  by rewrite invmxM // (permmx_inv pP).
- have [Y eY dY] := mul_ok (erefl (Ok L)) (erefl (Ok P)) dL dP; have [Z eZ dZ] := mul_ok eY (erefl (Ok X)) dY dX; exists Z => //.
  by rewrite invmxK.
- have [Y eY dY] := mul_ok (erefl (Ok X)) (erefl (Ok P)) dX dP; have [Z eZ dZ] := mul_ok eY (erefl (Ok L)) dY dL; exists Z => //.
  by rewrite mulmxA.
- have [Y eY dY] := mul_ok (erefl (Ok X)) ePt dX dPt; have [Z eZ dZ] := mul_ok eY eLi dY dLi; exists Z => //.
  by rewrite invmxM // mulmxA (permmx_inv pP).
Qed.

Lemma fact_ok dir n n' (B : 'M[F]_n) (v : arrow F n n') X L P : isB L P dir B -> dene X v ->
  exists X' f E U B', [/\ apply_basis O X L P dir (~~ is_lft v) = Ok X',
     (if ~~ is_lft v then PLEU O X' else UELP O X') = Ok f,
     dene (fE f) E /\ is_lft E = is_lft v, [/\ shZ E, utri U & chbase v (B *m U) B' = E] & isB (fL f) (fP f) (~~ is_lft v) B'].
Proof.
move=> iB dX; have [X' eX dX'] := apply_ok iB dX; have uB := isB_unit iB; exists X'.
case: v dX eX dX' => M dX eX dX' /=; cbn [is_lft negb] in eX.
  have [f ef [U [E [L' [P' [[dL dE dU dP] eM [uL uU] pP sE]]]]]] := UELP_ok dX'.
  have tU := uupper_utri uU; have tL := ulower_ltri uL.
  exists f, (Lft E), U, (invmx (L' *m P')); split=> //; last by exists L', P'.
  split=> //=; congr Lft; have u1 := utri_unit tU; have u2 := ltri_unit tL; have u3 := permmx_unit' pP.
  rewrite invmxM // -[_ *m invmx B *m M]mulmxA eM invmxM // !mulmxA mulVmx // mul1mx.
  by rewrite -[_ *m P' *m _]mulmxA mulmxV // mulmx1 -mulmxA mulmxV // mulmx1.
have [f ef [P' [L' [E [U [[dL dE dU dP] eM [uL uU] pP sE]]]]]] := PLEU_ok dX'.
have tU := uupper_utri uU; have tL := ulower_ltri uL.
exists f, (Rgt E), (invmx U), (P' *m L'); split=> //; last by exists L', P'.
split=> //; first exact: utri_inv.
rewrite /=; congr Rgt; have u1 := utri_unit tU; have u2 := ltri_unit tL; have u3 := permmx_unit' pP.
rewrite -[_ *m M *m _]mulmxA [M *m _]mulmxA eM invmxM // !mulmxA mulmxKV //.
by rewrite mulmxK // mulVmx // mul1mx.
Qed.

(** no map is recorded: the identity *)
Lemma id_ok L P dir n n' (B : 'M[F]_n) (v : arrow F n n') : isB L P dir B -> n = n' ->
  match v with Lft M => idm M | Rgt M => idm M end ->
  exists B', [/\ shZ v, chbase v (B *m 1%:M) B' = v & isB L P dir B'].
Proof.
move=> iB e; subst n'; have uB := isB_unit iB => iv; exists B; rewrite mulmx1.
have e1 (M : 'M[F]_n) : idm M -> M = 1%:M by move=> h; apply/matrixP => i j; rewrite h mxE.
have h (i j : 'I_n) : (1%:M : 'M[F]_n) i j != 0 -> i = j by rewrite mxE; case: (i =P j) => // _; rewrite eqxx.
have pv : pivotmx (1%:M : 'M[F]_n).
  by split=> [i j j'|i i' j] /h e2 /h e3; congruence.
split=> //; last by case: v iv => M /e1 -> /=; rewrite mulmx1 mulVmx.
case: v iv => M /e1 -> /=; split=> // i i' j'.
  by move/h => -> lt; exists i' => //; rewrite mxE eqxx oner_neq0.
by move/h => <- lt; exists i => //; rewrite mxE eqxx oner_neq0.
Qed.
Lemma id_pivq (d : nat -> nat) (q : rep F d) t j : d t = d t.+1 -> match q t with Lft M => idm M | Rgt M => idm M end ->
  (j < d t.+1)%N -> pivq q t j = Some j.
Proof.
move=> e iv lj; rewrite (pivqE q (Ordinal lj)).
have lj' : (j < d t)%N by rewrite e.
have E i : nmx (q t) i (Ordinal lj) = (i == j :> nat)%:R.
  by case: (q t) iv => M iv; rewrite /= ?mxE iv //= eq_sym.
case: pickP => [i|/(_ (Ordinal lj'))]; rewrite E /=; last by rewrite eqxx oner_eq0.
by case: (nat_of_ord i =P j) => [->|]; rewrite ?eqxx.
Qed.

(** one column sweep: the bars *)
Section Bars.
Variables (d : nat -> nat) (t hd : nat) (evs : seq (rfv A)) (e : rfv A).
Hypothesis te : forall e0, nth e0 evs t = e.
Definition pint (T : nat) (b : bar) : nat * option nat := ((b_start b).-1, if b_end b == T then None else Some (b_end b)).
(** the bars reported by the program against the bars of the decomposition up to time T *)
Definition rep_ok (T : nat) (gb : seq bar) (zb : seq (zpair A)) : Prop :=
  size zb = size gb /\ forall b z0, (b < size gb)%N -> reports vmax evs hd (pint T (nb gb b)) (nth z0 zb b).

Variables (E : rep F d) (gb : seq bar) (lab : nat -> nat -> nat) (zb : seq (zpair A)).
Hypothesis d0 : d 0%N = 0%N.
Hypothesis I : linv t (trunc d t) (pivq E) gb lab.
Hypothesis R : rep_ok t gb zb.
Hypothesis pE : pivot_arrow (E t).

Let pb j r : pivq E t j = Some r -> (r < d t)%N.
Proof. by rewrite /pivq; case: insub => // jj; case: pickP => //= i _ [<-]. Qed.
Let pin j j' r : (j < d t.+1)%N -> (j' < d t.+1)%N -> pivq E t j = Some r -> pivq E t j' = Some r -> j = j'.
Proof.
move=> lj lj'; have [p1 _] := pivot_nmx pE.
rewrite (pivqE E (Ordinal lj)) (pivqE E (Ordinal lj')); case: pickP => //= i n1 [<-]; case: pickP => //= i' n2 [/val_inj e'].
by rewrite e' in n2; have /(congr1 val) := p1 _ _ _ n1 n2.
Qed.
Let dt : trunc d t t = d t. Proof. by rewrite /trunc leqnn. Qed.
Let llt i : (i < d t)%N -> (lab t i < size gb)%N.
Proof. by move=> li; case: I => h _ _ _ _; have [] := h t i; rewrite ?dt. Qed.

Lemma bars_step (cs : seq svec) : size cs = d t.+1 -> (forall j, (j < d t.+1)%N -> pivq E t j = pivc (nth [::] cs j)) ->
  exists gb' lab', [/\ linv t.+1 (trunc d t.+1) (pivq E) gb' lab' /\ forall s i, (s <= t)%N -> lab' s i = lab s i,
    ofold (zz_bar_step vmax hd e cs) (zb, [seq (i, lab t i) | i <- iota 0 (d t)], [::]) (iota 0 (d t.+1)) =
      Ok (zb ++ nseq (size gb' - size gb) (newz vmax hd e), [seq x <- [seq (i, lab t i) | i <- iota 0 (d t)] | ~~ hit cs (d t.+1) x.1],
          [seq (j, lab' t.+1 j) | j <- iota 0 (d t.+1)]),
    (size gb <= size gb')%N,
    forall b, (b < size gb)%N -> b_start (nb gb' b) = b_start (nb gb b) /\
       b_end (nb gb' b) = if hitb cs (lab t) (d t.+1) b then t.+1 else b_end (nb gb b) &
    forall b, (size gb <= b)%N -> (b < size gb')%N -> b_start (nb gb' b) = t.+1 /\ b_end (nb gb' b) = t.+1].
Proof.
move=> sc hpv; pose pg i := if (i < d t)%N then Some (lab t i) else None.
have hp i : (i < d t)%N -> pg i = Some (lab t i) by rewrite /pg => ->.
have [sz _] := R.
have [gb1 [p1 [lab' [e1 I1 h1 o1]]]] := bar_cols hp sc hpv (fun j r _ => @pb j r) pin I (leqnn (d t.+1)).
have pb' j r : (j < d t.+1)%N -> pivc (nth [::] cs j) = Some r -> (r < d t)%N by move=> lj; rewrite -hpv //; apply: pb.
have pin' j j' r : (j < d t.+1)%N -> (j' < d t.+1)%N -> pivc (nth [::] cs j) = Some r -> pivc (nth [::] cs j') = Some r -> j = j'.
  by move=> lj lj'; rewrite -!hpv //; apply: pin.
have [gb' [p2 [e2 z2 le H1 H2]]] := follow vmax hd e t hp sc pb' pin' sz (leqnn (d t.+1)) llt.
move: e2; rewrite e1 => -[eg ep]; subst gb' p2; exists gb1, lab'; split=> //.
  split=> //; apply: (linv_eqd _ I1) => s; rewrite /dset /trunc [in RHS]leq_eqVlt ltnS; case: eqP => [->|ne]; by [].
rewrite z2; congr (Ok (_, _, _)); apply/eq_in_map => j; rewrite mem_iota add0n => /andP[_ lj].
by rewrite /nget h1.
Qed.

Let st_pos b : (b < size gb)%N -> (0 < b_start (nb gb b) <= t)%N /\ (b_end (nb gb b) <= t)%N.
Proof.
move=> lb; case: I => _ _ _ h _; have [h1 [h2 _] _] := h b lb; split; last by move: h1; clear; lia.
apply/andP; split; last by move: h1; clear; lia.
by rewrite lt0n; apply/eqP => e0; move: h2; rewrite e0 /trunc /= d0.
Qed.
Let at_end b : (b < size gb)%N -> b_end (nb gb b) = t -> exists2 i, (i < d t)%N & lab t i = b.
Proof.
move=> lb eb; case: I => _ _ h _ _; have [|i li e'] := h t b lb; last by exists i; rewrite -?dt.
by rewrite /bal eb leqnn; have [/andP[_ ->]] := st_pos lb.
Qed.

Let lab_end i : (i < d t)%N -> b_end (nb gb (lab t i)) == t.
Proof.
move=> li; have [_ le] := st_pos (llt li); case: I => h _ _ _ _; have [_] : (lab t i < size gb)%N /\ bal (nb gb (lab t i)) t by apply: h; rewrite dt.
by case/andP => _ ge; rewrite eqn_leq le ge.
Qed.
Let hit_end (cs : seq svec) b : (forall j, (j < d t.+1)%N -> pivq E t j = pivc (nth [::] cs j)) -> hitb cs (lab t) (d t.+1) b -> b_end (nb gb b) = t.
Proof.
move=> pvE /hasP[j]; rewrite mem_iota add0n => /andP[_ lj]; case ej : (pivc _) => [r|] // /eqP <-.
by apply/eqP/lab_end/(@pb j); rewrite pvE.
Qed.

Lemma rec_bars (EE : cmat) : is_lft (E t) = ~~ z_entry e -> dene EE (E t) ->
  exists gb' lab' zb', [/\ linv t.+1 (trunc d t.+1) (pivq E) gb' lab', forall s i, (s <= t)%N -> lab' s i = lab s i,
    update_bars vmax zb e hd EE [seq (i, lab t i) | i <- iota 0 (d t)] = Ok (zb', [seq (j, lab' t.+1 j) | j <- iota 0 (d t.+1)]) &
    rep_ok t.+1 gb' zb'].
Proof.
move=> el dE.
have [B eB dB] : exists2 B, (if z_entry e then transpose EE else Ok EE) = Ok B & den B (nmx (E t)).
  by case: (E t) el dE => M /=; case: (z_entry e) => //= _ dE; [exists EE|apply: den_transpose].
have [wB nrB ncB _] := dB.
have sc : size (cols B) = d t.+1 by case/andP: wB => /eqP -> _.
have pvE j : (j < d t.+1)%N -> pivq E t j = pivc (nth [::] (cols B) j).
  move=> lj; rewrite (pivcE (Ordinal lj) dB (pivot_nmx pE)); exact: (pivqE E (Ordinal lj)).
have [gb' [lab' [[I' o'] ez le H1 H2]]] := bars_step sc pvE.
have [sz Rb] := R.
set p1 := [seq x <- _ | _] in ez; set zb1 := zb ++ _ in ez.
have sz1 : size zb1 = size gb' by rewrite size_cat size_nseq sz subnKC.
have lp x : x \in p1 -> (x.2 < size zb1)%N.
  rewrite mem_filter => /andP[_ /mapP[i]]; rewrite mem_iota add0n => /andP[_ li] ->; rewrite sz1.
  exact: leq_trans (llt li) le.
have [zb' [ek sk Hk]] := kill_ok vmax hd e lp.
exists gb', lab', zb'; split=> //; first by rewrite /update_bars eB; cbn [obind]; rewrite ncB ez; cbn [obind]; rewrite ek.
split; first by rewrite sk.
move=> b z0 lb; have lb' : (b < size zb')%N by rewrite sk sz1.
have lb1 : (b < size zb1)%N by rewrite sz1.
rewrite (set_nth_default (newz vmax hd e)) // Hk // nth_cat sz => e0.
have dead b' : (b' < size gb)%N -> (b' \in [seq x.2 | x <- p1]) = (b_end (nb gb b') == t) && ~~ hitb (cols B) (lab t) (d t.+1) b'.
  move=> lb2; apply/mapP/andP => [[x]|[/eqP eb nh]].
    rewrite mem_filter => /andP[nh /mapP[i]]; rewrite mem_iota add0n => /andP[_ li] ex eb; subst x; rewrite /= in nh eb.
    split; first by rewrite eb; exact: lab_end.
    apply/negP => /hasP[j]; rewrite mem_iota add0n => /andP[_ lj].
    case ej : (pivc _) => [r|] // /eqP er; case/negP: nh; apply/hasP; exists j; first by rewrite mem_iota.
    rewrite ej; apply/eqP; congr Some; case: I => _ h _ _ _; apply: (h t) => //; rewrite ?dt ?er //.
    by apply: (@pb j); rewrite pvE.
  have [i li ei] := at_end lb2 eb; exists (i, lab t i) => //; rewrite mem_filter; apply/andP; split.
    apply: contra nh => /hasP[j jj /eqP ej]; apply/hasP; exists j => //; by rewrite ej ei.
  by apply/mapP; exists i => //; rewrite mem_iota.
case: (ltnP b (size gb)) => lbg; last first.
  have [s1 s2] := H2 b lbg lb; rewrite /pint s1 s2 eqxx /=.
  have -> : (b \in [seq x.2 | x <- p1]) = false.
    apply/mapP => -[x]; rewrite mem_filter => /andP[_ /mapP[i]]; rewrite mem_iota add0n => /andP[_ li] -> /= eb.
    by move: (llt li); rewrite -eb ltnNge lbg.
  rewrite nth_nseq -sz1 size_cat size_nseq sz in lb1 *; rewrite (_ : (b - size gb < _)%N = true); last first.
    by move: lb1 lbg; clear; lia.
  by rewrite te.
have := Rb b (newz vmax hd e) lbg e0; rewrite dead // /pint; have [s1 s2] := H1 b lbg; rewrite s1 s2.
have [_ le2] := st_pos lbg.
case eh : (hitb _ _ _ _); rewrite /= ?eqxx ?andbF ?andbT.
- have [eb|nb'] := eqVneq (b_end (nb gb b)) t; first by [].
  by case/eqP: nb'; apply: hit_end pvE eh.
- have -> : (b_end (nb gb b) == t.+1) = false by move: le2; clear; lia.
  by have [eb|_] := eqVneq (b_end (nb gb b)) t; [rewrite eb te /killz /=; case=> -> -> -> -> _|].
Qed.

Lemma id_bars : d t = d t.+1 -> match E t with Lft M => idm M | Rgt M => idm M end ->
  exists gb' lab', [/\ linv t.+1 (trunc d t.+1) (pivq E) gb' lab', forall s i, (s <= t)%N -> lab' s i = lab s i,
    [seq (j, lab' t.+1 j) | j <- iota 0 (d t.+1)] = [seq (i, lab t i) | i <- iota 0 (d t)] & rep_ok t.+1 gb' zb].
Proof.
move=> ed iE; pose cs : seq svec := [seq sv_unit O j | j <- iota 0 (d t.+1)].
have sc : size cs = d t.+1 by rewrite size_map size_iota.
have pp j : (j < d t.+1)%N -> pivq E t j = Some j by apply: id_pivq.
have pvE j : (j < d t.+1)%N -> pivq E t j = pivc (nth [::] cs j).
  by move=> lj; rewrite pp // (nth_map 0%N) ?size_iota // nth_iota.
have [gb' [lab' [[I' o'] _ le H1 H2]]] := bars_step sc pvE; exists gb', lab'.
have el i : (i < d t)%N -> lab t i = lab' t.+1 i.
  move=> li; case: I' => _ _ _ _ h5; rewrite -o' //; apply/eqP; rewrite h5 ?pp ?eqxx -?ed //.
  - by rewrite /trunc leqnSn.
  - by rewrite /trunc leqnn -ed.
have [sz Rb] := R.
have sg : size gb' = size gb.
  apply/eqP; rewrite eqn_leq le andbT leqNgt; apply/negP => lb; have [s1 s2] := H2 _ (leqnn _) lb.
  case: I' => _ _ _ h4 _; have [_ [h h'] _] := h4 _ lb; move: h h'; rewrite s1 /trunc leqnn -ed => h h'.
  by move: (llt h); rewrite el // h' ltnn.
split=> //.
  by rewrite ed; apply/eq_in_map => j; rewrite mem_iota add0n -ed => /andP[_ lj]; rewrite el.
split; first by rewrite sg.
move=> b z0; rewrite sg => lb e0; have := Rb b z0 lb e0; have [s1 s2] := H1 b lb; rewrite /pint s1 s2.
have [_ le2] := st_pos lb.
case eh : (hitb _ _ _ _); rewrite ?eqxx; first by rewrite (hit_end pvE eh) eqxx.
have -> : (b_end (nb gb b) == t.+1) = false by move: le2; clear; lia.
have [eb|//] := eqVneq (b_end (nb gb b)) t.
have [i li ei] := at_end lb eb; case/negP: (negbT eh); apply/hasP; exists i; first by rewrite mem_iota -ed.
by rewrite -pvE -?ed // pp -?ed // ei eqxx.
Qed.
End Bars.

(** zz_record *)
Lemma rec_ok (zd k n n' : nat) (s : zstate F A) X' (e : rfv A) (X : cmat) (v : arrow F n n') (B : 'M[F]_n) : (k < zd)%N ->
  [/\ size (zs_bars s) = zd, size (zs_piv s) = zd, size (zs_L s) = zd, size (zs_P s) = zd & size (zs_dir s) = zd] ->
  isB (nth (cm0 F) (zs_L s) k) (nth (cm0 F) (zs_P s) k) (nth false (zs_dir s) k) B -> dene X v -> is_lft v = ~~ z_entry e ->
  exists E U B' EE L' P', [/\ shZ E /\ is_lft E = is_lft v, utri U, chbase v (B *m U) B' = E, isB L' P' (z_entry e) B' & dene EE E /\
    forall zb p, update_bars vmax (nth [::] (zs_bars s) k) e k EE (nth [::] (zs_piv s) k) = Ok (zb, p) ->
     zz_record O vmax s X' e k X = Ok (ZState X' (set_nth [::] (zs_bars s) k zb) (set_nth [::] (zs_piv s) k p)
      (set_nth (cm0 F) (zs_L s) k L') (set_nth (cm0 F) (zs_P s) k P') (set_nth false (zs_dir s) k (z_entry e)))].
Proof.
move=> kz [s1 s2 s3 s4 s5] iB dX ev.
have [Y [f [E [U [B' [eY ef [dE lE] [shE tU ch] iB']]]]]] := fact_ok iB dX.
rewrite ev negbK in eY ef iB'.
exists E, U, B', (fE f), (fL f), (fP f); split=> //; split=> // zb p eu.
rewrite /zz_record (oget_nth (cm0 F)) ?s3 //; cbn [obind]; rewrite (oget_nth (cm0 F)) ?s4 //; cbn [obind].
rewrite (oget_nth false) ?s5 //; cbn [obind]; rewrite eY; cbn [obind]; rewrite ef; cbn [obind].
rewrite (oget_nth [::]) ?s1 //; cbn [obind]; rewrite (oget_nth [::]) ?s2 //; cbn [obind]; rewrite eu; cbn [obind fst snd].
rewrite (oset_Ok (cm0 F)) ?s3 //; cbn [obind]; rewrite (oset_Ok (cm0 F)) ?s4 //; cbn [obind].
by rewrite (oset_Ok false) ?s5 //; cbn [obind]; rewrite (oset_Ok [::]) ?s1 //; cbn [obind]; rewrite (oset_Ok [::]) ?s2.
Qed.
End S.
