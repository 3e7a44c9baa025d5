(** The sweeps of quiver/sparse.hpp. *)
From mathcomp Require Import all_ssreflect all_fingroup all_algebra zify.
From Verif Require Import Outcome P_Outcome RingTac M_SparseVec M_Perm M_ColMatrix S_Linalg P_SparseVec
  P_SparseVec2 P_Reduce P_Homology P_Pairing P_ColMatrix M_Fact S_Fact P_Den P_Fact3 P_Fact4 P_Fact5 P_Fact6 P_Fact7 M_Quiver S_Quiver
  P_Quiver1 P_Quiver2.
Set Implicit Arguments.
Unset Strict Implicit.
Unset Printing Implicit Defensive.
Import GRing.Theory.
Local Open Scope ring_scope.

Section S.
Variable F : fieldType.
Notation O := (ops_of F).
Notation svec := (svec F).
Notation cmat := (cmat F).
Notation fact := (fact F).
Variable d : nat -> nat.
Notation rep := (rep F d).
Variable dg : diagram F.
Notation nf := (nth (f0 F)).
Notation nm := (nth (m0 F)).

(** edge state: the arrow is L E, or L E U P unless bR, with L = 1 if bL; it is E U, or P L E U unless bL, with U = 1 if bR *)
Definition stEL (bL bR : bool) a b (f : fact) (v : arrow F a b) : Prop :=
  exists (L : 'M_a) E, [/\ den (fL f) L /\ dene (fE f) E, ltri L, shEL E, bL -> L = 1%:M &
    if bR then v = actL L E else
    exists U P : 'M_b, [/\ den (fU f) U, den (fP f) P, utri U, is_permmx P & v = actL L (actR P (actR U E))]].
Definition stEU (bL bR : bool) a b (f : fact) (v : arrow F a b) : Prop :=
  exists E (U : 'M_b), [/\ den (fU f) U /\ dene (fE f) E, utri U, shEU E, bR -> U = 1%:M &
    if bL then v = actR U E else
    exists P L : 'M_a, [/\ den (fL f) L, den (fP f) P, ltri L, is_permmx P & v = actL P (actL L (actR U E))]].

Definition frame T (x0 : T) (j0 j1 : nat) (s s' : seq T) : Prop :=
  size s' = size s /\ forall k, ~~ (j0 <= k <= j1)%N -> nth x0 s' k = nth x0 s k.
Lemma frame_refl T (x0 : T) j0 j1 s : frame x0 j0 j1 s s. Proof. by []. Qed.
Lemma frame_trans T (x0 : T) j0 j1 s1 s2 s3 : frame x0 j0 j1 s1 s2 -> frame x0 j0 j1 s2 s3 -> frame x0 j0 j1 s1 s3.
Proof. by move=> [a b] [c e]; split=> [|k nk]; rewrite ?c // e // b. Qed.
Lemma frame_mono T (x0 : T) j0 j1 i0 i1 s s' : (i0 <= j0)%N -> (j1 <= i1)%N -> frame x0 j0 j1 s s' -> frame x0 i0 i1 s s'.
Proof. by move=> a b [c e]; split=> // k nk; apply: e; move: a b nk; clear; lia. Qed.
Lemma frame_set T (x0 : T) i s x : (i < size s)%N -> frame x0 i i s (set_nth x0 s i x).
Proof.
move=> h; split=> [|k nk]; first by rewrite size_set_nth; apply/maxn_idPr.
by rewrite nth_set_nth /=; case: eqVneq nk => // ->; rewrite !leqnn.
Qed.

Lemma stEL_mono b1 c1 b2 a b (f : fact) (v : arrow F a b) : (c1 ==> b1) -> stEL b1 b2 f v -> stEL c1 b2 f v.
Proof.
by move=> /implyP i1 [L [E [h t sh h1 h2]]]; exists L, E; split=> // c; exact: h1 (i1 c).
Qed.
Lemma stEU_mono b1 b2 c2 a b (f : fact) (v : arrow F a b) : (c2 ==> b2) -> stEU b1 b2 f v -> stEU b1 c2 f v.
Proof.
by move=> /implyP i1 [E [U [h t sh h1 h2]]]; exists E, U; split=> // c; exact: h1 (i1 c).
Qed.

(** sweep 2 of the left-right algorithm *)
Lemma lr_sweep2_ok m j0 j1 n (bR : nat -> bool) (q : rep) facts : dirs dg m q -> (j0 + n <= j1)%N -> (j1 < m)%N -> size facts = m ->
  (forall k, (k < j1)%N -> bR k) ->
  (forall k, (j0 <= k <= j1)%N -> stEL (j0 + n < k)%N (bR k) (nf facts k) (q k)) ->
  exists facts' q', [/\ ofold (pass_L_left O dg) facts (rev (iota j0.+1 n)) = Ok facts', frame (f0 F) j0 j1 facts facts',
    isoin j0 (j0 + n) q q',
    (forall k, (j0 <= k <= j1)%N -> stEL (j0 < k)%N (bR k) (nf facts' k) (q' k)) &
    (forall k, fE (nf facts' k) = fE (nf facts k))].
Proof.
move=> + + + + HbR; elim: n q facts => [|n IH] q facts D nj jm sf H.
  rewrite addn0 in H *; exists facts, q; split; [done|exact: frame_refl|exact: isoin_refl|exact: H|done].
have -> : rev (iota j0.+1 n.+1) = (j0 + n).+1 :: rev (iota j0.+1 n) by rewrite -[n.+1]addn1 iotaD rev_cat /= addSn.
cbn [ofold].
have hi : (j0 <= j0 + n <= j1)%N by move: nj; clear; lia.
have hi1 : (j0 <= (j0 + n).+1 <= j1)%N by move: nj; clear; lia.
have im : ((j0 + n).+1 < m)%N by move: nj jm; clear; lia.
have [L [E [[dL dE] tL sE _ hv]]] := H _ hi1.
have [v1 ev1 hv'] : exists2 v1, q (j0 + n).+1 = actL L v1 &
   (if bR (j0 + n).+1 then v1 = E else exists U P : 'M_(d (j0 + n).+2), [/\ den (fU (nf facts (j0 + n).+1)) U, den (fP (nf facts (j0 + n).+1)) P, utri U, is_permmx P & v1 = actR P (actR U E)]).
  move: hv; case: ifP => _; first by exists E.
  by move=> [U [P [dU dP tU pP ->]]]; eexists; [by []|exists U, P].
have [L0 [E0 [[dL0 dE0] tL0 sE0 _]]] := H _ hi; rewrite HbR; last by move: nj; clear; lia.
move=> e0.
have [A [K [q' [ep I o' e1 [dA tK eK]]]]] := pass_L_left_ok D im sf dL tL ev1 dL0 tL0 e0 dE0 sE0.
rewrite ep; cbn [obind]; set facts1 := set_nth _ _ (j0+n).+1 _.
have sf1 : size facts1 = m.
  by rewrite !size_set_nth sf; move: im; clear; lia.
have n1 k : nf facts1 k = if k == (j0 + n).+1 then setL (nf facts (j0 + n).+1) (idm O (fL (nf facts (j0 + n).+1))) else
     if k == (j0 + n)%N then setL (nf facts (j0 + n)) A else nf facts k.
  by rewrite !nth_set_nth /= !nth_set_nth /=.
have D' : dirs dg m q' by apply: dirs_iso I D.
have H' k : (j0 <= k <= j1)%N -> stEL (j0 + n < k)%N (bR k) (nf facts1 k) (q' k).
  move=> kk; rewrite n1; case: (eqVneq k (j0 + n).+1) => [->|k1].
    exists 1%:M, E; split=> //; [split=> //; exact: den_idm dL|exact: ltri1|].
    by rewrite e1 !actL1; move: hv'; case: (bR _) => // -[U [P h]]; exists U, P; rewrite actL1.
  case: (eqVneq k (j0 + n)%N) => [->|k2].
    exists K, E0; split=> //; first by rewrite ltnn.
    by rewrite HbR ?eK //; move: nj; clear; lia.
  rewrite o' //; apply: stEL_mono (H _ kk).
  by apply/implyP; move: k1 k2; clear; lia.
have nj' : (j0 + n <= j1)%N by move: nj; clear; lia.
have [facts' [q'' [ef fr I' st eE]]] := IH _ _ D' nj' jm sf1 H'.
exists facts', q''; split=> //.
- apply: frame_trans fr; apply: (@frame_trans _ _ _ _ _ (set_nth (f0 F) facts (j0 + n) (setL (nf facts (j0 + n)) A))).
    apply: frame_mono (frame_set _ _ _); rewrite ?sf //; move: hi im; clear; lia.
  apply: frame_mono (frame_set _ _ _); rewrite ?size_set_nth ?sf //; move: hi1 im; clear; lia.
- apply: isoin_trans (isoin_mono _ _ I) (isoin_mono _ _ I') => //; clear; lia.
- move=> k; rewrite eE n1; case: (eqVneq k (j0 + n).+1) => [->|k1] //; by case: (eqVneq k (j0 + n)%N) => [->|k2].
Qed.

(** sweep 1 of the left-right algorithm *)
Lemma fact_at_EL (q : rep) m facts mats j : dirs dg m q -> (j < m)%N -> size facts = m -> size mats = m -> dene (nm mats j) (q j) ->
  exists2 f, fact_at (fact_EL O) dg (facts, mats) j = Ok (set_nth (f0 F) facts j f, mats) & stEL false false f (q j).
Proof.
move=> D jm sf sm dA; have [f e [L [E [U [P [[dL dE dU dP] tL tU pP [sE ev]]]]]]] := fact_EL_ok dA; exists f; last first.
  by exists L, E; split=> //; exists U, P.
by rewrite /fact_at D //; cbn [obind]; rewrite (oget_nth (m0 F)) ?sm //; cbn [obind]; rewrite e; cbn [obind]; rewrite (oset_Ok (f0 F)) ?sf.
Qed.
Lemma fact_at_EU (q : rep) m facts mats j : dirs dg m q -> (j < m)%N -> size facts = m -> size mats = m -> dene (nm mats j) (q j) ->
  exists2 f, fact_at (fact_EU O) dg (facts, mats) j = Ok (set_nth (f0 F) facts j f, mats) & stEU false false f (q j).
Proof.
move=> D jm sf sm dA; have [f e [P [L [E [U [[dL dE dU dP] tL tU pP [sE ev]]]]]]] := fact_EU_ok dA; exists f; last first.
  by exists E, U; split=> //; exists P, L.
by rewrite /fact_at D //; cbn [obind]; rewrite (oget_nth (m0 F)) ?sm //; cbn [obind]; rewrite e; cbn [obind]; rewrite (oset_Ok (f0 F)) ?sf.
Qed.

Lemma lr_sweep1_ok m j0 j1 (q : rep) facts mats : dirs dg m q -> (j0 <= j1)%N -> (j1 < m)%N -> size facts = m -> size mats = m ->
  (forall k, (j0 <= k <= j1)%N -> dene (nm mats k) (q k)) ->
  exists facts' mats' q', [/\ leftright_sweep1 O dg (facts, mats) j0 j1 = Ok (facts', mats'),
    frame (f0 F) j0 j1 facts facts' /\ frame (m0 F) j0 j1 mats mats', isoin j0 j1 q q' &
    forall k, (j0 <= k <= j1)%N -> stEL false (k < j1)%N (nf facts' k) (q' k)].
Proof.
move=> D j01 jm sf sm H; rewrite /leftright_sweep1.
have j0m : (j0 < m)%N by apply: leq_ltn_trans j01 jm.
have [f -> st0] := fact_at_EL D j0m sf sm (H _ (introT andP (conj (leqnn j0) j01))); cbn [obind].
suff Q n : (j0 + n <= j1)%N ->
  exists facts' mats' q', [/\ ofold (fun s j => do s' <- pass_UP_right O dg s j.-1; fact_at (fact_EL O) dg s' j) (set_nth (f0 F) facts j0 f, mats)
       (iota j0.+1 n) = Ok (facts', mats'),
    frame (f0 F) j0 (j0 + n) facts facts' /\ frame (m0 F) j0 (j0 + n) mats mats', isoin j0 (j0 + n) q q' &
    forall k, (j0 <= k <= j0 + n)%N -> stEL false (k < j0 + n)%N (nf facts' k) (q' k)].
  by have := Q (j1 - j0)%N; rewrite subnKC // => /(_ (leqnn _)).
elim: n => [|n IH] nj.
  rewrite addn0; exists (set_nth (f0 F) facts j0 f), mats, q; split=> //; first by split=> //; apply: frame_set; rewrite sf.
    exact: isoin_refl.
  move=> k; rewrite -eqn_leq => /eqP <-; rewrite nth_set_nth /= eqxx ltnn; exact: st0.
have {IH} [|facts1 [mats1 [q1 [e1 [fr1 fr2] I1 st1]]]] := IH _; first by move: nj; clear; lia.
have -> : iota j0.+1 n.+1 = iota j0.+1 n ++ [:: (j0 + n).+1] by rewrite -[n.+1]addn1 iotaD /= addSn.
rewrite ofold_cat e1; cbn [obind iota ofold]; rewrite [_.-1]/= addnS.
have [sf1 sm1] : size facts1 = m /\ size mats1 = m by rewrite fr1.1 fr2.1.
have D1 : dirs dg m q1 by apply: dirs_iso I1 D.
have hi : (j0 <= j0 + n <= j0 + n)%N by move: nj; clear; lia.
have im : ((j0 + n).+1 < m)%N by move: nj jm; clear; lia.
have [L [E [[dL dE] tL sE _]]] := st1 _ hi; rewrite ltnn => -[U [P [dU dP tU pP e]]].
have e' : q1 (j0 + n)%N = actR P (actR U (actL L E)) by rewrite e !actLR.
have dA : dene (nm mats1 (j0 + n).+1) (q1 (j0 + n).+1).
  rewrite fr2.2 ?(isoin_out I1) ?ltnS ?leqnn ?orbT //; first by apply: H; move: nj; clear; lia.
  by clear; lia.
have [f1 [A [q' [-> I o' [e1' eL eE dU' dP'] dA']]]] := pass_UP_right_ok D1 im sf1 sm1 dU dP tU pP e' dA.
cbn [obind]; set facts2 := set_nth _ _ _ _; set mats2 := set_nth _ _ _ _.
have D' : dirs dg m q' by apply: dirs_iso I D1.
have jm1 : (j0 + n < m)%N by exact: ltnW.
have [sf2 sm2] : size facts2 = m /\ size mats2 = m.
  by rewrite !size_set_nth sf1 sm1; move: im; clear; lia.
have [|f2 -> st2] := fact_at_EL D' im sf2 sm2 _; first by rewrite nth_set_nth /= eqxx.
exists (set_nth (f0 F) facts2 (j0 + n).+1 f2), mats2, q'; split=> //.
- split.
    apply: (@frame_trans _ _ _ _ _ facts1); first by apply: frame_mono fr1; clear; lia.
    apply: (@frame_trans _ _ _ _ _ facts2).
      apply: frame_mono (frame_set _ _ _); rewrite ?sf1 //; move: hi jm1; clear; lia.
    apply: frame_mono (frame_set _ _ _); rewrite ?sf2 //; move: hi jm1; clear; lia.
  apply: (@frame_trans _ _ _ _ _ mats1); first by apply: frame_mono fr2; clear; lia.
  apply: frame_mono (frame_set _ _ _); rewrite ?sm1 //; move: hi jm1; clear; lia.
- apply: isoin_trans (isoin_mono _ _ I1) (isoin_mono _ _ I) => //; clear; lia.
- move=> k kk; rewrite nth_set_nth /=; case: (eqVneq k (j0 + n).+1) => [->|k1].
    by rewrite ltnn.
  rewrite nth_set_nth /=; case: (eqVneq k (j0 + n)%N) => [->|k2].
    by exists L, E; split=> //; [rewrite eL eE|rewrite ltnSn].
  have -> : (k < (j0 + n).+1)%N = (k < j0 + n)%N by move: k1 k2; clear; lia.
  by rewrite o' //; apply: st1; move: kk k1 k2; clear; lia.
Qed.

(** sweep 2 of the right-left algorithm *)
Lemma rl_sweep2_ok m j0 j1 n (bL : nat -> bool) (q : rep) facts : dirs dg m q -> (j0 + n <= j1)%N -> (j1 < m)%N -> size facts = m ->
  (forall k, (j0 < k)%N -> bL k) ->
  (forall k, (j0 <= k <= j1)%N -> stEU (bL k) (k < j1 - n)%N (nf facts k) (q k)) ->
  exists facts' q', [/\ ofold (pass_U_right O dg) facts (iota (j1 - n) n) = Ok facts', frame (f0 F) j0 j1 facts facts',
    isoin (j1 - n) j1 q q',
    (forall k, (j0 <= k <= j1)%N -> stEU (bL k) (k < j1)%N (nf facts' k) (q' k)) &
    (forall k, fE (nf facts' k) = fE (nf facts k))].
Proof.
move=> + + + + HbL; elim: n q facts => [|n IH] q facts D nj jm sf H.
  rewrite subn0 in H *; exists facts, q; split; [done|exact: frame_refl|exact: isoin_refl|exact: H|done].
have eb : (j1 - n = (j1 - n.+1).+1)%N by move: nj; clear; lia.
move: H IH; rewrite eb; set b := (j1 - n.+1)%N => H IH; cbn [iota ofold].
have hi : (j0 <= b <= j1)%N by move: nj; rewrite /b; clear; lia.
have hi1 : (j0 <= b.+1 <= j1)%N by move: nj; rewrite /b; clear; lia.
have im : (b.+1 < m)%N by move: hi1 jm; clear; lia.
have [E [U [[dU dE] tU sE _ hv]]] := H _ hi.
have [v1 ev1 hv'] : exists2 v1, q b = actR U v1 &
   (if bL b then v1 = E else exists P L : 'M_(d b), [/\ den (fL (nf facts b)) L, den (fP (nf facts b)) P, ltri L, is_permmx P & v1 = actL P (actL L E)]).
  move: hv; case: ifP => _; first by exists E.
  by move=> [P [L [dL dP tL pP e]]]; exists (actL P (actL L E)); [rewrite e !actLR|exists P, L].
have [E0 [U0 [[dU0 dE0] tU0 sE0 _]]] := H _ hi1; rewrite HbL; last by move: hi; clear; lia.
move=> e0.
have [A [K [q' [ep I o' e1 [dA tK eK]]]]] := pass_U_right_ok D im sf dU tU ev1 dU0 tU0 e0 dE0 sE0.
rewrite ep; cbn [obind]; set facts1 := set_nth _ _ b _.
have sf1 : size facts1 = m.
  by rewrite !size_set_nth sf; move: im; clear; lia.
have n1 k : nf facts1 k = if k == b then setU (nf facts b) (idm O (fU (nf facts b))) else
     if k == b.+1 then setU (nf facts b.+1) A else nf facts k.
  by rewrite !nth_set_nth /= !nth_set_nth /=.
have D' : dirs dg m q' by apply: dirs_iso I D.
have H' k : (j0 <= k <= j1)%N -> stEU (bL k) (k < b.+1)%N (nf facts1 k) (q' k).
  move=> kk; rewrite n1; case: (eqVneq k b) => [->|k1].
    exists E, 1%:M; split=> //; [split=> //; exact: den_idm dU|exact: utri1|].
    by rewrite e1 !actR1; move: hv'; case: (bL _) => // -[P [L h]]; exists P, L; rewrite ?actR1.
  case: (eqVneq k b.+1) => [->|k2].
    exists E0, K; split=> //; first by rewrite ltnn.
    by rewrite HbL ?eK //; move: hi; clear; lia.
  rewrite o' //; apply: stEU_mono (H _ kk).
  by apply/implyP; move: k1 k2; clear; lia.
have nj' : (j0 + n <= j1)%N by move: nj; clear; lia.
have [facts' [q'' [ef fr I' st eE]]] := IH _ _ D' nj' jm sf1 H'.
exists facts', q''; split=> //.
- apply: frame_trans fr; apply: (@frame_trans _ _ _ _ _ (set_nth (f0 F) facts b.+1 (setU (nf facts b.+1) A))).
    apply: frame_mono (frame_set _ _ _); rewrite ?sf //; move: hi hi1 im; clear; lia.
  apply: frame_mono (frame_set _ _ _); rewrite ?size_set_nth ?sf //; move: hi hi1 im; clear; lia.
- apply: isoin_trans (isoin_mono _ _ I) (isoin_mono _ _ I') => //; move: hi1; clear; lia.
- move=> k; rewrite eE n1; case: (eqVneq k b) => [->|k1] //; by case: (eqVneq k b.+1) => [->|k2].
Qed.

(** sweep 1 of the right-left algorithm *)
Lemma rl_sweep1_ok m j0 j1 (q : rep) facts mats : dirs dg m q -> (j0 <= j1)%N -> (j1 < m)%N -> size facts = m -> size mats = m ->
  (forall k, (j0 <= k <= j1)%N -> dene (nm mats k) (q k)) ->
  exists facts' mats' q', [/\ rightleft_sweep1 O dg (facts, mats) j0 j1 = Ok (facts', mats'),
    frame (f0 F) j0 j1 facts facts' /\ frame (m0 F) j0 j1 mats mats', isoin j0 j1 q q' &
    forall k, (j0 <= k <= j1)%N -> stEU (j0 < k)%N false (nf facts' k) (q' k)].
Proof.
move=> D j01 jm sf sm H; rewrite /rightleft_sweep1.
have j0m : (j0 < m)%N by apply: leq_ltn_trans j01 jm.
have [f -> st0] := fact_at_EU D jm sf sm (H _ (introT andP (conj j01 (leqnn j1)))); cbn [obind].
suff Q n : (j0 + n <= j1)%N ->
  exists facts' mats' q', [/\ ofold (fun s j => do s' <- pass_PL_left O dg s j.+1; fact_at (fact_EU O) dg s' j) (set_nth (f0 F) facts j1 f, mats)
       (rev (iota (j1 - n) n)) = Ok (facts', mats'),
    frame (f0 F) (j1 - n) j1 facts facts' /\ frame (m0 F) (j1 - n) j1 mats mats', isoin (j1 - n) j1 q q' &
    forall k, (j1 - n <= k <= j1)%N -> stEU (j1 - n < k)%N false (nf facts' k) (q' k)].
  by have := Q (j1 - j0)%N; rewrite subnKC // subKn // => /(_ (leqnn _)).
elim: n => [|n IH] nj.
  rewrite subn0; exists (set_nth (f0 F) facts j1 f), mats, q; split=> //; first by split=> //; apply: frame_set; rewrite sf.
    exact: isoin_refl.
  move=> k; rewrite -eqn_leq => /eqP <-; rewrite nth_set_nth /= eqxx ltnn; exact: st0.
have {IH} [|facts1 [mats1 [q1 [e1 [fr1 fr2] I1 st1]]]] := IH _; first by move: nj; clear; lia.
have eb : (j1 - n = (j1 - n.+1).+1)%N by move: nj; clear; lia.
have -> : rev (iota (j1 - n.+1) n.+1) = rev (iota (j1 - n) n) ++ [:: (j1 - n.+1)%N] by rewrite /= rev_cons cats1 eb.
rewrite ofold_cat e1; cbn [obind iota ofold].
move: fr1 fr2 I1 st1; rewrite eb; have ub : (j0 <= j1 - n.+1)%N by move: nj; clear; lia.
have lb : (j1 - n.+1 < j1)%N by move: nj; clear; lia.
move: ub lb; set b := (j1 - n.+1)%N; move=> ub lb fr1 fr2 I1 st1; clear eb.
have [sf1 sm1] : size facts1 = m /\ size mats1 = m by rewrite fr1.1 fr2.1.
have D1 : dirs dg m q1 by apply: dirs_iso I1 D.
have hi : (b < b.+1 <= j1)%N by move: lb; clear; lia.
have im : (b.+1 < m)%N by move: hi jm; clear; lia.
have [E [U [[dU dE] tU sE _]]] := st1 _ hi; rewrite ltnn => -[P [L [dL dP tL pP e]]].
have dA : dene (nm mats1 b) (q1 b).
  rewrite fr2.2 ?(isoin_out I1) ?ltnS ?leqnn //; last by clear; lia.
  by apply: H; move: ub lb; clear; lia.
have [f1 [A [q' [-> I o' [e1' eU eE dL' dP'] dA']]]] := pass_PL_left_ok D1 im sf1 sm1 dL dP tL pP e dA.
cbn [obind]; set facts2 := set_nth _ _ _ _; set mats2 := set_nth _ _ _ _.
have D' : dirs dg m q' by apply: dirs_iso I D1.
have jm1 : (b < m)%N by exact: ltnW.
have [sf2 sm2] : size facts2 = m /\ size mats2 = m.
  by rewrite !size_set_nth sf1 sm1; move: im; clear; lia.
have [|f2 -> st2] := fact_at_EU D' jm1 sf2 sm2 _; first by rewrite nth_set_nth /= eqxx.
exists (set_nth (f0 F) facts2 b f2), mats2, q'; split=> //.
- split.
    apply: (@frame_trans _ _ _ _ _ facts1); first by apply: frame_mono fr1; clear; lia.
    apply: (@frame_trans _ _ _ _ _ facts2).
      apply: frame_mono (frame_set _ _ _); rewrite ?sf1 //; move: hi jm1; clear; lia.
    apply: frame_mono (frame_set _ _ _); rewrite ?sf2 //; move: hi jm1; clear; lia.
  apply: (@frame_trans _ _ _ _ _ mats1); first by apply: frame_mono fr2; clear; lia.
  apply: frame_mono (frame_set _ _ _); rewrite ?sm1 //; move: hi jm1; clear; lia.
- apply: isoin_trans (isoin_mono _ _ I1) (isoin_mono _ _ I) => //; clear; lia.
- move=> k kk; rewrite nth_set_nth /=; case: (eqVneq k b) => [->|k1].
    by rewrite ltnn.
  rewrite nth_set_nth /=; case: (eqVneq k b.+1) => [->|k2].
    by exists E, U; split=> //; [rewrite eU eE|rewrite ltnSn].
  have -> : (b < k)%N = (b.+1 < k)%N by move: kk k1 k2; clear; lia.
  by rewrite o' //; apply: st1; move: kk k1 k2; clear; lia.
Qed.

End S.
