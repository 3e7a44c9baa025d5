(** Divide and conquer on a type-A quiver. *)
From mathcomp Require Import all_ssreflect all_fingroup all_algebra zify.
From Verif Require Import Outcome P_Outcome RingTac M_SparseVec M_Perm M_ColMatrix S_Linalg P_SparseVec
  P_SparseVec2 P_Reduce P_Homology P_Pairing P_ColMatrix M_Fact S_Fact P_Den P_Fact3 P_Fact4 P_Fact5 P_Fact6 P_Fact7 M_Quiver S_Quiver
  P_Quiver1 P_Quiver2 P_Quiver3 P_Quiver4 P_Quiver8.
Set Implicit Arguments.
Unset Strict Implicit.
Unset Printing Implicit Defensive.
Import GRing.Theory.
Local Open Scope ring_scope.

Section S.
Variable F : fieldType.
Notation O := (ops_of F).
Notation svec := (svec F).
Notation cmat := (cmat F).
Notation fact := (fact F).
Variable d : nat -> nat.
Notation rep := (rep F d).
Variable dg : diagram F.
Notation nf := (nth (f0 F)).
Notation nm := (nth (m0 F)).
Notation qstate := (qstate F).

Definition specL (fct : qstate -> nat -> nat -> outcome qstate) (m n : nat) : Prop :=
  forall (q : rep) facts mats j0 j1, dirs dg m q -> (j0 <= j1)%N -> (j1 < m)%N -> (j1 - j0 <= n)%N -> size facts = m -> size mats = m ->
  (forall k, (j0 <= k <= j1)%N -> dene (nm mats k) (q k)) ->
  exists facts' mats' q', [/\ fct (facts, mats) j0 j1 = Ok (facts', mats'),
    frame (f0 F) j0 j1 facts facts' /\ frame (m0 F) j0 j1 mats mats', isoin j0 j1 q q' &
    forall k, (j0 <= k <= j1)%N -> stEL (j0 < k)%N (k < j1)%N (nf facts' k) (q' k)].
Definition specU (fct : qstate -> nat -> nat -> outcome qstate) (m n : nat) : Prop :=
  forall (q : rep) facts mats j0 j1, dirs dg m q -> (j0 <= j1)%N -> (j1 < m)%N -> (j1 - j0 <= n)%N -> size facts = m -> size mats = m ->
  (forall k, (j0 <= k <= j1)%N -> dene (nm mats k) (q k)) ->
  exists facts' mats' q', [/\ fct (facts, mats) j0 j1 = Ok (facts', mats'),
    frame (f0 F) j0 j1 facts facts' /\ frame (m0 F) j0 j1 mats mats', isoin j0 j1 q q' &
    forall k, (j0 <= k <= j1)%N -> stEU (j0 < k)%N (k < j1)%N (nf facts' k) (q' k)].

Lemma specL_base m : specL (fun s j0 j1 => do s1 <- leftright_sweep1 O dg s j0 j1; do f <- leftright_sweep2 O dg s1.1 j0 j1; Ok (f, s1.2)) m 3.
Proof.
move=> q facts mats j0 j1 D j01 jm _ sf sm H.
have [facts1 [mats1 [q1 [-> [fr1 fr2] I1 st1]]]] := lr_sweep1_ok D j01 jm sf sm H; cbn [obind fst snd].
have D1 : dirs dg m q1 by apply: dirs_iso I1 D.
have sf1 : size facts1 = m by rewrite fr1.1.
have jj : (j0 + (j1 - j0) <= j1)%N by rewrite subnKC.
have [//|k kk|facts2 [q2 [e2 fr3 I2 st2 _]]] := lr_sweep2_ok (bR := fun k => (k < j1)%N) D1 jj jm sf1.
  by rewrite subnKC // ltnNge (andP kk).2; apply: st1.
rewrite /leftright_sweep2 e2; cbn [obind]; exists facts2, mats1, q2; split; [by []| |by rewrite subnKC // in I2; apply: isoin_trans I1 I2|by []].
by split=> //; apply: frame_trans fr1 fr3.
Qed.
Lemma specU_base m : specU (fun s j0 j1 => do s1 <- rightleft_sweep1 O dg s j0 j1; do f <- rightleft_sweep2 O dg s1.1 j0 j1; Ok (f, s1.2)) m 3.
Proof.
move=> q facts mats j0 j1 D j01 jm _ sf sm H.
have [facts1 [mats1 [q1 [-> [fr1 fr2] I1 st1]]]] := rl_sweep1_ok D j01 jm sf sm H; cbn [obind fst snd].
have D1 : dirs dg m q1 by apply: dirs_iso I1 D.
have sf1 : size facts1 = m by rewrite fr1.1.
have jj : (j0 + (j1 - j0) <= j1)%N by rewrite subnKC.
have [//|k kk|facts2 [q2 [e2 fr3 I2 st2 _]]] := rl_sweep2_ok (bL := fun k => (j0 < k)%N) D1 jj jm sf1.
  rewrite subKn //; have -> : (k < j0)%N = false by move: kk; clear; lia.
  exact: st1.
rewrite subKn // in e2 I2.
rewrite /rightleft_sweep2 e2; cbn [obind]; exists facts2, mats1, q2; split; [by []| |by apply: isoin_trans I1 I2|by []].
by split=> //; apply: frame_trans fr1 fr3.
Qed.

(** the two recursive calls, in either order *)
Lemma split_ok (b : bool) EL EU m n (q : rep) facts mats j0 j2 j1 : specL EL m n -> specU EU m n ->
  dirs dg m q -> (j0 < j2)%N -> (j2 < j1)%N -> (j1 < m)%N -> (j1 - j0 <= n.+1)%N -> size facts = m -> size mats = m ->
  (forall k, (j0 <= k <= j1)%N -> dene (nm mats k) (q k)) ->
  exists facts' mats' q', [/\ (if b then do s1 <- EL (facts, mats) j0 j2.-1; EU s1 j2.+1 j1 else do s1 <- EU (facts, mats) j2.+1 j1; EL s1 j0 j2.-1)
     = Ok (facts', mats'),
    frame (f0 F) j0 j1 facts facts' /\ frame (m0 F) j0 j1 mats mats', isoin j0 j1 q q',
    (forall k, (j0 <= k < j2)%N -> stEL (j0 < k)%N (k < j2.-1)%N (nf facts' k) (q' k)) /\
    (forall k, (j2 < k <= j1)%N -> stEU (j2.+1 < k)%N (k < j1)%N (nf facts' k) (q' k)) &
    dene (nm mats' j2) (q' j2)].
Proof.
move=> HL HU D a1 a2 jm nn sf sm H.
have l1 : (j0 <= j2.-1)%N by move: a1; clear; lia.
have l2 : (j2.-1 < m)%N by move: a2 jm; clear; lia.
have l3 : (j2.-1 - j0 <= n)%N by move: a1 a2 nn; clear; lia.
have l4 : (j1 - j2.+1 <= n)%N by move: a1 a2 nn; clear; lia.
have l5 : (j2 < m)%N by move: a2 jm; clear; lia.
case: b.
- have [|facts1 [mats1 [q1 [-> [fr1 fr2] I1 st1]]]] := HL q facts mats j0 j2.-1 D l1 l2 l3 sf sm.
    by move=> k kk; apply: H; move: kk a1 a2; clear; lia.
  cbn [obind]; have D1 : dirs dg m q1 by apply: dirs_iso I1 D.
  have [sf1 sm1] : size facts1 = m /\ size mats1 = m by rewrite fr1.1 fr2.1.
  have [|facts2 [mats2 [q2 [-> [fr3 fr4] I2 st2]]]] := HU q1 facts1 mats1 j2.+1 j1 D1 a2 jm l4 sf1 sm1.
    move=> k kk; rewrite (isoin_out I1) ?fr2.2; first (by apply: H; move: kk a1 a2; clear; lia); move: kk a1 a2; clear; lia.
  exists facts2, mats2, q2; split; [by []| | | |].
  + by split; [apply: (@frame_trans _ _ _ _ _ facts1); [apply: frame_mono fr1|apply: frame_mono fr3]|apply: (@frame_trans _ _ _ _ _ mats1); [apply: frame_mono fr2|apply: frame_mono fr4]]; move: a1 a2; clear; lia.
  + by apply: (@isoin_trans _ _ _ _ _ q1); [apply: isoin_mono I1|apply: isoin_mono I2]; move: a1 a2; clear; lia.
  + split=> k kk; last by apply: st2.
    rewrite (isoin_out I2) ?fr3.2; first (apply: st1); move: kk a1 a2; clear; lia.
  + rewrite (isoin_out I2) ?fr4.2 ?(isoin_out I1) ?fr2.2; first (apply: H); move: a1 a2; clear; lia.
- have [|facts1 [mats1 [q1 [-> [fr1 fr2] I1 st1]]]] := HU q facts mats j2.+1 j1 D a2 jm l4 sf sm.
    by move=> k kk; apply: H; move: kk a1 a2; clear; lia.
  cbn [obind]; have D1 : dirs dg m q1 by apply: dirs_iso I1 D.
  have [sf1 sm1] : size facts1 = m /\ size mats1 = m by rewrite fr1.1 fr2.1.
  have [|facts2 [mats2 [q2 [-> [fr3 fr4] I2 st2]]]] := HL q1 facts1 mats1 j0 j2.-1 D1 l1 l2 l3 sf1 sm1.
    move=> k kk; rewrite (isoin_out I1) ?fr2.2; first (by apply: H; move: kk a1 a2; clear; lia); move: kk a1 a2; clear; lia.
  exists facts2, mats2, q2; split; [by []| | | |].
  + by split; [apply: (@frame_trans _ _ _ _ _ facts1); [apply: frame_mono fr1|apply: frame_mono fr3]|apply: (@frame_trans _ _ _ _ _ mats1); [apply: frame_mono fr2|apply: frame_mono fr4]]; move: a1 a2; clear; lia.
  + by apply: (@isoin_trans _ _ _ _ _ q1); [apply: isoin_mono I1|apply: isoin_mono I2]; move: a1 a2; clear; lia.
  + split=> k kk; first by apply: st2; move: kk a1; clear; lia.
    rewrite (isoin_out I2) ?fr3.2; first (apply: st1); move: kk a1 a2; clear; lia.
  + rewrite (isoin_out I2) ?fr4.2 ?(isoin_out I1) ?fr2.2; first (apply: H); move: a1 a2; clear; lia.
Qed.

(** the two final sweeps, in either order *)
Lemma merge_ok (b : bool) m (q : rep) facts j0 j2 j1 : dirs dg m q -> (j0 < j2)%N -> (j2 < j1)%N -> (j1 < m)%N -> size facts = m ->
  (forall k, (j0 <= k < j2)%N -> stEL false true (nf facts k) (q k)) ->
  (forall k, (j2 < k <= j1)%N -> stEU true false (nf facts k) (q k)) ->
  exists facts' q', [/\ (if b then do f3 <- leftright_sweep2 O dg facts j0 j2.-1; rightleft_sweep2 O dg f3 j2.+1 j1
            else do f3 <- rightleft_sweep2 O dg facts j2.+1 j1; leftright_sweep2 O dg f3 j0 j2.-1) = Ok facts',
    frame (f0 F) j0 j1 facts facts' /\ nf facts' j2 = nf facts j2, isoin j0 j1 q q' /\ q' j2 = q j2,
    (forall k, (j0 <= k < j2)%N -> stEL (j0 < k)%N true (nf facts' k) (q' k)) &
    (forall k, (j2 < k <= j1)%N -> stEU true (k < j1)%N (nf facts' k) (q' k))].
Proof.
move=> D a1 a2 jm sf HL HU.
have l2 : (j2.-1 < m)%N by move: a2 jm; clear; lia.
have jl : (j0 + (j2.-1 - j0) <= j2.-1)%N by move: a1; clear; lia.
have jr : (j2.+1 + (j1 - j2.+1) <= j1)%N by move: a2; clear; lia.
have el : (j0 + (j2.-1 - j0) = j2.-1)%N by move: a1; clear; lia.
have er : (j1 - (j1 - j2.+1) = j2.+1)%N by move: a2; clear; lia.
have SL (q0 : rep) facts0 : dirs dg m q0 -> size facts0 = m -> (forall k, (j0 <= k < j2)%N -> stEL false true (nf facts0 k) (q0 k)) ->
  exists facts' q', [/\ leftright_sweep2 O dg facts0 j0 j2.-1 = Ok facts', frame (f0 F) j0 j2.-1 facts0 facts', isoin j0 j2.-1 q0 q' &
    (forall k, (j0 <= k < j2)%N -> stEL (j0 < k)%N true (nf facts' k) (q' k))].
  move=> D0 sf0 H0; have [//|k kk|facts2 [q2 [e2 fr I st _]]] := lr_sweep2_ok (bR := fun k => true) D0 jl l2 sf0.
    by rewrite el ltnNge (andP kk).2; apply: H0; move: a1 kk; clear; lia.
  rewrite el in I; exists facts2, q2; split=> // k kk; apply: st; move: kk a1; clear; lia.
have SU (q0 : rep) facts0 : dirs dg m q0 -> size facts0 = m -> (forall k, (j2 < k <= j1)%N -> stEU true false (nf facts0 k) (q0 k)) ->
  exists facts' q', [/\ rightleft_sweep2 O dg facts0 j2.+1 j1 = Ok facts', frame (f0 F) j2.+1 j1 facts0 facts', isoin j2.+1 j1 q0 q' &
    (forall k, (j2 < k <= j1)%N -> stEU true (k < j1)%N (nf facts' k) (q' k))].
  move=> D0 sf0 H0; have [//|k kk|facts2 [q2 [e2 fr I st _]]] := rl_sweep2_ok (bL := fun k => true) D0 jr jm sf0.
    rewrite er; have -> : (k < j2.+1)%N = false by move: kk; clear; lia.
    by apply: H0; move: kk; clear; lia.
  rewrite er in I e2; by exists facts2, q2; split.
case: b.
- have [facts1 [q1 [-> fr1 I1 st1]]] := SL q facts D sf HL; cbn [obind].
  have D1 : dirs dg m q1 by apply: dirs_iso I1 D.
  have sf1 : size facts1 = m by rewrite fr1.1.
  have [|facts2 [q2 [-> fr2 I2 st2]]] := SU q1 facts1 D1 sf1.
    by move=> k kk; rewrite (isoin_out I1) ?fr1.2; first (by apply: HU); move: kk a1 a2; clear; lia.
  exists facts2, q2; split; [by []|split|split| |by []].
  + by apply: (@frame_trans _ _ _ _ _ facts1); [apply: frame_mono fr1|apply: frame_mono fr2]; move: a1 a2; clear; lia.
  + by rewrite fr2.2 ?fr1.2 //; move: a1 a2; clear; lia.
  + by apply: (@isoin_trans _ _ _ _ _ q1); [apply: isoin_mono I1|apply: isoin_mono I2]; move: a1 a2; clear; lia.
  + by rewrite (isoin_out I2) ?(isoin_out I1) //; move: a1 a2; clear; lia.
  + by move=> k kk; rewrite (isoin_out I2) ?fr2.2; first (by apply: st1); move: kk a1 a2; clear; lia.
- have [facts1 [q1 [-> fr1 I1 st1]]] := SU q facts D sf HU; cbn [obind].
  have D1 : dirs dg m q1 by apply: dirs_iso I1 D.
  have sf1 : size facts1 = m by rewrite fr1.1.
  have [|facts2 [q2 [-> fr2 I2 st2]]] := SL q1 facts1 D1 sf1.
    by move=> k kk; rewrite (isoin_out I1) ?fr1.2; first (by apply: HL); move: kk a1 a2; clear; lia.
  exists facts2, q2; split; [by []|split|split|by []|].
  + by apply: (@frame_trans _ _ _ _ _ facts1); [apply: frame_mono fr1|apply: frame_mono fr2]; move: a1 a2; clear; lia.
  + by rewrite fr2.2 ?fr1.2 //; move: a1 a2; clear; lia.
  + by apply: (@isoin_trans _ _ _ _ _ q1); [apply: isoin_mono I1|apply: isoin_mono I2]; move: a1 a2; clear; lia.
  + by rewrite (isoin_out I2) ?(isoin_out I1) //; move: a1 a2; clear; lia.
  + by move=> k kk; rewrite (isoin_out I2) ?fr2.2; first (by apply: st1); move: kk a1 a2; clear; lia.
Qed.

Lemma size_set T (x0 : T) m s i x : size s = m -> (i < m)%N -> size (set_nth x0 s i x) = m.
Proof. by move=> e h; rewrite size_set_nth e; apply/maxn_idPr. Qed.

Lemma dq_common_ok sch EL EU m n (q : rep) facts mats j0 j1 : specL EL m n -> specU EU m n ->
  dirs dg m q -> (j0 + 2 <= j1)%N -> (j1 < m)%N -> (j1 - j0 <= n.+1)%N -> size facts = m -> size mats = m ->
  (forall k, (j0 <= k <= j1)%N -> dene (nm mats k) (q k)) ->
  exists facts' mats' q' j2, [/\ (j0 < j2 < j1)%N /\ dq_common O sch EL EU dg (facts, mats) j0 j1 = Ok ((facts', mats'), j2),
    frame (f0 F) j0 j1 facts facts' /\ frame (m0 F) j0 j1 mats mats', isoin j0 j1 q q',
    (forall k, (j0 <= k < j2)%N -> stEL (j0 < k)%N true (nf facts' k) (q' k)) /\
    (forall k, (j2 < k <= j1)%N -> stEU true (k < j1)%N (nf facts' k) (q' k)) &
    dene (fE (nf facts' j2)) (q' j2) /\ pivot_arrow (q' j2)].
Proof.
move=> HL HU D jj jm nn sf sm H; rewrite /dq_common; cbv zeta; set j2 := (j0 + j1)./2.
have [a1 a2] : (j0 < j2)%N /\ (j2 < j1)%N.
  have := odd_double_half (j0 + j1); rewrite -/j2; move: jj; clear; case: odd; lia.
clearbody j2; case: j2 a1 a2 => // j3 a1 a2; rewrite [j3.+1.-1]/=.
have [facts1 [mats1 [q1 [-> [fr1 gr1] I1 [stL1 stU1] dA1]]]] := split_ok (sch j0 j1) HL HU D a1 a2 jm nn sf sm H; cbn [obind].
have D1 : dirs dg m q1 by apply: dirs_iso I1 D.
have [sf1 sm1] : size facts1 = m /\ size mats1 = m by rewrite fr1.1 gr1.1.
have jm2 : (j3.+1.+1 < m)%N by move: a2 jm; clear; lia.
(* pass_PL_left *)
have h1 : (j3.+1 < j3.+1.+1 <= j1)%N by move: a2; clear; lia.
have [E1 [U1 [[dU1 dE1] tU1 sE1 u1]]] := stU1 _ h1; rewrite ltnn => -[P1 [L1 [dL1 dP1 tL1 pP1 e1]]].
have [f2 [A2 [q2 [-> I2 o2 [e2 fU2 fE2 _ _] dA2]]]] := pass_PL_left_ok D1 jm2 sf1 sm1 dL1 dP1 tL1 pP1 e1 dA1; cbn [obind].
set facts2 := set_nth _ facts1 _ _; set mats2 := set_nth _ mats1 _ _.
have D2 : dirs dg m q2 by apply: dirs_iso I2 D1.
have [sf2 sm2] : size facts2 = m /\ size mats2 = m.
  by rewrite !size_set_nth sf1 sm1; move: jm2; clear; lia.
(* pass_UP_right *)
have jm3 : (j3.+1 < m)%N by move: jm2; clear; lia.
have h3 : (j0 <= j3 < j3.+1)%N by move: a1; clear; lia.
have [L3 [E3 [[dL3 dE3] tL3 sE3 l3]]] := stL1 _ h3; rewrite ltnn => -[U3 [P3 [dU3 dP3 tU3 pP3 e3]]].
have n3 : nf facts2 j3 = nf facts1 j3 by rewrite nth_set_nth /= ifN_eq //; clear; lia.
have e3' : q2 j3 = actR P3 (actR U3 (actL L3 E3)).
  by rewrite o2 ?e3 ?actLR //; clear; lia.
have dA3 : dene (nm mats2 j3.+1) (q2 j3.+1) by rewrite nth_set_nth /= eqxx.
rewrite -n3 in dU3 dP3.
have [f4 [A4 [q4 [-> I4 o4 [e4 fL4 fE4 _ _] dA4]]]] := pass_UP_right_ok D2 jm3 sf2 sm2 dU3 dP3 tU3 pP3 e3' dA3; cbn [obind].
set facts4 := set_nth _ facts2 _ _; set mats4 := set_nth _ mats2 _ _.
have D4 : dirs dg m q4 by apply: dirs_iso I4 D2.
have [sf4 sm4] : size facts4 = m /\ size mats4 = m.
  by split; apply: size_set => //; move: jm2; clear; lia.
(* the factorization in the middle *)
have jm4 : (j3.+1 < m)%N by exact: ltnW.
have dA5 : dene (nm mats4 j3.+1) (q4 j3.+1) by rewrite nth_set_nth /= eqxx.
have [f5 e5 [L5 [E5 [U5 [[dL5 dE5 dU5] tL5 tU5 pE5 v5]]]]] := fact_Q_ok dA5.
rewrite /fact_at D4 //; cbn [obind]; rewrite (oget_nth (m0 F)) ?sm4 //; cbn [obind].
move: e5; rewrite /fact_Q => e5; rewrite e5; cbn [obind]; rewrite (oset_Ok (f0 F)) ?sf4 //; cbn [obind fst snd].
set facts5 := set_nth _ facts4 _ _.
have sf5 : size facts5 = m by apply: size_set.
(* pass_U_right *)
have n5 : nf facts5 j3.+1 = f5 by rewrite nth_set_nth /= eqxx.
have n51 : nf facts5 j3.+1.+1 = f2.
  rewrite nth_set_nth /= ifN_eq; last by clear; lia.
  rewrite nth_set_nth /= ifN_eq; last by clear; lia.
  by rewrite nth_set_nth /= eqxx.
have n50 : nf facts5 j3 = f4.
  rewrite nth_set_nth /= ifN_eq; last by clear; lia.
  by rewrite nth_set_nth /= eqxx.
have e6 : q4 j3.+1 = actR U5 (actL L5 E5) by rewrite v5 actLR.
have q4s : q4 j3.+1.+1 = actR U1 E1 by rewrite o4 ?e2 //; clear; lia.
have dU5' : den (fU (nf facts5 j3.+1)) U5 by rewrite n5.
have dU1' : den (fU (nf facts5 j3.+1.+1)) U1 by rewrite n51 fU2.
have dE1' : dene (fE (nf facts5 j3.+1.+1)) E1 by rewrite n51 fE2.
have [A6 [K6 [q6 [-> I6 o6 e6' [dA6 tK6 eK6]]]]] := pass_U_right_ok D4 jm2 sf5 dU5' tU5 e6 dU1' tU1 q4s dE1' sE1; cbn [obind].
set facts6 := set_nth _ _ j3.+1 _.
have D6 : dirs dg m q6 by apply: dirs_iso I6 D4.
have sf6 : size facts6 = m by apply: size_set; rewrite ?(ltnW jm2) //; apply: size_set.
(* pass_L_left *)
have n6 : nf facts6 j3.+1 = setU f5 (idm O (fU f5)) by rewrite nth_set_nth /= eqxx n5.
have n61 : nf facts6 j3.+1.+1 = setU f2 A6.
  rewrite nth_set_nth /= ifN_eq; last by clear; lia.
  by rewrite nth_set_nth /= eqxx n51.
have n60 : nf facts6 j3 = f4.
  rewrite nth_set_nth /= ifN_eq; last by clear; lia.
  rewrite nth_set_nth /= ifN_eq ?n50 //; by clear; lia.
have q6m : q6 j3 = actL L3 E3 by rewrite o6 ?e4 //; clear; lia.
have dL5' : den (fL (nf facts6 j3.+1)) L5 by rewrite n6.
have dL3' : den (fL (nf facts6 j3)) L3 by rewrite n60 fL4 n3.
have dE3' : dene (fE (nf facts6 j3)) E3 by rewrite n60 fE4 n3.
have [A7 [K7 [q7 [-> I7 o7 e7 [dA7 tK7 eK7]]]]] := pass_L_left_ok D6 jm3 sf6 dL5' tL5 e6' dL3' tL3 q6m dE3' sE3; cbn [obind].
set facts7 := set_nth _ _ j3.+1 _.
have D7 : dirs dg m q7 by apply: dirs_iso I7 D6.
have sf7 : size facts7 = m by apply: size_set => //; apply: size_set => //; move: jm2; clear; lia.
have n7 : nf facts7 j3.+1 = setL (nf facts6 j3.+1) (idm O (fL (nf facts6 j3.+1))) by rewrite nth_set_nth /= eqxx.
have n70 : nf facts7 j3 = setL f4 A7.
  rewrite nth_set_nth /= ifN_eq; last by clear; lia.
  by rewrite nth_set_nth /= eqxx n60.
have n7k k : k != j3 -> k != j3.+1 -> nf facts7 k = nf facts6 k.
  by move=> k1 k2; rewrite nth_set_nth /= ifN_eq // nth_set_nth /= ifN_eq.
have n6k k : k != j3 -> k != j3.+1 -> k != j3.+2 -> nf facts6 k = nf facts1 k.
  by move=> k1 k2 k3; do 5 (rewrite nth_set_nth /= ifN_eq //).
have HL7 k : (j0 <= k < j3.+1)%N -> stEL false true (nf facts7 k) (q7 k).
  move=> kk; case: (eqVneq k j3) => [->|k3].
    by rewrite n70; exists K7, E3; split=> //=; rewrite fE4 n3.
  have [k1 k2] : k != j3.+1 /\ k != j3.+2 by move: kk; clear; lia.
  rewrite n7k // n6k // o7 // o6 // o4 // o2 //.
  have [L [E [h1' h2 h3' _]]] := stL1 _ kk; have -> : (k < j3)%N by move: kk k3; clear; lia.
  by move=> e; exists L, E; split.
have HU7 k : (j3.+1 < k <= j1)%N -> stEU true false (nf facts7 k) (q7 k).
  move=> kk; case: (eqVneq k j3.+2) => [->|k3].
    rewrite n7k ?n61; [|clear; lia..]; exists E1, K6; split=> //=; first by rewrite fE2.
    by rewrite o7 //; clear; lia.
  have [k1 k2] : k != j3.+1 /\ k != j3 by move: kk; clear; lia.
  rewrite n7k // n6k // o7 // o6 // o4 // o2 //.
  have [E [U [h1' h2 h3' _]]] := stU1 _ kk; have -> : (j3.+2 < k)%N by move: kk k3; clear; lia.
  by move=> e; exists E, U; split.
have [facts8 [q8 [-> [fr8 n8] [I8 e8] HL8 HU8]]] := merge_ok (sch j0 j1) D7 a1 a2 jm sf7 HL7 HU7; cbn [obind].
exists facts8, mats4, q8, j3.+1; split; [by rewrite a1 a2| | |by []|].
- split.
    apply: frame_trans fr8; split=> [|k nk]; first by rewrite sf7 sf.
    have [k1 [k2 k3]] : k != j3 /\ k != j3.+1 /\ k != j3.+2 by move: nk a1 a2; clear; lia.
    by rewrite n7k // n6k // fr1.2.
  split=> [|k nk]; first by rewrite sm4 sm.
  have [k1 k2] : k != j3 /\ k != j3.+1 by move: nk a1 a2; clear; lia.
  by rewrite nth_set_nth /= ifN_eq // nth_set_nth /= ifN_eq // gr1.2.
- apply: isoin_trans I8; apply: isoin_trans I1 _; apply: (@isoin_trans _ _ _ _ _ q2); first by apply: isoin_mono I2; move: a1 a2; clear; lia.
  apply: (@isoin_trans _ _ _ _ _ q4); first by apply: isoin_mono I4; move: a1 a2; clear; lia.
  apply: (@isoin_trans _ _ _ _ _ q6); first by apply: isoin_mono I6; move: a1 a2; clear; lia.
  by apply: isoin_mono I7; move: a1 a2; clear; lia.
- by rewrite n8 n7 /= n6 /= e8 e7.
Qed.

(** a pivot arrow, possibly with a dangling triangular factor *)
Definition stPR (bR : bool) a b (f : fact) (v : arrow F a b) : Prop :=
  exists2 E, dene (fE f) E /\ pivot_arrow E &
    if bR then v = E else exists U : 'M_b, [/\ den (fU f) U, utri U & v = actR U E].
Definition stPL (bL : bool) a b (f : fact) (v : arrow F a b) : Prop :=
  exists2 E, dene (fE f) E /\ pivot_arrow E &
    if bL then v = E else exists L : 'M_a, [/\ den (fL f) L, ltri L & v = actL L E].
Lemma stEU_PR bR a b (f : fact) (v : arrow F a b) : stEU true bR f v -> stPR bR f v.
Proof.
move=> [E [U [[dU dE] tU sE h ->]]]; exists E; first by split=> //; apply: shEU_pivot.
by case: bR h => [/(_ isT) ->|_]; [rewrite actR1|exists U].
Qed.
Lemma stEL_PL bL a b (f : fact) (v : arrow F a b) : stEL bL true f v -> stPL bL f v.
Proof.
move=> [L [E [[dL dE] tL sE h ->]]]; exists E; first by split=> //; apply: shEL_pivot.
by case: bL h => [/(_ isT) ->|_]; [rewrite actL1|exists L].
Qed.

Lemma refactL_ok m j0 j2 j1 (q : rep) facts n : dirs dg m q -> (j0 <= j2)%N -> (j1 < m)%N -> size facts = m -> (j2 + n <= j1)%N ->
  (forall k, (j0 <= k < j2)%N -> stEL false true (nf facts k) (q k)) ->
  (forall k, (j2 <= k <= j1)%N -> stPR (k < j1)%N (nf facts k) (q k)) ->
  exists facts' q', [/\ ofold (fun facts j => do facts' <- refact (fact_EL O) dg facts j; pass_P_right O dg facts' j) facts (iota j2 n) = Ok facts',
    frame (f0 F) j2 j1 facts facts', isoin j2 j1 q q',
    (forall k, (j0 <= k < j2 + n)%N -> stEL false true (nf facts' k) (q' k)) &
    (forall k, (j2 + n <= k <= j1)%N -> stPR (k < j1)%N (nf facts' k) (q' k))].
Proof.
move=> D j02 jm sf + HL HR; elim: n => [|n IH] nj.
  by rewrite addn0; exists facts, q; split=> //; exact: isoin_refl.
have {IH} [|facts1 [q1 [e1 fr1 I1 st1 pr1]]] := IH _; first by move: nj; clear; lia.
have -> : iota j2 n.+1 = iota j2 n ++ [:: (j2 + n)%N] by rewrite -[n.+1]addn1 iotaD.
rewrite ofold_cat e1; cbn [obind ofold]; move: nj st1 pr1; rewrite addnS.
have b1 : (j2 <= j2 + n)%N by rewrite leq_addr.
move: b1; set j := (j2 + n)%N => b1 nj st1 pr1; clearbody j.
have D1 : dirs dg m q1 by apply: dirs_iso I1 D.
have sf1 : size facts1 = m by rewrite fr1.1.
have jm1 : (j.+1 < m)%N by move: nj jm; clear; lia.
have jm0 : (j < m)%N by exact: ltnW.
have h0 : (j <= j <= j1)%N by move: nj; clear; lia.
have h1 : (j <= j.+1 <= j1)%N by move: nj; clear; lia.
have [E [dE pE]] := pr1 _ h0; rewrite nj => ev.
have dE' : dene (fE (nf facts1 j)) (q1 j) by rewrite ev.
have pE' : pivot_arrow (q1 j) by rewrite ev.
have [f2 ef2 [L [E2 [P [[dL dE2 dP] tL pP sE2 e2]]]]] := fact_EL_piv dE' pE'.
rewrite /refact D1 //; cbn [obind]; rewrite (oget_nth (f0 F)) ?sf1 //; cbn [obind]; rewrite ef2; cbn [obind].
rewrite (oset_Ok (f0 F)) ?sf1 //; cbn [obind]; set facts2 := set_nth _ facts1 _ _.
have sf2 : size facts2 = m by apply: size_set.
have n2 : nf facts2 j = f2 by rewrite nth_set_nth /= eqxx.
have n2k k : k != j -> nf facts2 k = nf facts1 k by move=> kj; rewrite nth_set_nth /= ifN_eq.
have [E3 [dE3 pE3] ev3] := pr1 _ h1.
have e2' : q1 j = actR P (actL L E2) by rewrite e2 actLR.
have dP' : den (fP (nf facts2 j)) P by rewrite n2.
have nj1 : j.+1 != j by clear; lia.
have dE3' : dene (fE (nf facts2 j.+1)) E3 by rewrite n2k.
have lE3 : is_lft E3 = is_lft (q1 j.+1).
  by move: ev3; case: ifP => _; [move=> ->|move=> [U [_ _ ->]]; rewrite lft_actR].
have [A [ep dA]] := pass_P_right_ok D1 jm1 sf2 dP' pP e2' dE3' lE3.
rewrite ep; cbn [obind]; set facts3 := set_nth _ _ j _.
have uP := permmx_unit' pP; have [q2 [I2 e3 e4 o2]] := node_L uP e2'.
exists facts3, q2.
have n3 : nf facts3 j = setP f2 (idm O (fP f2)) by rewrite nth_set_nth /= eqxx n2.
have n31 : nf facts3 j.+1 = setE (nf facts1 j.+1) A.
  by rewrite nth_set_nth /= ifN_eq // nth_set_nth /= eqxx n2k.
have n3k k : k != j -> k != j.+1 -> nf facts3 k = nf facts1 k.
  by move=> k1 k2; rewrite nth_set_nth /= ifN_eq // nth_set_nth /= ifN_eq // n2k.
split; [by []| | | |].
- split=> [|k nk]; last by rewrite n3k ?fr1.2 //; move: nk b1 nj; clear; lia.
  rewrite (@size_set _ _ m) ?sf //; exact: size_set.
- by apply: isoin_trans I1 _; apply: isoin_mono I2.
- move=> k kk; case: (eqVneq k j) => [->|kj].
    by rewrite n3 e3; exists L, E2; split.
  have k1 : k != j.+1 by move: kk; clear; lia.
  by rewrite n3k // o2 //; apply: st1; move: kk kj; clear; lia.
- move=> k kk; case: (eqVneq k j.+1) => [->|k1]; last first.
    have kj : k != j by move: kk; clear; lia.
    by rewrite n3k // o2 //; apply: pr1; move: kk; clear; lia.
  rewrite n31 e4; set Y := (if _ then P else invmx P).
  have eY : (if is_lft (q1 j) == is_lft (q1 j.+1) then P else P^T) = Y by rewrite /Y permmx_inv.
  rewrite eY in dA; have pY : is_permmx Y by rewrite -eY; case: ifP => _ //; apply: permmx_tr.
  exists (actL Y E3); first by split=> //; apply: pivot_actL.
  move: ev3; case: ifP => _; first by move=> ->.
  by move=> [U [dU tU ->]]; exists U; split=> //; rewrite actLR.
Qed.

Lemma refactU_ok m j0 j2 j1 (q : rep) facts n : dirs dg m q -> (j2 <= j1)%N -> (j1 < m)%N -> size facts = m -> (j0 + n <= j2)%N ->
  (forall k, (j0 <= k <= j2)%N -> stPL (j0 < k)%N (nf facts k) (q k)) ->
  (forall k, (j2 < k <= j1)%N -> stEU true false (nf facts k) (q k)) ->
  exists facts' q', [/\ ofold (fun facts j => do facts' <- refact (fact_EU O) dg facts j; pass_P_left O dg facts' j) facts (rev (iota (j2 - n).+1 n)) = Ok facts',
    frame (f0 F) j0 j2 facts facts', isoin j0 j2 q q',
    (forall k, (j2 - n < k <= j1)%N -> stEU true false (nf facts' k) (q' k)) &
    (forall k, (j0 <= k <= j2 - n)%N -> stPL (j0 < k)%N (nf facts' k) (q' k))].
Proof.
move=> D j12 jm sf + HL HR; elim: n => [|n IH] nj.
  by rewrite subn0; exists facts, q; split=> //; exact: isoin_refl.
have {IH} [|facts1 [q1 [e1 fr1 I1 st1 pr1]]] := IH _; first by move: nj; clear; lia.
have eb : (j2 - n = (j2 - n.+1).+1)%N by move: nj; clear; lia.
have -> : rev (iota (j2 - n.+1).+1 n.+1) = rev (iota (j2 - n).+1 n) ++ [:: (j2 - n.+1).+1] by rewrite /= rev_cons cats1 eb.
rewrite ofold_cat e1; cbn [obind ofold]; move: st1 pr1; rewrite eb.
have b1 : (j0 <= j2 - n.+1)%N by move: nj; clear; lia.
have b2 : (j2 - n.+1 < j2)%N by move: nj; clear; lia.
move: b1 b2; set j := (j2 - n.+1)%N => b1 b2 st1 pr1; clear eb nj e1; clearbody j.
have D1 : dirs dg m q1 by apply: dirs_iso I1 D.
have sf1 : size facts1 = m by rewrite fr1.1.
have jm1 : (j.+1 < m)%N by move: b2 j12 jm; clear; lia.
have jm0 : (j < m)%N by exact: ltnW.
have h0 : (j0 <= j <= j.+1)%N by move: b1; clear; lia.
have h1 : (j0 <= j.+1 <= j.+1)%N by move: b1; clear; lia.
have nj : (j0 < j.+1)%N by move: b1; clear; lia.
have [E [dE pE]] := pr1 _ h1; rewrite nj => ev.
have dE' : dene (fE (nf facts1 j.+1)) (q1 j.+1) by rewrite ev.
have pE' : pivot_arrow (q1 j.+1) by rewrite ev.
have [f2 ef2 [E2 [U [P [[dU dE2 dP] tU pP sE2 e2]]]]] := fact_EU_piv dE' pE'.
rewrite /refact D1 //; cbn [obind]; rewrite (oget_nth (f0 F)) ?sf1 //; cbn [obind]; rewrite ef2; cbn [obind].
rewrite (oset_Ok (f0 F)) ?sf1 //; cbn [obind]; set facts2 := set_nth _ facts1 _ _.
have sf2 : size facts2 = m by apply: size_set.
have n2 : nf facts2 j.+1 = f2 by rewrite nth_set_nth /= eqxx.
have n2k k : k != j.+1 -> nf facts2 k = nf facts1 k by move=> kj; rewrite nth_set_nth /= ifN_eq.
have [E3 [dE3 pE3] ev3] := pr1 _ h0.
have e2' : q1 j.+1 = actL P (actR U E2) by rewrite e2 actLR.
have dP' : den (fP (nf facts2 j.+1)) P by rewrite n2.
have nj1 : j != j.+1 by clear; lia.
have dE3' : dene (fE (nf facts2 j)) E3 by rewrite n2k.
have lE3 : is_lft E3 = is_lft (q1 j).
  by move: ev3; case: ifP => _; [move=> ->|move=> [L [_ _ ->]]; rewrite lft_actL].
have [A [ep dA]] := pass_P_left_ok D1 jm1 sf2 dP' pP e2' dE3' lE3.
rewrite ep; cbn [obind]; set facts3 := set_nth _ _ j.+1 _.
have uP := permmx_unit' pP; have [q2 [I2 e3 e4 o2]] := node_R uP e2'.
exists facts3, q2.
have n3 : nf facts3 j.+1 = setP f2 (idm O (fP f2)) by rewrite nth_set_nth /= eqxx n2.
have n31 : nf facts3 j = setE (nf facts1 j) A.
  by rewrite nth_set_nth /= ifN_eq // nth_set_nth /= eqxx n2k.
have n3k k : k != j -> k != j.+1 -> nf facts3 k = nf facts1 k.
  by move=> k1 k2; rewrite nth_set_nth /= ifN_eq // nth_set_nth /= ifN_eq // n2k.
split; [by []| | | |].
- split=> [|k nk]; last by rewrite n3k ?fr1.2 //; move: nk b1 b2; clear; lia.
  rewrite (@size_set _ _ m) ?sf //; exact: size_set.
- by apply: isoin_trans I1 _; apply: isoin_mono I2.
- move=> k kk; case: (eqVneq k j.+1) => [->|kj].
    by rewrite n3 e3; exists E2, U; split.
  have k1 : k != j by move: kk; clear; lia.
  by rewrite n3k // o2 //; apply: st1; move: kk kj; clear; lia.
- move=> k kk; case: (eqVneq k j) => [->|k1]; last first.
    have kj : k != j.+1 by move: kk; clear; lia.
    by rewrite n3k // o2 //; apply: pr1; move: kk; clear; lia.
  rewrite n31 e4; set Y := (if _ then P else invmx P).
  have eY : (if is_lft (q1 j) == is_lft (q1 j.+1) then P else P^T) = Y by rewrite /Y permmx_inv.
  rewrite eY in dA; have pY : is_permmx Y by rewrite -eY; case: ifP => _ //; apply: permmx_tr.
  exists (actR Y E3); first by split=> //; apply: pivot_actR.
  move: ev3; case: ifP => _; first by move=> ->.
  by move=> [L [dL tL ->]]; exists L; split=> //; rewrite actLR.
Qed.

Lemma dq_ok sch m fuel : specL (dq_EL O sch fuel dg) m fuel /\ specU (dq_EU O sch fuel dg) m fuel.
Proof.
elim: fuel => [|n [HL HU]].
  split=> q facts mats j0 j1 D j01 jm jn sf sm H; cbn [dq_EL dq_EU];
    have -> : (j1 - j0 < 4)%N by move: jn; clear; lia.
    by apply: (@specL_base m); rewrite // (leq_trans jn).
  by apply: (@specU_base m); rewrite // (leq_trans jn).
split=> q facts mats j0 j1 D j01 jm jn sf sm H; cbn [dq_EL dq_EU].
- case: ltnP => j4; first by apply: (@specL_base m).
  have jj : (j0 + 2 <= j1)%N by move: j4; clear; lia.
  have [facts1 [mats1 [q1 [j2 [[/andP[a1 a2] ->] [fr1 gr1] I1 [stL1 stU1] [dE1 pE1]]]]]] := dq_common_ok sch HL HU D jj jm jn sf sm H.
  cbn [obind fst snd].
  have D1 : dirs dg m q1 by apply: dirs_iso I1 D.
  have sf1 : size facts1 = m by rewrite fr1.1.
  have nj : (j2 + (j1 - j2) <= j1)%N by rewrite subnKC // ltnW.
  have [k kk|k kk|facts2 [q2 [-> fr2 I2 st2 pr2]]] := refactL_ok D1 (ltnW a1) jm sf1 nj.
  + by apply: stEL_mono (stL1 _ kk).
  + case: (eqVneq k j2) => [->|kj]; first by rewrite a2; exists (q1 j2).
    by apply: stEU_PR; apply: stU1; move: kk kj; clear; lia.
  cbn [obind]; rewrite subnKC ?(ltnW a2) // in st2 pr2.
  have D2 : dirs dg m q2 by apply: dirs_iso I2 D1.
  have sf2 : size facts2 = m by rewrite fr2.1.
  rewrite D2 //; cbn [obind]; rewrite (oget_nth (f0 F)) ?sf2 //; cbn [obind].
  have [|E [dE pE]] := pr2 j1; first by rewrite leqnn.
  rewrite ltnn => -[U [dU tU e2]].
  have [A eA dA] : exists2 A, (if is_lft (q2 j1) then gemm O (fE (nf facts2 j1)) (fU (nf facts2 j1)) else gemm O (fU (nf facts2 j1)) (fE (nf facts2 j1))) = Ok A & dene A (q2 j1).
    rewrite e2; case: E dE {pE e2} => M /= dE; exact: den_gemm.
  rewrite eA; cbn [obind].
  have [f ef [L' [E' [U' [P' [[dL' dE' dU' dP'] tL' tU' pP' [sE' ev]]]]]]] := fact_EL_ok dA.
  rewrite ef; cbn [obind]; rewrite (oset_Ok (f0 F)) ?sf2 //; cbn [obind]; set facts3 := set_nth _ _ _ _.
  have sf3 : size facts3 = m by apply: size_set.
  have jl : (j0 + (j1 - j0) <= j1)%N by rewrite subnKC.
  have [//|k kk|facts4 [q4 [e4 fr4 I4 st4 _]]] := lr_sweep2_ok (bR := fun k => (k < j1)%N) D2 jl jm sf3.
    have -> : (j0 + (j1 - j0) < k)%N = false by move: kk; clear; lia.
    rewrite nth_set_nth /=; case: (eqVneq k j1) => [->|k1].
      by rewrite ltnn; exists L', E'; split=> //; exists U', P'; split.
    have -> : (k < j1)%N by move: kk k1; clear; lia.
    by apply: st2; move: kk k1; clear; lia.
  rewrite /leftright_sweep2 e4; cbn [obind]; rewrite subnKC // in I4.
  exists facts4, mats1, q4; split; [by []|split| |by []].
  + apply: frame_trans fr1 _; apply: (@frame_trans _ _ _ _ _ facts2); first by apply: frame_mono fr2 => //; apply: ltnW.
    by apply: frame_trans fr4; apply: frame_mono (frame_set _ _ _); rewrite ?sf2.
  + exact: gr1.
  + by apply: isoin_trans I1 _; apply: isoin_trans I4; apply: isoin_mono I2 => //; apply: ltnW.
- case: ltnP => j4; first by apply: (@specU_base m).
  have jj : (j0 + 2 <= j1)%N by move: j4; clear; lia.
  have [facts1 [mats1 [q1 [j2 [[/andP[a1 a2] ->] [fr1 gr1] I1 [stL1 stU1] [dE1 pE1]]]]]] := dq_common_ok sch HL HU D jj jm jn sf sm H.
  cbn [obind fst snd].
  have D1 : dirs dg m q1 by apply: dirs_iso I1 D.
  have sf1 : size facts1 = m by rewrite fr1.1.
  have nj : (j0 + (j2 - j0) <= j2)%N by rewrite subnKC // ltnW.
  have [k kk|k kk|facts2 [q2 [e2 fr2 I2 st2 pr2]]] := refactU_ok D1 (ltnW a2) jm sf1 nj.
  + case: (eqVneq k j2) => [->|kj]; first by rewrite a1; exists (q1 j2).
    by apply: stEL_PL; apply: stL1; move: kk kj; clear; lia.
  + by apply: stEU_mono (stU1 _ kk).
  rewrite subKn ?(ltnW a1) // in st2 pr2 e2; rewrite e2; cbn [obind].
  have D2 : dirs dg m q2 by apply: dirs_iso I2 D1.
  have sf2 : size facts2 = m by rewrite fr2.1.
  have j0m : (j0 < m)%N by apply: leq_ltn_trans jm.
  rewrite D2 //; cbn [obind]; rewrite (oget_nth (f0 F)) ?sf2 //; cbn [obind].
  have [|E [dE pE]] := pr2 j0; first by rewrite leqnn.
  rewrite ltnn => -[L [dL tL e3]].
  have [A eA dA] : exists2 A, (if is_lft (q2 j0) then gemm O (fL (nf facts2 j0)) (fE (nf facts2 j0)) else gemm O (fE (nf facts2 j0)) (fL (nf facts2 j0))) = Ok A & dene A (q2 j0).
    rewrite e3; case: E dE {pE e3} => M /= dE; exact: den_gemm.
  rewrite eA; cbn [obind].
  have [f ef [P' [L' [E' [U' [[dL' dE' dU' dP'] tL' tU' pP' [sE' ev]]]]]]] := fact_EU_ok dA.
  rewrite ef; cbn [obind]; rewrite (oset_Ok (f0 F)) ?sf2 //; cbn [obind]; set facts3 := set_nth _ _ _ _.
  have sf3 : size facts3 = m by apply: size_set.
  have jl : (j0 + (j1 - j0) <= j1)%N by rewrite subnKC.
  have [//|k kk|facts4 [q4 [e4 fr4 I4 st4 _]]] := rl_sweep2_ok (bL := fun k => (j0 < k)%N) D2 jl jm sf3.
    have -> : (k < j1 - (j1 - j0))%N = false by move: kk; clear; lia.
    rewrite nth_set_nth /=; case: (eqVneq k j0) => [->|k1].
      by rewrite ltnn; exists E', U'; split=> //; exists P', L'; split.
    have -> : (j0 < k)%N by move: kk k1; clear; lia.
    by apply: st2; move: kk k1; clear; lia.
  rewrite subKn // in e4 I4; rewrite /rightleft_sweep2 e4; cbn [obind].
  exists facts4, mats1, q4; split; [by []|split| |by []].
  + apply: frame_trans fr1 _; apply: (@frame_trans _ _ _ _ _ facts2); first by apply: frame_mono fr2 => //; apply: ltnW.
    by apply: frame_trans fr4; apply: frame_mono (frame_set _ _ _); rewrite ?sf2.
  + exact: gr1.
  + by apply: isoin_trans I1 _; apply: isoin_trans I4; apply: isoin_mono I2 => //; apply: ltnW.
Qed.

Theorem divide_conquer_form nthreads sch m (q : rep) : (0 < m)%N -> denq m dg q ->
  exists2 ms, barcode_form_divide_conquer O nthreads sch dg = Ok ms & pform m q ms.
Proof.
move=> m0 dq; have D := denq_dirs dq; have [s1 s2 h] := dq.
rewrite /barcode_form_divide_conquer /nedge s2; case: ifP => [_|]; first exact: leftright_form.
case: m m0 dq D s1 s2 h => // n _ dq D s1 s2 h; rewrite ltnNge => /norP[]; rewrite negbK => n5 _.
have sf : size (nseq n.+1 (fact0 F)) = n.+1 by rewrite size_nseq.
have [HL HU] := dq_ok sch n.+1 n.+1; rewrite [_.-1]/=.
have jj : (0 + 2 <= n)%N by move: n5; clear; lia.
have jn : (n - 0 <= n.+2)%N by clear; lia.
have [k kn|facts [mats [q1 [j2 [[/andP[a1 a2] ->] [fr1 _] I1 [stL1 stU1] [dE1 pE1]]]]]] := dq_common_ok sch HL HU D jj (ltnSn n) jn sf s2.
  by have [] := h k kn.
cbn [obind fst snd]; exists (dump_E facts) => //; have sf1 : size facts = n.+1 by rewrite fr1.1.
split; first by rewrite size_map.
have [|q3 i3 hq3] := @absorb F d n q1 (fun k E => dene (nm (dump_E facts) k) E /\ pivot_arrow E).
  move=> k kn; rewrite dump_nth ?sf1 //; case: (ltngtP k j2) => kj.
  - have [|X [Y [E [u e h1 h2 h3]]]] := stEL_XY (stL1 k _); first by [].
    by exists X, Y, E; split=> // _; apply: h2.
  - have [|X [Y [E [u e h1 h2 h3]]]] := stEU_XY (stU1 k _); first by rewrite kj.
    by exists X, Y, E; split=> // _; apply: h1.
  - exists 1%:M, 1%:M, (q1 k); split=> //; rewrite ?unitmx1 // ?actR1 ?actL1 //; by rewrite kj.
by exists q3 => //; apply: isorep_trans i3; apply: isoin_isorep I1.
Qed.
End S.
