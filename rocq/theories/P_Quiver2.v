(** One pass operation of quiver/sparse.hpp at a time. *)
From mathcomp Require Import all_ssreflect all_fingroup all_algebra zify.
From Verif Require Import Outcome P_Outcome RingTac M_SparseVec M_Perm M_ColMatrix S_Linalg P_SparseVec
  P_SparseVec2 P_Reduce P_Homology P_Pairing P_ColMatrix M_Fact S_Fact P_Den P_Fact3 P_Fact4 P_Fact5 P_Fact6 P_Fact7 M_Quiver S_Quiver
  P_Quiver1.
Set Implicit Arguments.
Unset Strict Implicit.
Unset Printing Implicit Defensive.
Import GRing.Theory.
Local Open Scope ring_scope.

Section S.
Variable F : fieldType.
Notation O := (ops_of F).
Notation svec := (svec F).
Notation cmat := (cmat F).
Notation fact := (fact F).

Lemma lower_inv n (L : 'M[F]_n) : lower L -> diagn0 L -> lower (invmx L) /\ diagn0 (invmx L).
Proof.
move=> l dn; have [] := @upper_inv F n L^T; [exact/upper_tr|exact: diagn0_tr|].
by rewrite -trmx_inv => h1 /diagn0_tr; rewrite trmxK => h2; split=> //; apply/upper_tr.
Qed.

Lemma mul_ok m n p oA oB (A B : cmat) (M : 'M[F]_(m, n)) (N : 'M[F]_(n, p)) : oA = Ok A -> oB = Ok B -> den A M -> den B N ->
  exists2 C, mul O oA oB = Ok C & den C (M *m N).
Proof. by move=> -> -> dA dB; have [C e dC] := den_gemm dA dB; exists C. Qed.

(** lower (upper) triangular and invertible *)
Definition ltri n (L : 'M[F]_n) := lower L /\ diagn0 L.
Definition utri n (U : 'M[F]_n) := upper U /\ diagn0 U.
Lemma ltri1 n : ltri (1%:M : 'M[F]_n).
Proof. by split; [apply/upper_tr; rewrite trmx1; apply: upper1|apply/diag1_n0/diag11]. Qed.
Lemma utri1 n : utri (1%:M : 'M[F]_n).
Proof. by split; [apply: upper1|apply/diag1_n0/diag11]. Qed.
Lemma ltri_inv n (L : 'M[F]_n) : ltri L -> ltri (invmx L). Proof. by case; exact: lower_inv. Qed.
Lemma utri_inv n (L : 'M[F]_n) : utri L -> utri (invmx L). Proof. by case; exact: upper_inv. Qed.
Lemma ltri_unit n (L : 'M[F]_n) : ltri L -> L \in unitmx. Proof. by case; exact: lower_unit. Qed.
Lemma utri_unit n (L : 'M[F]_n) : utri L -> L \in unitmx. Proof. by case; exact: upper_unit. Qed.
Lemma utri_mul n (L K : 'M[F]_n) : utri L -> utri K -> utri (L *m K).
Proof. by move=> [a b] [a' b']; split; [exact: upper_mul|exact: P_Betti.diagn0_mul]. Qed.
Lemma utri_tr n (L : 'M[F]_n) : ltri L -> utri L^T.
Proof. by case=> a b; split; [exact/upper_tr|exact: diagn0_tr]. Qed.
Lemma ltri_tr n (L : 'M[F]_n) : utri L -> ltri L^T.
Proof. by case=> a b; split; [exact/lower_tr|exact: diagn0_tr]. Qed.
Lemma ltri_mul n (L K : 'M[F]_n) : ltri L -> ltri K -> ltri (L *m K).
Proof. by move=> /utri_tr a /utri_tr b; rewrite -[L *m K]trmxK; apply: ltri_tr; rewrite trmx_mul; apply: utri_mul. Qed.
Lemma permmx1 n : is_permmx (1%:M : 'M[F]_n). Proof. by exists 1%g; rewrite perm_mx1. Qed.
Lemma permmx_inv n (P : 'M[F]_n) : is_permmx P -> invmx P = P^T.
Proof.
move=> pP; have [h1 h2] := permmx_mul_tr pP; have uP := permmx_unit' pP.
by apply: (can_inj (mulKmx uP)); rewrite mulmxV.
Qed.

(** the arrow followed/preceded by a matrix at its left/right node *)
Definition actL a b (X : 'M[F]_a) (v : arrow F a b) : arrow F a b := match v with Lft M => Lft (X *m M) | Rgt M => Rgt (M *m X) end.
Definition actR a b (Y : 'M[F]_b) (v : arrow F a b) : arrow F a b := match v with Lft M => Lft (M *m Y) | Rgt M => Rgt (Y *m M) end.
Lemma actL1 a b (v : arrow F a b) : actL 1%:M v = v. Proof. by case: v => M /=; rewrite ?mul1mx ?mulmx1. Qed.
Lemma actR1 a b (v : arrow F a b) : actR 1%:M v = v. Proof. by case: v => M /=; rewrite ?mul1mx ?mulmx1. Qed.
Lemma lft_actL a b X (v : arrow F a b) : is_lft (actL X v) = is_lft v. Proof. by case: v. Qed.
Lemma lft_actR a b X (v : arrow F a b) : is_lft (actR X v) = is_lft v. Proof. by case: v. Qed.
Lemma actLR a b X Y (v : arrow F a b) : actL X (actR Y v) = actR Y (actL X v).
Proof. by case: v => M /=; rewrite mulmxA. Qed.
(** the value of an edge from its factors *)
Definition valEL a b (L : 'M[F]_a) (E : arrow F a b) (U P : 'M[F]_b) : arrow F a b := actL L (actR P (actR U E)).
Definition valEU a b (P L : 'M[F]_a) (E : arrow F a b) (U : 'M[F]_b) : arrow F a b := actL P (actL L (actR U E)).
Definition shEL a b (E : arrow F a b) := match E with Lft E => shape_EL E | Rgt E => shape_ELhat E end.
Definition shEU a b (E : arrow F a b) := match E with Lft E => shape_EU E | Rgt E => shape_EUhat E end.

Definition eEL a b (f : fact) (v : arrow F a b) L E U P : Prop :=
  [/\ [/\ den (fL f) L, dene (fE f) E, den (fU f) U & den (fP f) P], ltri L, utri U, is_permmx P &
      shEL E /\ v = valEL L E U P].
Definition eEU a b (f : fact) (v : arrow F a b) P L E U : Prop :=
  [/\ [/\ den (fL f) L, dene (fE f) E, den (fU f) U & den (fP f) P], ltri L, utri U, is_permmx P &
      shEU E /\ v = valEU P L E U].

Lemma ulower_ltri n (L : 'M[F]_n) : ulower L -> ltri L.
Proof. by case=> a b; split=> //; apply: diag1n0. Qed.
Lemma uupper_utri n (L : 'M[F]_n) : uupper L -> utri L.
Proof. by case=> a b; split=> //; apply: diag1n0. Qed.

Lemma fact_EL_ok a b (A : cmat) (v : arrow F a b) : dene A v ->
  exists2 f, fact_EL O (is_lft v) A = Ok f & exists L E U P, eEL f v L E U P.
Proof.
case: v => M /= dA.
  have [f e [L [E [U [P [[dL dE dU dP] -> [uL uU] uP sE]]]]]] := LEUP_ok dA; exists f => //.
  by exists L, (Lft E), U, P; split; [done|exact: ulower_ltri|exact: uupper_utri|done|split=> //; rewrite /valEL /valEU /= ?mulmxA].
have [f e [P [U [E [L [[dL dE dU dP] -> [uL uU] uP sE]]]]]] := PUEL_ok dA; exists f => //.
by exists L, (Rgt E), U, P; split; [done|exact: ulower_ltri|exact: uupper_utri|done|split=> //; rewrite /valEL /valEU /= ?mulmxA].
Qed.
Lemma fact_EU_ok a b (A : cmat) (v : arrow F a b) : dene A v ->
  exists2 f, fact_EU O (is_lft v) A = Ok f & exists P L E U, eEU f v P L E U.
Proof.
case: v => M /= dA.
  have [f e [P [L [E [U [[dL dE dU dP] -> [uL uU] uP sE]]]]]] := PLEU_ok dA; exists f => //.
  by exists P, L, (Lft E), U; split; [done|exact: ulower_ltri|exact: uupper_utri|done|split=> //; rewrite /valEL /valEU /= ?mulmxA].
have [f e [U [E [L [P [[dL dE dU dP] -> [uL uU] uP sE]]]]]] := UELP_ok dA; exists f => //.
by exists P, L, (Rgt E), U; split; [done|exact: ulower_ltri|exact: uupper_utri|done|split=> //; rewrite /valEL /valEU /= ?mulmxA].
Qed.

Lemma den_idm n (A : cmat) (M : 'M[F]_n) : den A M -> den (idm O A) (1%:M : 'M[F]_n).
Proof. by move=> [_ e _ _]; rewrite /idm e; apply: den_identity. Qed.

Variable d : nat -> nat.
Notation rep := (rep F d).
Variable dg : diagram F.

Definition f0 : fact := fact0 F.
Definition m0 : cmat := cm0 F.
Notation nf := (nth f0).
Notation nm := (nth m0).
Definition dirs (m : nat) (q : rep) := forall k, (k < m)%N -> left_at dg k = Ok (is_lft (q k)).
Lemma dirs_iso m lo hi q q' : isoin lo hi q q' -> dirs m q -> dirs m q'.
Proof. by move=> I D k km; rewrite (isoin_lft k I); apply: D. Qed.


Lemma node_L (q : rep) i (Y : 'M[F]_(d i.+1)) v : Y \in unitmx -> q i = actR Y v ->
  exists q' : rep, [/\ isoin i i.+1 q q', q' i = v,
    q' i.+1 = actL (if is_lft (q i) == is_lft (q i.+1) then Y else invmx Y) (q i.+1) & forall k, k != i -> k != i.+1 -> q' k = q k].
Proof.
move=> uY e.
have uX : (if is_lft (q i) then invmx Y else Y) \in unitmx by case: ifP => _; rewrite ?unitmx_inv.
have [q' [I e1 e2 e3]] := node_change q uX; exists q'; split=> //.
  by rewrite e1 e; case: {e} v => M /=; rewrite ?invmx1' ?mul1mx ?mulmx1 ?(mulmxK uY) ?(mulKmx uY).
by rewrite e2; case: (is_lft (q i)); case: (q i.+1) => M /=; rewrite ?invmxK ?invmx1' ?mulmx1 ?mul1mx.
Qed.
Lemma node_R (q : rep) i (Y : 'M[F]_(d i.+1)) v : Y \in unitmx -> q i.+1 = actL Y v ->
  exists q' : rep, [/\ isoin i i.+1 q q', q' i.+1 = v,
    q' i = actR (if is_lft (q i) == is_lft (q i.+1) then Y else invmx Y) (q i) & forall k, k != i -> k != i.+1 -> q' k = q k].
Proof.
move=> uY e.
have uX : (if is_lft (q i.+1) then Y else invmx Y) \in unitmx by case: ifP => _; rewrite ?unitmx_inv.
have [q' [I e1 e2 e3]] := node_change q uX; exists q'; split=> //.
  by rewrite e2 e; case: {e} v => M /=; rewrite ?invmx1' ?mul1mx ?mulmx1 ?(mulmxKV uY) ?(mulKmx uY) // (mulmxK uY).
by rewrite e1; case: (is_lft (q i.+1)); case: (q i) => M /=; rewrite ?invmxK ?invmx1' ?mulmx1 ?mul1mx.
Qed.

(** pass_UP_right *)
Lemma pass_UP_right_ok m (q : rep) facts mats i v U P : dirs m q -> (i.+1 < m)%N -> size facts = m -> size mats = m ->
  den (fU (nf facts i)) U -> den (fP (nf facts i)) P -> utri U -> is_permmx P -> q i = actR P (actR U v) ->
  dene (nm mats i.+1) (q i.+1) ->
  exists f A q', [/\ pass_UP_right O dg (facts, mats) i = Ok (set_nth f0 facts i f, set_nth m0 mats i.+1 A),
    isoin i i.+1 q q', (forall k, k != i -> k != i.+1 -> q' k = q k),
    [/\ q' i = v, fL f = fL (nf facts i), fE f = fE (nf facts i), den (fU f) (1%:M : 'M_(d i.+1)) & den (fP f) (1%:M : 'M_(d i.+1))] & dene A (q' i.+1)].
Proof.
move=> D im sf sm dU dP tU pP eq dA.
have [Ui eUi dUi] := den_u_inv dU tU.1 tU.2; have [Pt ePt dPt] := den_transpose dP.
have uU := utri_unit tU; have uP := permmx_unit' pP.
have {D} [D1 D2] : left_at dg i = Ok (is_lft (q i)) /\ left_at dg i.+1 = Ok (is_lft (q i.+1)).
  by split; apply: D => //; apply: ltnW.
pose Y : 'M_(d i.+1) := if is_lft (q i) then U *m P else P *m U.
have uY : Y \in unitmx by rewrite /Y; case: ifP => _; rewrite ?unitmx_mul ?uU ?uP.
have eY : q i = actR Y v by rewrite /Y eq; case: (v) => M /=; rewrite mulmxA.
have [q' [I e1 e2 e3]] := node_L uY eY.
rewrite /pass_UP_right D1 D2; cbn [obind]; rewrite (oget_nth f0) ?sf ?(ltnW im) //; cbn [obind].
rewrite (oget_nth m0) ?sm //; cbn [obind].
have [A eA dA'] : exists2 A, (if is_lft (q i.+1) then
              if is_lft (q i) then mul O (mul O (Ok (fU (nf facts i))) (Ok (fP (nf facts i)))) (Ok (nm mats i.+1))
              else mul O (mul O (u_inv O (fU (nf facts i))) (transpose (fP (nf facts i)))) (Ok (nm mats i.+1))
            else
              if is_lft (q i) then mul O (mul O (Ok (nm mats i.+1)) (transpose (fP (nf facts i)))) (u_inv O (fU (nf facts i)))
              else mul O (mul O (Ok (nm mats i.+1)) (Ok (fP (nf facts i)))) (Ok (fU (nf facts i)))) = Ok A & dene A (q' i.+1).
  rewrite e2 /Y; case: (q i.+1) dA => M /= dA; case: (is_lft (q i)) => /=.
  - have [B eB dB] := mul_ok erefl erefl dU dP; have [C -> dC] := mul_ok eB erefl dB dA; by exists C.
  - have [B eB dB] := mul_ok eUi ePt dUi dPt; have [C -> dC] := mul_ok eB erefl dB dA; exists C => //.
    by rewrite invmxM // (permmx_inv pP).
  - have [B eB dB] := mul_ok erefl ePt dA dPt; have [C -> dC] := mul_ok eB eUi dB dUi; exists C => //.
    by rewrite invmxM // (permmx_inv pP) mulmxA.
  - have [B eB dB] := mul_ok erefl erefl dA dP; have [C -> dC] := mul_ok eB erefl dB dU; exists C => //.
    by rewrite mulmxA.
rewrite eA; cbn [obind]; rewrite (oset_Ok m0) ?sm //; cbn [obind]; rewrite (oset_Ok f0) ?sf ?(ltnW im) //; cbn [obind].
do 3!eexists; split; [by []|exact: I|exact: e3| |exact: dA'].
by split=> //; apply: den_idm; [exact: dU|exact: dP].
Qed.

(** pass_PL_left *)
Lemma pass_PL_left_ok m (q : rep) facts mats i v L P : dirs m q -> (i.+1 < m)%N -> size facts = m -> size mats = m ->
  den (fL (nf facts i.+1)) L -> den (fP (nf facts i.+1)) P -> ltri L -> is_permmx P -> q i.+1 = actL P (actL L v) ->
  dene (nm mats i) (q i) ->
  exists f A q', [/\ pass_PL_left O dg (facts, mats) i.+1 = Ok (set_nth f0 facts i.+1 f, set_nth m0 mats i A),
    isoin i i.+1 q q', (forall k, k != i -> k != i.+1 -> q' k = q k),
    [/\ q' i.+1 = v, fU f = fU (nf facts i.+1), fE f = fE (nf facts i.+1), den (fL f) (1%:M : 'M_(d i.+1)) & den (fP f) (1%:M : 'M_(d i.+1))] & dene A (q' i)].
Proof.
move=> D im sf sm dU dP tU pP eq dA.
have [Ui eUi dUi] := den_l_inv dU tU.1 tU.2; have [Pt ePt dPt] := den_transpose dP.
have uU := ltri_unit tU; have uP := permmx_unit' pP.
have {D} [D1 D2] : left_at dg i = Ok (is_lft (q i)) /\ left_at dg i.+1 = Ok (is_lft (q i.+1)).
  by split; apply: D => //; apply: ltnW.
pose Y : 'M_(d i.+1) := if is_lft (q i.+1) then P *m L else L *m P.
have uY : Y \in unitmx by rewrite /Y; case: ifP => _; rewrite ?unitmx_mul ?uU ?uP.
have eY : q i.+1 = actL Y v by rewrite /Y eq; case: (v) => M /=; rewrite mulmxA.
have [q' [I e1 e2 e3]] := node_R uY eY.
rewrite /pass_PL_left [_.-1]/= D1 D2; cbn [obind]; rewrite (oget_nth f0) ?sf //; cbn [obind].
rewrite (oget_nth m0) ?sm ?(ltnW im) //; cbn [obind]; set fi := nf facts i.+1 in dU dP eUi ePt *.
have [A eA dA'] : exists2 A, (if is_lft (q i) then
              if is_lft (q i.+1) then mul O (mul O (Ok (nm mats i)) (Ok (fP fi))) (Ok (fL fi))
              else mul O (mul O (Ok (nm mats i)) (transpose (fP fi))) (l_inv O (fL fi))
            else
              if is_lft (q i.+1) then mul O (mul O (l_inv O (fL fi)) (transpose (fP fi))) (Ok (nm mats i))
              else mul O (mul O (Ok (fL fi)) (Ok (fP fi))) (Ok (nm mats i))) = Ok A & dene A (q' i).
  rewrite e2 /Y; case: (q i) dA => M /= dA; case: (is_lft (q i.+1)) => /=.
  - have [B eB dB] := mul_ok erefl erefl dA dP; have [C -> dC] := mul_ok eB erefl dB dU; exists C => //.
    by rewrite mulmxA.
  - have [B eB dB] := mul_ok erefl ePt dA dPt; have [C -> dC] := mul_ok eB eUi dB dUi; exists C => //.
    by rewrite invmxM // (permmx_inv pP) mulmxA.
  - have [B eB dB] := mul_ok eUi ePt dUi dPt; have [C -> dC] := mul_ok eB erefl dB dA; exists C => //.
    by rewrite invmxM // (permmx_inv pP).
  - have [B eB dB] := mul_ok erefl erefl dU dP; have [C -> dC] := mul_ok eB erefl dB dA; by exists C.
rewrite eA; cbn [obind]; rewrite (oset_Ok m0) ?sm ?(ltnW im) //; cbn [obind]; rewrite (oset_Ok f0) ?sf //; cbn [obind].
do 3!eexists; split; [by []|exact: I|exact: e3| |exact: dA'].
by split=> //; apply: den_idm; [exact: dU|exact: dP].
Qed.

(** pass_P_right, on already factored edges *)
Lemma pass_P_right_ok m (q : rep) facts i v P (E : arrow F (d i.+1) (d i.+2)) : dirs m q -> (i.+1 < m)%N -> size facts = m ->
  den (fP (nf facts i)) P -> is_permmx P -> q i = actR P v -> dene (fE (nf facts i.+1)) E ->
  is_lft E = is_lft (q i.+1) ->
  exists A, let Y := if is_lft (q i) == is_lft (q i.+1) then P else P^T in
    pass_P_right O dg facts i = Ok (set_nth f0 (set_nth f0 facts i.+1 (setE (nf facts i.+1) A)) i (setP (nf facts i) (idm O (fP (nf facts i)))))
    /\ dene A (actL Y E).
Proof.
move=> D im sf dP pP eq dA lE; have [Pt ePt dPt] := den_transpose dP.
have {D} [D1 D2] : left_at dg i = Ok (is_lft (q i)) /\ left_at dg i.+1 = Ok (is_lft (q i.+1)).
  by split; apply: D => //; apply: ltnW.
rewrite /pass_P_right D1 D2; cbn [obind]; rewrite !(oget_nth f0) ?sf ?(ltnW im) //; cbn [obind].
set fi := nf facts i in dP ePt *; set fj := nf facts i.+1 in dA *; cbv zeta.
have [A eA dA'] : exists2 A, (if is_lft (q i.+1) then
              if is_lft (q i) then mul O (Ok (fP fi)) (Ok (fE fj)) else mul O (transpose (fP fi)) (Ok (fE fj))
            else
              if is_lft (q i) then mul O (Ok (fE fj)) (transpose (fP fi)) else mul O (Ok (fE fj)) (Ok (fP fi))) = Ok A
   & dene A (actL (if is_lft (q i) == is_lft (q i.+1) then P else P^T) E).
  rewrite -lE; case: E {lE} dA => M /= dA; case: (is_lft (q i)) => /=.
  - exact: mul_ok erefl erefl dP dA.
  - exact: mul_ok ePt erefl dPt dA.
  - exact: mul_ok erefl ePt dA dPt.
  - exact: mul_ok erefl erefl dA dP.
exists A; split=> //; rewrite eA; cbn [obind]; rewrite (oset_Ok f0) ?sf //; cbn [obind].
by rewrite (oset_Ok f0) // size_set_nth sf; move: im; clear; lia.
Qed.

(** pass_P_left, on already factored edges *)
Lemma pass_P_left_ok m (q : rep) facts i v P (E : arrow F (d i) (d i.+1)) : dirs m q -> (i.+1 < m)%N -> size facts = m ->
  den (fP (nf facts i.+1)) P -> is_permmx P -> q i.+1 = actL P v -> dene (fE (nf facts i)) E ->
  is_lft E = is_lft (q i) ->
  exists A, let Y := if is_lft (q i) == is_lft (q i.+1) then P else P^T in
    pass_P_left O dg facts i.+1 = Ok (set_nth f0 (set_nth f0 facts i (setE (nf facts i) A)) i.+1 (setP (nf facts i.+1) (idm O (fP (nf facts i.+1)))))
    /\ dene A (actR Y E).
Proof.
move=> D im sf dP pP eq dA lE; have [Pt ePt dPt] := den_transpose dP.
have {D} [D1 D2] : left_at dg i = Ok (is_lft (q i)) /\ left_at dg i.+1 = Ok (is_lft (q i.+1)).
  by split; apply: D => //; apply: ltnW.
rewrite /pass_P_left [_.-1]/= D1 D2; cbn [obind]; rewrite !(oget_nth f0) ?sf ?(ltnW im) //; cbn [obind].
set fi := nf facts i in dA *; set fj := nf facts i.+1 in dP ePt *; cbv zeta.
have [A eA dA'] : exists2 A, (if is_lft (q i) then
              if is_lft (q i.+1) then mul O (Ok (fE fi)) (Ok (fP fj)) else mul O (Ok (fE fi)) (transpose (fP fj))
            else
              if is_lft (q i.+1) then mul O (transpose (fP fj)) (Ok (fE fi)) else mul O (Ok (fP fj)) (Ok (fE fi))) = Ok A
   & dene A (actR (if is_lft (q i) == is_lft (q i.+1) then P else P^T) E).
  rewrite -lE; case: E {lE} dA => M /= dA; case: (is_lft (q i.+1)) => /=.
  - exact: mul_ok erefl erefl dA dP.
  - exact: mul_ok erefl ePt dA dPt.
  - exact: mul_ok ePt erefl dPt dA.
  - exact: mul_ok erefl erefl dP dA.
exists A; split=> //; rewrite eA; cbn [obind]; rewrite (oset_Ok f0) ?sf ?(ltnW im) //; cbn [obind].
by rewrite (oset_Ok f0) // size_set_nth sf; move: im; clear; lia.
Qed.

(** pass_L_left *)
Lemma pass_L_left_ok m (q : rep) facts i v w L L0 : dirs m q -> (i.+1 < m)%N -> size facts = m ->
  den (fL (nf facts i.+1)) L -> ltri L -> q i.+1 = actL L v ->
  den (fL (nf facts i)) L0 -> ltri L0 -> q i = actL L0 w -> dene (fE (nf facts i)) w -> shEL w ->
  exists A K q', [/\ pass_L_left O dg facts i.+1 =
      Ok (set_nth f0 (set_nth f0 facts i (setL (nf facts i) A)) i.+1 (setL (nf facts i.+1) (idm O (fL (nf facts i.+1))))),
    isoin i i.+1 q q', (forall k, k != i -> k != i.+1 -> q' k = q k), q' i.+1 = v &
    [/\ den A K, ltri K & q' i = actL K w]].
Proof.
move=> D im sf dL tL eq dL0 tL0 eq0 dE sh.
have [Ui eUi dUi] := den_l_inv dL tL.1 tL.2; have tUi := ltri_inv tL.
have uL := ltri_unit tL.
have {D} [D1 D2] : left_at dg i = Ok (is_lft (q i)) /\ left_at dg i.+1 = Ok (is_lft (q i.+1)).
  by split; apply: D => //; apply: ltnW.
have [q' [I e1 e2 e3]] := node_R uL eq.
rewrite /pass_L_left [_.-1]/= D1 D2; cbn [obind]; rewrite !(oget_nth f0) ?sf ?(ltnW im) //; cbn [obind].
set fi := nf facts i in dL0 dE *; set fj := nf facts i.+1 in dL eUi *.
have [A [K [eA dA tK eK]]] : exists A K, [/\ (if is_lft (q i) then
              if is_lft (q i.+1) then mul O (Ok (fL fi)) (EL_L_commute O (fE fi) (fL fj))
              else mul O (Ok (fL fi)) (do X <- l_inv O (fL fj); EL_L_commute O (fE fi) X)
            else
              if is_lft (q i.+1) then mul O (do X <- l_inv O (fL fj); L_EL_commute O X (fE fi)) (Ok (fL fi))
              else mul O (L_EL_commute O (fL fj) (fE fi)) (Ok (fL fi))) = Ok A, den A K, ltri K & q' i = actL K w].
  rewrite e2 eq0 lft_actL; case: w dE sh {eq0} => E /= dE sh; case: (is_lft (q i.+1)) => /=.
  - have [AR [R [e dR lR [nR _] cR]]] := EL_L_commute_ok dE dL sh tL.1.
    have [C eC dC] := mul_ok erefl e dL0 dR; exists C, (L0 *m R); split=> //.
      by apply: ltri_mul => //; split=> //; apply: nR; case: tL.
    by rewrite -!mulmxA cR.
  - rewrite eUi; cbn [obind]; have [AR [R [e dR lR [nR _] cR]]] := EL_L_commute_ok dE dUi sh tUi.1.
    have [C eC dC] := mul_ok erefl e dL0 dR; exists C, (L0 *m R); split=> //.
      by apply: ltri_mul => //; split=> //; apply: nR; case: tUi.
    by rewrite -!mulmxA cR.
  - rewrite eUi; cbn [obind]; have [AR [R [e dR lR [nR _] cR]]] := L_EL_commute_ok dE dUi sh tUi.1.
    have [C eC dC] := mul_ok e erefl dR dL0; exists C, (R *m L0); split=> //.
      by apply: ltri_mul => //; split=> //; apply: nR; case: tUi.
    by rewrite !mulmxA cR.
  - have [AR [R [e dR lR [nR _] cR]]] := L_EL_commute_ok dE dL sh tL.1.
    have [C eC dC] := mul_ok e erefl dR dL0; exists C, (R *m L0); split=> //.
      by apply: ltri_mul => //; split=> //; apply: nR; case: tL.
    by rewrite !mulmxA cR.
exists A, K, q'; split=> //; rewrite eA; cbn [obind]; rewrite (oset_Ok f0) ?sf ?(ltnW im) //; cbn [obind].
by rewrite (oset_Ok f0) // size_set_nth sf; move: im; clear; lia.
Qed.

(** pass_U_right *)
Lemma pass_U_right_ok m (q : rep) facts i v w U U0 : dirs m q -> (i.+1 < m)%N -> size facts = m ->
  den (fU (nf facts i)) U -> utri U -> q i = actR U v ->
  den (fU (nf facts i.+1)) U0 -> utri U0 -> q i.+1 = actR U0 w -> dene (fE (nf facts i.+1)) w -> shEU w ->
  exists A K q', [/\ pass_U_right O dg facts i =
      Ok (set_nth f0 (set_nth f0 facts i.+1 (setU (nf facts i.+1) A)) i (setU (nf facts i) (idm O (fU (nf facts i))))),
    isoin i i.+1 q q', (forall k, k != i -> k != i.+1 -> q' k = q k), q' i = v &
    [/\ den A K, utri K & q' i.+1 = actR K w]].
Proof.
move=> D im sf dL tL eq dL0 tL0 eq0 dE sh.
have [Ui eUi dUi] := den_u_inv dL tL.1 tL.2; have tUi := utri_inv tL.
have uL := utri_unit tL.
have {D} [D1 D2] : left_at dg i = Ok (is_lft (q i)) /\ left_at dg i.+1 = Ok (is_lft (q i.+1)).
  by split; apply: D => //; apply: ltnW.
have [q' [I e1 e2 e3]] := node_L uL eq.
rewrite /pass_U_right D1 D2; cbn [obind]; rewrite !(oget_nth f0) ?sf ?(ltnW im) //; cbn [obind].
set fi := nf facts i in dL eUi *; set fj := nf facts i.+1 in dL0 dE *.
have [A [K [eA dA tK eK]]] : exists A K, [/\ (if is_lft (q i) then
              if is_lft (q i.+1) then mul O (U_EU_commute O (fU fi) (fE fj)) (Ok (fU fj))
              else mul O (Ok (fU fj)) (do X <- u_inv O (fU fi); EU_U_commute O (fE fj) X)
            else
              if is_lft (q i.+1) then mul O (do X <- u_inv O (fU fi); U_EU_commute O X (fE fj)) (Ok (fU fj))
              else mul O (Ok (fU fj)) (EU_U_commute O (fE fj) (fU fi))) = Ok A, den A K, utri K & q' i.+1 = actR K w].
  rewrite e2 eq0 lft_actR; case: w dE sh {eq0} => E /= dE sh; case: (is_lft (q i)) => /=.
  - have [AR [R [e dR lR [nR _] cR]]] := U_EU_commute_ok dE dL sh tL.1.
    have [C eC dC] := mul_ok e erefl dR dL0; exists C, (R *m U0); split=> //.
      by apply: utri_mul => //; split=> //; apply: nR; case: tL.
    by rewrite !mulmxA cR.
  - rewrite eUi; cbn [obind]; have [AR [R [e dR lR [nR _] cR]]] := U_EU_commute_ok dE dUi sh tUi.1.
    have [C eC dC] := mul_ok e erefl dR dL0; exists C, (R *m U0); split=> //.
      by apply: utri_mul => //; split=> //; apply: nR; case: tUi.
    by rewrite !mulmxA cR.
  - rewrite eUi; cbn [obind]; have [AR [R [e dR lR [nR _] cR]]] := EU_U_commute_ok dE dUi sh tUi.1.
    have [C eC dC] := mul_ok erefl e dL0 dR; exists C, (U0 *m R); split=> //.
      by apply: utri_mul => //; split=> //; apply: nR; case: tUi.
    by rewrite -!mulmxA cR.
  - have [AR [R [e dR lR [nR _] cR]]] := EU_U_commute_ok dE dL sh tL.1.
    have [C eC dC] := mul_ok erefl e dL0 dR; exists C, (U0 *m R); split=> //.
      by apply: utri_mul => //; split=> //; apply: nR; case: tL.
    by rewrite -!mulmxA cR.
exists A, K, q'; split=> //; rewrite eA; cbn [obind]; rewrite (oset_Ok f0) ?sf //; cbn [obind].
by rewrite (oset_Ok f0) // size_set_nth sf; move: im; clear; lia.
Qed.

End S.
