(** The barcode forms of the two sequential algorithms. *)
From mathcomp Require Import all_ssreflect all_fingroup all_algebra zify.
From Verif Require Import Outcome P_Outcome RingTac M_SparseVec M_Perm M_ColMatrix S_Linalg P_SparseVec
  P_SparseVec2 P_Reduce P_Homology P_Pairing P_ColMatrix M_Fact S_Fact P_Den P_Fact3 P_Fact4 P_Fact5 P_Fact6 P_Fact7 M_Quiver S_Quiver
  P_Quiver1 P_Quiver2 P_Quiver3.
Set Implicit Arguments.
Unset Strict Implicit.
Unset Printing Implicit Defensive.
Import GRing.Theory.
Local Open Scope ring_scope.

Section S.
Variable F : fieldType.
Notation O := (ops_of F).
Notation svec := (svec F).
Notation cmat := (cmat F).
Notation fact := (fact F).
Variable d : nat -> nat.
Notation rep := (rep F d).
Variable dg : diagram F.
Notation nf := (nth (f0 F)).
Notation nm := (nth (m0 F)).

(** mats are pivot matrices, and in suitable bases they are the maps of q *)
Definition pform (m : nat) (q : rep) (mats : seq cmat) : Prop := size mats = m /\
  exists2 q' : rep, isorep m q q' & forall k, (k < m)%N -> dene (nm mats k) (q' k) /\ pivot_arrow (q' k).

Lemma absorbR n (q : rep) (Q : forall k, arrow F (d k) (d k.+1) -> Prop) :
  (forall k, (k < n.+1)%N -> exists X Y E, [/\ X \in unitmx /\ Y \in unitmx, q k = actL X (actR Y E), (0 < k)%N -> X = 1%:M,
     (k < n)%N -> Y = 1%:M & Q k E]) ->
  exists2 q' : rep, isorep n.+1 q q' & forall k, (k < n.+1)%N -> exists X E, [/\ X \in unitmx, q' k = actL X E, (0 < k)%N -> X = 1%:M & Q k E].
Proof.
move=> H; have [X [Y [E [[uX uY] e X1 _ QE]]]] := H n (ltnSn n).
have uB : (if is_lft (q n) then invmx Y else Y) \in unitmx by case: ifP => _; rewrite ?unitmx_inv.
have [G [e1 e2]] := dupd (fun k => 1%:M : 'M[F]_(d k)) (if is_lft (q n) then invmx Y else Y).
have Gn k : (k < n.+1)%N -> G k = 1%:M by move=> kn; rewrite e2 // neq_ltn kn.
exists (fun k => chbase (q k) (G k) (G k.+1)).
  exists G => // k; by case: (eqVneq k n.+1) => [->|ne]; rewrite ?e1 // e2 // unitmx1.
move=> k; rewrite ltnS leq_eqVlt => /orP[/eqP -> {k}|kn].
  exists X, E; split=> //; rewrite e1 Gn // e; case: (E) => M /=; rewrite ?invmx1' ?mul1mx ?mulmx1.
    by rewrite mulmxA (mulmxK uY).
  by rewrite -!mulmxA (mulKmx uY).
have [X' [Y' [E' [[uX' uY'] e' X1' Y1' QE']]]] := H k (ltnW kn).
by exists X', E'; split=> //; rewrite !Gn ?ltnS // ?(ltnW kn) // chbase11 e' (Y1' kn) actR1.
Qed.
Lemma absorbL m (q : rep) (Q : forall k, arrow F (d k) (d k.+1) -> Prop) :
  (forall k, (k < m)%N -> exists X E, [/\ X \in unitmx, q k = actL X E, (0 < k)%N -> X = 1%:M & Q k E]) ->
  exists2 q' : rep, isorep m q q' & forall k, (k < m)%N -> Q k (q' k).
Proof.
case: m => [|m] H; first by exists q => //; exists (fun k => 1%:M) => // k; rewrite unitmx1.
have [X [E [uX e _ QE]]] := H 0%N (ltn0Sn m).
have uB : (if is_lft (q 0%N) then X else invmx X) \in unitmx by case: ifP => _; rewrite ?unitmx_inv.
have [G [e1 e2]] := dupd (fun k => 1%:M : 'M[F]_(d k)) (if is_lft (q 0%N) then X else invmx X).
exists (fun k => chbase (q k) (G k) (G k.+1)).
  exists G => // k; by case: (eqVneq k 0%N) => [->|ne]; rewrite ?e1 // e2 // unitmx1.
case=> [|k] km.
  suff -> : chbase (q 0%N) (G 0%N) (G 1%N) = E by [].
  rewrite e1 e2 // e; case: (E) => M /=; rewrite ?invmx1' ?mul1mx ?mulmx1; first by rewrite (mulKmx uX).
  by rewrite (mulmxK uX).
have [X' [E' [uX' e' X1' QE']]] := H k.+1 km.
by rewrite !e2 // chbase11 e' X1' // actL1.
Qed.
Lemma absorb n (q : rep) (Q : forall k, arrow F (d k) (d k.+1) -> Prop) :
  (forall k, (k < n.+1)%N -> exists X Y E, [/\ X \in unitmx /\ Y \in unitmx, q k = actL X (actR Y E), (0 < k)%N -> X = 1%:M,
     (k < n)%N -> Y = 1%:M & Q k E]) ->
  exists2 q' : rep, isorep n.+1 q q' & forall k, (k < n.+1)%N -> Q k (q' k).
Proof.
by move=> /absorbR[q1 i1 /absorbL[q2 i2 h]]; exists q2 => //; apply: isorep_trans i1 i2.
Qed.

Lemma shEL_pivot a b (E : arrow F a b) : shEL E -> pivot_arrow E. Proof. by case: E => E []. Qed.
Lemma shEU_pivot a b (E : arrow F a b) : shEU E -> pivot_arrow E. Proof. by case: E => E []. Qed.

Lemma dump_nth facts k : (k < size facts)%N -> nm (dump_E facts) k = fE (nf facts k).
Proof. by move=> h; rewrite (nth_map (f0 F)). Qed.

Lemma denq_dirs m (q : rep) : denq m dg q -> dirs dg m q.
Proof.
move=> [s1 s2 h] k km; have [_ e] := h k km; rewrite /left_at (oget_nth (0, 0)%N) ?s1 //; cbn [obind].
by rewrite e; case: (is_lft _); rewrite /is_left_arrow /= ?ltnSn // ltnNge leqnSn.
Qed.

Lemma stEL_XY bL bR a b (f : fact) (v : arrow F a b) : stEL bL bR f v ->
  exists X Y E, [/\ X \in unitmx /\ Y \in unitmx, v = actL X (actR Y E), bL -> X = 1%:M, bR -> Y = 1%:M & dene (fE f) E /\ pivot_arrow E].
Proof.
move=> [L [E [[dL dE] tL sE h1]]]; case: bR => [->|[U [P [dU dP tU pP ->]]]].
  exists L, 1%:M, E; split=> //; first by rewrite (ltri_unit tL) unitmx1.
    by rewrite actR1.
  by split=> //; apply: shEL_pivot.
exists L, (if is_lft E then U *m P else P *m U), E; split=> //.
- by rewrite ltri_unit //; case: ifP => _; rewrite unitmx_mul (utri_unit tU) (permmx_unit' pP).
- by case: (E) => M /=; rewrite !mulmxA.
- by split=> //; apply: shEL_pivot.
Qed.
Lemma stEU_XY bL bR a b (f : fact) (v : arrow F a b) : stEU bL bR f v ->
  exists X Y E, [/\ X \in unitmx /\ Y \in unitmx, v = actL X (actR Y E), bL -> X = 1%:M, bR -> Y = 1%:M & dene (fE f) E /\ pivot_arrow E].
Proof.
move=> [E [U [[dU dE] tU sE h1]]]; case: bL => [->|[P [L [dL dP tL pP ->]]]].
  exists 1%:M, U, E; split=> //; first by rewrite (utri_unit tU) unitmx1.
    by rewrite actL1.
  by split=> //; apply: shEU_pivot.
exists (if is_lft E then P *m L else L *m P), U, E; split=> //.
- by rewrite (utri_unit tU); split=> //; case: ifP => _; rewrite unitmx_mul (ltri_unit tL) (permmx_unit' pP).
- by case: (E) => M /=; rewrite ?mulmxA.
- by split=> //; apply: shEU_pivot.
Qed.

Theorem leftright_form m (q : rep) : (0 < m)%N -> denq m dg q ->
  exists2 ms, barcode_form_leftright O dg = Ok ms & pform m q ms.
Proof.
case: m => // n _ dq; have D := denq_dirs dq; case: dq => s1 s2 h; rewrite /barcode_form_leftright /nedge s2 [_.-1]/=.
have sf : size (nseq n.+1 (fact0 F)) = n.+1 by rewrite size_nseq.
have [|facts [mats [q1 [-> [fr1 _] I1 st1]]]] := lr_sweep1_ok D (leq0n n) (ltnSn n) sf s2.
  by move=> k kn; have [] := h k kn.
cbn [obind fst]; exists (dump_E facts) => //; split; first by rewrite size_map fr1.1.
have sf1 : size facts = n.+1 by rewrite fr1.1.
have D1 : dirs dg n.+1 q1 by apply: dirs_iso I1 D.
have [k kn|k kn|facts2 [q2 [_ fr2 I2 st2 eE]]] := lr_sweep2_ok (j0 := 0%N) (j1 := n) (n := n) (bR := fun k => (k < n)%N) D1 (leqnn _) (ltnSn n) sf1; first by [].
  by rewrite add0n ltnNge (proj2 (andP kn)); apply: st1.
have [|q3 i3 hq3] := @absorb n q2 (fun k E => dene (nm (dump_E facts) k) E /\ pivot_arrow E).
  move=> k kn; have [X [Y [E [u e h1 h2 h3]]]] := stEL_XY (st2 k kn); exists X, Y, E; split=> //.
  by rewrite dump_nth ?sf1 // -eE.
exists q3 => //; apply: isorep_trans i3; apply: isorep_trans (isoin_isorep n.+1 I1) (isoin_isorep n.+1 I2).
Qed.

Theorem rightleft_form m (q : rep) : (0 < m)%N -> denq m dg q ->
  exists2 ms, barcode_form_rightleft O dg = Ok ms & pform m q ms.
Proof.
case: m => // n _ dq; have D := denq_dirs dq; case: dq => s1 s2 h; rewrite /barcode_form_rightleft /nedge s2 [_.-1]/=.
have sf : size (nseq n.+1 (fact0 F)) = n.+1 by rewrite size_nseq.
have [|facts [mats [q1 [-> [fr1 _] I1 st1]]]] := rl_sweep1_ok D (leq0n n) (ltnSn n) sf s2.
  by move=> k kn; have [] := h k kn.
cbn [obind fst].
have sf1 : size facts = n.+1 by rewrite fr1.1.
have D1 : dirs dg n.+1 q1 by apply: dirs_iso I1 D.
have [k kn|k kn|facts2 [q2 [e2 fr2 I2 st2 eE]]] := rl_sweep2_ok (j0 := 0%N) (j1 := n) (n := n) (bL := fun k => (0 < k)%N) D1 (leqnn _) (ltnSn n) sf1; first by [].
  by rewrite subnn ltn0; apply: st1.
rewrite /rightleft_sweep2 subn0; rewrite subnn in e2; rewrite e2; cbn [obind].
have sf2 : size facts2 = n.+1 by rewrite fr2.1.
exists (dump_E facts2) => //; split; first by rewrite size_map.
have [|q3 i3 hq3] := @absorb n q2 (fun k E => dene (nm (dump_E facts2) k) E /\ pivot_arrow E).
  move=> k kn; have [X [Y [E [u e h1 h2 h3]]]] := stEU_XY (st2 k kn); exists X, Y, E; split=> //.
  by rewrite dump_nth ?sf2.
exists q3 => //; apply: isorep_trans i3; apply: isorep_trans (isoin_isorep n.+1 I1) (isoin_isorep n.+1 I2).
Qed.
End S.
