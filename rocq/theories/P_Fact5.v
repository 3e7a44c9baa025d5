(** The other three commutation relations, CU_inplace, LQU, UQL and inv. *)
From mathcomp Require Import all_ssreflect all_fingroup all_algebra zify.
From Verif Require Import Outcome P_Outcome RingTac M_SparseVec M_Perm M_ColMatrix S_Linalg P_SparseVec
  P_SparseVec2 P_Reduce P_Homology P_Solve P_ColMatrix M_Fact S_Fact P_Fact1 P_Fact2 P_Den P_Fact3 P_Fact4.
Set Implicit Arguments.
Unset Strict Implicit.
Unset Printing Implicit Defensive.
Import GRing.Theory.
Local Open Scope ring_scope.

Section S.
Variable F : fieldType.
Notation O := (ops_of F).
Notation svec := (svec F).
Notation cmat := (cmat F).

Lemma L_EL_commute_ok m n (AE AL : cmat) (E : 'M[F]_(m, n)) (L : 'M[F]_m) :
  den AE E -> den AL L -> shape_ELhat E -> lower L ->
  exists AR R, [/\ L_EL_commute O AL AE = Ok AR, den AR (R : 'M_n), lower R,
    (diagn0 L -> diagn0 R) /\ (diag1 L -> diag1 R) & L *m E = E *m R].
Proof.
move=> dE dL sE lo; rewrite /L_EL_commute.
have [E1 -> dE1] := den_transpose dE; cbn [obind]; have [E2 -> dE2] := den_J_conj dE1; cbn [obind].
have [L1 -> dL1] := den_transpose dL; cbn [obind]; have [L2 -> dL2] := den_J_conj dL1; cbn [obind].
have sE2 : shape_EL (revmx E^T) by rewrite -revmx_tr; apply: EL_tr; apply: EU_rev.
have lo2 : lower (revmx L^T) by apply: lower_rev; apply/upper_tr.
have [R [MR [-> dR loR [d0 d1] e]]] := EL_L_commute_ok dE2 dL2 sE2 lo2; cbn [obind].
have [R1 -> dR1] := den_transpose dR; cbn [obind]; have [R2 -> dR2] := den_J_conj dR1; cbn [obind].
exists R2, (revmx MR^T); split=> //.
- by apply: lower_rev; apply/upper_tr.
- split=> H.
  + by apply: diagn0_rev; apply: diagn0_tr; apply: d0; apply: diagn0_rev; apply: diagn0_tr.
  + by apply: diag1_rev; apply/diag1_tr; apply: d1; apply: diag1_rev; apply/diag1_tr.
- have := congr1 (fun X => revmx X^T) e; by rewrite !trmx_mul !revmxM !revmx_tr !trmxK !revmxK.
Qed.

Lemma U_EU_commute_ok m n (AE AU : cmat) (E : 'M[F]_(m, n)) (U : 'M[F]_m) :
  den AE E -> den AU U -> shape_EU E -> upper U ->
  exists AR R, [/\ U_EU_commute O AU AE = Ok AR, den AR (R : 'M_n), upper R,
    (diagn0 U -> diagn0 R) /\ (diag1 U -> diag1 R) & U *m E = E *m R].
Proof.
move=> dE dL sE lo; rewrite /U_EU_commute.
have [E1 -> dE1] := den_transpose dE; cbn [obind]; have [L1 -> dL1] := den_transpose dL; cbn [obind].
have lo2 : lower U^T by apply/lower_tr.
have [R [MR [-> dR loR [d0 d1] e]]] := EL_L_commute_ok dE1 dL1 (EL_tr sE) lo2; cbn [obind].
have [R1 -> dR1] := den_transpose dR; cbn [obind].
exists R1, MR^T; split=> //.
- exact/upper_tr.
- split=> H; first by apply: diagn0_tr; apply: d0; apply: diagn0_tr.
  by apply/diag1_tr; apply: d1; apply/diag1_tr.
- have := congr1 trmx e; by rewrite !trmx_mul !trmxK.
Qed.

Lemma EU_U_commute_ok m n (AE AU : cmat) (E : 'M[F]_(m, n)) (U : 'M[F]_n) :
  den AE E -> den AU U -> shape_EUhat E -> upper U ->
  exists AR R, [/\ EU_U_commute O AE AU = Ok AR, den AR (R : 'M_m), upper R,
    (diagn0 U -> diagn0 R) /\ (diag1 U -> diag1 R) & R *m E = E *m U].
Proof.
move=> dE dL sE lo; rewrite /EU_U_commute.
have [E1 -> dE1] := den_J_conj dE; cbn [obind]; have [L1 -> dL1] := den_J_conj dL; cbn [obind].
have lo2 : lower (revmx U) by apply: lower_rev.
have [R [MR [-> dR loR [d0 d1] e]]] := EL_L_commute_ok dE1 dL1 (EL_rev sE) lo2; cbn [obind].
have [R1 -> dR1] := den_J_conj dR; cbn [obind].
exists R1, (revmx MR); split=> //.
- exact: upper_rev.
- split=> H; first by apply: diagn0_rev; apply: d0; apply: diagn0_rev.
  by apply: diag1_rev; apply: d1; apply: diag1_rev.
- have := congr1 (@revmx _ _ _) e; by rewrite !revmxM !revmxK.
Qed.

Lemma split_lbS m (c : svec) b : sv_wf m c -> coef c b = 0 -> (split_lb c b).2 = (split_lb c b.+1).2.
Proof.
move=> /and3P[S B N] c0; rewrite !split_lb_sorted //=; apply: eq_in_filter => p pin.
rewrite [in LHS]leq_eqVlt; case: eqP => //= e; have := coef_in S (p := p); rewrite -e c0.
have := allP N _ pin; case: p pin e => i v /= pin e /eqP vn h; by case: vn; rewrite -(h pin).
Qed.

(** a loop rule for the while loop of CU_inplace *)
Section Rule.
Variables (m n j : nat).
Variable P : seq svec -> seq svec -> seq (option nat) -> nat -> bool -> Prop.
Hypothesis Pst : forall C U p b fd, P C U p b fd ->
  [/\ size C = n, size U = n, size p = m, sv_wf m (nth [::] C j) &
      (j < n)%N /\ forall i k, nth None p i = Some k -> (k < n)%N].
Hypothesis Pel : forall C U p b fd i v k, P C U p b fd -> (b <= i < m)%N ->
  (forall r, (b <= r < i)%N -> coef (nth [::] C j) r = 0) -> coef (nth [::] C j) i = v -> v != 0 -> nth None p i = Some k ->
  let C1 := set_nth [::] C j (axpy O (- v) (nth [::] C k) (nth [::] C j)) in
  coef (nth [::] C1 j) i = 0 /\
  P C1 (set_nth [::] U j (axpy O (- v) (nth [::] U k) (nth [::] U j))) p i.+1 fd.
Hypothesis Pfd : forall C U p b i v, P C U p b false -> (b <= i < m)%N ->
  (forall r, (b <= r < i)%N -> coef (nth [::] C j) r = 0) -> coef (nth [::] C j) i = v -> v != 0 -> nth None p i = None ->
  P (set_nth [::] C j (scale_inplace O v^-1 (nth [::] C j))) (set_nth [::] U j (scale_inplace O v^-1 (nth [::] U j)))
    (set_nth None p i (Some j)) i.+1 true.
Hypothesis Psk : forall C U p b i v, P C U p b true -> (b <= i < m)%N ->
  (forall r, (b <= r < i)%N -> coef (nth [::] C j) r = 0) -> coef (nth [::] C j) i = v -> v != 0 -> nth None p i = None ->
  P C U p i.+1 true.

Lemma cu_rule fuel C U p b fd : P C U p b fd -> (m < b + fuel)%N ->
  exists C' U' p' b' fd', [/\ cu_col O fuel C U p j b fd = Ok (C', U', p'), P C' U' p' b' fd' &
     forall r, (b' <= r)%N -> coef (nth [::] C' j) r = 0].
Proof.
elim: fuel C U p b fd => [|fuel IH] C U p b fd H hf; have [sC sU sp Wj [jn pk]] := Pst H;
  rewrite /cu_col -/cu_col (oget_nth [::]) ?sC //; cbn [obind];
  have := from_spec b Wj; case: (split_lb _ b).2 => [|[i v] rest].
- by move=> z; exists C, U, p, b, fd.
- by case=> bi im; move: hf; rewrite addn0 => mb; have := leq_trans im (leq_trans (ltnW mb) bi); rewrite ltnn.
- by move=> z; exists C, U, p, b, fd.
case=> bi im cv vn [_ z]; have bim : (b <= i < m)%N by rewrite bi.
have hf' : (m < i.+1 + fuel)%N by apply: leq_trans hf _; rewrite addnS addSn ltnS leq_add2r.
rewrite (oget_nth None) ?sp //; cbn [obind]; case ep: (nth None p i) => [k|].
  have kn := pk _ _ ep; rewrite !(oget_nth [::]) ?sC ?sU //; cbn [obind].
  rewrite !(oset_Ok [::]) ?sC ?sU //; cbn [obind].
  have [z1 H1] := Pel H bim z cv vn ep; have [s1 _ _ W1 _] := Pst H1.
  have [C' [U' [p' [b' [fd' [e H' zz]]]]]] := IH _ _ _ _ _ H1 hf'.
  exists C', U', p', b', fd'; split=> //; rewrite -e.
  case: (fuel) => [|f]; rewrite /cu_col -/cu_col (oget_nth [::]) ?s1 //; cbn [obind];
    by rewrite (split_lbS W1 z1).
case: fd H => H /=; first exact: IH (Psk H bim z cv vn ep) hf'.
rewrite (oset_Ok None) ?sp //; cbn [obind]; rewrite /oinv /odiv is0E (negPf vn); cbn [obind].
rewrite !(oset_Ok [::]) ?sC ?sU //; cbn [obind]; rewrite (oget_nth [::]) ?sU //; cbn [obind].
rewrite !(oset_Ok [::]) ?sC ?sU //; cbn [obind].
have := Pfd H bim z cv vn ep; rewrite -[v^-1]mul1r => H1; exact: IH H1 hf'.
Qed.
End Rule.

End S.
