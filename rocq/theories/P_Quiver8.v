(** Factorizations of pivot matrices: the inner triangular factor acts as the identity. *)
From mathcomp Require Import all_ssreflect all_fingroup all_algebra zify.
From Verif Require Import Outcome P_Outcome RingTac M_SparseVec M_Perm M_ColMatrix S_Linalg P_SparseVec
  P_SparseVec2 P_Reduce P_Homology P_Pairing P_ColMatrix M_Fact S_Fact P_Den P_Fact3 P_Fact4 P_Fact5 P_Fact6 P_Fact7 M_Quiver S_Quiver
  P_Quiver1 P_Quiver2 P_Quiver3.
Set Implicit Arguments.
Unset Strict Implicit.
Unset Printing Implicit Defensive.
Import GRing.Theory.
Local Open Scope ring_scope.

Section S.
Variable F : fieldType.
Notation O := (ops_of F).
Notation cmat := (cmat F).
Notation fact := (fact F).

Lemma pivotmx_permr m n (M : 'M[F]_(m, n)) P : is_permmx P -> pivotmx M -> pivotmx (M *m P).
Proof.
move=> [s ->] [h1 h2]; rewrite -[s]invgK -col_permE; split=> [i j j'|i i' j]; rewrite !mxE => a b; last exact: h2 a b.
by apply: (@perm_inj _ (s^-1)%g); apply: h1 a b.
Qed.
Lemma pivotmx_perml m n (M : 'M[F]_(m, n)) P : is_permmx P -> pivotmx M -> pivotmx (P *m M).
Proof.
move=> pP pM; rewrite -[P *m M]trmxK trmx_mul; apply: pivotmx_tr; apply: pivotmx_permr; [exact: permmx_tr|exact: pivotmx_tr].
Qed.

Lemma EL_piv_id m n (L : 'M[F]_m) (E : 'M[F]_(m, n)) U : ulower L -> uupper U -> shape_EL E -> pivotmx (L *m E *m U) -> E *m U = E.
Proof.
move=> [lL L1] [uU U1] [[pr pc] sh] pM.
have H (k : nat) (j : 'I_n) : (j < k)%N -> forall i, E i j != 0 -> forall s, U j s = (s == j)%:R.
  elim: k j => // k IH j jk i Eij.
  have V s : (L *m E *m U) i s = E i j * U j s + (s < j)%:R * (L *m E *m U) i s.
    rewrite [LHS]mxE (bigD1 j) //=; congr (_ * _ + _).
      rewrite mxE (bigD1 i) //= L1 mul1r big1 ?addr0 // => i' ni.
      case: (eqVneq (E i' j) 0) => [->|e]; first by rewrite mulr0.
      by rewrite (pc _ _ _ e Eij) eqxx in ni.
    transitivity (\sum_(t | t != j) (t == s)%:R * (L *m E) i t * (s < j)%:R).
      apply: eq_bigr => t tj; case: (ltnP t j) => tj'.
        case: (boolP [exists i', E i' t != 0]) => [/existsP[i' e]|].
          rewrite (IH t _ i' e) 1?eq_sym; last by move: tj' jk; clear; lia.
          case: (eqVneq s t) => [->|] /=; last by rewrite !mulr0 ?mul0r.
          by rewrite tj' !mulr1 mul1r.
        rewrite negb_exists => /forallP z; suff -> : (L *m E) i t = 0 by rewrite !mul0r mulr0 mul0r.
        by rewrite mxE big1 // => i' _; have := z i'; rewrite negbK => /eqP ->; rewrite mulr0.
      have tj2 : (j < t)%N by rewrite ltn_neqAle tj' andbT eq_sym.
      suff -> : (L *m E) i t = 0 by rewrite !mul0r mulr0 mul0r.
      rewrite mxE big1 // => i' _; case: (eqVneq (E i' t) 0) => [->|e]; first by rewrite mulr0.
      have [i'' lt e''] := sh _ _ _ e tj2.
      by rewrite lL ?mul0r // (pc _ _ _ Eij e'').
    case: (ltnP s j) => sj; last first.
      rewrite mul0r big1 // => t tj; by rewrite mulr0.
    rewrite mul1r (bigD1 s) /=; last by rewrite neq_ltn sj.
    rewrite eqxx mul1r mulr1 big1 => [|t /andP[_ /negbTE ->]]; last by rewrite !mul0r.
    rewrite addr0 [RHS]mxE (bigD1 s) //= big1 ?addr0 => [|t ts].
      case: (boolP [exists i', E i' s != 0]) => [/existsP[i' e]|]; first by rewrite U1 mulr1.
      rewrite negb_exists => /forallP z; suff -> : (L *m E) i s = 0 by rewrite mul0r.
      by rewrite mxE big1 // => i' _; have := z i'; rewrite negbK => /eqP ->; rewrite mulr0.
    have [tj|] := ltnP t j.
      case: (boolP [exists i', E i' t != 0]) => [/existsP[i' e]|].
        rewrite (IH t _ i' e); last by move: tj jk; clear; lia.
        by rewrite eq_sym (negbTE ts) mulr0.
      rewrite negb_exists => /forallP z; suff -> : (L *m E) i t = 0 by rewrite mul0r.
      by rewrite mxE big1 // => i' _; have := z i'; rewrite negbK => /eqP ->; rewrite mulr0.
    move=> jt; rewrite uU ?mulr0 //; exact: leq_trans sj jt.
  move=> s; case: (eqVneq s j) => [->|sj]; first by rewrite U1.
  have := sj; rewrite neq_ltn => /orP[lt|gt]; first by rewrite uU.
  have := V s; rewrite ltnNge (ltnW gt) /= mul0r addr0 => e.
  have := V j; rewrite ltnn mul0r addr0 U1 mulr1 => ej.
  case: (eqVneq (U j s) 0) => // nz; case: pM => hr _.
  have h1 : (L *m E *m U) i s != 0 by rewrite e mulf_neq0.
  have h2 : (L *m E *m U) i j != 0 by rewrite ej.
  by move: sj; rewrite (hr _ _ _ h1 h2) eqxx.
apply/matrixP => i s; rewrite mxE.
transitivity (\sum_t E i t * (s == t)%:R).
  apply: eq_bigr => t _; case: (eqVneq (E i t) 0) => [->|e]; first by rewrite !mul0r.
  by rewrite (H t.+1 t (ltnSn t) i e s).
rewrite (bigD1 s) //= eqxx mulr1 big1 ?addr0 // => t ts; by rewrite eq_sym (negbTE ts) mulr0.
Qed.
Lemma EU_piv_id m n (L : 'M[F]_m) (E : 'M[F]_(m, n)) U : ulower L -> uupper U -> shape_EU E -> pivotmx (L *m E *m U) -> L *m E = E.
Proof.
move=> uL uU sE pM; apply: trmx_inj; rewrite trmx_mul; apply: (@EL_piv_id _ _ U^T).
- exact/ulower_tr.
- exact/uupper_tr.
- exact: EL_tr.
- by rewrite -mulmxA -!trmx_mul; apply: pivotmx_tr.
Qed.
Lemma EUhat_piv_id m n (L : 'M[F]_n) (E : 'M[F]_(m, n)) U : ulower L -> uupper U -> shape_EUhat E -> pivotmx (U *m E *m L) -> E *m L = E.
Proof.
move=> uL uU sE pM; apply: (can_inj (@revmxK F m n)); rewrite revmxM; apply: (@EL_piv_id _ _ (revmx U)).
- exact: ulower_rev.
- exact: uupper_rev.
- exact: EL_rev.
- by rewrite -!revmxM; apply: pivotmx_rev.
Qed.
Lemma ELhat_piv_id m n (L : 'M[F]_n) (E : 'M[F]_(m, n)) U : ulower L -> uupper U -> shape_ELhat E -> pivotmx (U *m E *m L) -> U *m E = E.
Proof.
move=> uL uU sE pM; apply: (can_inj (@revmxK F m n)); rewrite revmxM; apply: (@EU_piv_id _ _ _ _ (revmx L)).
- exact: ulower_rev.
- exact: uupper_rev.
- exact: EU_rev.
- by rewrite -!revmxM; apply: pivotmx_rev.
Qed.

Lemma permmx_cancel n (P : 'M[F]_n) m (A : 'M[F]_(m, n)) : is_permmx P -> A *m P *m P^T = A.
Proof. by move=> /permmx_mul_tr[h _]; rewrite -mulmxA h mulmx1. Qed.
Lemma permmx_cancell n (P : 'M[F]_n) m (A : 'M[F]_(n, m)) : is_permmx P -> P^T *m (P *m A) = A.
Proof. by move=> /permmx_mul_tr[_ h]; rewrite mulmxA h mul1mx. Qed.

(** factorizing a pivot arrow *)
Lemma fact_EL_piv a b (A : cmat) (v : arrow F a b) : dene A v -> pivot_arrow v ->
  exists2 f, fact_EL O (is_lft v) A = Ok f & exists L E P, [/\ [/\ den (fL f) L, dene (fE f) E & den (fP f) P], ltri L, is_permmx P,
     shEL E & v = actL L (actR P E)].
Proof.
case: v => M /= dA pM.
  have [f e [L [E [U [P [[dL dE dU dP] eM [uL uU] uP sE]]]]]] := LEUP_ok dA; exists f => //.
  have h : E *m U = E.
    by apply: (EL_piv_id uL uU sE); rewrite -[_ *m U](permmx_cancel _ uP) -eM; apply: pivotmx_permr => //; apply: permmx_tr.
  by exists L, (Lft E), P; split=> //=; [exact: ulower_ltri|rewrite eM -[in RHS]h !mulmxA].
have [f e [P [U [E [L [[dL dE dU dP] eM [uL uU] uP sE]]]]]] := PUEL_ok dA; exists f => //.
have h : U *m E = E.
  apply: (ELhat_piv_id uL uU sE); have -> : U *m E *m L = P^T *m M by rewrite eM !mulmxA (permmx_mul_tr uP).2 mul1mx.
  by apply: pivotmx_perml => //; apply: permmx_tr.
by exists L, (Rgt E), P; split=> //=; [exact: ulower_ltri|rewrite eM -[in RHS]h !mulmxA].
Qed.
Lemma fact_EU_piv a b (A : cmat) (v : arrow F a b) : dene A v -> pivot_arrow v ->
  exists2 f, fact_EU O (is_lft v) A = Ok f & exists E U P, [/\ [/\ den (fU f) U, dene (fE f) E & den (fP f) P], utri U, is_permmx P,
     shEU E & v = actR U (actL P E)].
Proof.
case: v => M /= dA pM.
  have [f e [P [L [E [U [[dL dE dU dP] eM [uL uU] uP sE]]]]]] := PLEU_ok dA; exists f => //.
  have h : L *m E = E.
    apply: (EU_piv_id uL uU sE); have -> : L *m E *m U = P^T *m M by rewrite eM !mulmxA (permmx_mul_tr uP).2 mul1mx.
    by apply: pivotmx_perml => //; apply: permmx_tr.
  by exists (Lft E), U, P; split=> //=; [exact: uupper_utri|rewrite eM -[in RHS]h !mulmxA].
have [f e [U [E [L [P [[dL dE dU dP] eM [uL uU] uP sE]]]]]] := UELP_ok dA; exists f => //.
have h : E *m L = E.
  by apply: (EUhat_piv_id uL uU sE); rewrite -[_ *m L](permmx_cancel _ uP) -eM; apply: pivotmx_permr => //; apply: permmx_tr.
by exists (Rgt E), U, P; split=> //=; [exact: uupper_utri|rewrite eM -[in RHS]h !mulmxA].
Qed.

(** LQU / UQL *)
Definition fact_Q (l : bool) (A : cmat) : outcome fact := if l then LQU O A else UQL O A.
Lemma fact_Q_ok a b (A : cmat) (v : arrow F a b) : dene A v ->
  exists2 f, fact_Q (is_lft v) A = Ok f & exists L E U, [/\ [/\ den (fL f) L, dene (fE f) E & den (fU f) U], ltri L, utri U,
     pivot_arrow E & v = actL L (actR U E)].
Proof.
case: v => M /= dA.
  have [f e [L [E [U [[dL dE dU] eM [tL tU] pE _]]]]] := LQU_ok dA; exists f => //.
  by exists L, (Lft E), U; split=> //=; rewrite eM mulmxA.
have [f e [U [E [L [[dL dE dU] eM [tL tU] pE _]]]]] := UQL_ok dA; exists f => //.
by exists L, (Rgt E), U; split=> //=; rewrite eM.
Qed.

Lemma pivot_actL a b P (v : arrow F a b) : is_permmx P -> pivot_arrow v -> pivot_arrow (actL P v).
Proof. by case: v => M /=; [exact: pivotmx_perml|exact: pivotmx_permr]. Qed.
Lemma pivot_actR a b P (v : arrow F a b) : is_permmx P -> pivot_arrow v -> pivot_arrow (actR P v).
Proof. by case: v => M /=; [exact: pivotmx_permr|exact: pivotmx_perml]. Qed.
End S.
