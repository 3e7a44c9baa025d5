(** The rank of a pivot matrix, and the factorizations reveal the rank. *)
From mathcomp Require Import all_ssreflect all_fingroup all_algebra zify.
From Verif Require Import Outcome P_Outcome RingTac M_SparseVec M_Perm M_ColMatrix S_Linalg P_SparseVec
  P_SparseVec2 P_Reduce P_Homology P_Pairing P_ColMatrix M_Fact S_Fact P_Den P_Fact3 P_Fact4 P_Fact5 P_Fact6.
Set Implicit Arguments.
Unset Strict Implicit.
Unset Printing Implicit Defensive.
Import GRing.Theory.
Local Open Scope ring_scope.

Section S.
Variable F : fieldType.
Notation O := (ops_of F).
Notation svec := (svec F).
Notation cmat := (cmat F).

Definition nzcols m n (E : 'M[F]_(m, n)) : {set 'I_n} := [set j | [exists i, E i j != 0]].

Lemma rank_pivotmx m n (E : 'M[F]_(m, n)) : pivotmx E -> \rank E = #|nzcols E|.
Proof.
move=> [p1 p2]; set S := nzcols E; set k := #|S|.
pose Y : 'M[F]_(n, k) := \matrix_(j, a) (j == enum_val a)%:R.
have EY i a : (E *m Y) i a = E i (enum_val a).
  rewrite mxE (bigD1 (enum_val a)) //= big1 ?addr0; first by rewrite mxE eqxx mulr1.
  by move=> j ne; rewrite mxE (negPf ne) mulr0.
have ex (a : 'I_k) : {i : 'I_m | E i (enum_val a) != 0}.
  by apply: sigW; have := enum_valP a; rewrite inE => /existsP.
pose Z : 'M[F]_(k, m) := \matrix_(a, i) (if i == sval (ex a) then (E i (enum_val a))^-1 else 0).
have ZEY : Z *m (E *m Y) = 1%:M.
  apply/matrixP => a b; rewrite mxE (bigD1 (sval (ex a))) //= big1 ?addr0; last first.
    by move=> i ne; rewrite mxE (negPf ne) mul0r.
  rewrite EY !mxE eqxx; have h := svalP (ex a); case: (eqVneq a b) => [<-|ne]; first by rewrite mulVf.
  case: (eqVneq (E (sval (ex a)) (enum_val b)) 0) => [->|nz]; first by rewrite mulr0.
  by case/eqP: ne; apply: enum_val_inj; apply: p1 h nz.
have EYY : E *m Y *m Y^T = E.
  apply/matrixP => i j; rewrite mxE; case: (boolP (j \in S)) => jS.
    rewrite (bigD1 (enum_rank_in jS j)) //= big1 ?addr0; last first.
      move=> a ne; rewrite !mxE; case: eqP => [e|_]; last by rewrite mulr0.
      by case/eqP: ne; apply: enum_val_inj; rewrite -e enum_rankK_in.
    by rewrite EY !mxE enum_rankK_in // eqxx mulr1.
  rewrite big1; last first.
    move=> a _; rewrite !mxE; case: eqP => [e|_]; last by rewrite mulr0.
    by move: jS; rewrite e enum_valP.
  by apply/esym/eqP; move: jS; rewrite inE negb_exists => /forallP/(_ i)/negbNE.
apply/eqP; rewrite eqn_leq; apply/andP; split.
  by rewrite -EYY; apply: leq_trans (mxrankM_maxr _ _) (rank_leq_col Y) || (apply: leq_trans (mxrankM_maxl _ _) (rank_leq_col _)).
apply: leq_trans (mxrankM_maxl E Y); have := mxrank1 F k; rewrite -ZEY => {1}<-; exact: mxrankM_maxr.
Qed.

Lemma nzcols_count m n (A : cmat) (E : 'M[F]_(m, n)) : den A E -> count (fun c => c != [::]) (cols A) = #|nzcols E|.
Proof.
case: A => am an ac [/= /cm_wfP[/= s W] eA eA' MA]; rewrite {}eA' in s; rewrite {}eA in W.
rewrite -sum1_count (big_nth [::]) s big_mkord sum1_card; apply: eq_card => j; rewrite !inE.
rewrite unfold_in; apply/idP/existsP => [ne|[i]]; last by rewrite -MA mxE; case: (nth _ _ _) => //; rewrite coef_nil eqxx.
have /and3P[S B N] := nth_wf j W; case e: (nth [::] ac j) ne S B N => [//|[r v] c] _ S /andP[/= rm _] /andP[/= vn _].
by exists (Ordinal rm); rewrite -MA mxE e /= (coef_in S (p := (r, v))) ?mem_head.
Qed.

Lemma rank_mul_unit m n (A : 'M[F]_m) (E : 'M[F]_(m, n)) (B : 'M[F]_n) : A \in unitmx -> B \in unitmx ->
  \rank (A *m E *m B) = \rank E.
Proof. by move=> uA uB; rewrite mxrankMfree ?row_free_unit // eqmxMfull // row_full_unit. Qed.

Lemma permmx_unit' n (P : 'M[F]_n) : is_permmx P -> P \in unitmx.
Proof. by move=> [s ->]; apply: unitmx_perm. Qed.
Lemma ulower_unit n (L : 'M[F]_n) : ulower L -> L \in unitmx.
Proof. by move=> [l d]; rewrite -unitmx_tr; apply: upper_unit; [apply/upper_tr|apply: diagn0_tr; apply: diag1n0]. Qed.
Lemma lower_unit n (L : 'M[F]_n) : lower L -> diagn0 L -> L \in unitmx.
Proof. by move=> l d; rewrite -unitmx_tr; apply: upper_unit; [apply/upper_tr|apply: diagn0_tr]. Qed.
Lemma uupper_unit n (L : 'M[F]_n) : uupper L -> L \in unitmx.
Proof. by move=> [l d]; apply: upper_unit => //; apply: diag1n0. Qed.

Lemma fact_rank m n (A : cmat) (M : 'M[F]_(m, n)) f : den A M ->
  (LEUP O A = Ok f \/ PLEU O A = Ok f \/ UELP O A = Ok f \/ PUEL O A = Ok f \/ LQU O A = Ok f \/ UQL O A = Ok f) ->
  count (fun c => c != [::]) (cols (fE f)) = \rank M.
Proof.
move=> dA; case=> [|[|[|[|[|]]]]].
- have [g -> [L [E [U [P [[_ dE _ _] -> [uL uU] uP [pE _]]]]]]] := LEUP_ok dA; move=> [<-].
  by rewrite (nzcols_count dE) -rank_pivotmx // -(mulmxA _ U) rank_mul_unit ?unitmx_mul ?(ulower_unit uL) ?(uupper_unit uU) ?(permmx_unit' uP).
- have [g -> [P [L [E [U [[_ dE _ _] -> [uL uU] uP [pE _]]]]]]] := PLEU_ok dA; move=> [<-].
  by rewrite (nzcols_count dE) -rank_pivotmx // rank_mul_unit ?unitmx_mul ?(ulower_unit uL) ?(uupper_unit uU) ?(permmx_unit' uP).
- have [g -> [U [E [L [P [[_ dE _ _] -> [uL uU] uP [pE _]]]]]]] := UELP_ok dA; move=> [<-].
  by rewrite (nzcols_count dE) -rank_pivotmx // -(mulmxA _ L) rank_mul_unit ?unitmx_mul ?(ulower_unit uL) ?(uupper_unit uU) ?(permmx_unit' uP).
- have [g -> [P [U [E [L [[_ dE _ _] -> [uL uU] uP [pE _]]]]]]] := PUEL_ok dA; move=> [<-].
  by rewrite (nzcols_count dE) -rank_pivotmx // rank_mul_unit ?unitmx_mul ?(ulower_unit uL) ?(uupper_unit uU) ?(permmx_unit' uP).
- have [g -> [L [E [U [[_ dE _] -> [[l1 l2] [u1 u2]] pE _]]]]] := LQU_ok dA; move=> [<-].
  by rewrite (nzcols_count dE) -rank_pivotmx // rank_mul_unit ?(lower_unit l1 l2) ?(upper_unit u1 u2).
- have [g -> [U [E [L [[_ dE _] -> [[l1 l2] [u1 u2]] pE _]]]]] := UQL_ok dA; move=> [<-].
  by rewrite (nzcols_count dE) -rank_pivotmx // rank_mul_unit ?(lower_unit l1 l2) ?(upper_unit u1 u2).
Qed.
End S.
