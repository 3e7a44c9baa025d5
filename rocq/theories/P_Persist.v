(** Persistence pairs: counting pivots against ranks. *)
From mathcomp Require Import all_ssreflect all_algebra zify.
From Verif Require Import Outcome P_Outcome RingTac M_SparseVec M_Perm M_ColMatrix M_Reduce M_Homology
  M_Persist S_Linalg P_SparseVec P_Pairing P_Reduce S_Perm P_Perm P_PermMx S_Homology S_Persist
  P_Homology P_Betti P_Extra P_Chain.
Set Implicit Arguments.
Unset Strict Implicit.
Unset Printing Implicit Defensive.
Import GRing.Theory.
Local Open Scope ring_scope.

Section Rank.
Variable F : fieldType.

Lemma mask_tr n s : (mask F n s)^T = mask F n s.
Proof. by rewrite tr_diag_mx. Qed.

Lemma mask_mul n s m (A : 'M[F]_(n, m)) i j : (mask F n s *m A) i j = if s i then A i j else 0.
Proof. by rewrite mul_diag_mx !mxE; case: (s i); rewrite ?mul1r ?mul0r. Qed.
Lemma mul_mask n s m (A : 'M[F]_(m, n)) i j : (A *m mask F n s) i j = if s j then A i j else 0.
Proof. by rewrite mul_mx_diag !mxE; case: (s j); rewrite ?mulr1 ?mulr0. Qed.

Lemma rank_mask n (s : pred nat) : \rank (mask F n s) = #|[set i : 'I_n | s i]|.
Proof.
have red : reduced (mask F n s).
  move=> i j j' [H _] [H' _]; move: H H'; rewrite !mxE.
  case: (i =P j) => [->|_]; last by rewrite mulr0n eqxx.
  by case: (j =P j') => [->|_] //; rewrite mulr0n eqxx.
rewrite rank_reduced //; apply: eq_card => j; rewrite !inE; apply/existsP/idP => [[i]|sj].
  rewrite !mxE; case: (i =P j) => [->|_]; last by rewrite mulr0n eqxx.
  by case: (s j); rewrite ?mulr0n ?eqxx.
by exists j; rewrite !mxE eqxx sj mulr1n oner_neq0.
Qed.

Lemma kermx_mask n (s : pred nat) : (kermx (mask F n (predC s)) :=: mask F n s)%MS.
Proof.
apply/eqmxP/andP; split.
  apply/row_subP => r; have : row r (kermx (mask F n (predC s))) *m mask F n (predC s) = 0.
    by rewrite -row_mul mulmx_ker row0.
  set v := row _ _ => E; apply/submxP; exists v; apply/rowP => j; rewrite mul_mask.
  case sj: (s j) => //; have := congr1 (fun M : 'rV_n => M 0 j) E.
  by rewrite mul_mask /= sj /= !mxE.
apply/sub_kermxP/matrixP => i j; rewrite mask_mul !mxE.
by case si: (s i) => //; case: (i =P j) => _; rewrite ?mulr0n //= si mulr1n.
Qed.

Lemma rank_cap_mask p n (A : 'M[F]_(p, n)) s :
  (\rank (A *m mask F n (predC s)) + \rank (A :&: mask F n s)%MS)%N = \rank A.
Proof.
by rewrite -(mxrank_mul_ker A (mask F n (predC s))) (cap_eqmx (eqmx_refl A) (kermx_mask n s)).
Qed.

Lemma rank_Zsp m n (B1 : 'M[F]_(m, n)) s :
  (\rank (Zsp B1 s) + \rank (B1 *m mask F n s))%N = #|[set i : 'I_n | s i]|.
Proof.
rewrite -(rank_mask n s) -(mxrank_mul_ker (mask F n s) B1^T) addnC /Zsp capmxC; congr addn.
by rewrite -mxrank_tr trmx_mul mask_tr.
Qed.

Lemma rank_ZBsp m n q (B1 : 'M[F]_(m, n)) (B2 : 'M[F]_(n, q)) s t : B1 *m B2 = 0 ->
  (\rank (Zsp B1 s :&: Bsp B2 t)%MS + \rank (mask F n (predC s) *m B2 *m mask F q t) =
   \rank (B2 *m mask F q t))%N.
Proof.
move=> BB.
have sub : (Bsp B2 t <= kermx B1^T)%MS.
  by apply/sub_kermxP; rewrite /Bsp -mulmxA -trmx_mul BB trmx0 mulmx0.
have -> : \rank (Zsp B1 s :&: Bsp B2 t)%MS = \rank (Bsp B2 t :&: mask F n s)%MS.
  apply: eqmx_rank; apply/andP; split; rewrite !sub_capmx.
    by rewrite capmxSr (submx_trans (capmxSl _ _)) // /Zsp capmxSr.
  by rewrite (submx_trans (capmxSl _ _) sub) capmxSr capmxSl.
have := rank_cap_mask (Bsp B2 t) s.
rewrite -[\rank (Bsp B2 t *m _)]mxrank_tr -[\rank (Bsp B2 t)]mxrank_tr /Bsp !trmx_mul !mask_tr trmxK mulmxA.
by move=> <-; rewrite addnC.
Qed.

Lemma pbet_rank m n q (B1 : 'M[F]_(m, n)) (B2 : 'M[F]_(n, q)) s t : B1 *m B2 = 0 ->
  (pbet B1 B2 s t + \rank (B1 *m mask F n s) + \rank (B2 *m mask F q t) =
   #|[set i : 'I_n | s i]| + \rank (mask F n (predC s) *m B2 *m mask F q t))%N.
Proof.
move=> BB; have := rank_Zsp B1 s; have := rank_ZBsp s t BB; rewrite /pbet.
have : (\rank (Zsp B1 s :&: Bsp B2 t)%MS <= \rank (Zsp B1 s))%N by rewrite mxrankS ?capmxSl.
by move: (\rank _) (\rank _) (\rank _) (\rank _) (\rank _) #|_| => *; lia.
Qed.

(** permuting rows and columns keeps the rank *)
Lemma rank_reindex m n (A A' : 'M[F]_(m, n)) p q (P : is_perm p) (s : size p = m)
  (Q : is_perm q) (s' : size q = n) :
  (forall i j, A' i j = A (pord P s i) (pord Q s' j)) -> \rank A' = \rank A.
Proof.
move=> E; have EA : permmx F m p *m A' = A *m permmx F n q.
  apply/matrixP => i j; have [k <-] := pord_bij P s i.
  by rewrite permmx_row (permmx_col Q s') E.
rewrite -(mxrankMfree A (_ : row_free (permmx F n q))) ?row_free_unit ?permmx_unit // -EA.
by rewrite (eqmxMfull A' (_ : row_full (permmx F m p))) // row_full_unit permmx_unit.
Qed.

Lemma card_match (A B : finType) (r : A -> B -> bool) :
  (forall a b b', r a b -> r a b' -> b = b') -> (forall a a' b, r a b -> r a' b -> a = a') ->
  #|[set a | [exists b, r a b]]| = #|[set b | [exists a, r a b]]|.
Proof.
move=> f1 f2; pose S := [set x : A * B | r x.1 x.2].
have -> : [set a | [exists b, r a b]] = [set x.1 | x in S].
  apply/setP => a; rewrite inE; apply/existsP/imsetP => [[b rb]|[[a' b]]].
    by exists (a, b); rewrite ?inE.
  by rewrite inE /= => rb ->; exists b.
have -> : [set b | [exists a, r a b]] = [set x.2 | x in S].
  apply/setP => b; rewrite inE; apply/existsP/imsetP => [[a rb]|[[a b']]].
    by exists (a, b); rewrite ?inE.
  by rewrite inE /= => rb ->; exists a.
rewrite !card_in_imset // => -[a b] [a' b']; rewrite !inE /= => r1 r2 E.
  by subst; congr pair; apply: f2 r1 r2.
by subst; congr pair; apply: f1 r1 r2.
Qed.

Lemma rll_pivots m n (M : 'M[F]_(m, n)) (V : 'M[F]_n) p q :
  upper V -> diagn0 V -> reduced (M *m V) ->
  rll M p q = #|[set j : 'I_n | [exists i : 'I_m, is_pivot M i j && (p <= i)%N] && (j < q)%N]|.
Proof.
move=> Vu Vd red; rewrite -(rll_mul_upper _ p q Vu Vd) rll_reduced //.
apply: eq_card => j; rewrite !inE; congr andb; apply: eq_existsb => i.
by rewrite (pivot_low i j Vu Vd red).
Qed.

Lemma pivot_count m n q (D1 : 'M[F]_(m, n)) (D2 : 'M[F]_(n, q)) V1 V2 a b :
  D1 *m D2 = 0 -> upper V1 -> diagn0 V1 -> reduced (D1 *m V1) ->
  upper V2 -> diagn0 V2 -> reduced (D2 *m V2) ->
  (#|[set i : 'I_n | [&& (i < a)%N, ~~ pcol D1 i & ~~ [exists j : 'I_q, is_pivot D2 i j && (j < b)%N]]]|
   + rll D1 0 a + rll D2 0 b = #|[set i : 'I_n | (i < a)%N]| + rll D2 a b)%N.
Proof.
move=> DD u1 d1 r1 u2 d2 r2.
rewrite (rll_pivots 0 a u1 d1 r1) (rll_pivots 0 b u2 d2 r2) (rll_pivots a b u2 d2 r2).
set A := [set i : 'I_n | (i < a)%N].
set P := [set j : 'I_n | _ && (j < a)%N].
set B := [set j : 'I_q | _ && (j < b)%N].
set Bh := [set j : 'I_q | [exists i : 'I_n, is_pivot D2 i j && (a <= i)%N] && (j < b)%N].
set N := [set i : 'I_n | [&& _, _ & _]].
pose r (i : 'I_n) (j : 'I_q) := [&& is_pivot D2 i j, (i < a)%N & (j < b)%N].
have low (i : 'I_n) (j : 'I_q) : is_pivot D2 i j = lowb (D2 *m V2) i j := pivot_low i j u2 d2 r2.
have f1 (i : 'I_n) (j j' : 'I_q) : is_pivot D2 i j -> is_pivot D2 i j' -> j = j'.
  by rewrite !low => /lowP h /lowP h'; apply: r2 h h'.
have f2 (i i' : 'I_n) (j : 'I_q) : is_pivot D2 i j -> is_pivot D2 i' j -> i = i'.
  by rewrite !low => /lowP h /lowP h'; apply: low_unique h h'.
have EM : #|[set i | [exists j, r i j]]| = #|[set j | [exists i, r i j]]|.
  by apply: card_match => [i j j'|i i' j] /and3P[h _ _] /and3P[h' _ _]; [apply: f1 h h' | apply: f2 h h'].
have EB : #|B| = (#|[set j | [exists i, r i j]]| + #|Bh|)%N.
  rewrite -cardsUI.
  have -> : [set j | [exists i, r i j]] :&: Bh = set0.
    apply/setP => j; rewrite !inE; apply/negP => /and3P[/existsP[i /and3P[h ia _]] /existsP[i' /andP[h' ia']] _].
    by move: ia'; rewrite -(f2 _ _ _ h h'); lia.
  rewrite cards0 addn0; apply: eq_card => j; rewrite !inE; apply/andP/orP.
    move=> [/existsP[i /andP[h _]] jb]; case: (ltnP i a) => ia.
      by left; apply/existsP; exists i; rewrite /r h ia jb.
    by right; rewrite jb andbT; apply/existsP; exists i; rewrite h.
  case=> [/existsP[i /and3P[h ia jb]]|/andP[/existsP[i /andP[h ia]] jb]]; split=> //; apply/existsP; exists i; by rewrite h.
have EA : #|A| = (#|P| + #|[set i | [exists j, r i j]]| + #|N|)%N.
  have -> : A = P :|: [set i | [exists j, r i j]] :|: N.
    apply/setP => i; rewrite !inE /pcol; case: (ltnP i a) => ia; last first.
      rewrite andbF /= orbF; apply/esym/negbTE/existsP => -[j /and3P[_]]; lia.
    rewrite andbT /=.
    have -> : [exists h : 'I_m, is_pivot D1 h i && (0 <= h)%N] = [exists h : 'I_m, is_pivot D1 h i].
      by apply: eq_existsb => h; rewrite andbT.
    have -> : [exists j, r i j] = [exists j : 'I_q, is_pivot D2 i j && (j < b)%N].
      by apply: eq_existsb => j; rewrite /r ia.
    by case: [exists _, _]; case: [exists _, _].
  have dj1 : [disjoint P & [set i | [exists j, r i j]]].
    apply/pred0P => i /=; rewrite !inE; apply/negP => /andP[/andP[/existsP[h /andP[p1 _]] _] /existsP[j /and3P[p2 _ _]]].
    have : [exists j : 'I_q, is_pivot D2 i j] by apply/existsP; exists j.
    by move/(pivots_disjoint DD u1 d1 r1 u2 d2 r2)/negP; apply; apply/existsP; exists h.
  have dj2 : [disjoint P :|: [set i | [exists j, r i j]] & N].
    apply/pred0P => i /=; rewrite !inE /pcol; apply/negP => /andP[/orP[/andP[/existsP[h /andP[p1 _]] _]|/existsP[j /and3P[p2 _ jb]]] /and3P[_ n1 n2]].
      by move/negP: n1; apply; apply/existsP; exists h.
    by move/negP: n2; apply; apply/existsP; exists j; rewrite p2.
  have cd (X Y : {set 'I_n}) : [disjoint X & Y] -> #|X :|: Y| = (#|X| + #|Y|)%N.
    by move=> d; rewrite cardsU (disjoint_setI0 d) cards0 subn0.
  by rewrite !cd.
by rewrite EB EA EM; lia.
Qed.
End Rank.
