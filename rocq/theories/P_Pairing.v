(** Linear algebra of reduced matrices: rank = number of nonzero columns, the pairing uniqueness
    lemma, and the interaction of two consecutive boundary matrices. *)
From mathcomp Require Import all_ssreflect all_algebra zify.
From Verif Require Import M_SparseVec M_ColMatrix S_Linalg.
Set Implicit Arguments.
Unset Strict Implicit.
Unset Printing Implicit Defensive.
Import GRing.Theory.
Local Open Scope ring_scope.

Section P.
Variable F : fieldType.

Definition lowb m n (A : 'M[F]_(m, n)) (i : 'I_m) (j : 'I_n) : bool :=
  (A i j != 0) && [forall i' : 'I_m, (i < i')%N ==> (A i' j == 0)].

Lemma lowP m n (A : 'M[F]_(m, n)) i j : reflect (is_low A i j) (lowb A i j).
Proof.
apply: (iffP andP) => [[H /forallP K]|[H K]]; split=> //.
  by move=> i' lt; apply/eqP; move: (K i'); rewrite lt.
by apply/forallP => i'; apply/implyP => lt; rewrite K.
Qed.

Lemma low_unique m n (A : 'M[F]_(m, n)) i i' j : is_low A i j -> is_low A i' j -> i = i'.
Proof.
move=> [H K] [H' K']; apply/val_inj => /=.
case: (ltngtP i i') => // lt; first by move: H'; rewrite K ?eqxx.
by move: H; rewrite K' ?eqxx.
Qed.

(** every nonzero column has a last nonzero *)
Lemma low_exists m n (A : 'M[F]_(m, n)) i0 j : A i0 j != 0 ->
  exists2 i, is_low A i j & (i0 <= i)%N.
Proof.
move=> H; case: (@arg_maxnP _ i0 (fun i => A i j != 0) (fun i : 'I_m => (i : nat)) H) => i Hi max.
exists i; last exact: max.
by split=> // i' lt; apply/eqP/negPn/negP => /max; lia.
Qed.

Definition nzcol m n (A : 'M[F]_(m, n)) (j : 'I_n) : bool := [exists i, A i j != 0].

Lemma nzcolP m n (A : 'M[F]_(m, n)) j : reflect (exists i, is_low A i j) (nzcol A j).
Proof.
apply: (iffP existsP) => [[i /low_exists[i' L _]]|[i [H _]]]; first by exists i'.
by exists i.
Qed.

Lemma nzcolN m n (A : 'M[F]_(m, n)) j : ~~ nzcol A j -> forall i, A i j = 0.
Proof. by rewrite negb_exists => /forallP H i; apply/eqP/negPn. Qed.

(** the nonzero columns of a reduced matrix are linearly independent *)
Lemma reduced_indep m n (A : 'M[F]_(m, n)) (y : 'cV[F]_n) :
  reduced A -> A *m y = 0 -> forall j, nzcol A j -> y j 0 = 0.
Proof.
move=> red Ay j0 nz0; apply/eqP/negPn/negP => y0.
pose lowof (j : 'I_n) : nat := \max_(i < m | lowb A i j) i.
have lowofE i j : is_low A i j -> lowof j = i.
  move=> L; rewrite /lowof (big_pred1 i) // => i' /=.
  by apply/lowP/eqP => [L'|->//]; apply: low_unique L' L.
have P0 : nzcol A j0 && (y j0 0 != 0) by rewrite nz0.
case: (@arg_maxnP _ j0 (fun j => nzcol A j && (y j 0 != 0)) lowof P0).
move=> j /andP[/nzcolP[i L] yj] max.
have := congr1 (fun M : 'cV_m => M i 0) Ay; rewrite !mxE (bigD1 j) //= big1 ?addr0.
  by move/eqP; rewrite mulf_eq0 (negbTE yj) orbF; case: L => [/negbTE ->].
move=> j' ne; case: (altP (y j' 0 =P 0)) => [->|yj']; first by rewrite mulr0.
case: (boolP (nzcol A j')) => [nz|/nzcolN ->]; last by rewrite mul0r.
have := max j'; rewrite nz yj' => /(_ isT) /=; rewrite (lowofE _ _ L).
move/nzcolP: nz => [i' L']; rewrite (lowofE _ _ L') leq_eqVlt => /orP[/eqP E|lt].
  have Ei : i' = i by apply: val_inj.
  by subst i'; move: ne; rewrite (red _ _ _ L' L) eqxx.
by case: L' => _ -> //; rewrite mul0r.
Qed.

Lemma rank_reduced m n (A : 'M[F]_(m, n)) :
  reduced A -> \rank A = #|[set j | nzcol A j]|.
Proof.
move=> red; set S := [set j | nzcol A j].
pose E : 'M[F]_(#|S|, n) := \matrix_(i, j) (enum_val i == j)%:R.
have Erow i j : E i j = (enum_val i == j)%:R by rewrite mxE.
have EET : E *m E^T = 1%:M.
  apply/matrixP => a b; rewrite !mxE (bigD1 (enum_val a)) //= big1 ?addr0.
    by rewrite !mxE eqxx mul1r eq_sym (inj_eq enum_val_inj).
  by move=> j ne; rewrite !mxE eq_sym (negbTE ne) mul0r.
have free : row_free (E *m A^T).
  apply: inj_row_free => v; rewrite mulmxA => H.
  have Ay : A *m (v *m E)^T = 0.
    by apply: trmx_inj; rewrite trmx0 trmx_mul trmxK.
  have vE : v *m E = 0.
    apply/rowP => j; rewrite [RHS]mxE.
    case: (boolP (nzcol A j)) => nz.
      by have := reduced_indep red Ay nz; rewrite mxE.
    rewrite mxE big1 // => a _; rewrite mxE; case: eqP => [Ej|_]; last by rewrite mulr0.
    by move: (enum_valP a); rewrite Ej inE (negbTE nz).
  by rewrite -(mulmx1 v) -EET mulmxA vE mul0mx.
have AE : A^T = E^T *m (E *m A^T).
  rewrite mulmxA; apply/matrixP => j i; rewrite !mxE.
  case: (boolP (nzcol A j)) => nz.
    rewrite (bigD1 j) //= big1 ?addr0.
      have jS : j \in S by rewrite inE.
      rewrite !mxE (bigD1 (enum_rank_in jS j)) //= !mxE enum_rankK_in // eqxx mulr1.
      rewrite big1 ?addr0 ?mul1r // => a ne.
      rewrite !mxE; case: eqP => [Ea|_]; last by rewrite mul0r.
      by move/eqP: ne; case; apply: enum_val_inj; rewrite enum_rankK_in.
    move=> j' ne; rewrite !mxE big1 ?mul0r // => a _; rewrite !mxE.
    case: eqP => [->|_]; last by rewrite mul0r.
    by rewrite eq_sym (negbTE ne) mulr0.
  rewrite (nzcolN nz) big1 // => j' _; rewrite mxE big1 ?mul0r // => a _; rewrite !mxE.
  case: eqP => [Ea|_]; last by rewrite mul0r.
  by move: (enum_valP a); rewrite Ea inE (negbTE nz).
rewrite -mxrank_tr; apply/eqP; rewrite eqn_leq; apply/andP; split.
  by rewrite AE; apply: leq_trans (mxrankM_maxr _ _) (rank_leq_row _).
rewrite -[X in (X <= _)%N](eqP free); exact: mxrankM_maxr.
Qed.

(** lower-left truncation *)
Lemma low_lowerleft m n (A : 'M[F]_(m, n)) p q i j :
  is_low (lowerleft A p q) i j <-> [/\ is_low A i j, (p <= i)%N & (j < q)%N].
Proof.
split=> [[H K]|[[H K] pi jq]].
  move: H; rewrite mxE; case: ifP => [/andP[pi jq] H|_]; last by rewrite eqxx.
  split=> //; split=> // i' lt; have := K i' lt; rewrite mxE jq andbT.
  by rewrite (leq_trans pi (ltnW lt)).
split; first by rewrite mxE pi jq.
by move=> i' lt; rewrite mxE K //; case: ifP.
Qed.

Lemma reduced_lowerleft m n (A : 'M[F]_(m, n)) p q : reduced A -> reduced (lowerleft A p q).
Proof. by move=> red i j j' /low_lowerleft[L _ _] /low_lowerleft[L' _ _]; apply: red L L'. Qed.

Definition lowge m n (A : 'M[F]_(m, n)) (p : nat) (j : 'I_n) : bool :=
  [exists i, lowb A i j && (p <= i)%N].

Lemma rll_reduced m n (A : 'M[F]_(m, n)) p q : reduced A ->
  rll A p q = #|[set j | lowge A p j & (j < q)%N]|.
Proof.
move=> red; rewrite /rll rank_reduced; last exact: reduced_lowerleft.
apply: eq_card => j; rewrite !inE; apply/nzcolP/andP => [[i /low_lowerleft[L pi jq]]|].
  by split=> //; apply/existsP; exists i; rewrite pi andbT; apply/lowP.
by move=> [/existsP[i /andP[/lowP L pi]] jq]; exists i; apply/low_lowerleft.
Qed.

(** upper triangular matrices with nonzero diagonal are invertible *)
Lemma upper_unit n (U : 'M[F]_n) : upper U -> diagn0 U -> U \in unitmx.
Proof.
move=> up d; rewrite unitmxE -det_tr det_trig.
  by rewrite unitfE; apply/prodf_neq0 => i _; rewrite mxE.
by apply/is_trig_mxP => i j lt; rewrite mxE up.
Qed.

Lemma rll_mul_upper m n (A : 'M[F]_(m, n)) (V : 'M[F]_n) p q :
  upper V -> diagn0 V -> rll (A *m V) p q = rll A p q.
Proof.
move=> up d; rewrite /rll.
pose Vq : 'M[F]_n := \matrix_(i, j) (if (j < q)%N then V i j else (i == j)%:R).
have -> : lowerleft (A *m V) p q = lowerleft A p q *m Vq.
  apply/matrixP => i j; rewrite !mxE; case: (boolP (j < q)%N) => jq; last first.
    rewrite andbF big1 // => k _; rewrite !mxE (negbTE jq); case: eqP => [->|_].
      by rewrite (negbTE jq) andbF mul0r.
    by rewrite mulr0.
  rewrite andbT; case: ifP => pi; last first.
    by rewrite big1 // => k _; rewrite !mxE pi mul0r.
  apply: eq_bigr => k _; rewrite !mxE pi jq /=.
  case: (ltnP k q) => // qk; rewrite mul0r up ?mulr0 //; lia.
rewrite mxrankMfree // row_free_unit; apply: upper_unit => [i j lt|i]; rewrite mxE.
  by case: ifP => _; [apply: up | rewrite -val_eqE gtn_eqF].
by case: ifP => _; [apply: d | rewrite eqxx oner_neq0].
Qed.

(** Pairing uniqueness: the pivots of any reduction of M are given by ranks of M *)
Lemma pairing_unique m n (M R : 'M[F]_(m, n)) (V : 'M[F]_n) (i : 'I_m) (j : 'I_n) :
  upper V -> diagn0 V -> R = M *m V -> reduced R ->
  lowb R i j = (rll M i j.+1 + rll M i.+1 j == rll M i j + rll M i.+1 j.+1 + 1)%N.
Proof.
move=> up d E red.
rewrite -!(@rll_mul_upper _ _ M V) // -E !rll_reduced //.
have step p : #|[set j0 | lowge R p j0 & (j0 < j.+1)%N]| =
              (lowge R p j + #|[set j0 : 'I_n | lowge R p j0 & (j0 < j)%N]|)%N.
  rewrite (cardsD1 j) inE ltnSn andbT; congr addn; apply: eq_card => k; rewrite !inE.
  by rewrite ltnS (leq_eqVlt k) -val_eqE; case: ltngtP => //=; rewrite ?andbT ?andbF.
rewrite !step.
have -> : lowb R i j = lowge R i j && ~~ lowge R i.+1 j.
  apply/idP/andP => [L|[/existsP[k /andP[L ik]] /existsPn N]].
    split; first by apply/existsP; exists i; rewrite L leqnn.
    apply/existsPn => k; apply/negP => /andP[L' ik].
    by have := low_unique (lowP _ _ _ L) (lowP _ _ _ L') => Ek; move: ik; rewrite Ek ltnn.
  have := N k; rewrite L /= -leqNgt => ki.
  by have -> : i = k by apply/val_inj => /=; lia.
have : lowge R i.+1 j -> lowge R i j.
  by move=> /existsP[k /andP[L ik]]; apply/existsP; exists k; rewrite L ltnW.
case: (lowge R i j); case: (lowge R i.+1 j) => //= H; apply/esym; try (apply/eqP; lia).
Qed.

(** upper triangular action preserves the last nonzero of a vector *)
Lemma low_upper_mul n p (V : 'M[F]_n) (y : 'M[F]_(n, p)) i j :
  upper V -> diagn0 V -> is_low y i j <-> is_low (V *m y) i j.
Proof.
move=> up d.
have key k : is_low y k j -> is_low (V *m y) k j.
  move=> [H K]; split.
    rewrite mxE (bigD1 k) //= big1 ?addr0 ?mulf_neq0 // => k' ne.
    case: (ltngtP k k') => lt; first by rewrite K ?mulr0.
      by rewrite up ?mul0r.
    by move: ne; rewrite -val_eqE /= lt eqxx.
  move=> k' lt; rewrite mxE big1 // => l _.
  case: (ltnP k l) => kl; first by rewrite K ?mulr0.
  by rewrite up ?mul0r //; lia.
split; first exact: key.
move=> L; case: (boolP [exists k, y k j != 0]) => [/existsP[k /low_exists[k' L' _]]|].
  by have <- := low_unique (key _ L') L.
rewrite negb_exists => /forallP Z; case: L => + _; rewrite mxE big1 ?eqxx // => k _.
by rewrite (eqP (negPn (Z k))) mulr0.
Qed.

(** consecutive boundaries: a pivot row of the upper boundary is a zero column of the lower one *)
Lemma pivot_zero_col m n p (B1 : 'M[F]_(m, n)) (B2 : 'M[F]_(n, p))
  (V1 : 'M[F]_n) (V2 : 'M[F]_p) i j :
  B1 *m B2 = 0 -> upper V1 -> diagn0 V1 -> reduced (B1 *m V1) ->
  lowb (B2 *m V2) i j -> ~~ nzcol (B1 *m V1) i.
Proof.
move=> BB up d red L; have U1 := upper_unit up d.
set z := B2 *m V2 in L; set y := invmx V1 *m z.
have Ly : is_low y i j by apply/(low_upper_mul _ _ _ up d); rewrite mulKVmx //; apply/lowP.
apply/negP => nz.
have Ay : (B1 *m V1) *m (col j y) = 0.
  by rewrite colE mulmxA -(mulmxA B1) mulKVmx // /z !mulmxA BB !mul0mx.
have := reduced_indep red Ay nz; rewrite mxE => E.
by case: Ly; rewrite E eqxx.
Qed.

End P.
