(** Homology representatives: cycles with prescribed last cells form a basis modulo boundaries. *)
From mathcomp Require Import all_ssreflect all_algebra zify.
From Verif Require Import Outcome P_Outcome RingTac M_SparseVec M_Perm M_ColMatrix M_Reduce M_Homology
  S_Linalg S_Perm S_Homology P_SparseVec P_SparseVec2 P_Pairing P_Reduce P_Homology P_Betti.
Set Implicit Arguments.
Unset Strict Implicit.
Unset Printing Implicit Defensive.
Import GRing.Theory.
Local Open Scope ring_scope.

Section S.
Variable F : fieldType.

Lemma low_row_mx m n1 n2 (A : 'M[F]_(m, n1)) (B : 'M[F]_(m, n2)) i j :
  is_low (row_mx A B) i j <-> match split j with inl a => is_low A i a | inr b => is_low B i b end.
Proof.
rewrite /is_low; case: (splitP j) => a Ea.
  have -> : j = lshift n2 a by apply: val_inj.
  rewrite row_mxEl; split=> -[H K]; split=> // i' lt; first by have := K i' lt; rewrite row_mxEl.
  by rewrite row_mxEl K.
have -> : j = rshift n1 a by apply: val_inj.
rewrite row_mxEr; split=> -[H K]; split=> // i' lt; first by have := K i' lt; rewrite row_mxEr.
by rewrite row_mxEr K.
Qed.

Lemma reduced_row_mx m n1 n2 (A : 'M[F]_(m, n1)) (B : 'M[F]_(m, n2)) :
  reduced A -> reduced B -> (forall i a b, is_low A i a -> is_low B i b -> False) -> reduced (row_mx A B).
Proof.
move=> rA rB D i j j'; rewrite !low_row_mx.
case: (splitP j) => a Ea; case: (splitP j') => b Eb La Lb; apply: val_inj; rewrite /= ?Ea ?Eb.
- by rewrite (rA _ _ _ La Lb).
- by case: (D _ _ _ La Lb).
- by case: (D _ _ _ Lb La).
by rewrite (rB _ _ _ La Lb).
Qed.

(** the last nonzero of a combination of the columns of a reduced matrix is that of a column *)
Lemma reduced_low_comb m n (A : 'M[F]_(m, n)) (y : 'cV[F]_n) i :
  reduced A -> is_low (A *m y) i 0 -> exists j, is_low A i j.
Proof.
move=> rA L; case: (boolP [exists j, lowb A i j]) => [/existsP[j /lowP]|]; first by exists j.
rewrite negb_exists => /forallP N.
have rB : reduced (A *m y) by move=> i' j j' _ _; rewrite !ord1.
have R : reduced (row_mx A (A *m y)).
  apply: reduced_row_mx => //;
  move=> i' a b La; rewrite ord1 => Lb; have E := low_unique L Lb; subst i'.
  by move/lowP: La; apply/negP.
have Z : row_mx A (A *m y) *m col_mx (- y) (1%:M : 'M_1) = 0.
  by rewrite mul_row_col mulmx1 mulmxN addNr.
have nz : nzcol (row_mx A (A *m y)) (rshift n 0).
  by apply/nzcolP; exists i; apply/low_row_mx; rewrite (unsplitK (inr _ 0)).
have := reduced_indep R Z nz; rewrite col_mxEd mxE eqxx => /eqP.
by rewrite oner_eq0.
Qed.

Section Basis.
Variables (m n q : nat) (B0 : 'M[F]_(m, n)) (B1 : 'M[F]_(n, q)).
Variables (V0 : 'M[F]_n) (V1 : 'M[F]_q).
Hypothesis u0 : upper V0.
Hypothesis n0 : diagn0 V0.
Hypothesis r0 : reduced (B0 *m V0).
Hypothesis u1 : upper V1.
Hypothesis n1 : diagn0 V1.
Hypothesis r1 : reduced (B1 *m V1).
Hypothesis BB : B0 *m B1 = 0.

Lemma prow_lowP (i : 'I_n) : reflect (exists w : 'cV_q, is_low (B1 *m w) i 0) (prow B1 i).
Proof.
apply: (iffP existsP) => [[j]|[w L]].
  rewrite (pivot_low _ _ u1 n1 r1) => /lowP L; exists (col j V1).
  have -> : B1 *m col j V1 = col j (B1 *m V1) by rewrite !colE mulmxA.
  by case: L => H K; split=> [|i' lt]; rewrite [col _ _ _ _]mxE // K.
have U1 := upper_unit u1 n1.
have [|j Lj] := @reduced_low_comb _ _ (B1 *m V1) (invmx V1 *m w) i r1; first by rewrite mulmxA mulmxK.
by exists j; rewrite (pivot_low _ _ u1 n1 r1); apply/lowP.
Qed.

(** H: the homology cells; rep: for each of them a cycle with that last cell *)
Variable H : seq nat.
Hypothesis HH : H = [seq j <- iota 0 n | ~~ pcol B0 j && ~~ prow B1 j].
Variable Rep : 'M[F]_(n, size H).
Hypothesis cyc : B0 *m Rep = 0.
Hypothesis low : forall (j : 'I_(size H)) (i : 'I_n), (i : nat) = nth 0%N H j -> is_low Rep i j.

Lemma memH x : (x \in H) = [&& ~~ pcol B0 x, ~~ prow B1 x & (x < n)%N].
Proof. by rewrite HH mem_filter mem_iota /= add0n andbA. Qed.
Lemma Hlt j : (j < size H)%N -> (nth 0%N H j < n)%N.
Proof.
by move=> lt; have := mem_nth 0%N lt; rewrite memH => /and3P[].
Qed.
Lemma Huniq : uniq H. Proof. by rewrite HH filter_uniq ?iota_uniq. Qed.

Lemma rep_low i j : is_low Rep i j <-> (i : nat) = nth 0%N H j.
Proof.
split; last exact: low.
move=> L; have := @low j (Ordinal (Hlt (ltn_ord j))) erefl => L'.
by rewrite (low_unique L L').
Qed.

Lemma rep_reduced : reduced Rep.
Proof.
move=> i j j' /rep_low E /rep_low E'; apply: val_inj; apply/eqP.
by rewrite -(nth_uniq 0%N (ltn_ord j) (ltn_ord j') Huniq) -E -E'.
Qed.

Lemma aug_reduced : reduced (row_mx (B1 *m V1) Rep).
Proof.
apply: reduced_row_mx => //; first exact: rep_reduced.
move=> i a b La /rep_low E.
have : prow B1 i by apply/existsP; exists a; rewrite (pivot_low _ _ u1 n1 r1); apply/lowP.
by have := mem_nth 0%N (ltn_ord b); rewrite memH -E => /and3P[_ /negbTE ->].
Qed.

Lemma rep_indep (h : 'cV_(size H)) w : Rep *m h = B1 *m w -> h = 0.
Proof.
move=> E; have U1 := upper_unit u1 n1.
have Z : row_mx (B1 *m V1) Rep *m col_mx (- (invmx V1 *m w)) h = 0.
  by rewrite mul_row_col mulmxN mulmxA mulmxK // E addNr.
apply/colP => j; rewrite [RHS]mxE.
have nz : nzcol (row_mx (B1 *m V1) Rep) (rshift q j).
  apply/nzcolP; exists (Ordinal (Hlt (ltn_ord j))); apply/low_row_mx.
  by rewrite (unsplitK (inr _ j)); apply/rep_low.
by have := reduced_indep aug_reduced Z nz; rewrite col_mxEd.
Qed.

Lemma rep_span (z : 'cV_n) : B0 *m z = 0 -> exists h w, z = Rep *m h + B1 *m w.
Proof.
suff main b : forall z : 'cV_n, B0 *m z = 0 -> (forall i : 'I_n, (b <= i)%N -> z i 0 = 0) ->
    exists h w, z = Rep *m h + B1 *m w.
  by move=> Z; apply: (main n z Z) => i; rewrite leqNgt ltn_ord.
elim: b => [|b IH] {}z Z zb.
  exists 0, 0; rewrite !mulmx0 addr0; apply/colP => i; by rewrite zb ?mxE.
case: (ltnP b n) => bn; last by apply: IH => // i le; apply: zb; move: (ltn_ord i) le bn; clear; lia.
pose i := Ordinal bn; case: (altP (z i 0 =P 0)) => [z0|nz].
  apply: IH => // i' le; case: (altP (i' =P i)) => [-> //|ne]; apply: zb.
  by rewrite ltn_neqAle le andbT eq_sym; apply: contra ne => /eqP e; apply/eqP/val_inj.
have step (c : 'cV_n) : B0 *m c = 0 -> is_low c i 0 -> exists a, B0 *m (z - a *: c) = 0 /\
    (forall i' : 'I_n, (b <= i')%N -> (z - a *: c) i' 0 = 0).
  move=> Bc [cn c0]; exists (z i 0 / c i 0); split.
    by rewrite mulmxBr Z -scalemxAr Bc scaler0 subr0.
  move=> i' le; rewrite !mxE; case: (altP (i' =P i)) => [->|ne]; first by rewrite divfK // subrr.
  have lt : (b < i')%N by rewrite ltn_neqAle le andbT eq_sym; apply: contra ne => /eqP e; apply/eqP/val_inj.
  by rewrite (zb i') // (c0 i' lt) mulr0 subr0.
have Lz : is_low z i 0 by split=> // i' lt; apply: zb.
have np := cycle_low_npcol u0 n0 r0 Z Lz.
case: (boolP (prow B1 i)) => [/prow_lowP[w L]|npr].
  have [|a [Za zz]] := step _ _ L; first by rewrite mulmxA BB mul0mx.
  have [h [w' E]] := IH _ Za zz; exists h, (w' + a *: w).
  by rewrite mulmxDr -scalemxAr addrA -E subrK.
have iH : (i : nat) \in H by rewrite memH np npr /=.
have lt : (index (i : nat) H < size H)%N by rewrite index_mem.
pose j := Ordinal lt.
have Lj : is_low Rep i j by apply/rep_low; rewrite /= nth_index.
have Lc : is_low (col j Rep) i 0 by case: Lj => ? K; split=> [|i' ?]; rewrite [col _ _ _ _]mxE // K.
have [|a [Za zz]] := step _ _ Lc; first by rewrite colE mulmxA cyc mul0mx.
have [h [w E]] := IH _ Za zz; exists (h + a *: delta_mx j 0), w.
by rewrite mulmxDr -scalemxAr -colE addrAC -E subrK.
Qed.

End Basis.
End S.
