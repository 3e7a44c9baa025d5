(** DG vector spaces, part 3: anti-transposes (transpose with both orders reversed) and their pivots. *)
From mathcomp Require Import all_ssreflect all_algebra all_fingroup zify.
From Verif Require Import Outcome P_Outcome M_SparseVec M_Perm M_ColMatrix M_Reduce M_Homology M_Persist
  M_Induced M_DG S_Linalg S_Perm S_Homology P_SparseVec P_Pairing P_Reduce P_Perm P_PermMx P_ColMatrix P_Homology P_Betti
  P_Update P_Chain P_DG1 P_DG2.
Set Implicit Arguments.
Unset Strict Implicit.
Unset Printing Implicit Defensive.
Import GRing.Theory.
Local Open Scope ring_scope.

Section A.
Variable F : fieldType.
Notation O := (ops_of F).
Notation cmat := (cmat F).
Notation m0 := (CMat 0 0 [::] : cmat).
Notation p2c_t := (seq (option nat)).

Lemma rll_anti m n (A : 'M[F]_(m, n)) (A' : 'M[F]_(n, m)) p q :
  (forall i j, A' (rev_ord j) (rev_ord i) = A i j) -> (p <= n)%N -> (q <= m)%N ->
  rll A' p q = rll A (m - q) (n - p).
Proof.
move=> E pn qm; rewrite /rll.
have -> : lowerleft A' p q = row_perm (perm (@rev_ord_inj n)) (col_perm (perm (@rev_ord_inj m))
   (lowerleft A (m - q) (n - p))^T).
  apply/matrixP => j i; rewrite !mxE !permE /= -E !rev_ordK; congr (if _ then _ else _).
  by move: (ltn_ord j) (ltn_ord i) pn qm; clear; move: (nat_of_ord i) (nat_of_ord j) => a b; lia.
rewrite row_permE col_permE eqmxMfull ?row_full_unit ?unitmx_perm //.
by rewrite mxrankMfree ?row_free_unit ?unitmx_perm // mxrank_tr.
Qed.

Lemma is_pivot_anti m n (A : 'M[F]_(m, n)) (A' : 'M[F]_(n, m)) i j :
  (forall i j, A' (rev_ord j) (rev_ord i) = A i j) -> (i < m)%N -> (j < n)%N ->
  is_pivot A' j i = is_pivot A (m - i.+1) (n - j.+1).
Proof.
move=> E im jn; rewrite /is_pivot !(rll_anti E) //; try by apply: ltnW.
have -> : (m - i)%N = (m - i.+1).+1 by move: im; clear; lia.
have -> : (n - j)%N = (n - j.+1).+1 by move: jn; clear; lia.
by rewrite [X in (X + 1)%N]addnC.
Qed.

(** A' is the anti-transpose of A *)
Definition atr (A A' : cmat) : Prop :=
  [/\ cm_wf A', nrow A' = ncol A, ncol A' = nrow A &
      forall i j, (i < nrow A)%N -> (j < ncol A)%N ->
        ent A' (ncol A - j.+1) (nrow A - i.+1) = ent A i j].

Lemma atr_pivot (A A' : cmat) i j : atr A A' -> (i < nrow A)%N -> (j < ncol A)%N ->
  is_pivot (mx A') j i = is_pivot (mx A) (nrow A - i.+1) (ncol A - j.+1).
Proof.
case: A' => r c cs [/= _ e1 e2 H] im jn; subst r c.
by rewrite /mx /=; apply: is_pivot_anti => // a b; rewrite !mxE /=; exact: H.
Qed.

Lemma atr_pcol (A A' : cmat) i : atr A A' -> (i < nrow A)%N ->
  pcol (mx A') i = prow (mx A) (nrow A - i.+1).
Proof.
move=> H im; have [_ e1 e2 _] := H; apply/existsP/existsP => -[j P].
  have jn : (j < ncol A)%N by rewrite -e1.
  have lt : (ncol A - j.+1 < ncol A)%N by move: jn; clear; lia.
  by exists (Ordinal lt); rewrite /= -(atr_pivot H).
have jn := ltn_ord j.
have lt : (ncol A - j.+1 < nrow A')%N by move: e1 jn; clear; lia.
exists (Ordinal lt); rewrite /= (atr_pivot H) //; last by move: e1 lt; clear; lia.
by have -> : (ncol A - (ncol A - j.+1).+1)%N = j by move: jn; clear; lia.
Qed.

Lemma atr_prow (A A' : cmat) j : atr A A' -> (j < ncol A)%N ->
  prow (mx A') j = pcol (mx A) (ncol A - j.+1).
Proof.
move=> H jn; have [_ e1 e2 _] := H; apply/existsP/existsP => -[i P].
  have im : (i < nrow A)%N by rewrite -e2.
  have lt : (nrow A - i.+1 < nrow A)%N by move: im; clear; lia.
  by exists (Ordinal lt); rewrite /= -(atr_pivot H).
have im := ltn_ord i.
have lt : (nrow A - i.+1 < ncol A')%N by move: e2 im; clear; lia.
exists (Ordinal lt); rewrite /= (atr_pivot H) //; last by move: e2 lt; clear; lia.
by have -> : (nrow A - (nrow A - i.+1).+1)%N = i by move: im; clear; lia.
Qed.

Lemma atr_mul (A B A' B' : cmat) m n q : atr A A' -> atr B B' ->
  nrow A = m -> ncol A = n -> nrow B = n -> ncol B = q ->
  mxc m n (cols A) *m mxc n q (cols B) = 0 -> mxc q n (cols B') *m mxc n m (cols A') = 0.
Proof.
move=> [WA a1 a2 HA] [WB b1 b2 HB] e1 e2 e3 e4; subst => /matrixP Z.
apply/matrixP => i j; have := Z (rev_ord j) (rev_ord i); rewrite !mxE => E; rewrite -[RHS]E.
have -> : \sum_j0 mxc (nrow A) (ncol A) (cols A) (rev_ord j) j0 * mxc (ncol A) (ncol B) (cols B) j0 (rev_ord i) =
  \sum_j0 mxc (nrow A) (ncol A) (cols A) (rev_ord j) (rev_ord j0) * mxc (ncol A) (ncol B) (cols B) (rev_ord j0) (rev_ord i).
  by rewrite (reindex_inj rev_ord_inj).
apply: eq_bigr => k _; rewrite !mxE mulrC; congr (_ * _).
  rewrite -/(ent A _ _) -HA ?rev_ord_proof // /ent /=.
  congr (coef (nth _ _ _) _).
    by move: (ltn_ord j); move: (nat_of_ord j) => a; clear; lia.
  by move: (ltn_ord k); move: (nat_of_ord k) => a; clear; lia.
rewrite -/(ent B _ _) -HB ?e3 ?rev_ord_proof // /ent /=.
congr (coef (nth _ _ _) _).
  by move: (ltn_ord k); move: (nat_of_ord k) => a; clear; lia.
by move: (ltn_ord i); move: (nat_of_ord i) => a; clear; lia.
Qed.

Lemma bmx_rev (D : seq cmat) k : (k < size D)%N -> bmx (rev D) k = bmx D (size D - k.+1).
Proof. by move=> lt; rewrite /bmx nth_rev. Qed.

(** the anti-transposes of a complex, in reversed order, are a complex *)
Lemma atr_chain (D D' : seq cmat) : chain_wf D -> size D' = size D ->
  (forall k, (k < size D)%N -> atr (bmx D k) (bmx D' k)) -> chain_wf (rev D').
Proof.
move=> [s W H] s' HA; split; first by rewrite size_rev s'.
  rewrite all_rev; apply/(all_nthP m0) => k; rewrite s' => /HA[]; by rewrite bmxE.
rewrite size_rev s' => k k1; rewrite !bmx_rev ?s' //; last exact: ltnW.
have l1 : (size D - k.+2 < size D)%N by move: k1; clear; lia.
have e : (size D - k.+1)%N = (size D - k.+2).+1 by move: k1; clear; lia.
have l2 : ((size D - k.+2).+1 < size D)%N by move: k1; clear; lia.
rewrite e; move: (size D - k.+2)%N l1 l2 {e k1} => a l1 l2.
have [nr Z] := H a l2; have A1 := HA _ l1; have A2 := HA _ l2.
have [_ e1 e2 _] := A1; have [_ e3 e4 _] := A2.
rewrite e4 e1 nr e3 e2; split=> //.
apply: (atr_mul A1 A2) => //; exact: nr.
Qed.
End A.
