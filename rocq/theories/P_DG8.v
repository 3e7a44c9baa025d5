(** DG vector spaces, part 8: permute_basis keeps the reduction. *)
From mathcomp Require Import all_ssreflect all_algebra zify.
From Verif Require Import Outcome P_Outcome M_SparseVec M_Perm M_ColMatrix M_Reduce M_Homology M_Persist
  M_Induced M_DG S_Linalg S_Perm S_Homology S_DG P_SparseVec P_Pairing P_Reduce P_Perm P_PermMx P_ColMatrix P_Homology P_Betti
  P_Update P_Chain P_Persist P_Pairs P_UpdFilt P_DG1 P_DG2 P_DG3 P_DG4 P_DG5 P_DG6.
Set Implicit Arguments.
Unset Strict Implicit.
Unset Printing Implicit Defensive.
Import GRing.Theory.
Local Open Scope ring_scope.

Section A.
Variable F : fieldType.
Notation O := (ops_of F).
Notation cmat := (cmat F).
Notation m0 := (CMat 0 0 [::] : cmat).
Notation p2c_t := (seq (option nat)).

Lemma pord_inj n p (P : is_perm p) (s : size p = n) : injective (pord P s).
Proof.
move=> i j /(congr1 val) /= E; apply: val_inj; apply: (is_perm_inj P) E; by rewrite ?s.
Qed.

(** one matrix: permute the rows of R and U, then update *)
Lemma upd_rec (B B' R U R1 U1 : cmat) p pr pc : urec B R U p ->
  is_perm pr -> size pr = nrow B -> is_perm pc -> size pc = ncol B -> reord B B' pr pc ->
  reord R R1 pr (iota 0 (ncol B)) -> reord U U1 pc (iota 0 (ncol B)) ->
  exists U2 R2 p2, update_reduction2 O U1 R1 = Ok (U2, R2, p2) /\ urec B' R2 U2 p2.
Proof.
case: B' => r c cs [[nR cR _] [nU cU WU WR [V [Vu Vd EV RV _]]]] Pr sr Pc sc [/= WB' e1 e2 HB] [W1 n1 c1 H1] [W2 n2 c2 H2].
subst r c.
apply: update_reduction2_spec => //=; rewrite ?n1 ?n2 ?c1 ?c2 ?nU ?cU ?nR ?cR //.
  rewrite -row_free_unit /row_free.
  have -> : \rank (mxc (ncol B) (ncol B) (cols U1)) = \rank (mxc (ncol B) (ncol B) (cols U)).
    apply: (rank_reindex (P := Pc) (s := sc) (Q := is_perm_iota _) (s' := size_iota 0 _)) => i j.
    by rewrite !mxE /= -[LHS]/(ent U1 i j) H2 ?nU ?cU.
  by rewrite EV -/(row_free V) row_free_unit upper_unit.
apply/matrixP => i j; rewrite [LHS]mxE -[LHS]/(ent R1 i j).
have im : (i < nrow R)%N by rewrite nR.
have jn : (j < ncol R)%N by rewrite cR.
rewrite H1 // nth_iota // add0n.
have lr : (nth 0%N pr i < nrow B)%N by rewrite -[X in (_ < X)%N]sr is_perm_lt // sr.
rewrite /ent; have /matrixP/(_ (Ordinal lr) j) := RV; rewrite mxE /= => ->.
rewrite -EV !mxE (reindex_inj (@pord_inj _ _ Pc sc)); apply: eq_bigr => k _; rewrite !mxE /=.
have EB := HB i k (ltn_ord i) (ltn_ord k); rewrite /ent /= in EB; rewrite EB; congr (_ * _).
have k1 : (k < nrow U)%N by rewrite nU.
have j1 : (j < ncol U)%N by rewrite cU.
by rewrite -[RHS]/(ent U1 k j) H2 // nth_iota.
Qed.

Lemma reord_refl (A : cmat) : cm_wf A -> reord A A (iota 0 (nrow A)) (iota 0 (ncol A)).
Proof. by move=> W; split=> // i j im jn; rewrite !nth_iota. Qed.

(** ** the loops *)
Section Loop.
Variables (m : nat) (L : seq cmat) (f : nat -> cmat -> outcome cmat) (G : nat -> cmat).
Hypothesis sL : size L = m.+2.
Definition low (L : seq cmat) k : outcome (seq cmat) := if k == 0%N then Ok L else oupd L k (f k).
Definition high (L : seq cmat) k : outcome (seq cmat) :=
  if k == 0%N then oupd L 1 (f 0%N) else if k == m then Ok L else oupd L k.+1 (f k).

Lemma low_loop : (forall k, (0 < k <= m)%N -> f k (bmx L k) = Ok (G k)) ->
  exists2 L', ofold low L (iota 0 m.+1) = Ok L' & size L' = m.+2 /\
    forall l, bmx L' l = if (0 < l <= m)%N then G l else bmx L l.
Proof.
move=> HG.
have [||L' E [s H]] := @ofold_iota_ind _ low (fun l (ds : seq cmat) => size ds = m.+2 /\
   forall k, bmx ds k = if (0 < k < l)%N then G k else bmx L k) m.+1 L.
- by split=> // k; rewrite ltn0 andbF.
- move=> l ds lm [s H]; rewrite /low; case: (eqVneq l 0%N) => [l0|l0].
    exists ds => //; split=> // k; rewrite H l0 ltn0 andbF.
    by have -> : (0 < k < 1)%N = false by clear; lia.
  rewrite (@oupdE _ _ _ _ (G l)) ?s //; last first.
  - by rewrite H ltnn andbF HG // lt0n l0 -ltnS.
  - exact: leqW.
  eexists; first by []; split; first by rewrite size_set_nth s; apply/maxn_idPr; apply: leqW.
  move=> k; rewrite /bmx nth_setE -/(bmx ds k); case: (eqVneq k l) => [->|ne]; first by rewrite lt0n l0 ltnSn.
  rewrite H; by have -> : (0 < k < l.+1)%N = (0 < k < l)%N by move: ne; clear; lia.
by exists L'.
Qed.

Lemma high_loop : (forall k, (k < maxn m 1)%N -> f k (bmx L k.+1) = Ok (G k.+1)) ->
  exists2 L', ofold high L (iota 0 m.+1) = Ok L' & size L' = m.+2 /\
    forall l, bmx L' l = if (0 < l <= maxn m 1)%N then G l else bmx L l.
Proof.
move=> HG.
have [||L' E [s H]] := @ofold_iota_ind _ high (fun l (ds : seq cmat) => size ds = m.+2 /\
   forall k, bmx ds k = if (0 < k <= minn l (maxn m 1))%N then G k else bmx L k) m.+1 L.
- by split=> // k; rewrite min0n leqn0; case: k.
- move=> l ds lm [s H].
  have st k : l = k -> (k < maxn m 1)%N -> exists2 ds', oupd ds k.+1 (f k) = Ok ds' & size ds' = m.+2 /\
      forall h, bmx ds' h = if (0 < h <= minn l.+1 (maxn m 1))%N then G h else bmx L h.
    move=> lk km; rewrite (@oupdE _ _ _ _ (G k.+1)) ?s //; last first.
    - rewrite H lk; have -> : (0 < k.+1 <= minn k (maxn m 1))%N = false by clear; lia.
      exact: HG.
    - by move: km; clear; lia.
    eexists; first by []; split; first by rewrite size_set_nth s; apply/maxn_idPr; move: km; clear; lia.
    move=> h; rewrite /bmx nth_setE -/(bmx ds h); case: (eqVneq h k.+1) => [->|ne].
      by have -> : (0 < k.+1 <= minn l.+1 (maxn m 1))%N by rewrite lk; move: km; clear; lia.
    rewrite H lk; by have -> : (0 < h <= minn k.+1 (maxn m 1))%N = (0 < h <= minn k (maxn m 1))%N by move: ne km; clear; lia.
  rewrite /high; case: (eqVneq l 0%N) => [l0|l0]; first by apply: st => //; clear; lia.
  case: (eqVneq l m) => [lE|lE]; last by apply: st => //; move: lE lm; clear; lia.
  exists ds => //; split=> // k; rewrite H lE; by have -> : minn m.+1 (maxn m 1) = minn m (maxn m 1) by move: l0 lE; clear; lia.
exists L' => //; split=> // k; rewrite H; by have -> : minn m.+1 (maxn m 1) = maxn m 1 by clear; lia.
Qed.
End Loop.

Lemma ofold_pair (A B : Type) (Q : B -> Prop) (f : A -> nat -> outcome A) (g : B -> nat -> outcome B)
  (h : A * B -> nat -> outcome (A * B)) l a b a' b' :
  (forall a b k, List.In k l -> Q b -> h (a, b) k = do a1 <- f a k; do b1 <- g b k; Ok (a1, b1)) ->
  (forall b b1 k, Q b -> g b k = Ok b1 -> Q b1) -> Q b ->
  ofold f a l = Ok a' -> ofold g b l = Ok b' -> ofold h (a, b) l = Ok (a', b').
Proof.
move=> H HQ; elim: l a b H => [|k l IH] a b H Qb /=; first by case=> -> [->].
rewrite H //; last by left.
case: (f a k) => //= a1 E1; case E: (g b k) => [b1| | |] //= E2; apply: IH => //.
  by move=> a2 b2 k2 Hk; apply: H; right.
exact: HQ E.
Qed.

Lemma oupd_size (D D' : seq cmat) k f : oupd D k f = Ok D' -> size D' = size D.
Proof.
rewrite /oupd; case: (oget D k) => //= A; case: (f A) => //= A'; rewrite /oset; case: ltnP => // lt [<-].
by rewrite size_set_nth; apply/maxn_idPr.
Qed.
Lemma low_size f (D D' : seq cmat) k : low f D k = Ok D' -> size D' = size D.
Proof. by rewrite /low; case: ifP => _; [case=> -> | apply: oupd_size]. Qed.
Lemma high_size m f (D D' : seq cmat) k : high m f D k = Ok D' -> size D' = size D.
Proof.
rewrite /high; case: ifP => _; first exact: oupd_size.
by case: ifP => _; [case=> -> | apply: oupd_size].
Qed.
End A.
