(** Base changes of type-A representations. *)
From mathcomp Require Import all_ssreflect all_fingroup all_algebra zify.
From Verif Require Import Outcome P_Outcome RingTac M_SparseVec M_Perm M_ColMatrix S_Linalg P_SparseVec
  P_SparseVec2 P_Reduce P_Homology P_Pairing P_ColMatrix M_Fact S_Fact P_Den P_Fact3 P_Fact4 P_Fact5 P_Fact6 P_Fact7 M_Quiver S_Quiver.
Set Implicit Arguments.
Unset Strict Implicit.
Unset Printing Implicit Defensive.
Import GRing.Theory.
Local Open Scope ring_scope.

Lemma dupd (T : nat -> Type) (g : forall k, T k) i (x : T i) :
  exists g' : forall k, T k, g' i = x /\ forall k, k != i -> g' k = g k.
Proof.
exists (fun k => match i =P k with ReflectT e => ecast k (T k) e x | ReflectF _ => g k end); split.
  by case: eqP => // e; rewrite (eq_irrelevance e erefl).
by move=> k ne; case: eqP => // e; rewrite e eqxx in ne.
Qed.

Section S.
Variable F : fieldType.
Notation O := (ops_of F).
Notation svec := (svec F).
Notation cmat := (cmat F).

Lemma invmx1' n : invmx (1%:M : 'M[F]_n) = 1%:M.
Proof. by have := mulVmx (unitmx1 F n); rewrite mulmx1. Qed.
Lemma invmxM n (A B : 'M[F]_n) : A \in unitmx -> B \in unitmx -> invmx (A *m B) = invmx B *m invmx A.
Proof.
move=> uA uB; have uAB : A *m B \in unitmx by rewrite unitmx_mul uA.
apply: (can_inj (mulKmx uAB)); rewrite mulmxV // mulmxA -[A *m B *m _]mulmxA mulmxV // mulmx1 mulmxV //.
Qed.

Lemma chbase11 a b (v : arrow F a b) : chbase v 1%:M 1%:M = v.
Proof. by case: v => M /=; rewrite invmx1' mul1mx mulmx1. Qed.
Lemma chbase_comp a b (v : arrow F a b) A B A' B' : A \in unitmx -> B \in unitmx -> A' \in unitmx -> B' \in unitmx ->
  chbase (chbase v A B) A' B' = chbase v (A *m A') (B *m B').
Proof. by move=> uA uB uA' uB'; case: v => M /=; rewrite invmxM // !mulmxA. Qed.

Variable d : nat -> nat.
Notation rep := (rep F d).

(** q' is q after base changes at the nodes lo < k <= hi *)
Definition isoin (lo hi : nat) (q q' : rep) : Prop :=
  exists G : forall k, 'M[F]_(d k), [/\ forall k, G k \in unitmx, forall k, ~~ (lo < k <= hi)%N -> G k = 1%:M &
    forall k, q' k = chbase (q k) (G k) (G k.+1)].

Lemma isoin_refl lo hi q : isoin lo hi q q.
Proof. by exists (fun k => 1%:M); split=> // k; rewrite ?unitmx1 ?chbase11. Qed.
Lemma isoin_trans lo hi q1 q2 q3 : isoin lo hi q1 q2 -> isoin lo hi q2 q3 -> isoin lo hi q1 q3.
Proof.
move=> [G [u1 o1 e1]] [H [u2 o2 e2]]; exists (fun k => G k *m H k); split.
- by move=> k; rewrite unitmx_mul u1 u2.
- by move=> k o; rewrite o1 // o2 // mulmx1.
- by move=> k; rewrite e2 e1 chbase_comp ?u1 ?u2.
Qed.
Lemma isoin_mono lo hi lo' hi' q q' : (lo' <= lo)%N -> (hi <= hi')%N -> isoin lo hi q q' -> isoin lo' hi' q q'.
Proof.
move=> l h [G [u o e]]; exists G; split=> // k nk; apply: o; apply: contra nk => /andP[a b].
by rewrite (leq_ltn_trans l a) (leq_trans b h).
Qed.
Lemma isoin_out lo hi q q' k : isoin lo hi q q' -> (k < lo)%N || (hi < k)%N -> q' k = q k.
Proof.
move=> [G [u o e]] nk; rewrite e !o ?chbase11 //; move: nk; clear; lia.
Qed.
Lemma isoin_isorep m lo hi q q' : isoin lo hi q q' -> isorep m q q'.
Proof. by move=> [G [u o e]]; exists G. Qed.
Lemma isorep_trans m (q1 q2 q3 : rep) : isorep m q1 q2 -> isorep m q2 q3 -> isorep m q1 q3.
Proof.
move=> [G u1 e1] [H u2 e2]; exists (fun k => G k *m H k); first by move=> k; rewrite unitmx_mul u1 u2.
by move=> k km; rewrite e2 // e1 // chbase_comp ?u1 ?u2.
Qed.

Lemma isoin_lft lo hi q q' k : isoin lo hi q q' -> is_lft (q' k) = is_lft (q k).
Proof. by move=> [G [_ _ e]]; rewrite e; case: (q k). Qed.

Lemma node_change (q : rep) i (X : 'M[F]_(d i.+1)) : X \in unitmx ->
  exists q' : rep, [/\ isoin i i.+1 q q', q' i = chbase (q i) 1%:M X, q' i.+1 = chbase (q i.+1) X 1%:M &
    forall k, k != i -> k != i.+1 -> q' k = q k].
Proof.
move=> uX; have [G [e1 e2]] := dupd (fun k => 1%:M : 'M[F]_(d k)) X.
have Gi : G i = 1%:M by rewrite e2 // neq_ltn ltnSn.
have Gi2 : G i.+2 = 1%:M by rewrite e2 // neq_ltn ltnSn orbT.
exists (fun k => chbase (q k) (G k) (G k.+1)); split; rewrite ?Gi ?Gi2 ?e1 //.
- exists G; split=> // k; first by case: (eqVneq k i.+1) => [->|ne]; rewrite ?e1 // e2 // unitmx1.
  by move=> nk; apply: e2; apply: contra nk => /eqP ->; rewrite ltnSn /=.
- by move=> k k1 k2; rewrite !e2 ?chbase11.
Qed.

End S.
