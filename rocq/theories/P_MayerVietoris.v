(** Linear algebra behind the Mayer-Vietoris connecting map. *)
From mathcomp Require Import all_ssreflect all_algebra.
From Verif Require Import RingTac2.
Set Implicit Arguments.
Unset Strict Implicit.
Unset Printing Implicit Defensive.
Import GRing.Theory.
Local Open Scope ring_scope.

Section Alg.
Variable F : fieldType.
Variables n0 n1 m0 m1 : nat.
Variables (D : 'M[F]_(n0, n1)) (E : 'M[F]_(m0, m1)) (I0 : 'M[F]_(n0, m0)) (J0 : 'M[F]_(m0, n0)) (I1 : 'M[F]_(n1, m1)) (J1 : 'M[F]_(m1, n1)).
Variables (A0 B0 : 'M[F]_n0) (A1 B1 : 'M[F]_n1).
Hypothesis hA : D *m A1 = A0 *m D *m A1.
Hypothesis hB : D *m B1 = B0 *m D *m B1.
Hypothesis cov : A1 + B1 - A1 *m B1 = 1%:M.
Hypothesis com0 : A0 *m B0 = B0 *m A0.
Hypothesis com1 : A1 *m B1 = B1 *m A1.
Hypothesis AA : A1 *m A1 = A1.
Hypothesis BB : B1 *m B1 = B1.
Hypothesis ij0 : I0 *m J0 = A0 *m B0.
Hypothesis ij1 : I1 *m J1 = A1 *m B1.
Hypothesis ji0 : J0 *m I0 = 1%:M.
Hypothesis ji1 : J1 *m I1 = 1%:M.
Hypothesis DI : D *m I1 = I0 *m E.
Let M := J0 *m D *m A1.

Lemma notA : 1%:M - A1 = B1 *m (1%:M - A1).
Proof. by rewrite mulmxBr mulmx1 -com1; apply/eqP; rewrite subr_eq addrC addrA cov. Qed.
Lemma AI : A1 *m I1 = I1.
Proof. by rewrite -[in LHS](mulmx1 I1) -ji1 !mulmxA -(mulmxA A1) ij1 mulmxA AA -ij1 -mulmxA ji1 mulmx1. Qed.
Lemma BI : B1 *m I1 = I1.
Proof. by rewrite -[in LHS](mulmx1 I1) -ji1 !mulmxA -(mulmxA B1) ij1 com1 mulmxA BB -com1 -ij1 -mulmxA ji1 mulmx1. Qed.

Lemma mv_conn (z : 'cV_n1) : D *m z = 0 -> I0 *m (M *m z) = D *m (A1 *m z).
Proof.
move=> Dz; have e : D *m (A1 *m z) = - (D *m (B1 *m ((1%:M - A1) *m z))).
  apply/eqP; rewrite -addr_eq0 [B1 *m _]mulmxA -notA -mulmxDr mulmxBl mul1mx addrCA subrr addr0; exact/eqP.
rewrite /M !mulmxA ij0 com0 -!mulmxA (mulmxA A0) (mulmxA (A0 *m D)) -hA -(mulmxA D) e mulmxN !mulmxA -hB -!mulmxA.
by rewrite mulmxA.
Qed.
Lemma mv_kill n2 (D2 : 'M[F]_(n1, n2)) (A2 B2 : 'M[F]_n2) (w : 'cV_n2) :
  D *m D2 = 0 -> D2 *m A2 = A1 *m D2 *m A2 -> D2 *m B2 = B1 *m D2 *m B2 -> 1%:M - A2 = B2 *m (1%:M - A2) ->
  M *m (D2 *m w) = E *m (J1 *m (D2 *m ((1%:M - A2) *m w))).
Proof.
move=> DD hA2 hB2 nA2; set u := (1%:M - A2) *m w.
have Du : B1 *m (D2 *m u) = D2 *m u by rewrite /u nA2 -!mulmxA !(mulmxA D2) hB2 !mulmxA BB.
have e : A1 *m (D2 *m w) = D2 *m (A2 *m w) + I1 *m (J1 *m (D2 *m u)).
  rewrite (mulmxA I1) ij1 -(mulmxA A1) Du; have {1}-> : w = A2 *m w + u by rewrite /u mulmxBl mul1mx addrC subrK.
  by rewrite !mulmxDr; congr (_ + _); rewrite !mulmxA -hA2.
have := mv_conn (z := D2 *m w); rewrite mulmxA DD mul0mx => /(_ erefl).
rewrite e mulmxDr !(mulmxA D) DD mul0mx add0r DI -mulmxA => /(congr1 (mulmx J0)); by rewrite !(mulmxA J0) ji0 !mul1mx.
Qed.
Lemma mv_exactX (z : 'cV_n1) : D *m z = 0 ->
  (exists y, M *m z = E *m y) <-> exists a b, [/\ z = a + b, A1 *m a = a, B1 *m b = b, D *m a = 0 & D *m b = 0].
Proof.
move=> Dz; split=> [[y ey]|[a [b [-> ea eb Da Db]]]].
  have Da : D *m (A1 *m z - I1 *m y) = 0.
    by rewrite mulmxBr -mv_conn // (mulmxA D) DI ey -mulmxA subrr.
  exists (A1 *m z - I1 *m y), (z - (A1 *m z - I1 *m y)); split=> //.
  - by rewrite addrC subrK.
  - by rewrite mulmxBr !mulmxA AA AI.
  - rewrite opprB addrCA mulmxDr !mulmxA BI; congr (_ + _).
    by rewrite -{1 3}(mul1mx z) -mulmxBl !mulmxA -notA.
  - by rewrite mulmxBr Dz Da subrr.
exists (J1 *m b); rewrite /M -!mulmxA mulmxDr ea mulmxDr Da add0r -{1}eb (mulmxA A1) -ij1 -mulmxA (mulmxA D) DI.
by rewrite !mulmxA ji0 mul1mx.
Qed.
Lemma mv_exactY (y : 'cV_m0) :
  (exists a b, [/\ A1 *m a = a, B1 *m b = b, D *m a = I0 *m y & D *m b = I0 *m y]) <->
  exists2 z, D *m z = 0 & exists w, y - M *m z = E *m w.
Proof.
split=> [[a [b [ea eb Da Db]]]|[z Dz [w ew]]].
  exists (a - b); first by rewrite mulmxBr Da Db subrr.
  exists (J1 *m b); rewrite /M -!mulmxA mulmxBr ea mulmxBr Da -{1}eb (mulmxA A1) -ij1 -mulmxA (mulmxA D) DI mulmxBr !mulmxA ji0 !mul1mx.
  by rewrite opprB addrCA subrr addr0.
have ey : I0 *m y = D *m (A1 *m z) + D *m (I1 *m w).
  by rewrite (mulmxA D I1) DI -mulmxA -ew -mv_conn // mulmxBr addrC subrK.
exists (A1 *m z + I1 *m w), (A1 *m z - z + I1 *m w); split.
- by rewrite mulmxDr !mulmxA AA AI.
- rewrite mulmxDr !mulmxA BI; congr (_ + _); rewrite -opprB -{1 3}(mul1mx z) -mulmxBl mulmxN !mulmxA -notA //.
- by rewrite mulmxDr ey.
- by rewrite mulmxDr mulmxBr Dz subr0 ey.
Qed.
End Alg.
