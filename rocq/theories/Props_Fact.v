(** C42: the sparse factorizations of linalg/sparse_fact.hpp.  [den A M] (S_Fact.v): the ColumnMatrix A is well formed,
    m x n, and has the entries of M. *)
From mathcomp Require Import all_ssreflect all_fingroup all_algebra.
From Verif Require Import Outcome M_SparseVec M_ColMatrix S_Linalg P_SparseVec M_Fact S_Fact P_Den P_Fact1 P_Fact3 P_Fact4
  P_Fact5 P_Fact6 P_Fact7.
Set Implicit Arguments.
Unset Strict Implicit.
Unset Printing Implicit Defensive.
Import GRing.Theory.
Local Open Scope ring_scope.

Section F.
Variable F : fieldType.
Notation O := (ops_of F).
Notation cmat := (cmat F).

(** the four factorizations never fail and satisfy A = L E U P, P L E U, U E L P, P U E L with unit triangular L, U,
    a permutation P and the staircase shape of E each of them promises *)
Theorem C42_LEUP m n (A : cmat) (M : 'M[F]_(m, n)) : den A M -> exists2 f, LEUP O A = Ok f & is_LEUP M f.
Proof. exact: LEUP_ok. Qed.
Theorem C42_PLEU m n (A : cmat) (M : 'M[F]_(m, n)) : den A M -> exists2 f, PLEU O A = Ok f & is_PLEU M f.
Proof. exact: PLEU_ok. Qed.
Theorem C42_UELP m n (A : cmat) (M : 'M[F]_(m, n)) : den A M -> exists2 f, UELP O A = Ok f & is_UELP M f.
Proof. exact: UELP_ok. Qed.
Theorem C42_PUEL m n (A : cmat) (M : 'M[F]_(m, n)) : den A M -> exists2 f, PUEL O A = Ok f & is_PUEL M f.
Proof. exact: PUEL_ok. Qed.
(** LQU and UQL: triangular, invertible outer factors and a 0/1 matrix with at most one 1 per row and column between *)
Theorem C42_LQU m n (A : cmat) (M : 'M[F]_(m, n)) : den A M -> exists2 f, LQU O A = Ok f & is_LQU M f.
Proof. exact: LQU_ok. Qed.
Theorem C42_UQL m n (A : cmat) (M : 'M[F]_(m, n)) : den A M -> exists2 f, UQL O A = Ok f & is_UQL M f.
Proof. exact: UQL_ok. Qed.
(** inv: the inverse of every invertible matrix *)
Theorem C42_inv n (A : cmat) (M : 'M[F]_n) : den A M -> M \in unitmx ->
  exists2 B, fact_inv O A = Ok B & den B (invmx M).
Proof. exact: fact_inv_ok. Qed.
(** all factorizations reveal the rank: it is the number of nonzero columns of the E factor *)
Theorem C42_rank m n (A : cmat) (M : 'M[F]_(m, n)) f : den A M ->
  (LEUP O A = Ok f \/ PLEU O A = Ok f \/ UELP O A = Ok f \/ PUEL O A = Ok f \/ LQU O A = Ok f \/ UQL O A = Ok f) ->
  count (fun c => c != [::]) (cols (fE f)) = \rank M.
Proof. exact: fact_rank. Qed.

(** the commutation relations: the triangular matrix is carried to the other side of E *)
Theorem C42_EL_L m n (AE AL : cmat) (E : 'M[F]_(m, n)) (L : 'M[F]_n) :
  den AE E -> den AL L -> shape_EL E -> lower L ->
  exists AR R, [/\ EL_L_commute O AE AL = Ok AR, den AR (R : 'M_m), lower R,
    (diagn0 L -> diagn0 R) /\ (diag1 L -> diag1 R) & R *m E = E *m L].
Proof. exact: EL_L_commute_ok. Qed.
Theorem C42_L_EL m n (AE AL : cmat) (E : 'M[F]_(m, n)) (L : 'M[F]_m) :
  den AE E -> den AL L -> shape_ELhat E -> lower L ->
  exists AR R, [/\ L_EL_commute O AL AE = Ok AR, den AR (R : 'M_n), lower R,
    (diagn0 L -> diagn0 R) /\ (diag1 L -> diag1 R) & L *m E = E *m R].
Proof. exact: L_EL_commute_ok. Qed.
Theorem C42_U_EU m n (AE AU : cmat) (E : 'M[F]_(m, n)) (U : 'M[F]_m) :
  den AE E -> den AU U -> shape_EU E -> upper U ->
  exists AR R, [/\ U_EU_commute O AU AE = Ok AR, den AR (R : 'M_n), upper R,
    (diagn0 U -> diagn0 R) /\ (diag1 U -> diag1 R) & U *m E = E *m R].
Proof. exact: U_EU_commute_ok. Qed.
Theorem C42_EU_U m n (AE AU : cmat) (E : 'M[F]_(m, n)) (U : 'M[F]_n) :
  den AE E -> den AU U -> shape_EUhat E -> upper U ->
  exists AR R, [/\ EU_U_commute O AE AU = Ok AR, den AR (R : 'M_m), upper R,
    (diagn0 U -> diagn0 R) /\ (diag1 U -> diag1 R) & R *m E = E *m U].
Proof. exact: EU_U_commute_ok. Qed.
End F.


(** Non-vacuity, over the rationals: a 3 x 4 matrix with a repeated direction and out-of-order pivots is denoted, its
    factors are computed; the E factors of it meet the hypotheses of the commutation relations with a non-trivial
    triangular matrix; an invertible matrix that needs pivoting is inverted. *)
Notation OQ := (ops_of [fieldType of rat]).
Definition qn (n : nat) : rat := n%:R.
Definition exf : cmat rat := CMat 3 4 [:: [:: (1%N, qn 2); (2%N, qn 1)]; [:: (1%N, qn 4); (2%N, qn 2)];
   [:: (0%N, qn 3); (1%N, qn 1)]; [:: (0%N, qn 6); (1%N, qn 5)]].
Definition exsq : cmat rat := CMat 3 3 [:: [:: (1%N, qn 2); (2%N, qn 1)]; [:: (0%N, qn 3); (2%N, qn 2)];
   [:: (0%N, qn 3); (1%N, qn 1)]].
Definition exL : cmat rat := CMat 4 4 [:: [:: (0%N, qn 1); (1%N, qn 2); (3%N, qn 5)]; [:: (1%N, qn 1); (2%N, qn 3)];
   [:: (2%N, qn 1)]; [:: (3%N, qn 1)]].
Definition exE : cmat rat := CMat 3 4 [:: [:: (0%N, qn 3)]; [:: (1%N, qn 4)]; [:: (2%N, - qn 3 / qn 2)]; [::]].

Lemma exf_den : den exf (mx exf). Proof. by split. Qed.
Definition exinv : cmat rat := CMat 3 3 [:: [:: (0%N, - qn 2 / qn 15); (1%N, qn 1 / qn 15); (2%N, qn 4 / qn 15)];
   [:: (0%N, qn 2 / qn 5); (1%N, - qn 1 / qn 5); (2%N, qn 1 / qn 5)];
   [:: (0%N, qn 1 / qn 5); (1%N, qn 2 / qn 5); (2%N, - qn 2 / qn 5)]].
Lemma exsq_unit : mx exsq \in unitmx.
Proof.
have dS : den exsq (mx exsq) by split.
have dI : den exinv (mx exinv).
  split; [by vm_compute|reflexivity|reflexivity|reflexivity].
have [C e dC] := den_gemm dS dI; have e1 : gemm OQ exsq exinv = Ok (cm_identity OQ 3) by vm_compute.
move: dC; move: e; rewrite e1 => -[<-] dC; have := den_inj dC (den_identity [fieldType of rat] 3) => h.
by have [] := mulmx1_unit h.
Qed.

Theorem C42_nonvacuous :
  [/\ den exf (mx exf) /\ (exists2 E : 'M[rat]_(3, 4), den exE E & shape_EL E),
      lower (mx exL) /\ diag1 (mx exL),
      exists2 f, LEUP OQ exf = Ok f & fE f = exE,
      EL_L_commute OQ exE exL = Ok (CMat 3 3 [:: [:: (0%N, qn 1); (1%N, qn 8 / qn 3)];
         [:: (1%N, qn 1); (2%N, - qn 9 / qn 8)]; [:: (2%N, qn 1)]]) &
      [/\ mx exsq \in unitmx, den exsq (mx exsq) & fact_inv OQ exsq = Ok exinv]].
Proof.
have [f e [L [E [U [P [[_ dE _ _] _ _ _ sE]]]]]] := C42_LEUP exf_den.
have eE : fE f = exE.
  have : (if LEUP OQ exf is Ok f then Ok (fE f) else UB) = Ok exE by vm_compute.
  by rewrite e => -[].
split.
- by split; [exact: exf_den|exists E; rewrite -?eE].
- have so (j : nat) : sv_sorted (nth [::] (cols exL) j) by case: j => [|[|[|[|[|j]]]]]; vm_compute.
  split=> [i j lt|i]; (rewrite mxE -getvalE; last exact: so); apply/eqP.
    have h : all (fun i => all (fun j => (i < j)%N ==> (getval OQ (nth [::] (cols exL) j) i == 0)) (iota 0 4)) (iota 0 4) by vm_compute.
    have hi : val i \in iota 0 4 by rewrite mem_iota /=.
    have hj : val j \in iota 0 4 by rewrite mem_iota /=.
    exact: (implyP (allP (allP h _ hi) _ hj)).
  have h : all (fun i => getval OQ (nth [::] (cols exL) i) i == 1) (iota 0 4) by vm_compute.
  have hi : val i \in iota 0 4 by rewrite mem_iota /=.
  exact: (allP h _ hi).
- by exists f.
- by vm_compute.
- split; [exact: exsq_unit|by split|by vm_compute].
Qed.
