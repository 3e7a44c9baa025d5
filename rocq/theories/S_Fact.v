(** Specification vocabulary for the matrix factorizations: what it means that a ColumnMatrix denotes an
    m x n matrix, and the shapes the factors have.  Nothing here mentions the algorithms. *)
From mathcomp Require Import all_ssreflect all_fingroup all_algebra.
From Verif Require Import M_SparseVec M_ColMatrix S_Linalg M_Fact.
Set Implicit Arguments.
Unset Strict Implicit.
Unset Printing Implicit Defensive.
Import GRing.Theory.
Local Open Scope ring_scope.

Section S.
Variable F : fieldType.

(** A is a well formed ColumnMatrix with m rows and n columns, and its entries are those of M *)
Definition den m n (A : cmat F) (M : 'M[F]_(m, n)) : Prop :=
  [/\ cm_wf A, nrow A = m, ncol A = n & mxc m n (cols A) = M].

(** J M J with J the antidiagonal permutation: rows and columns in reverse order *)
Definition revmx m n (M : 'M[F]_(m, n)) : 'M[F]_(m, n) := \matrix_(i, j) M (rev_ord i) (rev_ord j).

(** unit triangular matrices and permutation matrices *)
Definition ulower n (L : 'M[F]_n) : Prop := lower L /\ diag1 L.
Definition uupper n (U : 'M[F]_n) : Prop := upper U /\ diag1 U.
Definition is_permmx n (P : 'M[F]_n) : Prop := exists s : 'S_n, P = perm_mx s.

(** every row and every column has at most one nonzero entry *)
Definition pivotmx m n (E : 'M[F]_(m, n)) : Prop :=
  (forall i j j', E i j != 0 -> E i j' != 0 -> j = j') /\ (forall i i' j, E i j != 0 -> E i' j != 0 -> i = i').

(** the four staircase shapes: a pivot matrix in which
    EL    : the nonzero columns come first and their rows increase
    EU    : the nonzero rows come first and their columns increase
    ELhat : the nonzero rows come last and their columns increase
    EUhat : the nonzero columns come last and their rows increase *)
Definition shape_EL m n (E : 'M[F]_(m, n)) : Prop :=
  pivotmx E /\ forall i' (j j' : 'I_n), E i' j' != 0 -> (j < j')%N -> exists2 i : 'I_m, (i < i')%N & E i j != 0.
Definition shape_EU m n (E : 'M[F]_(m, n)) : Prop :=
  pivotmx E /\ forall (i i' : 'I_m) j', E i' j' != 0 -> (i < i')%N -> exists2 j : 'I_n, (j < j')%N & E i j != 0.
Definition shape_ELhat m n (E : 'M[F]_(m, n)) : Prop :=
  pivotmx E /\ forall (i i' : 'I_m) j', E i' j' != 0 -> (i' < i)%N -> exists2 j : 'I_n, (j' < j)%N & E i j != 0.
Definition shape_EUhat m n (E : 'M[F]_(m, n)) : Prop :=
  pivotmx E /\ forall i' (j j' : 'I_n), E i' j' != 0 -> (j' < j)%N -> exists2 i : 'I_m, (i' < i)%N & E i j != 0.

(** the four factors of f are m x m / m x n / n x n (as the product requires) matrices L, E, U, P with ... *)
Definition is_LEUP m n (M : 'M[F]_(m, n)) (f : fact F) : Prop :=
  exists L E U P, [/\ [/\ den (fL f) L, den (fE f) E, den (fU f) U & den (fP f) P],
    M = L *m E *m U *m P, ulower L /\ uupper U, is_permmx P & shape_EL E].
Definition is_PLEU m n (M : 'M[F]_(m, n)) (f : fact F) : Prop :=
  exists P L E U, [/\ [/\ den (fL f) L, den (fE f) E, den (fU f) U & den (fP f) P],
    M = P *m L *m E *m U, ulower L /\ uupper U, is_permmx P & shape_EU E].
Definition is_UELP m n (M : 'M[F]_(m, n)) (f : fact F) : Prop :=
  exists U E L P, [/\ [/\ den (fL f) L, den (fE f) E, den (fU f) U & den (fP f) P],
    M = U *m E *m L *m P, ulower L /\ uupper U, is_permmx P & shape_EUhat E].
Definition is_PUEL m n (M : 'M[F]_(m, n)) (f : fact F) : Prop :=
  exists P U E L, [/\ [/\ den (fL f) L, den (fE f) E, den (fU f) U & den (fP f) P],
    M = P *m U *m E *m L, ulower L /\ uupper U, is_permmx P & shape_ELhat E].
(** L Q U with Q a pivot matrix whose nonzero entries are 1 *)
Definition is_LQU m n (M : 'M[F]_(m, n)) (f : fact F) : Prop :=
  exists L E U, [/\ [/\ den (fL f) L, den (fE f) E & den (fU f) U],
    M = L *m E *m U, (lower L /\ diagn0 L) /\ (upper U /\ diagn0 U), pivotmx E & forall i j, E i j != 0 -> E i j = 1].
Definition is_UQL m n (M : 'M[F]_(m, n)) (f : fact F) : Prop :=
  exists U E L, [/\ [/\ den (fL f) L, den (fE f) E & den (fU f) U],
    M = U *m E *m L, (lower L /\ diagn0 L) /\ (upper U /\ diagn0 U), pivotmx E & forall i j, E i j != 0 -> E i j = 1].

End S.
