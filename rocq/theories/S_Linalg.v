(** Specification vocabulary for the linear algebra: what a sparse vector and a column matrix denote
    (mathcomp vectors and matrices), and the matrix predicates the properties speak about.
    Nothing here mentions the model's algorithms. *)
From mathcomp Require Import all_ssreflect all_algebra.
From Verif Require Import M_SparseVec M_ColMatrix.
Set Implicit Arguments.
Unset Strict Implicit.
Unset Printing Implicit Defensive.
Import GRing.Theory.
Local Open Scope ring_scope.

(** The operations of a mathcomp field as the value type of the C++ templates. *)
Definition ops_of (F : fieldType) : fops F :=
  {| f0 := 0; f1 := 1; fadd := +%R; fopp := -%R; fmul := *%R;
     fdiv := fun x y => x / y; feqb := fun x y => x == y |}.

Section Denote.
Variable F : fieldType.

(** entry i of the vector a list of (index,value) pairs stands for *)
Definition coef (v : svec F) (i : nat) : F := \sum_(p <- v | p.1 == i) p.2.

(** strictly increasing indices / indices below m / no stored zero *)
Definition sv_sorted (v : svec F) : bool := sorted ltn [seq p.1 | p <- v].
Definition sv_below (m : nat) (v : svec F) : bool := all (fun p : nat * F => (p.1 < m)%N) v.
Definition sv_nonzero (v : svec F) : bool := all (fun p : nat * F => p.2 != 0) v.
Definition sv_wf (m : nat) (v : svec F) : bool := [&& sv_sorted v, sv_below m v & sv_nonzero v].

(** the column vector denoted, in dimension m *)
Definition vec (m : nat) (v : svec F) : 'cV[F]_m := \col_(i < m) coef v i.

(** the m x n matrix denoted by a list of columns *)
Definition mxc (m n : nat) (cs : seq (svec F)) : 'M[F]_(m, n) :=
  \matrix_(i < m, j < n) coef (nth [::] cs j) i.
Definition mx (A : cmat F) : 'M[F]_(nrow A, ncol A) := mxc (nrow A) (ncol A) (cols A).

(** entry (i, j) *)
Definition entry (A : cmat F) (i j : nat) : F := coef (nth [::] (cols A) j) i.

(** a well formed ColumnMatrix: n columns, each sorted, in range, without stored zeros *)
Definition cm_wf (A : cmat F) : bool :=
  (size (cols A) == ncol A) && all (sv_wf (nrow A)) (cols A).
(** the same without the "no stored zeros" requirement *)
Definition cm_wf0 (A : cmat F) : bool :=
  (size (cols A) == ncol A) && all (fun c => sv_sorted c && sv_below (nrow A) c) (cols A).

End Denote.

Section MatrixPredicates.
Variable F : fieldType.

(** row i is the last nonzero of column j (the "pivot" of the column) *)
Definition is_low m n (A : 'M[F]_(m, n)) (i : 'I_m) (j : 'I_n) : Prop :=
  A i j != 0 /\ forall i' : 'I_m, (i < i')%N -> A i' j = 0.

(** no two columns have the same last nonzero row *)
Definition reduced m n (A : 'M[F]_(m, n)) : Prop :=
  forall i j j', is_low A i j -> is_low A i j' -> j = j'.

Definition upper n (U : 'M[F]_n) : Prop := forall i j : 'I_n, (j < i)%N -> U i j = 0.
Definition lower n (L : 'M[F]_n) : Prop := forall i j : 'I_n, (i < j)%N -> L i j = 0.
Definition diag1 n (U : 'M[F]_n) : Prop := forall i : 'I_n, U i i = 1.
Definition diagn0 n (U : 'M[F]_n) : Prop := forall i : 'I_n, U i i != 0.

(** A with only rows >= p and columns < q kept *)
Definition lowerleft m n (A : 'M[F]_(m, n)) (p q : nat) : 'M[F]_(m, n) :=
  \matrix_(i, j) (if (p <= i)%N && (j < q)%N then A i j else 0).
Definition rll m n (A : 'M[F]_(m, n)) (p q : nat) : nat := \rank (lowerleft A p q).

End MatrixPredicates.

(** the two-element field, for executable counterexamples *)
Definition F2 : fieldType := [fieldType of 'F_2].
