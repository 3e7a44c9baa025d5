(** Specification vocabulary for the text files. *)
From Coq Require Import ZArith.
From mathcomp Require Import all_ssreflect.
From Verif Require Import Outcome M_SparseVec M_ColMatrix.
Set Implicit Arguments.
Unset Strict Implicit.
Unset Printing Implicit Defensive.

(** a size or index that std::stoi can read back *)
Definition below31 (n : nat) : Prop := (Z.of_nat n < 2 ^ 31)%Z.
(** a value of type int *)
Definition is_int (z : Z) : Prop := (- 2 ^ 31 <= z < 2 ^ 31)%Z.

(** every stored entry (index, value) of every column satisfies Q *)
Definition entries (T : Type) (A : cmat T) (Q : nat -> T -> Prop) : Prop :=
  forall c p, List.In c (cols A) -> List.In p c -> Q p.1 p.2.

(** the same matrix with f applied to every stored value *)
Definition map_entries (T U : Type) (f : T -> U) (A : cmat T) : cmat U :=
  CMat (nrow A) (ncol A) [seq [seq (p.1, f p.2) | p <- c] | c <- cols A].

(** the computation returned or threw; it stayed in bounds and ended *)
Definition returns_or_throws (A : Type) (r : outcome A) : Prop := (exists a, r = Ok a) \/ r = Throw.
