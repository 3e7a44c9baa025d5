(** What a C++ call can do: return, throw, hit undefined behaviour, or (model only)
    run out of the fuel given to a loop.  The theorems always say which. *)
From mathcomp Require Import all_ssreflect.
Set Implicit Arguments.
Unset Strict Implicit.
Unset Printing Implicit Defensive.

Inductive outcome (A : Type) : Type :=
| Ok of A
| Throw
| UB
| OutOfFuel.
Arguments Throw {A}.
Arguments UB {A}.
Arguments OutOfFuel {A}.

Definition obind (A B : Type) (x : outcome A) (f : A -> outcome B) : outcome B :=
  match x with
  | Ok a => f a
  | Throw => Throw
  | UB => UB
  | OutOfFuel => OutOfFuel
  end.

Definition omap (A B : Type) (f : A -> B) (x : outcome A) : outcome B :=
  obind x (fun a => Ok (f a)).

Notation "'do' x <- e ; f" := (obind e (fun x => f))
  (at level 200, x pattern, e at level 100, f at level 200, right associativity).

(** checked access [v[i]]: out of range is undefined behaviour *)
Definition oget (A : Type) (s : seq A) (i : nat) : outcome A :=
  match drop i s with
  | [::] => UB
  | x :: _ => Ok x
  end.

(** checked store [v[i] = x] *)
Definition oset (A : Type) (s : seq A) (i : nat) (x : A) : outcome (seq A) :=
  if i < size s then Ok (set_nth x s i x) else UB.

(** left fold in the outcome monad: a for-loop over a range or container *)
Fixpoint ofold (A B : Type) (f : A -> B -> outcome A) (a : A) (l : seq B) : outcome A :=
  match l with
  | [::] => Ok a
  | b :: l' => do a' <- f a b; ofold f a' l'
  end.

(** map in the outcome monad *)
Fixpoint omapm (A B : Type) (f : A -> outcome B) (l : seq A) : outcome (seq B) :=
  match l with
  | [::] => Ok [::]
  | a :: l' => do b <- f a; do bs <- omapm f l'; Ok (b :: bs)
  end.

Definition is_ok (A : Type) (x : outcome A) : bool := if x is Ok _ then true else false.
