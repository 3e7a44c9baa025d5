(** The stdlib [ring] tactic for mathcomp commutative rings: in a section over [R : comRingType] write
    [Add Ring Rr : (C_ring_theory R).], then [cring R] solves equations over R. *)
From Coq Require Import Ring.
From mathcomp Require Import all_ssreflect all_algebra.
Set Implicit Arguments.
Unset Strict Implicit.
Unset Printing Implicit Defensive.
Import GRing.Theory.
Local Open Scope ring_scope.

Section Ops.
Variable R : comRingType.
Definition C0 : R := 0.
Definition C1 : R := 1.
Definition Cadd (a b : R) : R := a + b.
Definition Cmul (a b : R) : R := a * b.
Definition Copp (a : R) : R := - a.
Definition Csub (a b : R) : R := a - b.

Lemma C_ring_theory : @ring_theory R C0 C1 Cadd Cmul Csub Copp eq.
Proof.
split=> *; rewrite /C0 /C1 /Cadd /Cmul /Csub /Copp ?add0r ?mul1r ?mulrDl ?subrr //;
  [exact: addrC | exact: addrA | exact: mulrC | exact: mulrA].
Qed.
End Ops.

Ltac to_cops R :=
  lazymatch goal with |- @eq _ ?x ?y => change (@eq (GRing.ComRing.sort R) x y) end;
  repeat match goal with
  | |- context C [@GRing.add _ ?a ?b] => let g := context C [@Cadd R a b] in change g
  | |- context C [@GRing.mul _ ?a ?b] => let g := context C [@Cmul R a b] in change g
  | |- context C [@GRing.opp _ ?a] => let g := context C [@Copp R a] in change g
  | |- context C [@GRing.zero _] => let g := context C [@C0 R] in change g
  | |- context C [@GRing.one _] => let g := context C [@C1 R] in change g
  end.
Ltac cring R := to_cops R; ring.
