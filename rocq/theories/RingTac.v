(** The stdlib [ring]/[field] tactics for mathcomp fields: in a section over [F : fieldType] write
    [Add Field Ff : (F_field_theory F).], then [fring F] / [ffield F] solve equations over F. *)
From Coq Require Import Ring Field.
From mathcomp Require Import all_ssreflect all_algebra.
Set Implicit Arguments.
Unset Strict Implicit.
Unset Printing Implicit Defensive.
Import GRing.Theory.
Local Open Scope ring_scope.

Section Ops.
Variable F : fieldType.
Definition F0 : F := 0.
Definition F1 : F := 1.
Definition Fadd (a b : F) : F := a + b.
Definition Fmul (a b : F) : F := a * b.
Definition Fopp (a : F) : F := - a.
Definition Fsub (a b : F) : F := a - b.
Definition Finv (a : F) : F := a^-1.
Definition Fdiv (a b : F) : F := a / b.

Lemma F_ring_theory : @ring_theory F F0 F1 Fadd Fmul Fsub Fopp eq.
Proof.
split=> *; rewrite /F0 /F1 /Fadd /Fmul /Fsub /Fopp ?add0r ?mul1r ?mulrDl ?subrr //;
  [exact: addrC | exact: addrA | exact: mulrC | exact: mulrA].
Qed.

Lemma F_field_theory : @field_theory F F0 F1 Fadd Fmul Fsub Fopp Fdiv Finv eq.
Proof.
split; [exact: F_ring_theory | by apply/eqP; exact: oner_neq0 | by [] |].
by move=> p /eqP Hp; rewrite /Fmul /Finv mulVf.
Qed.
End Ops.

Ltac to_fops F :=
  lazymatch goal with |- @eq _ ?x ?y => change (@eq (GRing.Field.sort F) x y) end;
  repeat match goal with
  | |- context C [@GRing.mul _ ?a (@GRing.inv _ ?b)] =>
      let g := context C [@Fdiv F a b] in change g
  | |- context C [@GRing.add _ ?a ?b] => let g := context C [@Fadd F a b] in change g
  | |- context C [@GRing.mul _ ?a ?b] => let g := context C [@Fmul F a b] in change g
  | |- context C [@GRing.opp _ ?a] => let g := context C [@Fopp F a] in change g
  | |- context C [@GRing.inv _ ?a] => let g := context C [@Finv F a] in change g
  | |- context C [@GRing.zero _] => let g := context C [@F0 F] in change g
  | |- context C [@GRing.one _] => let g := context C [@F1 F] in change g
  end.
Ltac fring F := to_fops F; ring.
Ltac ffield F := to_fops F; field;
  repeat split; unfold F0, F1, Fadd, Fmul, Fopp, Fsub, Finv, Fdiv; try (apply/eqP); try assumption.
