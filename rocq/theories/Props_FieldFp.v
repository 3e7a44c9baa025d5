(** ModP<int,P> against the prime field of mathcomp, the coefficient field used in the theorems of the other files. *)
From mathcomp Require Import all_ssreflect all_algebra zify.
From Coq Require Import ZArith Znumtheory Lia.
From Verif Require Import Outcome M_Field P_Field Props_Field.
Delimit Scope Z_scope with Z.
Delimit Scope nat_scope with N.
Set Implicit Arguments.
Unset Strict Implicit.
Unset Printing Implicit Defensive.
Import GRing.Theory.

Lemma prime_Z (p : nat) : prime.prime p -> Znumtheory.prime (Z.of_nat p).
Proof.
move=> /primeP [p1 H]; apply/Znumtheory.prime_alt; split; first lia.
move=> n Hn [q Eq]; have := H (Z.to_nat n).
have dv : (Z.to_nat n %| p)%N by apply/dvdnP; exists (Z.to_nat q); nia.
by move=> /(_ dv) /orP [/eqP|/eqP]; lia.
Qed.

Section Fp.
Variable p : nat.
Hypothesis pp : prime.prime p.

(** the element of the field with p elements denoted by a stored value *)
Definition toFp (a : Z) : 'F_p := (Z.to_nat a)%:R%R.

Lemma toFp_mod (z : Z) : (0 <= z)%Z -> toFp (z mod Z.of_nat p) = toFp z.
Proof.
move=> z0; rewrite /toFp; have p0 : (0 < p)%N by exact: prime_gt0.
have -> : Z.to_nat (z mod Z.of_nat p) = (Z.to_nat z %% p)%N.
  rewrite -{1}(Z2Nat.id z z0); apply: Nat2Z.inj; rewrite Z2Nat.id; last by apply Z.mod_pos_bound; lia.
  set m := Z.to_nat z; symmetry; apply: (Z.mod_unique _ _ (Z.of_nat (m %/ p))); have := ltn_pmod m p0; first lia.
  by have := divn_eq m p; move: (m %/ p)%N (m %% p)%N => q r; lia.
by rewrite Fp_nat_mod.
Qed.

Lemma toFp_add a b : (0 <= a)%Z -> (0 <= b)%Z -> toFp (a + b) = (toFp a + toFp b)%R.
Proof. by move=> *; rewrite /toFp Z2Nat.inj_add // -natrD. Qed.
Lemma toFp_mul a b : (0 <= a)%Z -> (0 <= b)%Z -> toFp (a * b) = (toFp a * toFp b)%R.
Proof. by move=> *; rewrite /toFp Z2Nat.inj_mul // -natrM. Qed.
Lemma toFp_P : toFp (Z.of_nat p) = 0%R.
Proof. by rewrite /toFp Nat2Z.id; exact: char_Fp_0. Qed.

Lemma toFp_inj a b : (0 <= a < Z.of_nat p)%Z -> (0 <= b < Z.of_nat p)%Z -> toFp a = toFp b -> a = b.
Proof.
move=> Ha Hb /(congr1 val); rewrite /toFp /= !val_Fp_nat // !modn_small; lia.
Qed.

Lemma toFp_surj (x : 'F_p) : exists a, [/\ (0 <= a < Z.of_nat p)%Z & toFp a = x].
Proof.
exists (Z.of_nat x); split; last by rewrite /toFp Nat2Z.id natr_Zp.
by have := ltn_ord x; rewrite [X in (_ < X)%N]Fp_cast //; lia.
Qed.

(** C01: ModP<int,P> is the field with P elements: the stored residues are in bijection with it and every operation
    is the field operation. *)
Theorem C01_is_Fp : (2 < p)%N -> ((Z.of_nat p - 1) * (Z.of_nat p - 1) < 2 ^ 31)%Z ->
  [/\ forall x : 'F_p, exists a, (0 <= a < Z.of_nat p)%Z /\ toFp a = x,
      forall a b, (0 <= a < Z.of_nat p)%Z -> (0 <= b < Z.of_nat p)%Z -> toFp a = toFp b -> a = b,
      toFp (modp_make (Z.of_nat p) 0) = 0%R /\ toFp (modp_make (Z.of_nat p) 1) = 1%R &
      forall a b, (0 <= a < Z.of_nat p)%Z -> (0 <= b < Z.of_nat p)%Z ->
      [/\ exists c, [/\ modp_add (Z.of_nat p) a b = Ok c, (0 <= c < Z.of_nat p)%Z & toFp c = (toFp a + toFp b)%R],
          exists c, [/\ modp_sub (Z.of_nat p) a b = Ok c, (0 <= c < Z.of_nat p)%Z & toFp c = (toFp a - toFp b)%R],
          exists c, [/\ modp_mul (Z.of_nat p) a b = Ok c, (0 <= c < Z.of_nat p)%Z & toFp c = (toFp a * toFp b)%R],
          toFp (modp_neg (Z.of_nat p) a) = (- toFp a)%R &
          b <> 0%Z -> (exists c, [/\ modp_inv (Z.of_nat p) b = Ok c, (0 <= c < Z.of_nat p)%Z & toFp c = (toFp b)^-1%R]) /\
                      (exists c, [/\ modp_div (Z.of_nat p) a b = Ok c, (0 <= c < Z.of_nat p)%Z & toFp c = (toFp a / toFp b)%R])]].
Proof.
move=> p2 PP; set P := Z.of_nat p.
have SP : small_prime P.
  by split; [exact: prime_Z|split; [rewrite /P; lia|exact: PP]].
have [P0 [P2 P31]] := small_prime_bounds P SP.
have MB z : (0 <= z mod P < P)%Z by apply: Z.mod_pos_bound; lia.
have S a b : (0 <= a)%Z -> (0 <= b < P)%Z -> toFp ((a - b) mod P) = (toFp a - toFp b)%R.
  move=> a0 b0; have -> : ((a - b) mod P = (a + (P - b)) mod P)%Z.
    have -> : (a + (P - b) = a - b + 1 * P)%Z by lia.
    by rewrite Z.mod_add; lia.
  rewrite toFp_mod; last lia; rewrite toFp_add; [|lia|lia]; congr (_ + _)%R.
  apply/eqP; rewrite eq_sym eqr_oppLR -addr_eq0 -toFp_add; [|lia|lia].
  have -> : (b + (P - b) = P)%Z by lia.
  by rewrite toFp_P.
split.
- by move=> x; have [a [H E]] := toFp_surj x; exists a.
- exact: toFp_inj.
- have MK v : (0 <= v < P)%Z -> modp_make P v = v.
    by move=> Hv; rewrite make_ok; [apply: Z.mod_small|lia|lia|lia].
  by rewrite !MK; [split|lia|lia].
move=> a b Ha Hb; have [[A _] [[B _] [[C _] D]]] := C01_ring P a b SP Ha Hb.
split.
- by eexists; split; [exact: A|exact: MB|rewrite toFp_mod; [apply: toFp_add; lia|lia]].
- by eexists; split; [exact: B|exact: MB|apply: S; lia].
- by eexists; split; [exact: C|exact: MB|rewrite toFp_mod; [apply: toFp_mul; lia|lia]].
- by rewrite D -[(- a)%Z]Z.sub_0_l S; [rewrite -[RHS]sub0r|lia|lia].
move=> nb; have unz : toFp b != 0%R.
  by apply/eqP=> e; apply: nb; apply: toFp_inj => //; lia.
have INV c : (0 <= c < P)%Z -> ((b * c) mod P = 1)%Z -> toFp c = (toFp b)^-1%R.
  move=> Hc E; apply: (mulfI unz); rewrite mulfV // -toFp_mul; [|lia|lia].
  by rewrite -toFp_mod ?E //; lia.
have [/(_ nb) [y [Ey [Hy My]]] _] := C01_inv P b SP Hb.
have [/(_ nb) [q [Eq [_ [Hq Mq]]]] _] := C01_div P a b SP Ha Hb.
split; [exists y; split=> //; exact: INV|exists q; split=> //].
apply: (mulIf unz); rewrite mulfVK // -toFp_mul; [|lia|lia].
by rewrite -toFp_mod ?Mq //; lia.
Qed.
End Fp.
