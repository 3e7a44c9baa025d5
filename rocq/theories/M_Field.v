(** Model of include/linalg/field.hpp: isprime, ModP<int,P>, ModP<int,2>, Rational<IntT>.
    [int] is 32-bit two's complement, [unsigned] 32-bit; signed overflow is UB; the conversion of an unsigned value
    to int is modulo 2^32 (C++20; the same on every usual C++17 compiler).  Mixed int/unsigned arithmetic is done in
    unsigned, as the usual arithmetic conversions say. *)
From Coq Require Import ZArith Bool.
From Verif Require Import Outcome.
Local Open Scope Z_scope.

Definition int_ok (z : Z) : bool := (- 2 ^ 31 <=? z) && (z <? 2 ^ 31).
Definition i32 (z : Z) : outcome Z := if int_ok z then Ok z else UB.
Definition u32 (z : Z) : Z := z mod 2 ^ 32.
Definition to_i32 (u : Z) : Z := if u <? 2 ^ 31 then u else u - 2 ^ 32.

(** field.hpp 77-83 isprime; the for loop with its early return *)
Fixpoint isprime_loop (fuel : nat) (p i : Z) : outcome bool :=
  match fuel with
  | O => OutOfFuel
  | S f => if i <? p / 2 + 1 then (if p mod i =? 0 then Ok false else isprime_loop f p (i + 1)) else Ok true
  end.
Definition isprime (p : Z) : outcome bool :=
  if p <? 2 then Ok false else isprime_loop (S (Z.to_nat p)) p 2.

Section ModP.
Variable P : Z.

(** 96 ModP(IntT val) : val((val + P) % P) *)
Definition modp_make (v : Z) : Z := to_i32 (u32 (v + P) mod P).

(** 100-105 operator+, 107-113 operator+= *)
Definition modp_add (a b : Z) : outcome Z := do s <- i32 (a + b); Ok (modp_make s).
Definition modp_addeq (a b : Z) : outcome Z := do s <- i32 (a + b); Ok (to_i32 (u32 s mod P)).

(** 115-120 operator-, 122-128 operator-= *)
Definition modp_sub (a b : Z) : outcome Z := do d <- i32 (a - b); Ok (modp_make (to_i32 (u32 (d + P)))).
Definition modp_subeq (a b : Z) : outcome Z := do d <- i32 (a - b); Ok (to_i32 (u32 (d + P) mod P)).

(** 130-135 unary minus *)
Definition modp_neg (a : Z) : Z := modp_make (to_i32 (u32 (P - a))).

(** 137-142 operator*, 144-150 operator*= *)
Definition modp_mul (a b : Z) : outcome Z := do p <- i32 (a * b); Ok (modp_make p).
Definition modp_muleq (a b : Z) : outcome Z := do p <- i32 (a * b); Ok (to_i32 (u32 p mod P)).

(** 152-158 == and != between elements; 160-166 against an int; 168-170 < *)
Definition modp_eq (a b : Z) : bool := a =? b.
Definition modp_ne (a b : Z) : bool := negb (a =? b).
Definition modp_eqint (a b : Z) : outcome bool := do d <- i32 (b - a); Ok (u32 (d + P) mod P =? 0).
Definition modp_neint (a b : Z) : outcome bool := do d <- i32 (a - b); Ok (negb (u32 (d + P) mod P =? 0)).
Definition modp_lt (a b : Z) : bool := u32 a mod P <? u32 b mod P.

(** 211-221 ff_inv: the while loop on (b, c) *)
Fixpoint ff_loop (fuel : nat) (v b c : Z) : outcome Z :=
  match fuel with
  | O => OutOfFuel
  | S f => if u32 c mod P =? 1 then Ok b
           else do b' <- i32 (b + 1); do c' <- i32 (c + v); ff_loop f v b' c'
  end.
Definition ff_inv (v : Z) : outcome Z := if v =? 0 then Throw else ff_loop (S (Z.to_nat P)) v 1 v.

(** 232-235 inv; 178-186 operator/; 188-196 operator/= *)
Definition modp_inv (a : Z) : outcome Z := do b <- ff_inv a; Ok (modp_make b).
Definition modp_div (a b : Z) : outcome Z :=
  if b =? 0 then Throw else do bi <- modp_inv b; do p <- i32 (a * bi); Ok (modp_make p).
Definition modp_diveq (a b : Z) : outcome Z :=
  if b =? 0 then Throw else do bi <- modp_inv b; do p <- i32 (a * bi); Ok (to_i32 (u32 p mod P)).
End ModP.

(** ** ModP<int,2>, field.hpp 239-356.  The stored value is the int itself (constructor 246: no reduction); bit
    operations on two's complement are those of Z. *)
Definition mod2_toint (a : Z) : Z := Z.land a 1.                  (* 248 *)
Definition mod2_add (a b : Z) : Z := Z.lxor a b.                  (* 250-255 operator+, 257-263 operator+= *)
Definition mod2_sub (a b : Z) : Z := Z.lxor a b.                  (* 265-270 operator-, 272-278 operator-= *)
Definition mod2_neg (a : Z) : Z := a.                             (* 280-282 *)
Definition mod2_mul (a b : Z) : Z := Z.land a b.                  (* 284-289 operator*, 291-297 operator*= *)
Definition mod2_div (a b : Z) : outcome Z := if Z.land b 1 =? 0 then Throw else Ok a.   (* 299-305 and 307-313 *)
Definition mod2_inv (a : Z) : outcome Z := if Z.land a 1 =? 0 then Throw else Ok 1.     (* 315-318 *)
Definition mod2_eq (a b : Z) : bool := Z.land a 1 =? Z.land b 1.           (* 320-322 *)
Definition mod2_ne (a b : Z) : bool := negb (Z.land a 1 =? Z.land b 1).    (* 324-326 *)
Definition mod2_eqint (a b : Z) : bool := Z.land a 1 =? Z.land b 1.        (* 329-331 *)
Definition mod2_neint (a b : Z) : bool := negb (Z.land a 1 =? b).          (* 333-335 *)
Definition mod2_iszero (a : Z) : bool := Z.land a 1 =? 0.                  (* 341-344 *)
Definition mod2_lt (a b : Z) : bool := Z.land a 1 <? Z.land b 1.           (* 346-348 *)
(** 337-339 operator=(const int &a): returns a temporary, *this is unchanged; the pair is
    (the object after the assignment, the returned value) *)
Definition mod2_assign (self a : Z) : Z * Z := (self, a).

(** ** Rational<IntT>, field.hpp 365-490, IntT a signed integer type of [w] bits; overflow is UB.  An element is the
    pair (n, d). *)
Section Rational.
Variable w : Z.
Definition fits (z : Z) : Prop := - 2 ^ (w - 1) <= z < 2 ^ (w - 1).
Definition iw (z : Z) : outcome Z := if (- 2 ^ (w - 1) <=? z) && (z <? 2 ^ (w - 1)) then Ok z else UB.

(** 372-376 reduce: std::gcd is nonnegative and undefined if |n| or |d| is not representable; division by gcd = 0
    is undefined *)
Definition rat_reduce (n d : Z) : outcome (Z * Z) :=
  do _a <- iw (Z.abs n); do _b <- iw (Z.abs d);
  let g := Z.gcd n d in
  let s := Z.sgn d in
  if g =? 0 then UB else
  do n' <- iw (s * Z.quot n g); do d' <- iw (s * Z.quot d g); Ok (n', d').
Definition rat_make (n d : Z) : outcome (Z * Z) := rat_reduce n d.                    (* 398-400 *)
Definition rat_int (n : Z) : Z * Z := (n, 1).                                         (* 402 *)
Definition rat_toint (a : Z * Z) : Z := Z.quot (fst a) (snd a).                       (* 404 *)
(** 406-408 operator+, 410-415 operator+=: the same arithmetic *)
Definition rat_add (a b : Z * Z) : outcome (Z * Z) :=
  do x <- iw (fst a * snd b); do y <- iw (fst b * snd a); do n <- iw (x + y); do d <- iw (snd a * snd b); rat_make n d.
(** 417-419 operator-, 421-426 operator-= *)
Definition rat_sub (a b : Z * Z) : outcome (Z * Z) :=
  do x <- iw (fst a * snd b); do y <- iw (fst b * snd a); do n <- iw (x - y); do d <- iw (snd a * snd b); rat_make n d.
(** 428-430 unary minus *)
Definition rat_neg (a : Z * Z) : outcome (Z * Z) := do n <- iw (- fst a); rat_make n (snd a).
(** 432-434 operator*, 436-441 operator*= *)
Definition rat_mul (a b : Z * Z) : outcome (Z * Z) :=
  do n <- iw (fst a * fst b); do d <- iw (snd a * snd b); rat_make n d.
Definition rat_eq (a b : Z * Z) : bool := (fst a =? fst b) && (snd a =? snd b).       (* 443-445 *)
Definition rat_ne (a b : Z * Z) : bool := negb (fst a =? fst b) || negb (snd a =? snd b).       (* 447-449 *)
Definition rat_eqint (a : Z * Z) (b : Z) : bool := (fst a =? b) && (snd a =? 1).      (* 451-453 *)
Definition rat_neint (a : Z * Z) (b : Z) : bool := negb (fst a =? b) || negb (snd a =? 1).      (* 455-457 *)
(** 459-461 operator< *)
Definition rat_lt (a b : Z * Z) : outcome bool :=
  do x <- iw (fst a * snd b); do y <- iw (fst b * snd a); Ok (x <? y).
(** 463-466 inv *)
Definition rat_inv (a : Z * Z) : outcome (Z * Z) := if fst a =? 0 then Throw else rat_make (snd a) (fst a).
(** 468-471 operator/, 473-479 operator/= *)
Definition rat_div (a b : Z * Z) : outcome (Z * Z) :=
  if fst b =? 0 then Throw else do n <- iw (fst a * snd b); do d <- iw (snd a * fst b); rat_make n d.
(** 473-479 operator/= called as x /= x: b is *this, so b.n is read after n was overwritten *)
Definition rat_diveq_self (a : Z * Z) : outcome (Z * Z) :=
  if fst a =? 0 then Throw else do n <- iw (fst a * snd a); do d <- iw (snd a * n); rat_make n d.
Definition rat_iszero (a : Z * Z) : bool := fst a =? 0.                               (* 481-483 *)
End Rational.
