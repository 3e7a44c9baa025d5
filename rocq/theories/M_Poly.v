(** Model of include/linalg/polynomial.hpp (UnivariatePolynomial<T>, characteristic_matrix) and of extended_euclidean in
    include/linalg/pid.hpp 17-53.  A polynomial is its member [c], the std::vector of coefficients, constant term first.  T is a
    field (linalg/field.hpp; C01-C04).  Printing (polynomial.hpp 303-316) is not modelled. *)
From mathcomp Require Import all_ssreflect all_algebra.
From Verif Require Import Outcome M_SparseVec M_ColMatrix S_Linalg.
Set Implicit Arguments.
Unset Strict Implicit.
Unset Printing Implicit Defensive.
Import GRing.Theory.
Local Open Scope ring_scope.

Section Poly.
Variable F : fieldType.
Definition upoly := seq F.

(** polynomial.hpp 20-24 clear_zeros: pop_back while the last coefficient is 0 *)
Fixpoint drop0 (s : seq F) : seq F := if s is x :: s' then if x == 0 then drop0 s' else s else [::].
(** 29-35 constructors from a vector, a list, a constant ([mk_poly [:: c0]]); 38 the empty polynomial is [::] *)
Definition mk_poly (c : seq F) : upoly := rev (drop0 (rev c)).
(** 41-43 identity *)
Definition p_identity : upoly := mk_poly [:: 1].
(** 50-52 is_zero *)
Definition p_is_zero (p : upoly) : bool := nilp p.
(** 55-59 monomial(d, scale) *)
Definition p_monomial (d : nat) (scale : F) : upoly := mk_poly (rcons (nseq d 0) scale).
(** 77-79 leading_coeff: c.back() *)
Definition p_lead (p : upoly) : outcome F := if p is x :: s then Ok (last x s) else UB.

(** 82-91 operator()(v) *)
Definition p_eval (p : upoly) (v : F) : F :=
  if p is c0 :: c then (foldl (fun st ck => let vk := st.2 * v in (st.1 + ck * vk, vk)) (c0, 1) c).1 else 0.

(** 95-105 operator()(A, v) *)
Definition p_apply (p : upoly) (A : cmat F) (v : svec F) : outcome (svec F) :=
  if p is c0 :: c then
    do st <- ofold (fun st ck => do w <- gemv (ops_of F) A st.2; Ok (axpy (ops_of F) ck w st.1, w))
               (axpy (ops_of F) c0 v [::], v) c;
    Ok st.1
  else Ok [::].

(** 108-114 operator-() *)
Definition p_opp (p : upoly) : upoly := mk_poly [seq - x | x <- p].

(** 122-130 (and 141-146 for +=): the loops of the addition *)
Fixpoint add_loop (a b : seq F) : seq F :=
  match a, b with
  | x :: a', y :: b' => x + y :: add_loop a' b'
  | [::], _ => b
  | _, [::] => a
  end.
(** 118-133 operator+, 136-151 operator+= *)
Definition p_add (p q : upoly) : upoly := mk_poly (add_loop p q).
(** 158-163, 178-186: the loops of the subtraction *)
Fixpoint sub_loop (a b : seq F) : seq F :=
  match a, b with
  | x :: a', y :: b' => x - y :: sub_loop a' b'
  | [::], _ => [seq - y | y <- b]
  | _, [::] => a
  end.
(** 154-168 operator-=, 171-190 operator- *)
Definition p_sub (p q : upoly) : upoly := mk_poly (sub_loop p q).

(** 193-206 operator* *)
Definition p_mul (p q : upoly) : outcome upoly :=
  if nilp p || nilp q then Ok [::] else
  do r <- ofold (fun newc i =>
            ofold (fun newc j =>
              do x <- oget newc (i + j)%N; do a <- oget p i; do b <- oget q j;
              oset newc (i + j)%N (x + a * b)) newc (iota 0 (size q)))
          (nseq (size p + size q).-1 0) (iota 0 (size p));
  Ok (mk_poly r).

(** 213-218: the loop of divrem; the leading coefficient of the zero polynomial is c.back() of an empty vector *)
Fixpoint divrem_loop (fuel : nat) (quo rem other : upoly) : outcome (upoly * upoly) :=
  if (size other <= size rem)%N then
    if fuel is fuel'.+1 then
      do a <- p_lead rem; do b <- p_lead other;
      let m := p_monomial (size rem - size other)%N (a / b) in
      do mo <- p_mul m other;
      divrem_loop fuel' (p_add quo m) (p_sub rem mo) other
    else OutOfFuel
  else Ok (quo, rem).
(** 209-221 divrem *)
Definition p_divrem (p q : upoly) : outcome (upoly * upoly) := divrem_loop (size p).+1 (mk_poly [:: 0]) p q.
(** 224-227 operator/, 230-233 remainder *)
Definition p_div (p q : upoly) : outcome upoly := do r <- p_divrem p q; Ok r.1.
Definition p_rem (p q : upoly) : outcome upoly := do r <- p_divrem p q; Ok r.2.

(** 236-239 operator== with a scalar *)
Definition p_eq_scalar (p : upoly) (x : F) : bool :=
  if x == 0 then nilp p else if p is [:: c0] then c0 == x else false.
(** 241-247 operator== *)
Definition p_eq (p q : upoly) : bool :=
  (size p == size q) && all (fun i => p`_i == q`_i) (iota 0 (size p)).

(** 259-267 gcd *)
Fixpoint gcd_loop (fuel : nat) (a b : upoly) : outcome upoly :=
  if nilp b then Ok a else
  if fuel is fuel'.+1 then do r <- p_rem a b; gcd_loop fuel' b r else OutOfFuel.
Definition p_gcd (p q : upoly) : outcome upoly := gcd_loop (size q).+1 p q.

(** 269-271 is_monic *)
Definition p_is_monic (p : upoly) : outcome bool := do c <- p_lead p; Ok (c == 1).
(** 274-291 companion_matrix.  For the constant 1, n is 0: the loop bound n-1 wraps around and the first column written does not
    exist.  The last column keeps the coefficients that are zero. *)
Definition companion_matrix (p : upoly) : outcome (cmat F) :=
  do b <- p_is_monic p;
  if ~~ b then Throw else
  let n := (size p).-1 in
  if n == 0%N then UB else
  let last_col := [seq (i, - p`_i) | i <- iota 0 n] in
  Ok (CMat n n (rcons [seq [:: (j.+1, 1)] | j <- iota 0 n.-1] last_col)).

(** 342-358: the first loop, entries up to the diagonal; result: entries, rest, found_diagonal *)
Fixpoint char_upto (j : nat) (col : svec F) : seq (nat * upoly) * svec F * bool :=
  if col is (i, x) :: col' then
    if i == j then ([:: (i, mk_poly [:: - x; 1])], col', true)
    else if (i < j)%N then let: (a, r, b) := char_upto j col' in ((i, mk_poly [:: - x]) :: a, r, b)
    else ([::], col, false)
  else ([::], [::], false).
(** 338-373: one column *)
Definition char_col (j : nat) (col : svec F) : seq (nat * upoly) :=
  let: (a, r, found) := char_upto j col in
  a ++ (if found then [::] else [:: (j, mk_poly [:: 0; 1])]) ++ [seq (p.1, mk_poly [:: - p.2]) | p <- r].
(** 326-377 characteristic_matrix *)
Definition characteristic_matrix (A : cmat F) : outcome (cmat upoly) :=
  if nrow A != ncol A then Throw else
  do cs <- omapm (fun j => do c <- oget (cols A) j; Ok (char_col j c)) (iota 0 (ncol A));
  Ok (CMat (ncol A) (ncol A) cs).
End Poly.

(** pid.hpp 17-53 extended_euclidean over a type with the operators the template uses *)
Section Euclid.
Variable P : Type.
Variables (p0 p1 : P) (sub mul div : P -> P -> outcome P) (opp : P -> P) (is0 : P -> bool).
Definition eu_state := (nat * (P * P) * (P * P) * (P * P))%type.   (* i, (old_r, r), (old_s, s), (old_t, t) *)
(** 33-46 *)
Fixpoint eu_loop (fuel : nat) (st : eu_state) : outcome eu_state :=
  let: (i, (old_r, r), (old_s, s), (old_t, t)) := st in
  if is0 r then Ok st else
  if fuel is fuel'.+1 then
    do quotient <- div old_r r;
    do qr <- mul quotient r; do r' <- sub old_r qr;
    do qs <- mul quotient s; do s' <- sub old_s qs;
    do qt <- mul quotient t; do t' <- sub old_t qt;
    eu_loop fuel' (i.+1, (r, r'), (s, s'), (t, t'))
  else OutOfFuel.
Definition extended_euclidean (fuel : nat) (a b : P) : outcome (P * P * P * P * P) :=
  do st <- eu_loop fuel (0%N, (a, b), (p1, p0), (p0, p1));
  let: (i, (old_r, r), (old_s, s), (old_t, t)) := st in
  let t := if odd i then opp t else t in
  let s := if ~~ odd i then opp s else s in
  Ok (old_s, old_t, old_r, t, s).
End Euclid.

(** int: / truncates towards zero; without overflow (unbounded integers) *)
Definition int_div (a b : int) : outcome int :=
  if b == 0 then UB else Ok (sgz a * sgz b * (`|a| %/ `|b|)%N%:Z).
Definition euclid_int : nat -> int -> int -> outcome (int * int * int * int * int) :=
  extended_euclidean 0 1 (fun a b => Ok (a - b)) (fun a b => Ok (a * b)) int_div -%R (fun a => a == 0).
Definition euclid_poly (F : fieldType) : nat -> seq F -> seq F -> outcome (seq F * seq F * seq F * seq F * seq F) :=
  extended_euclidean (mk_poly [:: 0]) (mk_poly [:: 1]) (fun a b => Ok (p_sub a b)) (@p_mul F) (@p_div F) (@p_opp F) (fun a => p_eq_scalar a 0).
