(** Model of include/linalg/sparse_vector.hpp (SparseVector<TV,TI>) over an arbitrary value type.
    A sparse vector is its member [indval], a std::vector of (index,value) pairs.
    Simplifications: std::lower_bound / upper_bound (binary search) are linear scans, which give the
    same iterator on index-sorted vectors; std::sort is a stable merge sort (same result when
    indices are distinct); indices are unbounded naturals.  *)
From mathcomp Require Import all_ssreflect.
From Verif Require Import Outcome.
Set Implicit Arguments.
Unset Strict Implicit.
Unset Printing Implicit Defensive.

(** The operations the C++ templates use on the value type TV
    (include/linalg/field.hpp 21-60: the operators every Field provides). *)
Record fops (T : Type) := FOps {
  f0 : T;                 (* TV(0) *)
  f1 : T;                 (* TV(1) *)
  fadd : T -> T -> T;
  fopp : T -> T;
  fmul : T -> T -> T;
  fdiv : T -> T -> T;     (* meaningful for nonzero divisors; the callers test for zero *)
  feqb : T -> T -> bool }.

Section SparseVec.
Variable T : Type.
Variable O : fops T.

Notation zero := (f0 O).
Notation "x +' y" := (fadd O x y) (at level 50, left associativity).
Notation "x *' y" := (fmul O x y) (at level 40, left associativity).

(** sparse_vector.hpp 31: [std::vector<nzpair<TI,TV>> indval] *)
Definition svec := seq (nat * T).

Definition is0 (x : T) : bool := feqb O x zero.

(** x / y throws (field.hpp 186-197, 211-221) when y is zero. *)
Definition odiv (x y : T) : outcome T := if is0 y then Throw else Ok (fdiv O x y).

(** sparse_vector.hpp 146-149: SparseVector(i, v = TV(1)), the unit vector e_i *)
Definition sv_unit (i : nat) : svec := [:: (i, f1 O)].

(** sparse_vector.hpp 266-274: clear_zeros *)
Definition clear_zeros (v : svec) : svec := [seq p <- v | ~~ is0 p.2].

(** sparse_vector.hpp 280-303: clear_inds(c); reading c out of range is UB *)
Definition clear_inds (c : seq bool) (v : svec) : outcome svec :=
  if all (fun p : nat * T => p.1 < size c) v
  then Ok [seq p <- v | ~~ nth false c p.1] else UB.

(** sparse_vector.hpp 306: nnz *)
Definition nnz (v : svec) : nat := size v.

(** sparse_vector.hpp 399-401: lastnz, indval.back(); UB on an empty vector *)
Definition lastnz (v : svec) : outcome (nat * T) :=
  if v is p :: v' then Ok (last p v') else UB.

(** sparse_vector.hpp 403-405: firstnz, indval[0]; UB on an empty vector *)
Definition firstnz (v : svec) : outcome (nat * T) :=
  if v is p :: _ then Ok p else UB.

(** sparse_vector.hpp 341-354: lower_bound(i), returned as the split of the vector at the iterator *)
Fixpoint split_lb (v : svec) (i : nat) : svec * svec :=
  match v with
  | [::] => ([::], [::])
  | p :: v' => if p.1 < i then let: (a, b) := split_lb v' i in (p :: a, b) else ([::], v)
  end.
(** ... and upper_bound(i): first element with index > i *)
Definition split_ub (v : svec) (i : nat) : svec * svec := split_lb v i.+1.

(** sparse_vector.hpp 366-376: getval / operator[](size_t) *)
Definition getval (v : svec) (i : nat) : T :=
  match (split_lb v i).2 with
  | [::] => zero
  | p :: _ => if p.1 == i then p.2 else zero
  end.

(** sparse_vector.hpp 831-868 (and 892-925): the merge loop of axpy *)
Fixpoint axpy_merge (a : T) (y : svec) {struct y} : svec -> svec :=
  match y with
  | [::] => fun x => [seq (p.1, a *' p.2) | p <- x]
  | (i, u) :: y' =>
      fix aux (x : svec) : svec :=
        match x with
        | [::] => y
        | (j, w) :: x' =>
            if i == j then
              let val := (a *' w) +' u in
              if is0 val then axpy_merge a y' x' else (i, val) :: axpy_merge a y' x'
            else if i < j then (i, u) :: axpy_merge a y' x
            else (j, a *' w) :: aux x'
        end
  end.

(** sparse_vector.hpp 818-876 / 880-943: axpy(a, x[, tmp]), y <- a x + y *)
Definition axpy (a : T) (x y : svec) : svec :=
  if is0 a then clear_zeros y
  else if x is [::] then y else axpy_merge a y x.

(** entries of x with first <= ind < last, as walked by the iterator i2
    (sparse_vector.hpp 1009-1016, 1020, 1042) *)
Definition range (x : svec) (first last : nat) : svec :=
  (split_lb (split_lb x first).2 last).1.

(** sparse_vector.hpp 993-1056: axpy(a, x, firstind, lastind, tmp) *)
Definition axpy_range (a : T) (x : svec) (first last : nat) (y : svec) : svec :=
  if is0 a then y
  else if range x first last is [::] then y
  else axpy_merge a y (range x first last).

(** sparse_vector.hpp 945-949: operator+ *)
Definition sv_add (v w : svec) : svec := axpy (f1 O) w v.

(** sparse_vector.hpp 954-961: scalar multiplication *)
Definition sv_scale (v : svec) (a : T) : svec :=
  if is0 a then [::] else [seq (p.1, p.2 *' a) | p <- v].

(** sparse_vector.hpp 1150-1160: scale_inplace(c) (keeps zeros) *)
Definition scale_inplace (c : T) (v : svec) : svec := [seq (p.1, p.2 *' c) | p <- v].

(** sparse_vector.hpp 966-991: dot product *)
Fixpoint dot_acc (acc : T) (v : svec) {struct v} : svec -> T :=
  match v with
  | [::] => fun _ => acc
  | (i, u) :: v' =>
      fix aux (x : svec) : T :=
        match x with
        | [::] => acc
        | (j, w) :: x' =>
            if i == j then dot_acc (acc +' (w *' u)) v' x'
            else if i < j then dot_acc acc v' x
            else aux x'
        end
  end.
Definition dot (v x : svec) : T := dot_acc zero v x.

(** sparse_vector.hpp 223-255: operator[](indset) *)
Fixpoint sel_from (ct : nat) (inds : seq nat) {struct inds} : svec -> svec :=
  match inds with
  | [::] => fun _ => [::]
  | k :: inds' =>
      fix aux (v : svec) : svec :=
        match v with
        | [::] => [::]
        | (i, u) :: v' =>
            if k < i then sel_from ct.+1 inds' v
            else if k == i then (ct, u) :: sel_from ct.+1 inds' v'
            else aux v'
        end
  end.
Definition select (v : svec) (inds : seq nat) : svec := sel_from 0 inds v.

(** sparse_vector.hpp 207-219: operator== *)
Fixpoint sv_eqb (v w : svec) : bool :=
  match v, w with
  | [::], [::] => true
  | p :: v', q :: w' => (p.1 == q.1) && feqb O p.2 q.2 && sv_eqb v' w'
  | _, _ => false
  end.

(** sort(): std::sort by index (sparse_vector.hpp 35-53) *)
Definition sv_sort (v : svec) : svec := sort (fun p q : nat * T => p.1 <= q.1) v.

(** sparse_vector.hpp 412-417 permute and 421-426 ipermute (the two bodies are identical):
    index i -> perm[i], then sort.  perm read out of range is UB. *)
Definition sv_permute (perm : seq nat) (v : svec) : outcome svec :=
  if all (fun p : nat * T => p.1 < size perm) v
  then Ok (sv_sort [seq (nth 0 perm p.1, p.2) | p <- v]) else UB.

(** sparse_vector.hpp 429-442: subvector(pind), NO_IND is [None] *)
Definition subvector (pind : seq (option nat)) (v : svec) : outcome svec :=
  if all (fun p : nat * T => p.1 < size pind) v
  then Ok (sv_sort (pmap (fun p : nat * T =>
             if nth None pind p.1 is Some k then Some (k, p.2) else None) v))
  else UB.

(** sparse_vector.hpp 446-461: block(i0,i1) *)
Definition sv_block (i0 i1 : nat) (v : svec) : svec :=
  [seq (p.1 - i0, p.2) | p <- (split_lb (split_lb v i0).2 i1).1].

(** sparse_vector.hpp 464-480: set_block(i0,i1,b); erases [lower_bound(i0), upper_bound(i1)) *)
Definition sv_set_block (i0 i1 : nat) (b : svec) (v : svec) : svec :=
  let erased := (split_lb v i0).1 ++ (split_ub v i1).2 in
  let: (pre, post) := split_lb erased i0 in
  pre ++ [seq (p.1 + i0, p.2) | p <- b] ++ post.

(** sparse_vector.hpp 484-489: J(m), i -> (m-1)-i then sort *)
Definition sv_J (m : nat) (v : svec) : svec :=
  sv_sort [seq ((m - 1) - p.1, p.2) | p <- v].

(** replace the entry at index i, assumed present (sparse_vector.hpp 357-364) *)
Definition set_at (i : nat) (w : T) (v : svec) : svec :=
  [seq (if p.1 == i then (i, w) else p) | p <- v].

(** is there a stored entry at index i?  (pi != nzend() && pi->ind == i) *)
Definition has_ind (v : svec) (i : nat) : bool :=
  if (split_lb v i).2 is p :: _ then p.1 == i else false.

(** sparse_vector.hpp 495-511: swap_rows *)
Definition sv_swap_rows (i j : nat) (v : svec) : svec :=
  if has_ind v i then
    if has_ind v j then set_at i (getval v j) (set_at j (getval v i) v)
    else sv_sort [seq (if p.1 == i then (j, p.2) else p) | p <- v]
  else if has_ind v j then sv_sort [seq (if p.1 == j then (i, p.2) else p) | p <- v]
  else v.

(** sparse_vector.hpp 539-543: erase_rows_after(m): pop trailing entries with index > m *)
Fixpoint erase_rows_after_rev (m : nat) (r : svec) : svec :=
  match r with
  | [::] => [::]
  | p :: r' => if m < p.1 then erase_rows_after_rev m r' else r
  end.
Definition erase_rows_after (m : nat) (v : svec) : svec :=
  rev (erase_rows_after_rev m (rev v)).

(** sparse_vector.hpp 555-571: erase_initial_rows(ndelete) *)
Definition erase_initial_rows (nd : nat) (v : svec) : svec :=
  [seq (p.1 - nd, p.2) | p <- (split_lb v nd).2].

(** sparse_vector.hpp 594-610: erase_for_matrix(i): delete row i and shift the rest.
    pi is invalidated by erase but std::vector::erase leaves it on the next element;
    the C++ standard calls the use of pi afterwards UB, in practice it works, and we model that. *)
Definition erase_for_matrix (i : nat) (v : svec) : svec :=
  let: (pre, post) := split_lb v i in
  let post' := if post is p :: r then (if p.1 == i then r else post) else post in
  pre ++ [seq (p.1 - 1, p.2) | p <- post'].

(** sparse_vector.hpp 757-785: nnz_intersection *)
Fixpoint nnz_inter (v : svec) : svec -> nat :=
  match v with
  | [::] => fun _ => 0
  | (i, u) :: v' =>
      fix aux (x : svec) : nat :=
        match x with
        | [::] => 0
        | (j, w) :: x' =>
            if i == j then (nnz_inter v' x').+1
            else if i < j then nnz_inter v' x
            else aux x'
        end
  end.

(** sparse_vector.hpp 1226-1240: kron(other, m) *)
Definition kron (m : nat) (v w : svec) : svec :=
  flatten [seq [seq (m * p.1 + q.1, p.2 *' q.2) | q <- w] | p <- v].

End SparseVec.
