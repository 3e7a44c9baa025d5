(** Model of include/util/permutation.hpp.  Indices are unbounded naturals; asserts are preconditions
    (compiled out with NDEBUG), so a violated one shows up as an out-of-range access, [UB]. *)
From mathcomp Require Import all_ssreflect.
From Verif Require Import Outcome.
Set Implicit Arguments.
Unset Strict Implicit.
Unset Printing Implicit Defensive.

Section Generic.
Variable A : Type.

(** std::swap(tmp[i], data[j]) on two different vectors *)
Definition swap_between (st : seq A * seq A) (i j : nat) : outcome (seq A * seq A) :=
  let: (tmp, data) := st in
  do x <- oget tmp i;
  do y <- oget data j;
  do tmp' <- oset tmp i y;
  do data' <- oset data j x;
  Ok (tmp', data').

(** permutation.hpp 199-216 apply_perm(begin,tmp,perm): new[i] = old[perm[i]].
    [data] is the range starting at begin; entries past perm.size() are untouched. *)
Definition apply_perm (perm : seq nat) (data : seq A) : outcome (seq A) :=
  do tmp <- omapm (fun i => oget data i) perm;
  if size perm <= size data then Ok (tmp ++ drop (size perm) data) else UB.

(** permutation.hpp 243-256 apply_perm_swap: [dflt] is the value-initialised T() filling tmp *)
Definition apply_perm_swap (dflt : A) (perm : seq nat) (data : seq A) : outcome (seq A) :=
  let tmp := nseq (size data) dflt in
  do st <- ofold (fun st i => do pi <- oget perm i; swap_between st pi i)
                 (tmp, data) (iota 0 (size perm));
  do st' <- ofold (fun st i => swap_between st i i) st (iota 0 (size perm));
  Ok st'.2.

(** permutation.hpp 264-277 apply_iperm_swap *)
Definition apply_iperm_swap (dflt : A) (perm : seq nat) (data : seq A) : outcome (seq A) :=
  let tmp := nseq (size data) dflt in
  do st <- ofold (fun st i => do pi <- oget perm i; swap_between st i pi)
                 (tmp, data) (iota 0 (size perm));
  do st' <- ofold (fun st i => swap_between st i i) st (iota 0 (size perm));
  Ok st'.2.

End Generic.

(** permutation.hpp 284-291 partial_perm; NO_IND is [None] *)
Definition partial_perm (ind : seq nat) (n : nat) : outcome (seq (option nat)) :=
  ofold (fun ret k => do i <- oget ind k; oset ret i (Some k))
        (nseq n None) (iota 0 (size ind)).

(** permutation.hpp 16-49 sortperm (std::sort on indices) and 121-133 stable_sortperm.
    The model of std::sort is the stable merge sort: std::sort may order equal keys differently. *)
Definition sortperm (A : Type) (lt : A -> A -> bool) (dflt : A) (data : seq A) : seq nat :=
  sort (fun a b => ~~ lt (nth dflt data b) (nth dflt data a)) (iota 0 (size data)).

(** permutation.hpp 352-359 inv_perm *)
Definition inv_perm (p : seq nat) : outcome (seq nat) :=
  ofold (fun inv j => do i <- oget p j; oset inv i j) (nseq (size p) 0) (iota 0 (size p)).

(** permutation.hpp 366-377 perm_inversions: the double loop i < j *)
Definition perm_inversions (p : seq nat) : nat :=
  sumn [seq sumn [seq (nth 0 p j < nth 0 p i : nat) | j <- iota i.+1 (size p - i.+1)]
       | i <- iota 0 (size p)].

(** permutation.hpp 380-383 perm_sign; true is -1 *)
Definition perm_sign_neg (p : seq nat) : bool := odd (perm_inversions p).

(** permutation.hpp 390-394 identity_perm *)
Definition identity_perm (k : nat) : seq nat := iota 0 k.

(** permutation.hpp 428-446 find_perm_from_vector *)
Definition find_perm_from_vector (v : seq nat) : outcome (seq nat) :=
  let idx := sortperm (fun a b => a < b) 0 v in
  ofold (fun perm i => do k <- oget idx i; oset perm k i)
        (nseq (size v) 0) (iota 0 (size v)).

(** permutation.hpp 449-458 perm_to_the_end(index, length) *)
Definition perm_to_the_end1 (index length : nat) : seq nat :=
  [seq i <- iota 0 length | i != index] ++ [:: index].

(** permutation.hpp 463-485 perm_to_the_end(index_list, length) *)
Fixpoint perm_end_loop (is_ : seq nat) (it : seq nat) : seq nat :=
  match is_ with
  | [::] => [::]
  | i :: is' =>
      match it with
      | [::] => i :: perm_end_loop is' it
      | k :: it' => if i != k then i :: perm_end_loop is' it else perm_end_loop is' it'
      end
  end.
Definition perm_to_the_end (index_list : seq nat) (length : nat) : seq nat :=
  perm_end_loop (iota 0 length) index_list ++ index_list.

(** permutation.hpp 490-509 extension_perm *)
Definition extension_perm (perm : seq nat) (length : nat) : seq nat :=
  if perm is [::] then identity_perm length
  else perm ++ iota (size perm) (length - size perm).

(** permutation.hpp 515-570 Kendall_tau_merge on the copies leftArray, rightArray:
    merged contents and number of inversions counted. *)
Fixpoint kt_merge (l : seq nat) : seq nat -> seq nat * nat :=
  match l with
  | [::] => fun r => (r, 0)
  | x :: l' =>
      fix aux (r : seq nat) : seq nat * nat :=
        match r with
        | [::] => (l, 0)
        | y :: r' =>
            if x <= y then let: (s, c) := kt_merge l' r in (x :: s, c)
            else let: (s, c) := aux r' in (y :: s, size l + c)
        end
  end.

(** permutation.hpp 575-588 Kendall_tau_inplace(array, begin, end).  [fin] is end+1 (so that the
    empty array's end = -1 is fin = 0). *)
Fixpoint kt_inplace (fuel : nat) (arr : seq nat) (begin fin : nat) : outcome (seq nat * nat) :=
  if fuel is fuel'.+1 then
    if fin <= begin.+1 then Ok (arr, 0)
    else
      let mid := begin + (fin - begin.+1) %/ 2 in
      do (arr1, c1) <- kt_inplace fuel' arr begin mid.+1;
      do (arr2, c2) <- kt_inplace fuel' arr1 mid.+1 fin;
      if fin <= size arr2 then
        let left := take (mid.+1 - begin) (drop begin arr2) in
        let right := take (fin - mid.+1) (drop mid.+1 arr2) in
        let: (s, c3) := kt_merge left right in
        Ok (take begin arr2 ++ s ++ drop fin arr2, c1 + c2 + c3)
      else UB
  else OutOfFuel.

(** permutation.hpp 594-606 Kendall_tau(perm) *)
Definition Kendall_tau (perm : seq nat) : outcome nat :=
  do (_, c) <- kt_inplace (size perm).+1 perm 0 (size perm); Ok c.

(** permutation.hpp 611-628 Kendall_tau(perm1, perm2) *)
Definition Kendall_tau2 (perm1 perm2 : seq nat) : outcome nat :=
  do iperm2 <- inv_perm perm2;
  do p <- apply_perm perm1 iperm2;
  do (_, c) <- kt_inplace (size p).+1 p 0 (size p); Ok c.
