(** Model of include/topology/landmark.hpp and of enclosing_radius (include/topology/metric.hpp 186-203).
    D i j is dist(D[i], D[j]), n the number of points; [le] is <= on T, a < b is ~~ (b <= a); NaN is not modelled.
    Functions that return the sub-data-set D[inds] return the indices, in the order of the std::set. *)
From mathcomp Require Import all_ssreflect all_algebra.
From Verif Require Import Outcome M_Nerve.
Set Implicit Arguments.
Unset Strict Implicit.
Unset Printing Implicit Defensive.

Section Val.
Variable V : eqType.
Variable v0 z top : V.
Variable le : V -> V -> bool.
Notation lt a b := (~~ le b a).

(** std::distance(d.cbegin(), std::max_element(d.cbegin(), d.cend())): the first largest entry; the iterator is
    dereferenced (or used as an index) by every caller, which is undefined for an empty vector *)
Definition max_index (d : seq V) : outcome nat :=
  if d is _ :: _ then Ok (foldl (fun m i => if lt (nth v0 d m) (nth v0 d i) then i else m) 0 (iota 1 (size d).-1)) else UB.
(** the same for std::min_element *)
Definition min_index (d : seq V) : outcome nat :=
  if d is _ :: _ then Ok (foldl (fun m i => if lt (nth v0 d i) (nth v0 d m) then i else m) 0 (iota 1 (size d).-1)) else UB.

Variable D : nat -> nat -> V.
Variable n : nat.
(** metric.hpp 31-39: the distances from point i to all points; D[i] must exist *)
Definition row (i : nat) : outcome (seq V) := if i < n then Ok [seq D i j | j <- iota 0 n] else UB.
(** landmark.hpp 57-60, 98-101, 142-145, 186-189: d[k] = (d[k] < di[k]) ? d[k] : di[k] *)
Definition upd (d di : seq V) : seq V := [seq (if lt p.1 p.2 then p.1 else p.2) | p <- zip d di].

(** landmark.hpp 131-147, 176-191: the loop of greedy_landmarks_hausdorff; every round appends one index *)
Fixpoint glh_loop (fuel k : nat) (st : seq nat * seq V * seq V) : outcome (seq nat * seq V * seq V) :=
  if size st.1.1 < k then
    if fuel is fuel'.+1 then
      let: (inds, hds, d) := st in
      do i <- max_index d;
      do di <- row i;
      glh_loop fuel' k (rcons inds i, rcons hds (nth v0 d i), upd d di)
    else OutOfFuel
  else Ok st.
(** landmark.hpp 160-198 greedy_landmarks_hausdorff(D, dist, i0, k) *)
Definition glh_k (i0 k : nat) : outcome (seq nat * seq V) :=
  do d <- row i0;
  do st <- glh_loop k k ([:: i0], [::], d);
  do i <- max_index st.2;
  Ok (st.1.1, rcons st.1.2 (nth v0 st.2 i)).
(** landmark.hpp 114-153 greedy_landmarks_hausdorff(D, dist, i0): the last Hausdorff distance is not computed but set to 0 *)
Definition glh (i0 : nat) : outcome (seq nat * seq V) :=
  do d <- row i0;
  do st <- glh_loop n n ([:: i0], [::], d);
  Ok (st.1.1, rcons st.1.2 z).

(** std::set::insert *)
Definition set_insert (s : seq nat) (i : nat) : seq nat := if i \in s then s else sort leq (i :: s).
(** landmark.hpp 47-61: the loop of greedy_landmarks *)
Fixpoint greedy_loop (fuel k : nat) (inds : seq nat) (d : seq V) : outcome (seq nat) :=
  if size inds < k then
    if fuel is fuel'.+1 then
      do i <- max_index d;
      do di <- row i;
      greedy_loop fuel' k (set_insert inds i) (upd d di)
    else OutOfFuel
  else Ok inds.
(** landmark.hpp 37-64 greedy_landmarks(D, k, dist, i0) *)
Definition greedy_landmarks (fuel k i0 : nat) : outcome (seq nat) := do d <- row i0; greedy_loop fuel k [:: i0] d.

(** landmark.hpp 86-106: the loop of hausdorff_landmarks *)
Fixpoint haus_loop (fuel : nat) (r : V) (inds : seq nat) (d : seq V) : outcome (seq nat) :=
  do i <- max_index d;
  if lt r (nth v0 d i) then
    if fuel is fuel'.+1 then
      do di <- row i;
      haus_loop fuel' r (set_insert inds i) (upd d di)
    else OutOfFuel
  else Ok inds.
(** landmark.hpp 72-109 hausdorff_landmarks(D, r, dist, i0) *)
Definition hausdorff_landmarks (fuel : nat) (r : V) (i0 : nat) : outcome (seq nat) := do d <- row i0; haus_loop fuel r [:: i0] d.

(** landmark.hpp 253-289 approx_center(D, dist, k, i0); dim is D.dim() *)
Definition approx_center (dim k i0 : nat) : outcome nat :=
  let k := if k == 0 then dim.+1 else k in
  do d <- row i0;
  do st <- ofold (fun st _ =>
      do i <- max_index st.1;
      do di <- row i;
      Ok (upd st.1 di, [seq (if lt p.2 p.1 then p.1 else p.2) | p <- zip st.2 di])) (d, d) (iota 0 k);
  min_index st.2.

(** metric.hpp 192-203 enclosing_radius(D), nrow x ncol *)
Definition enclosing_radius (nrow ncol : nat) : V :=
  foldl (fun r_enc i =>
      let r_row := foldl (fun r j => if lt r (D i j) then D i j else r) z (iota 0 ncol) in
      if lt r_enc r_row then r_enc else r_row) top (iota 0 nrow).
End Val.

(** landmark.hpp 206-246 greedy_landmarks_hausdorff(pdist, i0) for an n x n matrix: starts with row i0 and goes on with the
    columns (linalg/naive_dense.hpp 185: pdist[i] is column i) *)
Definition glh_mat (V : eqType) (v0 z : V) (le : V -> V -> bool) (D : nat -> nat -> V) (n i0 : nat) : outcome (seq nat * seq V) :=
  do d <- row D n i0;
  do st <- glh_loop v0 le (fun i j => D j i) n n n ([:: i0], [::], d);
  Ok (st.1.1, rcons st.1.2 z).
