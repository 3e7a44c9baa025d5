(** Model of include/topology/nerve.hpp, neighborhood.hpp, dowker.hpp, dowker_cover.hpp and rips_cover.hpp.
    A Cover is a list of strictly increasing lists (std::set<size_t>).  A matrix of distances that is only read is a
    function with its numbers of rows and columns; where entries are written (witness_edge_param) it is a list of rows.
    Values as in M_Flag: [le] is <= on T, a < b is ~~ (b <= a); NaN is not modelled. *)
From mathcomp Require Import all_ssreflect all_algebra.
From Verif Require Import Outcome M_Sorted M_Simplicial M_Filtration M_Flag.
Set Implicit Arguments.
Unset Strict Implicit.
Unset Printing Implicit Defensive.

(** nerve.hpp 14-45 add_dimension_recursive_nerve.  24: kmax is the smallest vertex of spx.  The recursion ends when spx
    has more than dmax vertices: fuel dmax + 1 - size spx suffices. *)
Fixpoint nerve_rec (fuel : nat) (N : scx) (spx : seq nat) (cover : seq (seq nat)) (inter : seq nat) (dmax : nat) : outcome scx :=
  if fuel is fuel'.+1 then
    let dim := (size spx).-1 in
    if dmax <= dim then Ok N else
    if spx is v :: spx' then
      let kmax := foldl minn v spx' in
      ofold (fun N k =>
        do ck <- oget cover k;
        let ik := intersect_sorted ck inter in
        if 0 < size ik then
          do r <- sc_add N (push_sorted spx k);
          if dim.+1 < dmax then nerve_rec fuel' r.1 (push_sorted spx k) cover ik dmax else Ok r.1
        else Ok N) N (iota 0 kmax)
    else UB
  else OutOfFuel.

(** nerve.hpp 62-76 the loop over j for a fixed i *)
Definition nerve_vertex (cover : seq (seq nat)) (dmax : nat) (N : scx) (i : nat) : outcome scx :=
  do r <- sc_add N [:: i];
  ofold (fun N j =>
    do ci <- oget cover i; do cj <- oget cover j;
    let inter := intersect_sorted ci cj in
    if 0 < size inter then
      do r <- sc_add N [:: j; i];
      if 1 < dmax then nerve_rec dmax r.1 [:: j; i] cover inter dmax else Ok r.1
    else Ok N) r.1 (iota 0 i).
(** nerve.hpp 50-79 Nerve(cover, dmax) *)
Definition nerve (cover : seq (seq nat)) (dmax : nat) : outcome scx :=
  ofold (nerve_vertex cover dmax) (sc_new dmax) (iota 0 (size cover)).

Section Val.
Variable V : eqType.
Variable v0 : V.
Variable le : V -> V -> bool.
Notation lt a b := (~~ le b a).

(** neighborhood.hpp 98-113 neighborhoods(pdist, eps): emplace_hint at the end of a set whose elements are smaller *)
Definition neighborhoods_mat (D : nat -> nat -> V) (nrow ncol : nat) (eps : V) : seq (seq nat) :=
  foldl (fun nbrs j => [seq (if le (D i j) eps then rcons (nth [::] nbrs i) j else nth [::] nbrs i) | i <- iota 0 nrow])
    (nseq nrow [::]) (iota 0 ncol).

(** neighborhood.hpp 15-31 neighborhood(x, X, dist, r): d i is dist(x, X[i]) *)
Definition neighborhood_r (d : nat -> V) (n : nat) (r : V) : seq nat := [seq i <- iota 0 n | lt (d i) r].
(** neighborhood.hpp 50-66 neighborhoods(X, Y, dist, r): the vector already has X.size() entries when the answers are
    appended.  The loop is parallel and emplace_back is not synchronised; this is the outcome of one thread. *)
Definition neighborhoods_r (D : nat -> nat -> V) (nX nY : nat) (r : V) : seq (seq nat) :=
  foldl (fun nbrs i => rcons nbrs (neighborhood_r (D i) nY r)) (nseq nX [::]) (iota 0 nX).

(** std::min(a, b), std::max(a, b) *)
Definition smin (a b : V) : V := if lt b a then b else a.
Definition smax (a b : V) : V := if lt a b then b else a.
(** dowker.hpp 58-68 dowker_edge_param(pdist, i, j); top is numeric_limits<T>::max() *)
Variable top : V.
Definition dowker_param (D : nat -> nat -> V) (ncol i j : nat) : V :=
  foldl (fun R k => smin R (smax (D i k) (D j k))) top (iota 0 ncol).
(** dowker.hpp 73-90 dowker_edge_param(pdist): below the diagonal computed, above it copied; the diagonal is not set *)
Definition dowker_mat (D : nat -> nat -> V) (ncol i j : nat) : V :=
  if j < i then dowker_param D ncol i j else if i < j then dowker_param D ncol j i else v0.
(** dowker.hpp 259-277 flag_filtration_edges(pdist, rmax) *)
Definition flag_fedges (R : nat -> nat -> V) (n : nat) (rmax : V) : seq (fedge V) :=
  fe_sort le [seq FEdge p.1 p.2 (R p.1 p.2) | p <- [seq p <- [seq (i, j) | i <- iota 0 n, j <- iota 0 i] | lt (R p.1 p.2) rmax]].
(** dowker.hpp 298-309 DowkerFiltration(pdist, rmax, dmax), 312-323; z is T(0) *)
Definition dowker_filtration (z : V) (D : nat -> nat -> V) (nrow ncol : nat) (rmax : V) (dmax : nat) : outcome (filt V) :=
  flag_filtration v0 le (flag_fedges (dowker_mat D ncol) nrow rmax) nrow dmax z.

(** rips_cover.hpp 26-42, dowker_cover.hpp 30-46: the pairs *iit, *jit of one set *)
Fixpoint pairs_lt (U : seq nat) : seq (nat * nat) := if U is i :: U' then [seq (i, j) | j <- U'] ++ pairs_lt U' else [::].
(** rips_cover.hpp 18-49 rips_filtration_edges(X, cover, dist, rmax), dowker_cover.hpp 21-53 dowker_filtration_edges;
    E i j is dist(X[i], X[j]) or dowker_edge_param(pdist, i, j).  The std::set orders edges by a total order, so its
    elements in order are the sorted list without repetitions. *)
Definition cover_fedges (E : nat -> nat -> V) (cover : seq (seq nat)) (rmax : V) : seq (fedge V) :=
  fe_sort le (undup [seq FEdge p.1 p.2 (E p.1 p.2) | p <- [seq p <- flatten [seq pairs_lt U | U <- cover] | lt (E p.1 p.2) rmax]]).
(** rips_cover.hpp 53-64 RipsFiltration(X, cover, dist, rmax, dmax) *)
Definition rips_cover_filtration (z : V) (D : nat -> nat -> V) (n : nat) (cover : seq (seq nat)) (rmax : V) (dmax : nat) :=
  flag_filtration v0 le (cover_fedges D cover rmax) n dmax z.
(** dowker_cover.hpp 56-65 DowkerFiltration(pdist, cover, rmax, dmax) *)
Definition dowker_cover_filtration (z : V) (D : nat -> nat -> V) (nrow ncol : nat) (cover : seq (seq nat)) (rmax : V) (dmax : nat) :=
  flag_filtration v0 le (cover_fedges (dowker_param D ncol) cover rmax) nrow dmax z.

(** ** witness complexes *)
(** dowker.hpp 19-36 increment_m, one column col with current value m *)
Definition next_m (col : seq V) (m : V) : V :=
  foldl (fun mj d => if lt mj d then mj else if lt m d then d else mj) top col.
(** dowker.hpp 40-54 get_m; z is T(0); column j of P *)
Definition get_m (z : V) (D : nat -> nat -> V) (nrow ncol nu : nat) : seq V :=
  [seq iter nu (next_m [seq D i j | i <- iota 0 nrow]) z | j <- iota 0 ncol].
Variable sub : V -> V -> V.
(** dowker.hpp 109-114: both loops run to the number of columns *)
Definition witness_shift (z : V) (P : seq (seq V)) (m : seq V) (nX : nat) : outcome (seq (seq V)) :=
  ofold (fun P j => ofold (fun P i =>
      do r <- oget P i; do x <- oget r j; do mj <- oget m j;
      let y := sub x mj in
      do r' <- oset r j (if lt z y then y else z); oset P i r') P (iota 0 nX)) P (iota 0 nX).
(** dowker.hpp 95-117 witness_edge_param(X, L, dist, nu): D i j is dist(L[i], X[j]); the entries below the diagonal *)
Definition witness_param (z : V) (D : nat -> nat -> V) (nL nX nu : nat) : outcome (nat -> nat -> V) :=
  do P <- witness_shift z [seq [seq D i j | j <- iota 0 nX] | i <- iota 0 nL] (get_m z D nL nX nu) nX;
  Ok (dowker_mat (fun i j => nth v0 (nth [::] P i) j) nX).
(** dowker.hpp 281-294 WitnessFiltration *)
Definition witness_filtration (z : V) (D : nat -> nat -> V) (nL nX : nat) (rmax : V) (dmax : nat) : outcome (filt V) :=
  do R <- witness_param z D nL nX 0; flag_filtration v0 le (flag_fedges R nL rmax) nL dmax z.
End Val.

(** dowker.hpp 178-214 WitnessComplex(X, L, dist, dmax): nbrs[i] is what neighborhoods(X, L, dist, dmax + 1) returned *)
Definition witness_complex (nbrs : seq (seq nat)) (nL dmax : nat) : outcome scx :=
  do W <- ofold (fun W i => do r <- sc_add W [:: i]; Ok r.1) (sc_new dmax) (iota 0 nL);
  ofold (fun W dim => ofold (fun W nb =>
      do spx <- omapm (oget nb) (iota 0 dim.+1); do r <- sc_add W spx; Ok r.1) W nbrs) W (iota 1 dmax).
