(** Model of include/topology/cover.hpp, include/topology/inclusion.hpp, include/util/set.hpp (set_union, set_intersection),
    util/permutation.hpp firstk and the functors Nerve and Rips of include/multigraph/functors.hpp 24-121.
    A std::set<size_t> is a strictly increasing list.  D i j is dist(X[i], X[j]) (or dist(X[i], L[j])); values as in M_Flag.
    coordinate_projection (cover.hpp 90-98) only reads a column of the data and is not modelled. *)
From mathcomp Require Import all_ssreflect all_algebra.
From Verif Require Import Outcome M_SparseVec M_ColMatrix M_Sorted M_Simplicial M_SimplicialMap M_Filtration M_Flag M_Nerve M_Landmark M_Functor.
Set Implicit Arguments.
Unset Strict Implicit.
Unset Printing Implicit Defensive.

(** util/set.hpp 10-19 set_union *)
Definition set_union (s1 s2 : seq nat) : seq nat := foldl set_insert (foldl set_insert [::] s1) s2.
(** util/set.hpp 24-43 set_intersection: the loop of intersect_sorted, elements emplaced at the end *)
Definition set_intersection (a b : seq nat) : seq nat := intersect_sorted a b.

(** inclusion.hpp 11-24 vertex_inclusion_map.  18-21: [t] is what is left from the iterator on, [ct] the counter; going past the
    end dereferences end() *)
Fixpoint advance (t : seq nat) (ct x : nat) : outcome (seq nat * nat) :=
  if t is y :: t' then if y != x then advance t' ct.+1 x else Ok (t, ct) else UB.
Fixpoint incl_loop (s t : seq nat) (ct : nat) : outcome (seq nat) :=
  if s is x :: s' then do r <- advance t ct x; do i <- incl_loop s' r.1 r.2; Ok (r.2 :: i) else Ok [::].
Definition vertex_inclusion_map (s t : seq nat) : outcome (seq nat) := incl_loop s t 0.

(** multigraph/diagram.hpp 46-54 add_node (with the index returned), 68-78 add_edge *)
Definition add_node N E (D : dgm N E) (x : N) : dgm N E * nat :=
  (Diagram (rcons (d_node D) x) (d_edata D) (d_elist D), size (d_node D)).
Definition add_edge N E (D : dgm N E) (i j : nat) (e : E) : dgm N E :=
  Diagram (d_node D) (rcons (d_edata D) e) (rcons (d_elist D) (i, j)).

(** inclusion.hpp 30-40 one round of linear_subset_union_diagram *)
Definition union_step (subsets : seq (seq nat)) (D : dgm (seq nat) (seq nat)) (i : nat) : outcome (dgm (seq nat) (seq nat)) :=
  do si <- oget subsets i;
  let: (D1, i1) := add_node D si in
  do D2 <- (if 0 < i then
              do a <- oget (d_node D1) i1; do b <- oget (d_node D1) i1.-1;
              do f <- vertex_inclusion_map a b; Ok (add_edge D1 i1 i1.-1 f)
            else Ok D1);
  if i == (size subsets).-1 then Ok D2 else
  do sj <- oget subsets i.+1;
  let: (D3, i2) := add_node D2 (set_union si sj) in
  do a <- oget (d_node D3) i1; do b <- oget (d_node D3) i2;
  do f <- vertex_inclusion_map a b;
  Ok (add_edge D3 i1 i2 f).
(** inclusion.hpp 26-43 linear_subset_union_diagram; the break (35) is in the last round *)
Definition linear_subset_union_diagram (subsets : seq (seq nat)) : outcome (dgm (seq nat) (seq nat)) :=
  ofold (union_step subsets) (Diagram [::] [::] [::]) (iota 0 (size subsets)).

(** inclusion.hpp 49-59 one round of linear_cover_intersection_diagram.  53: the target of the edge is i, not i1 *)
Definition inter_step (cover : seq (seq nat)) (D : dgm (seq nat) (seq nat)) (i : nat) : outcome (dgm (seq nat) (seq nat)) :=
  do ci <- oget cover i;
  let: (D1, i1) := add_node D ci in
  do D2 <- (if 0 < i then
              do a <- oget (d_node D1) i1.-1; do b <- oget (d_node D1) i1;
              do f <- vertex_inclusion_map a b; Ok (add_edge D1 i1.-1 i f)
            else Ok D1);
  if i == (size cover).-1 then Ok D2 else
  do cj <- oget cover i.+1;
  let: (D3, i2) := add_node D2 (set_intersection ci cj) in
  do a <- oget (d_node D3) i2; do b <- oget (d_node D3) i1;
  do f <- vertex_inclusion_map a b;
  Ok (add_edge D3 i2 i1 f).
(** inclusion.hpp 45-62 linear_cover_intersection_diagram *)
Definition linear_cover_intersection_diagram (cover : seq (seq nat)) : outcome (dgm (seq nat) (seq nat)) :=
  ofold (inter_step cover) (Diagram [::] [::] [::]) (iota 0 (size cover)).

(** cover.hpp 129-136, 158-163: cover[j].emplace(i) *)
Definition emplace (cover : seq (seq nat)) (j i : nat) : outcome (seq (seq nat)) :=
  do c <- oget cover j; oset cover j (set_insert c i).

(** util/permutation.hpp 138-156 firstk.  [p] is the permutation std::partial_sort leaves (its order is not determined by the
    values when there are ties); perm.begin() + k must be in the range *)
Definition firstk (p : seq nat) (n k : nat) : outcome (seq nat) := if k <= n then Ok (take k p) else UB.
(** cover.hpp 119-137 landmark_cover(X, L, dist, k) with neighborhoods(X, L, dist, k) (neighborhood.hpp 71-88); [p i] is the
    permutation for the distances from X[i] to the landmarks *)
Definition landmark_cover (p : nat -> seq nat) (nX nL k : nat) : outcome (seq (seq nat)) :=
  do ns <- omapm (fun i => firstk (p i) nL k) (iota 0 nX);
  ofold (fun cover i => do l <- oget ns i; ofold (fun cover j => emplace cover j i) cover l) (nseq nL [::]) (iota 0 nX).

Section Val.
Variable V : eqType.
Variable v0 : V.
Variable le : V -> V -> bool.
Variable add : V -> V -> V.   (* + on T *)
Notation lt a b := (~~ le b a).

(** cover.hpp 143-168 landmark_eps_cover(X, L, dist, eps); D i j is dist(X[i], L[j]); without landmarks *it is not read *)
Definition landmark_eps_cover (D : nat -> nat -> V) (nX nL : nat) (eps : V) : outcome (seq (seq nat)) :=
  ofold (fun cover i =>
    let di := [seq D i j | j <- iota 0 nL] in
    ofold (fun cover j =>
      do it <- min_index v0 le di;
      if lt (nth v0 di j) (add (nth v0 di it) eps) then emplace cover j i else Ok cover) cover (iota 0 nL))
  (nseq nL [::]) (iota 0 nX).
End Val.

(** cover.hpp 176-204 bivariate_cover: the sets and the two maps *)
Definition bivariate_cover (cover1 cover2 : seq (seq nat)) : outcome (seq (seq nat) * seq nat * seq nat) :=
  ofold (fun st i =>
    ofold (fun st j =>
      do a <- oget cover1 i; do b <- oget cover2 j;
      let c := intersect_sorted a b in
      let: (c12, f1, f2) := st in
      if 0 < size c then Ok (rcons c12 c, rcons f1 i, rcons f2 j) else Ok st) st (iota 0 (size cover2)))
  ([::], [::], [::]) (iota 0 (size cover1)).

(** cover.hpp 28-86 uniform_interval_cover, with rationals for double (exact arithmetic).  [W] is 2^64; [conv] is what the
    conversion (size_t) does to a negative value (undefined in C++).  The bin fits an int; nsets = 0 (an infinite bin_width) is
    not modelled.  A width of 0 makes the offset 0/0. *)
Section Interval.
Import GRing.Theory.
Local Open Scope ring_scope.
Variable W : nat.
Variable conv : int -> outcome nat.
Definition qfloor (q : rat) : int := (numq q %/ denq q)%Z.
Definition to_size (z : int) : outcome nat := if z is Posz n then if (n < W)%N then Ok n else UB else conv z.
(** 28-37 assign_set_lower; None is -1 *)
Definition assign_lower (v minv w : rat) (nsets : nat) : outcome (option nat) :=
  do c <- to_size (qfloor ((v - minv) / w));
  let bin := ((c * 2) %% W)%N in
  Ok (if ~~ (bin < nsets)%N then None else Some bin).
(** 40-48 assign_set_upper *)
Definition assign_upper (v minv w : rat) (nsets : nat) : outcome (option nat) :=
  do c <- to_size (qfloor ((v - minv) / w - 1 / 2%:R));
  let bin := ((1 + c * 2) %% W)%N in
  Ok (if ~~ (0 < bin)%N || ~~ (bin < nsets)%N then None else Some bin).
Definition rmin (a : rat) (l : seq rat) : rat := foldl (fun m y => if y < m then y else m) a l.
Definition rmax (a : rat) (l : seq rat) : rat := foldl (fun m y => if y < m then m else y) a l.
(** 58-86 *)
Definition uniform_interval_cover (x : seq rat) (nsets : nat) : outcome (seq (seq nat)) :=
  if x is a :: l then
    let minv := rmin a l in let maxv := rmax a l in
    let w := (maxv - minv) * 2%:R / nsets%:R in
    if w == 0 then UB else
    ofold (fun cover i =>
      do v <- oget x i;
      do bl <- assign_lower v minv w nsets;
      do bu <- assign_upper v minv w nsets;
      do cover1 <- (if bl is Some b then emplace cover b i else Ok cover);
      if bu is Some b then emplace cover1 b i else Ok cover1) (nseq nsets [::]) (iota 0 (size x))
  else UB.
End Interval.

(** functors.hpp 24-51 Nerve(D, dmax) on a diagram of covers *)
Definition NerveFunctor (dmax : nat) : seq nat -> seq nat -> dgm (seq (seq nat)) (seq nat) -> outcome (dgm scx (seq (cmat int))) :=
  functor (sc_new 0) [::] (fun C => nerve C dmax) (fun f Xs Xt => simplicial_map Xs Xt f).

Section Rips.
Variable V : eqType.
Variable le : V -> V -> bool.
Notation lt a b := (~~ le b a).
Variable D : nat -> nat -> V.
Variable n : nat.
(** cover.hpp 101-117 get_subset and RipsComplex on the result: point a of the subset is the a-th element of ind; a point that does
    not exist is read outside the matrix *)
Definition rips_subset (rmax : V) (dmax : nat) (ind : seq nat) : outcome scx :=
  if all (fun i => i < n) ind then rips_complex_data le (fun a b => D (nth 0 ind a) (nth 0 ind b)) (size ind) rmax dmax else UB.
(** functors.hpp 55-85 Rips(D, X, dist, rmax, dmax) *)
Definition RipsFunctor (rmax : V) (dmax : nat) : seq nat -> seq nat -> dgm (seq nat) (seq nat) -> outcome (dgm scx (seq (cmat int))) :=
  functor (sc_new 0) [::] (rips_subset rmax dmax) (fun f Xs Xt => simplicial_map Xs Xt f).
(** functors.hpp 90-121 Rips(D, X, dist, rmax, dmax) with one radius for each node *)
Definition RipsFunctor_var (rmax : seq V) (dmax : nat) (ordn orde : seq nat) (Dg : dgm (seq nat) (seq nat)) : outcome (dgm scx (seq (cmat int))) :=
  do nodes <- fill (fun i => do x <- oget (d_node Dg) i; do r <- oget rmax i; rips_subset r dmax x) (nseq (size (d_node Dg)) (sc_new 0)) ordn;
  do edges <- fill (fun j => do e <- oget (d_elist Dg) j;
                      do rt <- oget rmax e.2; do rs <- oget rmax e.1;
                      if lt rt rs then Throw else
                      do x <- oget (d_edata Dg) j; do ns <- oget nodes e.1; do nt <- oget nodes e.2;
                      do y <- simplicial_map ns nt x; Ok (y, (e.1, e.2)))
                   (nseq (size (d_edata Dg)) ([::], (0, 0))) orde;
  Ok (Diagram nodes (map fst edges) (map snd edges)).
End Rips.
