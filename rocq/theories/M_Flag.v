(** Model of include/filtration/flag.hpp, include/topology/flag.hpp and include/topology/rips.hpp with
    CpxT = SimplicialComplex.
    Simplifications: the value type is an eqType with a boolean <= that the theorems assume total and antisymmetric (no
    NaN); std::sort is mathcomp's sort with the same comparison (the order on filtered edges is total, so every correct
    sort returns the same list); reserve and shrink_to_fit only change capacities; a data set with a metric and a
    distance matrix are both the function D, D i j being dist(X[i], X[j]) or pdist(i, j). *)
From mathcomp Require Import all_ssreflect all_algebra.
From Verif Require Import Outcome M_Sorted M_Simplicial M_Filtration.
Set Implicit Arguments.
Unset Strict Implicit.
Unset Printing Implicit Defensive.

(** util/sorted.hpp 129-137 sort_into applied to spx_idxs with k pushed back (51-54, 66-69) *)
Definition push_sorted (spx : seq nat) (k : nat) : seq nat := sort leq (rcons spx k).

Section Flag.
Variable V : eqType.
Variable v0 : V.                 (* T() *)
Variable le : V -> V -> bool.    (* <= on T *)

(** filtration/flag.hpp 16-24 filtered_edge *)
Record fedge := FEdge { fe_s : nat; fe_t : nat; fe_r : V }.

(** equality of edges is equality of the three fields (used to speak of edge lists) *)
Definition fe_code (e : fedge) : nat * nat * V := (fe_s e, fe_t e, fe_r e).
Definition fe_decode (c : nat * nat * V) : fedge := FEdge c.1.1 c.1.2 c.2.
Lemma fe_codeK : cancel fe_code fe_decode. Proof. by case. Qed.
Definition fedge_eqMixin := CanEqMixin fe_codeK.
Canonical fedge_eqType := Eval hnf in EqType fedge fedge_eqMixin.

(** 26-32 operator<; a < b on T is ~~ (b <= a) *)
Definition fe_lt (a b : fedge) : bool :=
  if ~~ le (fe_r b) (fe_r a) then true
  else if (fe_r a == fe_r b) && (fe_s a < fe_s b) then true
  else if [&& fe_r a == fe_r b, fe_s a == fe_s b & fe_t a < fe_t b] then true
  else false.

(** 287 std::sort(edges) *)
Definition fe_sort (es : seq fedge) : seq fedge := sort (fun a b => ~~ fe_lt b a) es.

(** 37-82 add_dimension_recursive_flag.  The recursion stops at d = maxd: fuel maxd + 1 - d suffices for d <= maxd. *)
Fixpoint flag_rec (fuel : nat) (F : filt V) (nbrs : seq (seq nat)) (d maxd : nat) (iter spx : seq nat) (t : V) :
    outcome (filt V) :=
  if fuel is fuel'.+1 then
    if d == maxd then
      ofold (fun F k => do r <- fl_add v0 F t (push_sorted spx k); Ok r.1) F iter
    else
      ofold (fun F k =>
        do r <- fl_add v0 F t (push_sorted spx k);
        do nk <- oget nbrs k;
        flag_rec fuel' r.1 nbrs d.+1 maxd (intersect_sorted_lt k iter nk) (push_sorted spx k) t) F iter
  else OutOfFuel.

(** 330-333 nbrs[i].emplace_back(j), sort; nbrs[j].emplace_back(i), sort *)
Definition add_nbrs (nbrs : seq (seq nat)) (i j : nat) : outcome (seq (seq nat)) :=
  do ni <- oget nbrs i;
  do nbrs1 <- oset nbrs i (sort leq (rcons ni j));
  do nj <- oget nbrs1 j;
  oset nbrs1 j (sort leq (rcons nj i)).

(** 312-333 one edge; 317 sorts spx_idxs *)
Definition flag_edge (maxdim : nat) (st : filt V * seq (seq nat)) (e : fedge) : outcome (filt V * seq (seq nat)) :=
  let: (F, nbrs) := st in
  let spx := sort leq [:: fe_s e; fe_t e] in
  do r <- fl_add v0 F (fe_r e) spx;
  do ni <- oget nbrs (fe_s e); do nj <- oget nbrs (fe_t e);
  let iter := intersect_sorted ni nj in
  do F2 <- (if (iter != [::]) && (1 < maxdim) then flag_rec maxdim r.1 nbrs 2 maxdim iter spx (fe_r e) else Ok r.1);
  do nbrs' <- add_nbrs nbrs (fe_s e) (fe_t e);
  Ok (F2, nbrs').

(** 295-336: the vertices, then the edges in the order given *)
Definition flag_loop (es : seq fedge) (n maxdim : nat) (t0 : V) : outcome (filt V) :=
  do F0 <- fl_of v0 (sc_new maxdim);
  do F1 <- ofold (fun F k => do r <- fl_add v0 F t0 [:: k]; Ok r.1) F0 (iota 0 n);
  do st <- ofold (flag_edge maxdim) (F1, nseq n [::]) es;
  Ok st.1.

(** 279-337 FlagFiltration *)
Definition flag_filtration (es : seq fedge) (n maxdim : nat) (t0 : V) : outcome (filt V) :=
  flag_loop (fe_sort es) n maxdim t0.

(** 87-136 add_dimension_recursive_flag_extension, with the lists inds *)
Definition ind_push (inds : seq (seq nat)) (k ix : nat) : outcome (seq (seq nat)) :=
  do v <- oget inds k; oset inds k (rcons v ix).
Fixpoint flagx_rec (fuel : nat) (st : filt V * seq (seq nat)) (nbrs : seq (seq nat)) (d maxd : nat) (iter spx : seq nat)
    (t : V) (ix : nat) : outcome (filt V * seq (seq nat)) :=
  if fuel is fuel'.+1 then
    if d == maxd then
      ofold (fun st k => let s := push_sorted spx k in
        do r <- fl_add v0 st.1 t s; do inds <- ind_push st.2 (size s).-1 ix; Ok (r.1, inds)) st iter
    else
      ofold (fun st k => let s := push_sorted spx k in
        do r <- fl_add v0 st.1 t s; do inds <- ind_push st.2 (size s).-1 ix;
        do nk <- oget nbrs k;
        flagx_rec fuel' (r.1, inds) nbrs d.+1 maxd (intersect_sorted_lt k iter nk) s t ix) st iter
  else OutOfFuel.

(** 378-400 one edge: ix is its position k *)
Definition flagx_edge (maxdim : nat) (st : filt V * seq (seq nat) * seq (seq nat)) (p : nat * fedge) :
    outcome (filt V * seq (seq nat) * seq (seq nat)) :=
  let: (F, inds, nbrs) := st in let: (ix, e) := p in
  let spx := sort leq [:: fe_s e; fe_t e] in
  do r <- fl_add v0 F (fe_r e) spx;
  do inds1 <- ind_push inds 1 ix;
  do ni <- oget nbrs (fe_s e); do nj <- oget nbrs (fe_t e);
  let iter := intersect_sorted ni nj in
  do F2 <- (if (iter != [::]) && (1 < maxdim)
            then flagx_rec maxdim (r.1, inds1) nbrs 2 maxdim iter spx (fe_r e) ix else Ok (r.1, inds1));
  do nbrs' <- add_nbrs nbrs (fe_s e) (fe_t e);
  Ok (F2, nbrs').

(** 341-404 FlagFiltration_extension: the filtration and inds.  375 inds[1].reserve(m) with maxdim = 0 is outside the
    vector. *)
Definition flag_extension (es : seq fedge) (n maxdim : nat) (t0 : V) : outcome (filt V * seq (seq nat)) :=
  do F0 <- fl_of v0 (sc_new maxdim);
  do st1 <- ofold (fun st k => do r <- fl_add v0 st.1 t0 [:: k]; do inds <- ind_push st.2 0 k; Ok (r.1, inds))
                  (F0, nseq maxdim.+1 [::]) (iota 0 n);
  do _ <- oget st1.2 1;
  let es' := fe_sort es in
  do st <- ofold (flagx_edge maxdim) (st1, nseq n [::]) (zip (iota 0 (size es')) es');
  Ok st.1.

(** 414-478 CompleteFlagFiltration(edges, t, n, maxdim, t0), the pair (X, F).  es is the list of (edges[2k], edges[2k+1],
    t[k]), so that the first assert (427) holds; the second (428: all pairs are edges) is not needed.  X is copied into F
    before anything is added.  add sorts spx_idxs in place.  Here nbrs is updated before the recursion.
    add_dimension_recursive_flag_unsafe (139-183) is line for line the function modelled by flag_rec; 442 with n - d
    wrapping around only changes capacities; dims has at least the entries n and m. For maxdim < 2 the recursion starts beyond maxdim and only ends when
    the index lists are empty, hence the fuel. *)
Definition complete_edge (n maxdim : nat) (st : filt V * seq (seq nat)) (e : fedge) : outcome (filt V * seq (seq nat)) :=
  let: (F, nbrs) := st in
  do r <- fl_add v0 F (fe_r e) [:: fe_s e; fe_t e];
  let spx := sort leq [:: fe_s e; fe_t e] in
  do ni <- oget nbrs (fe_s e); do nj <- oget nbrs (fe_t e);
  let iter := intersect_sorted ni nj in
  do nbrs' <- add_nbrs nbrs (fe_s e) (fe_t e);
  do F2 <- flag_rec (maxdim + n).+1 r.1 nbrs' 2 maxdim iter spx (fe_r e);
  Ok (F2, nbrs').
Definition complete_flag (es : seq fedge) (n maxdim : nat) (t0 : V) : outcome (scx * filt V) :=
  let X := sc_new (maxn maxdim 1) in
  do F0 <- fl_of v0 X;
  do F1 <- ofold (fun F k => do r <- fl_add v0 F t0 [:: k]; Ok r.1) F0 (iota 0 n);
  do st <- ofold (complete_edge n maxdim) (F1, nseq n [::]) es;
  Ok (X, st.1).

(** topology/rips.hpp 38-57 rips_filtration_edges(X, dist, rmax) *)
Definition rips_fedges_data (D : nat -> nat -> V) (n : nat) (rmax : V) : seq fedge :=
  fe_sort [seq FEdge p.1 p.2 (D p.1 p.2) | p <- [seq p <- [seq (i, j) | i <- iota 0 n, j <- iota 0 i] | le (D p.1 p.2) rmax]].
(** 60-77 rips_filtration_edges(pdist, rmax) *)
Definition rips_fedges_mat (D : nat -> nat -> V) (n : nat) (rmax : V) : seq fedge :=
  [seq FEdge p.2 p.1 (D p.2 p.1) | p <- [seq p <- [seq (j, i) | j <- iota 0 n, i <- iota 0 j] | le (D p.2 p.1) rmax]].
(** 130-140 RipsFiltration(X, dist, rmax, dmax); z is T(0) *)
Definition rips_filtration_data (z : V) (D : nat -> nat -> V) (n : nat) (rmax : V) (dmax : nat) : outcome (filt V) :=
  flag_filtration (rips_fedges_data D n rmax) n dmax z.
(** 142-151 RipsFiltration(pdist, rmax, dmax) *)
Definition rips_filtration_mat (z : V) (D : nat -> nat -> V) (n : nat) (rmax : V) (dmax : nat) : outcome (filt V) :=
  flag_filtration (rips_fedges_mat D n rmax) n dmax z.
(** 155-176 RipsFiltration_extension *)
Definition rips_extension_data (z : V) (D : nat -> nat -> V) (n : nat) (rmax : V) (dmax : nat) :=
  flag_extension (rips_fedges_data D n rmax) n dmax z.
Definition rips_extension_mat (z : V) (D : nat -> nat -> V) (n : nat) (rmax : V) (dmax : nat) :=
  flag_extension (rips_fedges_mat D n rmax) n dmax z.

(** 19-35 rips_edges(X, dist, rmax) *)
Definition rips_edges_data (D : nat -> nat -> V) (n : nat) (rmax : V) : seq nat :=
  flatten [seq [:: p.2; p.1] | p <- [seq p <- [seq (i, j) | i <- iota 0 n, j <- iota 0 i] | le (D p.1 p.2) rmax]].
(** 80-95 rips_edges(pdist, rmax) *)
Definition rips_edges_mat (D : nat -> nat -> V) (n : nat) (rmax : V) : seq nat :=
  flatten [seq [:: p.2; p.1] | p <- [seq p <- [seq (j, i) | j <- iota 0 n, i <- iota 0 j] | le (D p.2 p.1) rmax]].
End Flag.

(** topology/flag.hpp 7-52 add_dimension_recursive_flag on a complex *)
Fixpoint cflag_rec (fuel : nat) (X : scx) (nbrs : seq (seq nat)) (d maxd : nat) (iter spx : seq nat) : outcome scx :=
  if fuel is fuel'.+1 then
    if d == maxd then
      ofold (fun X k => do r <- sc_add X (push_sorted spx k); Ok r.1) X iter
    else if d < maxd then
      ofold (fun X k =>
        do r <- sc_add X (push_sorted spx k);
        do nk <- oget nbrs k;
        cflag_rec fuel' r.1 nbrs d.+1 maxd (intersect_sorted_lt k iter nk) (push_sorted spx k)) X iter
    else Ok X
  else OutOfFuel.

(** 91-110 one edge; spx_idxs is not sorted here, but add sorts its argument in place *)
Definition cflag_edge (maxdim : nat) (st : scx * seq (seq nat)) (e : nat * nat) : outcome (scx * seq (seq nat)) :=
  let: (X, nbrs) := st in
  do r <- sc_add X [:: e.1; e.2];
  let spx := sort leq [:: e.1; e.2] in
  do ni <- oget nbrs e.1; do nj <- oget nbrs e.2;
  let iter := intersect_sorted ni nj in
  do X2 <- (if iter != [::] then cflag_rec maxdim.+1 r.1 nbrs 2 maxdim iter spx else Ok r.1);
  do nbrs' <- add_nbrs nbrs e.1 e.2;
  Ok (X2, nbrs').

(** 90-92: the pairs (edges[2k], edges[2k+1]) *)
Fixpoint edge_pairs (l : seq nat) : seq (nat * nat) :=
  if l is a :: b :: l' then (a, b) :: edge_pairs l' else [::].

(** 59-114 FlagComplex *)
Definition flag_complex (edges : seq nat) (n maxdim : nat) : outcome scx :=
  if size edges != 2 * (size edges %/ 2) then Throw
  else
    do X1 <- ofold (fun X k => do r <- sc_add X [:: k]; Ok r.1) (sc_new maxdim) (iota 0 n);
    do st <- ofold (cflag_edge maxdim) (X1, nseq n [::]) (edge_pairs edges);
    Ok st.1.

(** topology/rips.hpp 106-127 RipsComplex *)
Definition rips_complex_data (V : eqType) (le : V -> V -> bool) (D : nat -> nat -> V) (n : nat) (rmax : V) (dmax : nat) : outcome scx :=
  flag_complex (rips_edges_data le D n rmax) n dmax.
Definition rips_complex_mat (V : eqType) (le : V -> V -> bool) (D : nat -> nat -> V) (n : nat) (rmax : V) (dmax : nat) : outcome scx :=
  flag_complex (rips_edges_mat le D n rmax) n dmax.
