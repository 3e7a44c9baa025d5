(** Model of include/topology/zigzag_zoo.hpp: the Rips zigzags of Oudot and Sheehy.
    D i j is dist(D[i], D[j]), n the number of points; [le] is <= on T, [mul] is * on T, [z] is 0; NaN is not modelled.
    The multiplier eta of get_dM_ZZ_inds, (3 rho + 20) / (10 theta rho + 20) with theta = sqrt(dim / (2 dim + 1)) (line 33),
    is a parameter: the square root is not modelled. *)
From mathcomp Require Import all_ssreflect all_algebra.
From Verif Require Import Outcome M_SparseVec M_ColMatrix M_Simplicial M_Functor M_Landmark M_Cover.
Set Implicit Arguments.
Unset Strict Implicit.
Unset Printing Implicit Defensive.

(** multigraph/diagram.hpp 29-33 Diagram(n, m), 52-59 set_node, 80-83 set_edge *)
Definition dgm_alloc (n m : nat) : dgm (seq nat) (seq nat) := Diagram (nseq n [::]) (nseq m [::]) (nseq m (0, 0)).
Definition set_node (G : dgm (seq nat) (seq nat)) (i : nat) (s : seq nat) : outcome (dgm (seq nat) (seq nat)) :=
  do ns <- oset (d_node G) i s; Ok (Diagram ns (d_edata G) (d_elist G)).
Definition set_edge (G : dgm (seq nat) (seq nat)) (j s t : nat) (f : seq nat) : outcome (dgm (seq nat) (seq nat)) :=
  do es <- oset (d_edata G) j f; do l <- oset (d_elist G) j (s, t); Ok (Diagram (d_node G) es l).

(** zigzag_zoo.hpp 103-121 (and 189-204): inclusions for the edges 2i -> 2i+1 <- 2i+2 *)
Definition zoo_edges (G : dgm (seq nat) (seq nat)) (n : nat) : outcome (dgm (seq nat) (seq nat)) :=
  ofold (fun G i =>
    do a <- oget (d_node G) (2 * i); do b <- oget (d_node G) (2 * i).+1;
    do f <- vertex_inclusion_map a b;
    do G1 <- set_edge G (2 * i) (2 * i) (2 * i).+1 f;
    do a <- oget (d_node G1) (2 * i).+2; do b <- oget (d_node G1) (2 * i).+1;
    do f <- vertex_inclusion_map a b;
    set_edge G1 (2 * i).+1 (2 * i).+2 (2 * i).+1 f) G (iota 0 n.-1).

Section Val.
Variable V : eqType.
Variable v0 z : V.
Variable le : V -> V -> bool.
Variable mul : V -> V -> V.
Notation lt a b := (~~ le b a).

(** zigzag_zoo.hpp 27-50 get_dM_ZZ_inds; hds2.back() is the second component *)
Definition get_dM_inds (hds : seq V) (eta : V) : outcome (seq nat) :=
  do h0 <- oget hds 0;
  do st <- ofold (fun st i =>
      do h <- oget hds i;
      Ok (if ~~ lt (mul eta st.2) h then (rcons st.1 i, h) else st)) ([:: 0], h0) (iota 1 (size hds).-1);
  Ok st.1.

(** 85-87: put landmarks in the set until it has more than m elements; *indit past the end is undefined *)
Fixpoint fill_set (m : nat) (s rest : seq nat) : outcome (seq nat * seq nat) :=
  if size s <= m then
    if rest is i :: rest' then fill_set m (set_insert s i) rest' else UB
  else Ok (s, rest).

Definition zoo_state := (dgm (seq nat) (seq nat) * seq V * nat * seq nat * seq nat)%type.  (* SetDgm, rmax, j, s, rest of inds *)
(** 91-99: the two nodes (one at first) with their parameters *)
Definition put_nodes (G : dgm (seq nat) (seq nat)) (rmax : seq V) (j : nat) (s : seq nat) (r1 r2 : V) : outcome (dgm (seq nat) (seq nat) * seq V * nat) :=
  do st <- (if 0 < j then do G1 <- set_node G j s; do rm <- oset rmax j r1; Ok (G1, rm, j.+1) else Ok (G, rmax, j));
  let: (G, rmax, j) := st in
  do G1 <- set_node G j s; do rm <- oset rmax j r2; Ok (G1, rm, j.+1).

(** 81-101: one round for the position t of inds2.  91: hds[*(indit2 - 1)] is read only when j > 0 *)
Definition morozov_round (hds : seq V) (inds2 : seq nat) (rho : V) (st : zoo_state) (t : nat) : outcome zoo_state :=
  let: (G, rmax, j, s, rest) := st in
  do m <- oget inds2 t;
  do f <- fill_set m s rest;
  do r1 <- (if 0 < j then do m' <- oget inds2 t.-1; do h <- oget hds m'; Ok (mul h rho) else Ok v0);
  do h <- oget hds m;
  do p <- put_nodes G rmax j f.1 r1 (mul h rho);
  Ok (p.1.1, p.1.2, p.2, f.1, f.2).

Variable D : nat -> nat -> V.
Variable n dim : nat.
(** 53-124 DiscreteMorozovZigzagSets(D, dist, rho); dim is D.dim() *)
Definition DiscreteMorozovZigzagSets (eta rho : V) : outcome (dgm (seq nat) (seq nat) * seq V) :=
  do i0 <- approx_center v0 le D n dim 0 0;
  do l <- glh v0 z le D n i0;
  let: (inds, hds) := l in
  do inds2 <- get_dM_inds hds eta;
  let k := size inds2 in
  do st <- ofold (morozov_round hds inds2 rho) (dgm_alloc (2 * k).-1 (2 * k).-2, nseq (2 * k).-1 v0, 0, [::], inds) (iota 0 k);
  let: (G, rmax, _, _, _) := st in
  do G <- zoo_edges G k;
  Ok (G, rmax).

(** 165-184: one round; [eps1] is the Hausdorff distance of the previous round, uninitialised (not read) in the first *)
Definition oscillating_round (inds : seq nat) (hds : seq V) (rho eta : V) (st : dgm (seq nat) (seq nat) * seq V * nat * seq nat * V) (t : nat) :
  outcome (dgm (seq nat) (seq nat) * seq V * nat * seq nat * V) :=
  let: (G, rmax, j, s, eps1) := st in
  do i <- oget inds t;
  let s := set_insert s i in
  do eps <- oget hds t;
  do p <- put_nodes G rmax j s (mul rho eps1) (mul eta eps);
  Ok (p.1.1, p.1.2, p.2, s, eps).
(** 135-209 OscillatingRipsZigzagSets(D, dist, rho, eta) *)
Definition OscillatingRipsZigzagSets (rho eta : V) : outcome (dgm (seq nat) (seq nat) * seq V) :=
  if lt rho eta then Throw else
  do i0 <- approx_center v0 le D n dim 0 0;
  do l <- glh v0 z le D n i0;
  let: (inds, hds) := l in
  let k := size inds in
  do st <- ofold (oscillating_round inds hds rho eta) (dgm_alloc (2 * k).-1 (2 * k).-2, nseq (2 * k).-1 v0, 0, [::], v0) (iota 0 k);
  let: (G, rmax, _, _, _) := st in
  do G <- zoo_edges G k;
  Ok (G, rmax).

(** 211-228 DiscreteMorozovZigzag(D, dist, rho, dmax); [ordn], [orde]: the orders in which the parallel loops of Rips run *)
Definition DiscreteMorozovZigzag (eta rho : V) (dmax : nat) (ordn orde : seq nat) : outcome (dgm scx (seq (cmat int)) * seq V) :=
  do r <- DiscreteMorozovZigzagSets eta rho;
  do R <- RipsFunctor_var le D n r.2 dmax ordn orde r.1;
  Ok (R, r.2).
End Val.
