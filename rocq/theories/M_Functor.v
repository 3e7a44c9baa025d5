(** Model of include/multigraph/functors.hpp: functors between Diagrams.
    Every functor allocates the target Diagram and runs two parallel for loops, first over the nodes, then over the edges; an
    iteration reads the source Diagram (and, for edges, the finished target nodes) and writes only its own slot.  The
    iterations are run here one after the other in the order given by a list [ord] of indices, a parameter: any order a
    schedule of the loop can produce.  An exception that leaves an iteration is reported as Throw (with OpenMP the program
    terminates at that point). *)
From mathcomp Require Import all_ssreflect all_algebra.
From Verif Require Import Outcome M_SparseVec M_Perm M_ColMatrix M_Reduce M_Homology M_Induced M_CSC M_Simplicial M_SimplicialMap
  M_Fact M_Quiver.
Set Implicit Arguments.
Unset Strict Implicit.
Unset Printing Implicit Defensive.

(** multigraph/diagram.hpp 12-36: Diagram<NT, ET> *)
Record dgm (N E : Type) := Diagram { d_node : seq N; d_edata : seq E; d_elist : seq (nat * nat) }.
Definition nnode N E (D : dgm N E) := size (d_node D).

(** one iteration of a loop over the nodes / edges: set_node(i, f(i)) diagram.hpp 59-66, set_edge(j, s, t, f(j)) diagram.hpp 80-83 *)
Definition fill (N : Type) (f : nat -> outcome N) (v : seq N) (ord : seq nat) : outcome (seq N) :=
  ofold (fun v i => do y <- f i; oset v i y) v ord.

Section Functor.
Variables (N E N' E' : Type) (n0 : N') (e0 : E').
(** the common shape of ChainFunctor (functors.hpp 129-152), Hom in one dimension (183-216) and Hom in all dimensions
    (219-263): [fn] is applied to a node, [fe] to the edge data and the target's nodes at source and target;
    [ordn], [orde]: order of the iterations *)
Definition functor (fn : N -> outcome N') (fe : E -> N' -> N' -> outcome E') (ordn orde : seq nat) (D : dgm N E) : outcome (dgm N' E') :=
  do nodes <- fill (fun i => do x <- oget (d_node D) i; fn x) (nseq (size (d_node D)) n0) ordn;
  do edges <- fill (fun j => do e <- oget (d_elist D) j; do x <- oget (d_edata D) j;
                      do ns <- oget nodes e.1; do nt <- oget nodes e.2;
                      do y <- fe x ns nt; Ok (y, (e.1, e.2)))
                   (nseq (size (d_edata D)) (e0, (0, 0))) orde;
  Ok (Diagram nodes (map fst edges) (map snd edges)).
End Functor.

Section Hom.
Variable T : Type.
Variable O : fops T.

(** functors.hpp 129-152 ChainFunctor on a diagram of simplicial complexes and cellular maps *)
Definition ChainFunctor (conv : int -> T) : seq nat -> seq nat -> dgm scx (seq (cmat int)) -> outcome (dgm (seq (cmat T)) (seq (cmat T))) :=
  functor [::] [::] (fun X => sc_chain conv X) (fun f _ _ => Ok (chain_of conv f)).

(** functors.hpp 183-216: Hom(D, k); ReducedChainComplex(C) is the constructor basis.hpp 77-96 (rcc_standard) *)
Definition rcc0 : rcc T := RCC [::] [::] [::] [::].
Definition Hom (k : nat) : seq nat -> seq nat -> dgm (seq (cmat T)) (seq (cmat T)) -> outcome (dgm (rcc T) (cmat T)) :=
  functor rcc0 (CMat 0 0 [::]) (rcc_standard O) (fun f Xs Xt => do fk <- oget f k; induced_map O fk Xs Xt k).

(** functors.hpp 219-263: Hom(D, topd); maxdim() = boundary.size() - 1 *)
Definition Hom_all (topd : bool) (ordn orde : seq nat) (D : dgm (seq (cmat T)) (seq (cmat T))) :
  outcome (dgm (rcc T) (seq (cmat T))) :=
  do C0 <- oget (d_node D) 0;
  let maxdim := if topd then (size C0).-1.+1 else (size C0).-1 in
  if maxdim == 0 then Throw else
  functor rcc0 [::] (rcc_standard O)
    (fun f Xs Xt => omapm (fun k => do fk <- oget f k; induced_map O fk Xs Xt k) (iota 0 maxdim)) ordn orde D.

(** what barcode (quiver/sparse.hpp) reads of the diagrams that Hom returns *)
Definition quiver_of N (D : dgm N (cmat T)) : diagram T := Dgm (d_elist D) (d_edata D).
Definition mquiver_of N (D : dgm N (seq (cmat T))) : mdiagram T := MDgm (d_elist D) (d_edata D).

End Hom.
