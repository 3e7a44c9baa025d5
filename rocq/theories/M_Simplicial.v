(** Model of include/util/trie.hpp and include/complex/simplicial_complex.hpp.
    Simplifications: indices are unbounded naturals and NO_IND is [None] (fewer than 2^64-1 cells); the scratch members
    __face, __perm, __tmpc and the capacities (_reserved) carry no state between calls and are omitted;
    coefficients are mathcomp integers. *)
From mathcomp Require Import all_ssreflect all_algebra.
From Verif Require Import Outcome M_SparseVec M_Perm M_ColMatrix M_CSC.
Set Implicit Arguments.
Unset Strict Implicit.
Unset Printing Implicit Defensive.

(** ** SparseTrie (trie.hpp 13-190).  A node has a value and its children (an unordered_map; a null pointer is the
    empty list).  [true] in the second field marks a [children] pointer that was deleted but not reset: following it
    is undefined. *)
Inductive trie := TNode of nat & bool & seq (nat * trie).

Definition tval (t : trie) := let: TNode v _ _ := t in v.
Definition tdead (t : trie) := let: TNode _ d _ := t in d.
Definition tch (t : trie) := let: TNode _ _ c := t in c.

(** trie.hpp 45 SparseTrie() *)
Definition tnew : trie := TNode 0 false [::].

(** children->count(a) / children->at(a) *)
Fixpoint tassoc (a : nat) (c : seq (nat * trie)) : option trie :=
  match c with
  | [::] => None
  | (b, t) :: c' => if b == a then Some t else tassoc a c'
  end.
(** the children with the subtrie at a replaced or added *)
Fixpoint tput (a : nat) (t : trie) (c : seq (nat * trie)) : seq (nat * trie) :=
  match c with
  | [::] => [:: (a, t)]
  | (b, u) :: c' => if b == a then (a, t) :: c' else (b, u) :: tput a t c'
  end.

(** trie.hpp 97-107 insert *)
Fixpoint tinsert (k : seq nat) (v : nat) (t : trie) : outcome trie :=
  match k with
  | [::] => Ok (TNode v (tdead t) (tch t))
  | a :: k' =>
      if tdead t then UB else
      let u := if tassoc a (tch t) is Some u then u else tnew in
      do u' <- tinsert k' v u;
      Ok (TNode (tval t) false (tput a u' (tch t)))
  end.

(** trie.hpp 134-145 and 154-162 get with a default; [None] is the default NO_IND *)
Fixpoint tget (k : seq nat) (t : trie) : outcome (option nat) :=
  match k with
  | [::] => Ok (Some (tval t))
  | a :: k' => if tdead t then UB else if tassoc a (tch t) is Some u then tget k' u else Ok None
  end.

(** trie.hpp 118-125 get without default: unordered_map::at throws *)
Fixpoint tget_at (k : seq nat) (t : trie) : outcome nat :=
  match k with
  | [::] => Ok (tval t)
  | a :: k' => if tdead t then UB else
               if tch t is [::] then UB else if tassoc a (tch t) is Some u then tget_at k' u else Throw
  end.

(** trie.hpp 170-181 count *)
Fixpoint tcount (k : seq nat) (t : trie) : outcome nat :=
  match k with
  | [::] => Ok 1
  | a :: k' => if tdead t then UB else if tassoc a (tch t) is Some u then tcount k' u else Ok 0
  end.

(** trie.hpp 59-74 copy assignment (this = dst, t = src), different objects: children is deleted when not null and only
    set again when the source has children.  Deep copies are values here.  Reading a source whose pointer dangles, or
    deleting a dangling pointer, is undefined. *)
Definition tassign (dst src : trie) : outcome trie :=
  if tdead dst || tdead src then UB
  else if tch src is [::] then Ok (TNode (tval src) (if tch dst is [::] then false else true) [::])
  else Ok src.

(** ** SimplicialComplex (simplicial_complex.hpp 36-625) *)
Record scx := SCX {
  sc_ncells : seq nat;            (* 54 _ncells *)
  sc_spx : seq (seq nat);         (* 46 spx: the vertices of the simplices of each dimension, concatenated *)
  sc_faces : seq (seq nat);       (* 49 faces[dim-1]: the face indices, dim+1 per simplex *)
  sc_coeff : seq (seq int);       (* 50 coeff[dim-1] *)
  sc_trie : trie }.               (* 63 spx_to_idx *)

(** std::vector::resize when it can only grow *)
Definition grow (A : Type) (d : A) (n : nat) (s : seq A) : seq A := s ++ nseq (n - size s) d.
(** std::vector::resize in general *)
Definition resize (A : Type) (d : A) (n : nat) (s : seq A) : seq A := grow d n (take n s).

(** 67-74 reserve(maxdim) *)
Definition sc_reserve (maxdim : nat) (X : scx) : scx :=
  SCX (grow 0 maxdim.+1 (sc_ncells X)) (grow [::] maxdim.+1 (sc_spx X))
      (grow [::] maxdim (sc_faces X)) (grow [::] maxdim (sc_coeff X)) (sc_trie X).

Definition sc_raw : scx := SCX [::] [::] [::] [::] tnew.
(** 289 SimplicialComplex(maxdim); 283 SimplicialComplex() is maxdim = 0; 296-299 SimplicialComplex(n, maxdim) only
    reserves more capacity *)
Definition sc_new (maxdim : nat) : scx := sc_reserve maxdim sc_raw.

(** 338-343 find_idx *)
Definition sc_find (X : scx) (s : seq nat) : outcome (option nat) := tget s (sc_trie X).
(** 348 ncells(k) *)
Definition sc_ncell (X : scx) (k : nat) : outcome nat := oget (sc_ncells X) k.
(** 346 maxdim() + 1 *)
Definition sc_dims (X : scx) : nat := size (sc_ncells X).

(** 111-117, 202-208: s without its entry k2 *)
Definition skip (k2 : nat) (s : seq nat) : seq nat := take k2 s ++ drop k2.+1 s.

(** 105-130: the loop over the faces of s, k2 from dim down to 0; [fv],[cv] are faces[dim-1], coeff[dim-1].  The boolean
    says whether every face was found. *)
Fixpoint face_loop (X : scx) (s : seq nat) (k2s : seq nat) (c : int) (fv : seq nat) (cv : seq int) :
    outcome (bool * seq nat * seq int) :=
  match k2s with
  | [::] => Ok (true, fv, cv)
  | k2 :: k2s' =>
      do i <- sc_find X (skip k2 s);
      match i with
      | None => Ok (false, fv, cv)
      | Some i => face_loop X s k2s' (- c)%R (rcons fv i) (rcons cv c)
      end
  end.

(** 149-157, 243-248: add s to the map and to spx[dim] *)
Definition sc_store (X : scx) (s : seq nat) (dim ind : nat) : outcome scx :=
  do t <- tinsert s ind (sc_trie X);
  do v <- oget (sc_spx X) dim;
  do sp <- oset (sc_spx X) dim (v ++ s);
  Ok (SCX (sc_ncells X) sp (sc_faces X) (sc_coeff X) t).

(** 93-159 _add_unsafe; s nonempty *)
Definition sc_add_unsafe (X : scx) (s : seq nat) : outcome (scx * option nat) :=
  let dim := (size s).-1 in
  do ind <- oget (sc_ncells X) dim;
  do nc <- oset (sc_ncells X) dim ind.+1;
  if dim == 0 then
    do X' <- sc_store (SCX nc (sc_spx X) (sc_faces X) (sc_coeff X) (sc_trie X)) s dim ind;
    Ok (X', Some ind)
  else
    do fv <- oget (sc_faces X) dim.-1;
    do cv <- oget (sc_coeff X) dim.-1;
    do r <- face_loop X s (rev (iota 0 dim.+1)) (-1)%R fv cv;
    let: (ok, fv1, cv1) := r in
    if ok then
      do q <- range_sort (dim.+1 * ind) dim.+1 fv1 cv1;
      do fs <- oset (sc_faces X) dim.-1 q.1;
      do cs <- oset (sc_coeff X) dim.-1 q.2;
      do X' <- sc_store (SCX nc (sc_spx X) fs cs (sc_trie X)) s dim ind;
      Ok (X', Some ind)
    else
      do fs <- oset (sc_faces X) dim.-1 (resize 0 (size fv) fv1);
      do cs <- oset (sc_coeff X) dim.-1 (resize 0%R (size fv) cv1);
      do nc' <- oset nc dim ind;
      Ok (SCX nc' (sc_spx X) fs cs (sc_trie X), None).

(** 164-174 add_directed_safe, 371-373 add_directed.  For an empty s, dim is 2^64-1 and faces.resize throws. *)
Definition sc_add_directed (X : scx) (s : seq nat) : outcome (scx * option nat) :=
  if s is [::] then Throw else
  let X1 := sc_reserve (size s).-1 X in
  do n <- tcount s (sc_trie X1);
  if n > 0 then do i <- tget_at s (sc_trie X1); Ok (X1, Some i)
  else sc_add_unsafe X1 s.

(** 178-182 add_safe, 363-368 add.  The argument is sorted in place (not shown: the caller's vector becomes
    sort leq s) *)
Definition sc_add (X : scx) (s : seq nat) : outcome (scx * option nat) := sc_add_directed X (sort leq s).

(** 187-252 _add_recursive; ci is the list of (dim, index) of the cells added.  The recursion is on faces, so fuel
    size s suffices. *)
Fixpoint sc_add_rec (fuel : nat) (X : scx) (ci : seq (nat * nat)) (s : seq nat) : outcome (scx * seq (nat * nat) * nat) :=
  if fuel is fuel'.+1 then
    let dim := (size s).-1 in
    do ind <- oget (sc_ncells X) dim;
    do nc <- oset (sc_ncells X) dim ind.+1;
    let X0 := SCX nc (sc_spx X) (sc_faces X) (sc_coeff X) (sc_trie X) in
    if dim == 0 then
      do X' <- sc_store X0 s dim ind;
      Ok (X', rcons ci (dim, ind), ind)
    else
      do st <- ofold (fun st k2 =>
          let: (Y, ci, c) := st in
          do i <- sc_find Y (skip k2 s);
          do r <- (match i with
                   | Some i => Ok (Y, ci, i)
                   | None => sc_add_rec fuel' Y ci (skip k2 s)
                   end);
          let: (Y1, ci1, i) := r in
          do fv <- oget (sc_faces Y1) dim.-1;
          do cv <- oget (sc_coeff Y1) dim.-1;
          do fs <- oset (sc_faces Y1) dim.-1 (rcons fv i);
          do cs <- oset (sc_coeff Y1) dim.-1 (rcons cv c);
          Ok (SCX (sc_ncells Y1) (sc_spx Y1) fs cs (sc_trie Y1), ci1, (- c)%R))
        (X0, ci, (-1)%R) (rev (iota 0 dim.+1));
      let: (Y, ci1, _) := st in
      do fv <- oget (sc_faces Y) dim.-1;
      do cv <- oget (sc_coeff Y) dim.-1;
      do q <- range_sort (dim.+1 * ind) dim.+1 fv cv;
      do fs <- oset (sc_faces Y) dim.-1 q.1;
      do cs <- oset (sc_coeff Y) dim.-1 q.2;
      do X' <- sc_store (SCX (sc_ncells Y) (sc_spx Y) fs cs (sc_trie Y)) s dim ind;
      Ok (X', rcons ci1 (dim, ind), ind)
  else OutOfFuel.

(** 254-268 add_directed_recursive_safe, 381-383 add_directed_recursive *)
Definition sc_add_directed_recursive (X : scx) (s : seq nat) : outcome (scx * seq (nat * nat)) :=
  if s is [::] then Throw else
  let X1 := sc_reserve (size s).-1 X in
  do n <- tcount s (sc_trie X1);
  if n > 0 then do i <- tget_at s (sc_trie X1); Ok (X1, [:: ((size s).-1, i)])
  else do r <- sc_add_rec (size s) X1 [::] s; Ok r.1.

(** 271-275 add_safe_recursive, 374-379 add_recursive *)
Definition sc_add_recursive (X : scx) (s : seq nat) : outcome (scx * seq (nat * nat)) :=
  sc_add_directed_recursive X (sort leq s).

(** [first, first+len) of a vector; reading outside is undefined *)
Definition orange (A : Type) (v : seq A) (off len : nat) : outcome (seq A) :=
  if off + len <= size v then Ok (take len (drop off v)) else UB.

(** 398-424 simplex_begin, simplex_end, get_simplex, get_cell *)
Definition sc_simplex (X : scx) (dim i : nat) : outcome (seq nat) :=
  do v <- oget (sc_spx X) dim; orange v (dim.+1 * i) dim.+1.

(** 533-543 boundary(dim, k): dim > 0 *)
Definition sc_boundary (X : scx) (dim k : nat) : outcome (seq nat * seq int) :=
  if dim is d.+1 then
    do fv <- oget (sc_faces X) d; do cv <- oget (sc_coeff X) d;
    do a <- orange fv (dim.+1 * k) dim.+1; do b <- orange cv (dim.+1 * k) dim.+1; Ok (a, b)
  else UB.

(** 547-585 boundary_csc(dim): dim > 0 *)
Definition sc_boundary_csc (X : scx) (dim : nat) : outcome (csc int) :=
  if dim is d.+1 then
    do m <- oget (sc_ncells X) d;
    do n <- oget (sc_ncells X) dim;
    do fv <- oget (sc_faces X) d; do cv <- oget (sc_coeff X) d;
    csc_make m n [seq (dim.+1 * j)%N | j <- iota 0 n.+1] fv cv
  else UB.

(** chain_complex.hpp 27-38 ChainComplex<MT>(X), MT = ColumnMatrix<SparseVector<T>>: [conv] is T(int);
    col_matrix.hpp 48-52: MT(1, n) has n empty columns *)
Definition sc_chain (T : Type) (conv : int -> T) (X : scx) : outcome (seq (cmat T)) :=
  omapm (fun k =>
    if k == 0 then do n <- oget (sc_ncells X) 0; Ok (CMat 1 n (nseq n [::]))
    else do A <- sc_boundary_csc X k; cm_of_csc conv A) (iota 0 (sc_dims X)).

(** 474-492 simplicial_union *)
Definition sc_add_all (Y X : scx) : outcome scx :=
  ofold (fun Z k => do n <- sc_ncell X k;
    ofold (fun Z i => do s <- sc_simplex X k i; do r <- sc_add Z s; Ok r.1) Z (iota 0 n)) Y (iota 0 (sc_dims X)).
Definition sc_union (X Y : scx) : outcome scx := do Z <- sc_add_all (sc_new 0) X; sc_add_all Z Y.
(** 461-472 union_add (the simplices of dimension dim read off Y.spx[dim]) *)
Definition sc_union_add (X Y : scx) : outcome scx := sc_add_all X Y.

(** 514-528 intersection *)
Definition sc_inter (X Y : scx) : outcome scx :=
  ofold (fun Z k => do n <- sc_ncell X k;
    ofold (fun Z i => do s <- sc_simplex X k i; do f <- sc_find Y s;
                      if f is Some _ then do r <- sc_add_unsafe Z s; Ok r.1 else Ok Z) Z (iota 0 n))
    (sc_new (sc_dims X).-1) (iota 0 (sc_dims X)).

(** 495-503 get_indices(A, dim) *)
Definition sc_get_indices (X A : scx) (dim : nat) : outcome (seq (option nat)) :=
  if dim < sc_dims A then
    do n <- sc_ncell A dim; omapm (fun i => do s <- sc_simplex A dim i; sc_find X s) (iota 0 n)
  else Ok [::].

(** the implicit copy assignment X = Y (the class has a user-declared destructor, 591, so there is no move): every
    member is copied, the trie with its own operator= *)
Definition sc_assign (X Y : scx) : outcome scx :=
  do t <- tassign (sc_trie X) (sc_trie Y); Ok (SCX (sc_ncells Y) (sc_spx Y) (sc_faces Y) (sc_coeff Y) t).
