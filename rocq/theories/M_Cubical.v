(** Model of include/complex/cubical_complex.hpp.
    Simplifications as in M_Simplicial: indices are unbounded naturals and NO_IND is [None]; the scratch member __face and
    the capacities carry no state between calls and are omitted; coefficients are mathcomp integers. *)
From mathcomp Require Import all_ssreflect all_algebra.
From Verif Require Import Outcome M_SparseVec M_Perm M_ColMatrix M_CSC M_Simplicial.
Set Implicit Arguments.
Unset Strict Implicit.
Unset Printing Implicit Defensive.

(** cubical_complex.hpp 40-70 *)
Record ccx := CCX {
  cc_ncells : seq nat;            (* 61 _ncells *)
  cc_spx : seq (seq nat);         (* 53 spx *)
  cc_faces : seq (seq nat);       (* 56 faces[dim-1]: 2 dim per cube *)
  cc_coeff : seq (seq int);       (* 57 coeff[dim-1] *)
  cc_trie : trie;                 (* 68 spx_to_idx *)
  cc_maxdim : nat }.              (* 70 __maxdim *)

(** 74-82 reserve(maxdim) *)
Definition cc_reserve (maxdim : nat) (X : ccx) : ccx :=
  CCX (grow 0 maxdim.+1 (cc_ncells X)) (grow [::] maxdim.+1 (cc_spx X))
      (grow [::] maxdim (cc_faces X)) (grow [::] maxdim (cc_coeff X)) (cc_trie X) (maxn (cc_maxdim X) maxdim).

(** 268 CubicalComplex(maxdim); 265 CubicalComplex() is maxdim = 0; 271-273 CubicalComplex(n, maxdim) only reserves
    more capacity *)
Definition cc_new (maxdim : nat) : ccx := cc_reserve maxdim (CCX [::] [::] [::] [::] tnew maxdim).

(** 100-107 is_valid_cube; k = 2 i *)
Definition cube_valid (D : nat) (s : seq nat) : bool :=
  (size s == 2 * D)%N &&
  all (fun i => ~~ ((nth 0 s (2 * i).+1 < nth 0 s (2 * i)) || ((nth 0 s (2 * i)).+1 < nth 0 s (2 * i).+1))) (iota 0 D).

(** 110-116 cube_dim *)
Definition cube_dim (D : nat) (s : seq nat) : nat := sumn [seq nth 0 s (2 * i).+1 - nth 0 s (2 * i) | i <- iota 0 D].

(** 278-284 find_idx *)
Definition cc_find (X : ccx) (s : seq nat) : outcome (option nat) := tget s (cc_trie X).
(** 289 ncells(k) *)
Definition cc_ncell (X : ccx) (k : nat) : outcome nat := oget (cc_ncells X) k.

(** 137 face # 1 and 148 face # 2 of s in direction i: the interval is replaced by its upper, its lower end *)
Definition face_up (s : seq nat) (i : nat) : seq nat := set_nth 0 s (2 * i) (nth 0 s (2 * i).+1).
Definition face_lo (s : seq nat) (i : nat) : seq nat := set_nth 0 s (2 * i).+1 (nth 0 s (2 * i)).

(** 132-161 the loop over directions; [fv],[cv] are faces[dim-1], coeff[dim-1]; the boolean says whether every face was
    found *)
Fixpoint cface_loop (X : ccx) (s : seq nat) (ds : seq nat) (c : int) (fv : seq nat) (cv : seq int) :
    outcome (bool * seq nat * seq int) :=
  match ds with
  | [::] => Ok (true, fv, cv)
  | i :: ds' =>
      if nth 0 s (2 * i) == nth 0 s (2 * i).+1 then cface_loop X s ds' c fv cv else
      do a <- cc_find X (face_up s i);
      match a with
      | None => Ok (false, fv, cv)
      | Some a =>
          do b <- cc_find X (face_lo s i);
          match b with
          | None => Ok (false, rcons fv a, rcons cv c)
          | Some b => cface_loop X s ds' (- c)%R (rcons (rcons fv a) b) (rcons (rcons cv c) (- c)%R)
          end
      end
  end.

(** 164-173, 233-241: count, add to the map and to spx[dim] *)
Definition cc_store (X : ccx) (s : seq nat) (dim : nat) : outcome (ccx * nat) :=
  do ind <- oget (cc_ncells X) dim;
  do nc <- oset (cc_ncells X) dim ind.+1;
  do t <- tinsert s ind (cc_trie X);
  do v <- oget (cc_spx X) dim;
  do sp <- oset (cc_spx X) dim (v ++ s);
  Ok (CCX nc sp (cc_faces X) (cc_coeff X) t (cc_maxdim X), ind).

(** 120-174 _add_unsafe *)
Definition cc_add_unsafe (X : ccx) (s : seq nat) : outcome (ccx * (nat * option nat)) :=
  let D := cc_maxdim X in
  let dim := cube_dim D s in
  if dim == 0 then
    do r <- cc_store X s dim; Ok (r.1, (dim, Some r.2))
  else
    do fv <- oget (cc_faces X) dim.-1;
    do cv <- oget (cc_coeff X) dim.-1;
    do r <- cface_loop X s (iota 0 D) 1%R fv cv;
    let: (ok, fv1, cv1) := r in
    if ok then
      do fs <- oset (cc_faces X) dim.-1 fv1;
      do cs <- oset (cc_coeff X) dim.-1 cv1;
      do q <- cc_store (CCX (cc_ncells X) (cc_spx X) fs cs (cc_trie X) D) s dim;
      Ok (q.1, (dim, Some q.2))
    else
      do fs <- oset (cc_faces X) dim.-1 (resize 0 (size fv) fv1);
      do cs <- oset (cc_coeff X) dim.-1 (resize 0%R (size fv) cv1);
      Ok (CCX (cc_ncells X) (cc_spx X) fs cs (cc_trie X) D, (dim, None)).

(** 177-187 add_safe, 321-326 add.  Also returns the (dimension, index) pair *)
Definition cc_add (X : ccx) (s : seq nat) : outcome (ccx * (nat * option nat)) :=
  let D := cc_maxdim X in
  if ~~ cube_valid D s then Throw else
  do n <- tcount s (cc_trie X);
  if n > 0 then do i <- tget_at s (cc_trie X); Ok (X, (cube_dim D s, Some i))
  else cc_add_unsafe X s.

(** 192-245 _add_unsafe_recursive; [push] is one face: 211-218 and 220-227.  The recursion is on faces, so fuel dim+1
    suffices. *)
Fixpoint cc_add_rec (fuel : nat) (X : ccx) (ci : seq (nat * nat)) (s : seq nat) :
    outcome (ccx * seq (nat * nat) * nat) :=
  if fuel is fuel'.+1 then
    let D := cc_maxdim X in
    let dim := cube_dim D s in
    let push (st : ccx * seq (nat * nat)) (f : seq nat) (c : int) :=
      let: (Y, ci) := st in
      do i <- cc_find Y f;
      do r <- (match i with
               | Some i => Ok (Y, ci, i)
               | None => cc_add_rec fuel' Y ci f
               end);
      let: (Y1, ci1, i) := r in
      do fv <- oget (cc_faces Y1) dim.-1;
      do cv <- oget (cc_coeff Y1) dim.-1;
      do fs <- oset (cc_faces Y1) dim.-1 (rcons fv i);
      do cs <- oset (cc_coeff Y1) dim.-1 (rcons cv c);
      Ok (CCX (cc_ncells Y1) (cc_spx Y1) fs cs (cc_trie Y1) (cc_maxdim Y1), ci1) in
    do st <- (if dim == 0 then Ok (X, ci, 1%R) else
      ofold (fun st i =>
          let: (Y, ci, c) := st in
          if nth 0 s (2 * i) == nth 0 s (2 * i).+1 then Ok st else
          do st1 <- push (Y, ci) (face_up s i) c;
          do st2 <- push st1 (face_lo s i) (- c)%R;
          Ok (st2, - c)%R)
        (X, ci, 1%R) (iota 0 D));
    let: (Y, ci1, _) := st in
    do q <- cc_store Y s dim;
    Ok (q.1, rcons ci1 (dim, q.2), q.2)
  else OutOfFuel.

(** 248-260 add_safe_recursive, 328-333 add_recursive *)
Definition cc_add_recursive (X : ccx) (s : seq nat) : outcome (ccx * seq (nat * nat)) :=
  let D := cc_maxdim X in
  if ~~ cube_valid D s then Throw else
  do n <- tcount s (cc_trie X);
  if n > 0 then do i <- tget_at s (cc_trie X); Ok (X, [:: (cube_dim D s, i)])
  else do r <- cc_add_rec (cube_dim D s).+1 X [::] s; Ok r.1.

(** 291-297 ncells() *)
Definition cc_total (X : ccx) : outcome nat :=
  ofold (fun ct k => do n <- cc_ncell X k; Ok (ct + n)) 0 (iota 0 (cc_maxdim X).+1).

(** 300-306 set_dimension *)
Definition cc_set_dimension (X : ccx) (maxdim : nat) : outcome ccx :=
  do n <- cc_total X; if n > 0 then Throw else Ok (cc_reserve maxdim X).

(** 349-376 cell_begin, cell_end, get_cube, get_cell *)
Definition cc_cube (X : ccx) (dim i : nat) : outcome (seq nat) :=
  do v <- oget (cc_spx X) dim; orange v (2 * cc_maxdim X * i) (2 * cc_maxdim X).

(** 383-389 the loop of get_cubes: c is the current cube *)
Fixpoint chunks (w : nat) (c : seq nat) (v : seq nat) : seq (seq nat) :=
  match v with
  | [::] => [::]
  | x :: v' => if size (rcons c x) == w then rcons c x :: chunks w [::] v' else chunks w (rcons c x) v'
  end.
(** 379-391 get_cubes(dim) *)
Definition cc_cubes (X : ccx) (dim : nat) : outcome (seq (seq nat)) :=
  do v <- oget (cc_spx X) dim; Ok (chunks (2 * cc_maxdim X) [::] v).

(** 393-402 skeleton(k) *)
Definition cc_skeleton (X : ccx) (k : nat) : outcome ccx :=
  if k > cc_maxdim X then Throw else
  ofold (fun Y d => do cs <- cc_cubes X d; ofold (fun Y c => do r <- cc_add_unsafe Y c; Ok r.1) Y cs)
    (cc_new (cc_maxdim X)) (iota 0 k.+1).

(** 424-462 boundary_csc(dim): dim > 0 *)
Definition cc_boundary_csc (X : ccx) (dim : nat) : outcome (csc int) :=
  if dim is d.+1 then
    do m <- oget (cc_ncells X) d;
    do n <- oget (cc_ncells X) dim;
    do fv <- oget (cc_faces X) d; do cv <- oget (cc_coeff X) d;
    csc_make m n [seq (2 * dim * j)%N | j <- iota 0 n.+1] fv cv
  else UB.

(** chain_complex.hpp 27-38 ChainComplex<MT>(X) *)
Definition cc_chain (T : Type) (conv : int -> T) (X : ccx) : outcome (seq (cmat T)) :=
  omapm (fun k =>
    if k == 0 then do n <- oget (cc_ncells X) 0; Ok (CMat 1 n (nseq n [::]))
    else do A <- cc_boundary_csc X k; cm_of_csc conv A) (iota 0 (cc_maxdim X).+1).

(** 493-506 generate_cube(n): three nested loops, i outermost *)
Definition cc_generate (n : nat) : outcome ccx :=
  if n < 2 then Throw else
  ofold (fun X i => ofold (fun X j => ofold (fun X k =>
      do r <- cc_add_recursive X [:: i; i.+1; j; j.+1; k; k.+1]; Ok r.1)
    X (iota 0 n.-1)) X (iota 0 n.-1)) (cc_new 3) (iota 0 n.-1).
