(** Model of include/complex/light_simplicial_complex.hpp, LightSimplicialComplex<index_type> for an unsigned
    index_type with W values (size_t: W = 2^64): sums and products are taken modulo W.
    The hash table is an association list.  Dimensions, indices and the vertex count are not reduced modulo W. *)
From mathcomp Require Import all_ssreflect all_algebra.
From Verif Require Import Outcome M_SparseVec M_Perm M_ColMatrix M_CSC.
Set Implicit Arguments.
Unset Strict Implicit.
Unset Printing Implicit Defensive.

Section Light.
Variable W : nat.
(** what reading _offset[-1] yields: by the C++ standard it is undefined ([None]); on a machine where the read does not
    trap it is some number ([Some g]) *)
Variable junk : option nat.

Definition lw (x : nat) := (x %% W)%N.
(** integer division: by zero it is undefined *)
Definition odiv (a b : nat) : outcome nat := if b == 0 then UB else Ok (a %/ b).
Definition omod (a b : nat) : outcome nat := if b == 0 then UB else Ok (a %% b).

(** unordered_map<index_type, size_t> *)
Fixpoint hget (m : seq (nat * nat)) (k : nat) : option nat :=
  match m with
  | [::] => None
  | (k', i) :: m' => if k' == k then Some i else hget m' k
  end.
(** emplace / try_emplace: nothing happens when the key is there *)
Definition hemplace (m : seq (nat * nat)) (k i : nat) : seq (nat * nat) := if hget m k is Some _ then m else (k, i) :: m.

(** 31-35 *)
Record lsc := LSC { l_n : nat; l_k : nat; l_off : seq nat; l_i2k : seq (seq nat); l_k2i : seq (seq (nat * nat)) }.

(** 153 LightSimplicialComplex() *)
Definition l_default : lsc := LSC 0 0 [::] [::] [::].
(** 155-162 LightSimplicialComplex(n, k), with 46-53 _initialze *)
Definition l_new (n k : nat) : lsc :=
  LSC n k (mkseq (fun i => iter i (fun x => lw (n * x)) (lw 1)) k.+1) (nseq k.+1 [::]) (nseq k.+1 [::]).

(** 184 ncells(dim) *)
Definition l_ncell (L : lsc) (dim : nat) : outcome nat := do v <- oget (l_i2k L) dim; Ok (size v).

(** 197-205 simplex_key *)
Definition l_key (L : lsc) (s : seq nat) : outcome nat :=
  ofold (fun key j => do x <- oget s j; do o <- oget (l_off L) j; Ok (lw (key + lw (x * o)))) 0 (iota 0 (size s)).

(** 207-219 key_to_simplex(dim, key, s), with 60-62 max_vertex; [acc] are the vertices found so far *)
Fixpoint l_simplex_loop (L : lsc) (d key : nat) (acc : seq nat) : outcome (seq nat) :=
  if d is d'.+1 then
    do o <- oget (l_off L) d; do v <- odiv key o; l_simplex_loop L d' (key - lw (v * o)) (v :: acc)
  else Ok (key :: acc).
Definition l_key_simplex (L : lsc) (dim key : nat) : outcome (seq nat) := l_simplex_loop L dim key [::].

(** 232-237 get_simplex *)
Definition l_simplex (L : lsc) (dim i : nat) : outcome (seq nat) :=
  do v <- oget (l_i2k L) dim; do k <- oget v i; l_key_simplex L dim k.

(** 66-113 simplex_boundary_iterator: the pairs (face, coefficient) that next() yields until the iterator is
    finished; [i1] is i + 1. *)
Definition l_off_pred (L : lsc) (i : nat) : outcome nat :=
  if i is i'.+1 then oget (l_off L) i' else if junk is Some g then Ok g else UB.
Fixpoint l_iter (L : lsc) (i1 : nat) (c : int) (before after : nat) : outcome (seq (nat * int)) :=
  if i1 is i.+1 then
    do o <- oget (l_off L) i;
    do v <- odiv before o;
    do before' <- omod before o;
    do p <- l_off_pred L i;
    do r <- l_iter L i (- c)%R before' (lw (after + lw (v * p)));
    Ok ((lw (before' + after), c) :: r)
  else Ok [::].
Definition l_faces (L : lsc) (dim key : nat) : outcome (seq (nat * int)) :=
  l_iter L dim.+1 (if odd dim then (-1)%R else 1%R) key 0.

(** 262-265 find_idx(dim, key); [None] is NO_IND *)
Definition l_find_key (L : lsc) (dim key : nat) : outcome (option nat) := do m <- oget (l_k2i L) dim; Ok (hget m key).
(** 269-273 find_idx(s).  For the empty s, dim is 2^64-1 *)
Definition l_find (L : lsc) (s : seq nat) : outcome (option nat) :=
  do key <- l_key L s; if s is [::] then UB else l_find_key L (size s).-1 key.

(** 276-289 add_unsafe(dim, k) *)
Definition l_add_unsafe_key (L : lsc) (dim k : nat) : outcome (lsc * nat) :=
  do v <- oget (l_i2k L) dim;
  do m <- oget (l_k2i L) dim;
  do m' <- oset (l_k2i L) dim (hemplace m k (size v));
  do v' <- oset (l_i2k L) dim (rcons v k);
  Ok (LSC (l_n L) (l_k L) (l_off L) v' m', size v).

(** 293-308 add(dim, k) *)
Definition l_add_key (L : lsc) (dim k : nat) : outcome (lsc * nat) :=
  do v <- oget (l_i2k L) dim;
  do m <- oget (l_k2i L) dim;
  if hget m k is Some i then Ok (L, i)
  else
    do m' <- oset (l_k2i L) dim (hemplace m k (size v));
    do v' <- oset (l_i2k L) dim (rcons v k);
    Ok (LSC (l_n L) (l_k L) (l_off L) v' m', size v).

(** 315-321 add_unsafe(s), 327-331 add(s) *)
Definition l_add_unsafe (L : lsc) (s : seq nat) : outcome (lsc * nat) :=
  do key <- l_key L s; if s is [::] then UB else l_add_unsafe_key L (size s).-1 key.
Definition l_add (L : lsc) (s : seq nat) : outcome (lsc * nat) :=
  do key <- l_key L s; if s is [::] then UB else l_add_key L (size s).-1 key.

(** 334-367 add_recursive(dim, k).  The faces are computed before the loop instead of one by one; the offset table they
    depend on does not change. *)
Fixpoint l_add_rec (dim : nat) (L : lsc) (k : nat) : outcome (lsc * seq (nat * nat)) :=
  do v <- oget (l_i2k L) dim;
  do m <- oget (l_k2i L) dim;
  if hget m k is Some i then Ok (L, [::])
  else
    do m' <- oset (l_k2i L) dim (hemplace m k (size v));
    do v' <- oset (l_i2k L) dim (rcons v k);
    let L1 := LSC (l_n L) (l_k L) (l_off L) v' m' in
    do r <- (if dim is dim'.+1 then
        do fs <- l_faces L1 dim k;
        ofold (fun st (f : nat * int) => do q <- l_add_rec dim' st.1 f.1; Ok (q.1, st.2 ++ q.2)) (L1, [::]) fs
      else Ok (L1, [::]));
    Ok (r.1, rcons r.2 (dim, size v)).

(** 370-374 add_recursive(s) *)
Definition l_add_recursive (L : lsc) (s : seq nat) : outcome (lsc * seq (nat * nat)) :=
  do key <- l_key L s; if s is [::] then UB else l_add_rec (size s).-1 L key.

(** unordered_map::at *)
Definition hat (m : seq (nat * nat)) (k : nat) : outcome nat := if hget m k is Some i then Ok i else Throw.

(** 385-401 boundary(dim, i), dim > 0; bats::util::sortperm and apply_perm *)
Definition l_boundary (L : lsc) (dim i : nat) : outcome (seq nat * seq int) :=
  do v <- oget (l_i2k L) dim; do k <- oget v i;
  do fs <- l_faces L dim k;
  if dim is d.+1 then
    do m <- oget (l_k2i L) d;
    do ind <- omapm (fun f : nat * int => hat m f.1) fs;
    let p := sortperm (fun a b => a < b) 0 ind in
    do ind' <- apply_perm p ind; do val' <- apply_perm p (map snd fs); Ok (ind', val')
  else UB.

(** 405-446 boundary_csc(dim), dim > 0 *)
Definition l_boundary_csc (L : lsc) (dim : nat) : outcome (csc int) :=
  if dim is d.+1 then
    do m <- l_ncell L d;
    do n <- l_ncell L dim;
    do ks <- oget (l_i2k L) dim;
    do h <- oget (l_k2i L) d;
    do cs <- omapm (fun k => do fs <- l_faces L dim k; omapm (fun f : nat * int => do i <- hat h f.1; Ok (i, f.2)) fs) ks;
    csc_make m n [seq (dim.+1 * j)%N | j <- iota 0 n.+1] (map fst (flatten cs)) (map snd (flatten cs))
  else UB.

(** chain_complex.hpp 27-38 ChainComplex<MT>(X), as for SimplicialComplex *)
Definition l_chain (T : Type) (conv : int -> T) (L : lsc) : outcome (seq (cmat T)) :=
  omapm (fun k =>
    if k == 0 then do n <- l_ncell L 0; Ok (CMat 1 n (nseq n [::]))
    else do A <- l_boundary_csc L k; cm_of_csc conv A) (iota 0 (l_k L).+1).
End Light.
