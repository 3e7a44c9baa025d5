(** Model of include/filtration/extension.hpp and of the simplicial part of include/zigzag/extension.hpp: filtrations that
    extend a function on vertices.  [ltv] is operator< of the value type; NaN is not modelled.
    star.hpp 9-32 LowerStarFiltration is not modelled: it names Filtration<TC,TF> with its arguments exchanged and calls a
    member sort() that does not exist, so it cannot be instantiated; zigzag/extension.hpp 128-158 extend_levelset returns a
    value of the wrong type, so it cannot either. *)
From mathcomp Require Import all_ssreflect all_algebra.
From Verif Require Import Outcome M_Simplicial M_Cubical.
Set Implicit Arguments.
Unset Strict Implicit.
Unset Printing Implicit Defensive.

Section Ext.
Variable A : Type.
Variable ltv : A -> A -> bool.

(** ** zigzag/extension.hpp *)
(** numeric_limits<T>::min() and max(): for floating point types min() is the smallest positive normal number *)
Variables (lo hi : A).
(** std::min(m, x), std::max(m, x) *)
Definition vmin (m x : A) : A := if ltv x m then x else m.
Definition vmax (m x : A) : A := if ltv m x then x else m.
(** zigzag/extension.hpp 16-31 simplex_extrema *)
Definition simplex_extrema (f0 : seq A) (s : seq nat) : outcome (A * A) :=
  ofold (fun m v => do x <- oget f0 v; Ok (vmin m.1 x, vmax m.2 x)) (hi, lo) s.
(** x - eps and x + eps *)
Variables (sub add : A -> A).
(** zigzag/extension.hpp 56-71: the body of the loop over cells *)
Definition ext_cell (f0 : seq A) (s : seq nat) : outcome (seq (A * A)) :=
  do m <- simplex_extrema f0 s;
  let entry := sub m.2 in let removal := add m.1 in
  if ltv removal entry then Throw else Ok [:: (entry, removal)].
(** zigzag/extension.hpp 47-76 extend_zigzag_filtration(f0, X, eps): the values of the cells of X *)
Definition extend_zigzag (X : scx) (f0 : seq A) : outcome (seq (seq (seq (A * A)))) :=
  omapm (fun k => do n <- sc_ncell X k; omapm (fun i => do s <- sc_simplex X k i; ext_cell f0 s) (iota 0 n))
        (iota 0 (sc_dims X)).

(** simplicial_complex.hpp get_simplices(k), for all k *)
Definition sc_all (X : scx) : outcome (seq (seq (seq nat))) :=
  omapm (fun k => do n <- sc_ncell X k; omapm (sc_simplex X k) (iota 0 n)) (iota 0 (sc_dims X)).

(** ** filtration/extension.hpp *)
(** extension.hpp 38-40: std::max_element by f0, the value there and the vertex *)
Definition star_cell (f0 : seq A) (s : seq nat) : outcome (A * nat) :=
  if s is v :: s' then
    do m <- ofold (fun m v => do a <- oget f0 m; do b <- oget f0 v; Ok (if ltv a b then v else m)) v s';
    do x <- oget f0 m; Ok (x, m)
  else UB.
(** extension.hpp 12-29 extend_filtration and 31-43 lower_star_filtration(X, f0): values and critical vertices *)
Definition lower_star (X : scx) (f0 : seq A) : outcome (seq (seq A) * seq (seq nat)) :=
  do sp <- sc_all X;
  do r <- omapm (omapm (star_cell f0)) sp;
  Ok ([seq [seq p.1 | p <- l] | l <- r], [seq [seq p.2 | p <- l] | l <- r]).

(** f0[i][j] *)
Definition get2 (f : seq (seq A)) i j : outcome A := do r <- oget f i; oget r j.
Definition get3 (f : seq (seq (seq A))) i j k : outcome A := do r <- oget f i; get2 r j k.
(** extension.hpp 92-106 max_cube_val, 2 dimensions *)
Definition max_cube2 (f : seq (seq A)) (c : seq nat) : outcome A :=
  do c0 <- oget c 0; do c1 <- oget c 1; do c2 <- oget c 2; do c3 <- oget c 3;
  do a <- get2 f c0 c2; do b <- get2 f c0 c3; do d <- get2 f c1 c2; do e <- get2 f c1 c3;
  Ok (vmax (vmax a b) (vmax d e)).
(** extension.hpp 112-127 max_cube_val, 3 dimensions *)
Definition max_cube3 (f : seq (seq (seq A))) (c : seq nat) : outcome A :=
  let at_ i j k := (do a <- oget c i; do b <- oget c j; do d <- oget c k; get3 f a b d) in
  do v0 <- at_ 0 2 4;
  ofold (fun v i => ofold (fun v j => ofold (fun v k => do x <- at_ i j k; Ok (if ltv v x then x else v))
    v [:: 4; 5]) v [:: 2; 3]) v0 [:: 0; 1].
(** extension.hpp 129-147 and 149-167 lower_star_filtration(X, f0) for a cubical complex *)
Definition lower_star_cubes (cv : seq nat -> outcome A) (X : ccx) : outcome (seq (seq A)) :=
  omapm (fun k => do cs <- cc_cubes X k; omapm cv cs) (iota 0 (cc_maxdim X).+1).
End Ext.

(** extension.hpp 58-86 lower_star_backwards.  An index -1 of [bdinds] is None. *)
Section Grad.
Variable T : Type.
Variables (t0 : T) (plus : T -> T -> T).
(** extension.hpp 75-77 / 80-82: if (i != -1) df[imap[dim][i]] += gs[k] *)
Definition lsb_add (imap : seq (seq nat)) (df : seq T) (dim : nat) (i : option nat) (gs : seq T) (k : nat) : outcome (seq T) :=
  if i is Some i then do m <- oget imap dim; do v <- oget m i; do x <- oget df v; do g <- oget gs k; oset df v (plus x g)
  else Ok df.
(** extension.hpp 72-83, one pair *)
Definition lsb_pair (imap : seq (seq nat)) (dim : nat) (gs : seq T) (bs : seq (option nat)) (df : seq T) (k : nat) : outcome (seq T) :=
  do b <- oget bs k; do df1 <- lsb_add imap df dim b gs k;
  do d <- oget bs k.+1; lsb_add imap df1 dim.+1 d gs k.+1.
(** extension.hpp 58-86: the loops; k runs over 0, 2, 4, ... below the size (72) *)
Definition lower_star_backwards (grads : seq (seq T)) (bdinds : seq (seq (option nat))) (imap : seq (seq nat)) : outcome (seq T) :=
  do m0 <- oget imap 0;
  ofold (fun df dim => do gs <- oget grads dim;
    ofold (fun df j => do bs <- oget bdinds dim; lsb_pair imap dim gs bs df (2 * j)) df (iota 0 (uphalf (size gs))))
    (nseq (size m0) t0) (iota 0 (size grads)).
End Grad.
