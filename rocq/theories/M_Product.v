(** Model of TriangulatedProduct, include/complex/simplicial_complex.hpp 633-763. *)
From mathcomp Require Import all_ssreflect all_algebra.
From Verif Require Import Outcome M_Simplicial.
Set Implicit Arguments.
Unset Strict Implicit.
Unset Printing Implicit Defensive.

(** 636-638 prod_ind *)
Definition prod_ind (n i j : nat) : nat := i + n * j.

(** 644-675 product_paths: the iterators are the simplices still to read; s is left as it was found (pop_back), so it is passed by
    value.  fuel >= number of vertices left.  (679-706, which also records the cells, is not modelled.) *)
Fixpoint product_paths (fuel : nat) (XY : scx) (xs ys s : seq nat) (n : nat) : outcome scx :=
  if fuel is fuel'.+1 then
    match xs, ys with
    | x :: xs', y :: ys' =>
      let s := rcons s (prod_ind n x y) in
      if nilp xs' && nilp ys' then do r <- sc_add_recursive XY s; Ok r.1
      else
        do XY1 <- (if nilp xs' then Ok XY else product_paths fuel' XY xs' ys s n);
        if nilp ys' then Ok XY1 else product_paths fuel' XY1 xs ys' s n
    | _, _ => UB
    end
  else OutOfFuel.

(** 714-750 TriangulatedProduct(X, Y, maxdim, n) *)
Definition TriangulatedProduct (X Y : scx) (maxdim n : nat) : outcome scx :=
  do _ <- sc_ncell Y 0;
  ofold (fun XY dim =>
    ofold (fun XY dX =>
      let dY := dim - dX in
      if ((sc_dims X).-1 < dX) || ((sc_dims Y).-1 < dY) then Ok XY else
      do nX <- sc_ncell X dX;
      ofold (fun XY iX =>
        do nY <- sc_ncell Y dY;
        ofold (fun XY iY =>
          do a <- sc_simplex X dX iX; do b <- sc_simplex Y dY iY;
          product_paths (size a + size b) XY a b [::] n) XY (iota 0 nY)) XY (iota 0 nX)) XY (iota 0 dim.+1))
    (sc_new maxdim) (iota 0 maxdim.+1).
(** 752-763: the overloads with default arguments *)
Definition TriangulatedProduct_n (X Y : scx) (maxdim : nat) : outcome scx :=
  do n <- sc_ncell X 0; TriangulatedProduct X Y maxdim n.
Definition TriangulatedProduct_full (X Y : scx) : outcome scx :=
  do n <- sc_ncell X 0; TriangulatedProduct X Y ((sc_dims X).-1 + (sc_dims Y).-1) n.
