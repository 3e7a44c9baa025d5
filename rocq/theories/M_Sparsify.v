(** Model of sparsify_basis (include/homology/reduction.hpp 310-389) and coeff_intersection
    (include/linalg/sparse_vector.hpp 790-816). *)
From mathcomp Require Import all_ssreflect.
From Verif Require Import Outcome M_SparseVec M_Perm M_ColMatrix M_Reduce M_Homology.
Set Implicit Arguments.
Unset Strict Implicit.
Unset Printing Implicit Defensive.

Section Sparsify.
Variable T : Type.
Variable O : fops T.
(** the order std::map<F, size_t> uses on the coefficients *)
Variable lt : T -> T -> bool.
Notation cols_t := (seq (svec T)).

(** ++(ct[c]) on a std::map, kept as the list of (key, count) in key order *)
Fixpoint ct_incr (c : T) (ct : seq (T * nat)) : seq (T * nat) :=
  match ct with
  | [::] => [:: (c, 1)]
  | (d, n) :: ct' => if lt c d then (c, 1) :: ct
                     else if lt d c then (d, n) :: ct_incr c ct' else (d, n.+1) :: ct'
  end.

(** sparse_vector.hpp 795-816: this->coeff_intersection(x, ct) *)
Fixpoint coeff_inter (y : svec T) : svec T -> seq (T * nat) -> outcome (seq (T * nat)) :=
  match y with
  | [::] => fun _ ct => Ok ct
  | (i1, v1) :: y' =>
      fix aux (x : svec T) (ct : seq (T * nat)) : outcome (seq (T * nat)) :=
        match x with
        | [::] => Ok ct
        | (i2, v2) :: x' =>
            if i1 == i2 then do c <- odiv O v1 v2; coeff_inter y' x' (ct_incr c ct)
            else if i1 < i2 then coeff_inter y' x ct
            else aux x' ct
        end
  end.

(** reduction.hpp 345-352: the first coefficient of largest count *)
Definition pick_coeff (ct : seq (T * nat)) : T * nat :=
  foldl (fun am cn => if am.2 < cn.2 then cn else am) (f0 O, 0) ct.

(** reduction.hpp 336-365: the while loop for column j.  piv = nzend() - end_offset; after an axpy the new
    piv is dereferenced without a range test. *)
Fixpoint sp_col (fuel : nat) (R U : cols_t) (j off : nat) : outcome (cols_t * cols_t) :=
  if fuel is fuel'.+1 then
    do c <- oget U j;
    if off < size c then
      do (k, _) <- oget c (size c - off);
      do rk <- oget R k;
      if (if last_ind rk is Some l then l < j else true) then     (* R[k].nnz()==0 || R[k].lastnz().ind < j *)
        do uk <- oget U k;
        do rj <- oget R j;
        do ct1 <- coeff_inter c uk [::];
        do ct2 <- coeff_inter rj rk ct1;
        let: (a, n) := pick_coeff ct2 in
        do (R', U') <- (if (size uk + size rk) %/ 2 < n then
                          do U' <- oset U j (axpy O (fopp O a) uk c);
                          do R' <- oset R j (axpy O (fopp O a) rk rj); Ok (R', U')
                        else Ok (R, U));
        do c' <- oget U' j;
        if off <= size c' then
          do (k', _) <- oget c' (size c' - off);
          sp_col fuel' R' U' j (if k' == k then off.+1 else off)
        else UB
      else sp_col fuel' R U j off.+1
    else Ok (R, U)
  else OutOfFuel.

(** reduction.hpp 372-389: sparsify_basis(R, U) *)
Definition sparsify_basis (R U : cmat T) : outcome (cmat T * cmat T) :=
  if ncol R != ncol U then Throw
  else
    do (R', U') <- ofold (fun st j => sp_col (nrow U).+2 st.1 st.2 j 2) (cols R, cols U) (iota 0 (ncol R));
    Ok (CMat (nrow R) (ncol R) R', CMat (nrow U) (ncol U) U').

(** basis.hpp 486-490: sparsify_basis on every dimension *)
Definition rcc_sparsify_basis (X : rcc T) : outcome (rcc T) :=
  do (R, U) <- ofold (fun st k => do Rk <- oget st.1 k; do Uk <- oget st.2 k;
                        do (Rk', Uk') <- sparsify_basis Rk Uk;
                        do R' <- oset st.1 k Rk'; do U' <- oset st.2 k Uk'; Ok (R', U'))
                (rc_R X, rc_U X) (iota 0 (size (rc_R X)));
  Ok (RCC U R (rc_I X) (rc_p2c X)).
End Sparsify.
