(** Model of the representative functions of ReducedChainComplex (include/homology/basis.hpp 492-566) and of
    include/homology/induced_map.hpp (the chain map version). *)
From mathcomp Require Import all_ssreflect.
From Verif Require Import Outcome M_SparseVec M_Perm M_ColMatrix M_Reduce M_Homology.
Set Implicit Arguments.
Unset Strict Implicit.
Unset Printing Implicit Defensive.

Section Induced.
Variable T : Type.
Variable O : fops T.
Notation p2c_t := (seq (option nat)).

(** basis.hpp 495-499: remove_extra_cycles on every dimension; maxdim()+1 = R.size() *)
Definition rcc_remove_extra_cycles (X : rcc T) : outcome (rcc T) :=
  do U <- ofold (fun U k => do Rk <- oget (rc_R X) k; do Uk <- oget U k;
                   do Uk' <- remove_extra_cycles O Rk Uk; oset U k Uk')
                (rc_U X) (iota 0 (size (rc_R X)));
  Ok (RCC U (rc_R X) (rc_I X) (rc_p2c X)).

(** basis.hpp 502-505 to_hom_basis (vector argument), 507-510 from_hom_basis *)
Definition to_hom_basis (X : rcc T) (v : svec T) (k : nat) : outcome (svec T) :=
  do Uk <- oget (rc_U X) k; u_solve O Uk v.
Definition from_hom_basis (X : rcc T) (v : svec T) (k : nat) : outcome (svec T) :=
  do Uk <- oget (rc_U X) k; gemv O Uk v.

(** basis.hpp 515-520: get_preferred_representative(j, k) *)
Definition get_preferred_representative (X : rcc T) (j k : nat) : outcome (svec T) :=
  do Uk <- oget (rc_U X) k; do Ik <- oget (rc_I X) k; do i <- oget Ik j; oget (cols Uk) i.

(** basis.hpp 534-556: the while loop.  yit is the first entry of index >= b.  For j = 0 the argument
    j-1 of upper_bound wraps to SIZE_MAX, so yit becomes nzend(): modelled by a bound above every index. *)
Fixpoint fpr_loop (fuel : nat) (Uk R1 : cmat T) (p2c : p2c_t) (b : nat) (y : svec T) : outcome (svec T) :=
  if fuel is fuel'.+1 then
    match (split_lb y b).1 with
    | [::] => Ok y                                        (* yit == nzbegin() *)
    | p :: r =>
        let: (j, v) := last p r in                        (* --yit; j = yit->ind *)
        do e <- oget p2c j;
        if e is Some i then
          do ri <- oget (cols R1) i;
          do bd <- u_solve O Uk ri;
          do (_, w) <- lastnz bd;
          do a <- odiv O v w;
          fpr_loop fuel' Uk R1 p2c (if j == 0 then (nrow R1).+1 else j) (axpy O (fopp O a) bd y)
        else fpr_loop fuel' Uk R1 p2c j y
    end
  else OutOfFuel.

(** basis.hpp 522-557: find_preferred_representative(y, k); maxdim() = R.size() - 1 *)
Definition find_preferred (X : rcc T) (y : svec T) (k : nat) : outcome (svec T) :=
  if k.+1 == size (rc_R X) then Ok y
  else
    do Uk <- oget (rc_U X) k; do R1 <- oget (rc_R X) k.+1; do p1 <- oget (rc_p2c X) k.+1;
    fpr_loop (2 * (nrow R1).+2).+1 Uk R1 p1 (nrow R1).+1 y.

(** basis.hpp 560-566: chain_preferred_representative(c, k) *)
Definition chain_preferred (X : rcc T) (c : svec T) (k : nat) : outcome (svec T) :=
  do x <- to_hom_basis X c k;
  do y <- find_preferred X x k;
  from_hom_basis X y k.

(** induced_map.hpp 19-44: induced_map(F, C, D, k); [Fk] is F[k] *)
Definition induced_map (Fk : cmat T) (C D : rcc T) (k : nat) : outcome (cmat T) :=
  do CU <- oget (rc_U C) k; do DU <- oget (rc_U D) k;
  if (ncol Fk != nrow CU) || (nrow Fk != ncol DU) then Throw
  else
    do CI <- oget (rc_I C) k; do DI <- oget (rc_I D) k;
    do cs <- omapm (fun i =>
               do c <- oget (cols CU) i;
               do x <- gemv O Fk c;
               do y <- u_solve O DU x;
               do y' <- find_preferred D y k;
               Ok (select y' DI)) CI;
    Ok (CMat (size DI) (size CI) cs).

End Induced.
