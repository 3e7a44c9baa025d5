(** Concrete cases meeting the hypotheses of the C29-C31 theorems. *)
From mathcomp Require Import all_ssreflect all_algebra.
From Verif Require Import Outcome M_SparseVec M_Perm M_Sorted S_Perm S_Linalg Props_Util.
Set Implicit Arguments.
Unset Strict Implicit.
Unset Printing Implicit Defensive.

Theorem C29_nonvacuous : [/\ is_perm [:: 2; 0; 1], inv_perm [:: 2; 0; 1] = Ok [:: 1; 2; 0],
  apply_perm [:: 2; 0; 1] [:: 10; 11; 12] = Ok [:: 12; 10; 11],
  apply_perm_swap 0 [:: 2; 0; 1] [:: 10; 11; 12] = Ok [:: 11; 12; 10] &
  perm_to_the_end [:: 1; 3] 5 = [:: 0; 2; 4; 1; 3]].
Proof. by split. Qed.
Theorem C29_nonvacuous2 : [/\ partial_perm [:: 3; 1] 4 = Ok [:: None; Some 1; None; Some 0],
  find_perm_from_vector [:: 7; 3; 7; 1] = Ok [:: 2; 1; 3; 0],
  extension_perm [:: 1; 0] 4 = [:: 1; 0; 2; 3] & perm_sign_neg [:: 1; 0; 2]].
Proof. by split. Qed.

Theorem C30_nonvacuous : Kendall_tau [:: 3; 1; 2; 2; 0] = Ok 7 /\
  Kendall_tau2 [:: 2; 0; 1] [:: 0; 1; 2] = Ok 2.
Proof. by split. Qed.

Theorem C31_nonvacuous : [/\ intersect_sorted [:: 1; 3; 5; 7] [:: 0; 3; 4; 7] = [:: 3; 7],
  intersect_sorted_lt 5 [:: 1; 3; 5; 7] [:: 0; 3; 4; 7] = [:: 3],
  intersect_sorted_lt 3 [:: 5] [:: 5] = [:: 5],
  find_sorted_lt [:: 1; 4; 6] 5 = Ok (Some 1) & sorted_complement [:: 1; 3] 5 = Ok [:: 0; 2; 4]].
Proof. by split. Qed.
Theorem C31_nonvacuous2 : [/\ simplex_sign [:: 4; 2; 9] = Ok ([:: 2; 4; 9], Minus),
  simplex_sign [:: 4; 2; 4] = Ok ([:: 2; 4; 4], Zero) & find_sorted_lt [:: 3; 4] 3 = UB].
Proof. by split. Qed.
Theorem C31_nonvacuous3 : sort_sum_reduce (ops_of [fieldType of 'F_5]) [:: 9; 3; 1; 3; 1] [:: 1; 2; 1; 4; 4]%R 1 =
  Ok ([:: 9; 3], [:: 1; 2 + 4]%R).
Proof. by vm_compute. Qed.
