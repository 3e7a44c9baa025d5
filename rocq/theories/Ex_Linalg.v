(** Concrete cases meeting the hypotheses of Props_Linalg.v. *)
From mathcomp Require Import all_ssreflect all_algebra zify.
From Verif Require Import Outcome M_SparseVec M_Perm M_ColMatrix S_Linalg S_Perm Props_Linalg.
Set Implicit Arguments.
Unset Strict Implicit.
Unset Printing Implicit Defensive.
Import GRing.Theory.
Local Open Scope ring_scope.

Section Ex.
Variable F : fieldType.
Let n1 : (-1 : F) != 0. Proof. by rewrite oppr_eq0 oner_neq0. Qed.
Let o1 := oner_neq0 F.

Definition vx : svec F := [:: (0%N, 1); (2%N, -1)].
Definition vy : svec F := [:: (1%N, 1); (2%N, 1)].
Lemma vx_wf : sv_wf 3 vx. Proof. by rewrite /sv_wf /sv_sorted /sv_below /sv_nonzero /= n1 o1. Qed.
Lemma vy_wf : sv_wf 3 vy. Proof. by rewrite /sv_wf /sv_sorted /sv_below /sv_nonzero /= o1. Qed.

(** entries cancel at index 2 and nothing is stored there *)
Example ex_axpy : axpy (ops_of F) 1 vx vy = [:: (0%N, 1); (1%N, 1)].
Proof.
by rewrite /axpy /is0 /= (negbTE (oner_neq0 _)) /= /is0 /= !mul1r addNr eqxx.
Qed.
Example ex_dot : dot (ops_of F) vx vy = -1.
Proof. by rewrite (C06_dot (m := 3)) // !big_ord_recl big_ord0 /coef /= !big_cons !big_nil /= !(mul0r,mulr0,addr0,add0r,mulr1). Qed.
Example ex_select : select vx [:: 1%N; 2%N] = [:: (1%N, -1)]. Proof. by []. Qed.

(** an upper triangular matrix with a nonzero entry above the diagonal *)
Definition mU : cmat F := CMat 2 2 [:: [:: (0%N, 1)]; [:: (0%N, 1); (1%N, -1)]].
Lemma mU_wf : cm_wf mU.
Proof. by rewrite /cm_wf /= /sv_wf /sv_sorted /sv_below /sv_nonzero /= n1 !o1. Qed.
Lemma mU_upper : upper (mxc 2 2 (cols mU)) /\ diagn0 (mxc 2 2 (cols mU)).
Proof.
split=> [[[|[|i]] li] [[|[|j]] lj] // _|[[|[|i]] li] //]; by rewrite mxE /coef /= !big_cons big_nil /= ?addr0 ?add0r.
Qed.
Example ex_u_inv : exists cs, let V := CMat 2 2 cs in
  [/\ u_inv (ops_of F) mU = Ok V, cm_wf V, mx mU *m mx V = 1%:M & mx V *m mx mU = 1%:M].
Proof. have [a b] := mU_upper; exact: (C10_u_inv mU_wf erefl a b). Qed.

(** its transpose is lower triangular *)
Definition mL : cmat F := CMat 2 2 [:: [:: (0%N, 1); (1%N, 1)]; [:: (1%N, -1)]].
Lemma mL_wf : cm_wf mL.
Proof. by rewrite /cm_wf /= /sv_wf /sv_sorted /sv_below /sv_nonzero /= n1 !o1. Qed.
Lemma mL_lower : lower (mxc 2 2 (cols mL)) /\ diagn0 (mxc 2 2 (cols mL)).
Proof.
split=> [[[|[|i]] li] [[|[|j]] lj] // _|[[|[|i]] li] //]; by rewrite mxE /coef /= !big_cons big_nil /= ?addr0 ?add0r.
Qed.
Example ex_l_inv : exists cs, let V := CMat 2 2 cs in
  [/\ l_inv (ops_of F) mL = Ok V, cm_wf V, mx mL *m mx V = 1%:M & mx V *m mx mL = 1%:M].
Proof. have [a b] := mL_lower; exact: (C10_l_inv mL_wf erefl a b). Qed.
Example ex_transpose : transpose mU = Ok mL. Proof. by []. Qed.
Example ex_add : is_ok (cm_add (ops_of F) mU mL).
Proof. by have [cs [-> _ _]] := C07_add mU_wf mL_wf erefl erefl. Qed.

(** a non-square matrix, a 3-cycle *)
Definition mA : cmat F := CMat 2 3 [:: [:: (0%N, 1)]; [:: (1%N, -1)]; [:: (0%N, 1); (1%N, 1)]].
Lemma mA_wf : cm_wf mA.
Proof. by rewrite /cm_wf /= /sv_wf /sv_sorted /sv_below /sv_nonzero /= n1 !o1. Qed.
Example ex_cols : is_perm [:: 1%N; 2%N; 0%N] /\
  ipermute_cols [:: 1%N; 2%N; 0%N] mA = Ok (CMat 2 3 [:: [:: (1%N, -1)]; [:: (0%N, 1); (1%N, 1)]; [:: (0%N, 1)]]).
Proof. by []. Qed.
Example ex_gemm : exists cs, gemm (ops_of F) mU mA = Ok (CMat 2 3 cs).
Proof. by have [cs [E _ _]] := C07_gemm mU_wf mA_wf erefl; exists cs. Qed.
Example ex_insert : insert_column 1 [:: (1%N, 1)] mA =
  Ok (CMat 2 4 [:: [:: (0%N, 1)]; [:: (1%N, 1)]; [:: (1%N, -1)]; [:: (0%N, 1); (1%N, 1)]]).
Proof. by []. Qed.
(** the zero column ends up in the wrong place: [A0; A2; 0; A1] *)
Example ex_insert_zero : insert_zero_column 1 mA =
  Ok (CMat 2 4 [:: [:: (0%N, 1)]; [:: (0%N, 1); (1%N, 1)]; [::]; [:: (1%N, -1)]]).
Proof. by []. Qed.
Example ex_set_block : cm_set_block 0 1 1 3 (CMat 1 2 [:: [:: (0%N, 1)]; [::]]) mA =
  Ok (CMat 2 3 [:: [:: (0%N, 1)]; [:: (0%N, 1)]; [::]]).
Proof. by []. Qed.
End Ex.
