(** Concrete cases for Props_Induced.v, and the failure of chain_preferred_representative after a
    reduction with the compression option. *)
From mathcomp Require Import all_ssreflect all_algebra zify.
From Verif Require Import Outcome P_Outcome M_SparseVec M_Perm M_ColMatrix M_Reduce M_Homology M_Induced
  S_Linalg S_Perm S_Homology S_Induced P_SparseVec P_Pairing P_Homology Props_Reduction Ex_Reduction P_Rep P_Induced Props_Induced.
Set Implicit Arguments.
Unset Strict Implicit.
Unset Printing Implicit Defensive.
Import GRing.Theory.
Local Open Scope ring_scope.

(** the hollow triangle: a circle, one class in dimension 1 *)
Definition circ (F : fieldType) : seq (cmat F) := [:: tri0 F; tri1 F].
Lemma circ_wf F : chain_wf (circ F).
Proof.
have n1 : (-1 : F) != 0 by rewrite oppr_eq0 oner_neq0.
have n2 := oner_neq0 F.
have [_ _ c] := tri_wf F; split=> //.
  by rewrite /= /cm_wf /= /sv_wf /sv_sorted /sv_below /sv_nonzero /= !n1 !n2.
by case=> [|k] //= _; exact: (c 0%N isT).
Qed.

(** its rotation 0 -> 1 -> 2 -> 0 as a chain map: 01 -> 12, 02 -> -01, 12 -> -02 *)
Definition rot (F : fieldType) : seq (cmat F) :=
  [:: CMat 3 3 [:: [:: (1%N, 1)]; [:: (2%N, 1)]; [:: (0%N, 1)]];
      CMat 3 3 [:: [:: (2%N, 1)]; [:: (0%N, -1)]; [:: (1%N, -1)]]].

Lemma rot_map F : chain_map (circ F) (circ F) (rot F).
Proof.
have n1 : (-1 : F) != 0 by rewrite oppr_eq0 oner_neq0.
have n2 := oner_neq0 F.
split=> //.
- by case=> [|[|k]] //= _; rewrite /cm_wf /= /sv_wf /sv_sorted /sv_below /sv_nonzero /= ?n1 !n2.
- case=> [|k] // _; apply/matrixP => i j; rewrite !mxE !big_ord_recl !big_ord0 !mxE /=.
  case: i => [[|[|[|i]]] li] //; case: j => [[|[|[|j]]] lj] //=;
  by rewrite !coef_cons !coef_nil /= ?(mulr0, mul0r, addr0, add0r, mulrN, mulNr, mulr1, mul1r, opprK, oppr0).
- move=> z Z; apply/matrixP => i j; rewrite [LHS]mxE big1 ?mxE // => a _.
  by case: a => [[|[|[|a]]] la] //=; rewrite !mxE /= ?nth_nil coef_nil mul0r.
Qed.

(** C20_*, C21_* apply to the circle and its rotation, where dimension 1 has one generator *)
Theorem C21_nonvacuous :
  [/\ chain_wf (circ F2), chain_map (circ F2) (circ F2) (rot F2) &
     exists X M, [/\ rcc_of (ops_of F2) StandardBasis (circ F2) = Ok X, size (gens X 1) = 1%N &
       induced_map (ops_of F2) (bmx (rot F2) 1) X X 1 = Ok M /\ size (flatten (cols M)) = 1%N]].
Proof.
split; [exact: circ_wf | exact: rot_map |].
by do 2 eexists; split; [by vm_compute | by vm_compute | split; by vm_compute].
Qed.

(** C20 fails for CompressionBasis: the boundary of the triangle is sent to a chain that is not a cycle *)
Theorem C20_compression_refuted :
  exists X c c', [/\ rcc_of (ops_of F2) CompressionBasis (tri F2) = Ok X,
    sv_wf (ncell (tri F2) 1) c /\ cycle (vec (ncell (tri F2) 1) c),
    homologous (vec (ncell (tri F2) 1) c) 0,
    chain_preferred (ops_of F2) X c 1 = Ok c' &
    ~ cycle (vec (ncell (tri F2) 1) c')].
Proof.
pose c : svec F2 := [:: (0%N, 1); (1%N, 1); (2%N, 1)].
have [X E RX] := rcc_of_rep (tri_wf F2) (isT : has_basis CompressionBasis).
have : exists c', chain_preferred (ops_of F2) X c 1 = Ok c' /\
    [seq (p.1, nat_of_ord p.2) | p <- c'] = [:: (0%N, 1%N); (1%N, 1%N)].
  have -> : X = if rcc_of (ops_of F2) CompressionBasis (tri F2) is Ok Y then Y else RCC [::] [::] [::] [::] by rewrite E.
  by eexists; split; vm_compute; reflexivity.
move=> [c' [Ec El]]; exists X, c, c'; split; [exact: E | split | | exact: Ec |].
- by vm_compute.
- apply/colP => i; rewrite !mxE; rewrite !big_ord_recl big_ord0 !mxE.
  by case: i => [[|[|[|i]]] li]; [| | | discriminate li];
    rewrite /= !coef_cons !coef_nil; apply/val_inj; vm_compute.
- exists (const_mx 1); rewrite subr0; apply/colP => i; rewrite !mxE !big_ord_recl big_ord0 !mxE.
  by case: i => [[|[|[|i]]] li]; [| | | discriminate li];
    rewrite /= !coef_cons !coef_nil; apply/val_inj; vm_compute.
have -> : c' = [:: (0%N, 1); (1%N, 1)].
  move: El; clear; case: c' => [|[a x] [|[b y] [|? ?]]] //= -[-> e1 -> e2].
  by congr [:: (_, _); (_, _)]; apply: val_inj.
have l1 : (1 < nrow (bmx (tri F2) 1))%N by [].
move/colP/(_ (Ordinal l1)); rewrite !mxE !big_ord_recl big_ord0 !mxE /= !coef_cons !coef_nil => /(congr1 val).
by vm_compute.
Qed.
