(** C25, continued: boundaries of cubical complexes. *)
From mathcomp Require Import all_ssreflect all_algebra zify.
From Verif Require Import Outcome M_SparseVec M_Perm M_ColMatrix M_CSC M_Simplicial M_Cubical S_Perm S_Linalg S_Homology S_Cubical P_Outcome P_SparseVec P_SparseVec2 P_Trie P_Simplicial P_ScOps P_ScBuild P_CubeList P_Cubical P_CubeOps P_CubeBoundary Props_Cubical.
Set Implicit Arguments.
Unset Strict Implicit.
Unset Printing Implicit Defensive.
Import GRing.Theory.

Section OverField.
Variable F : fieldType.
Local Open Scope ring_scope.
Let conv (z : int) : F := z%:~R.

Definition cbmat (cl : cells_t) (k : nat) : cmat F :=
  if k is k'.+1 then CMat (size (cl k')) (size (cl k)) [seq ccol conv (cl k') s | s <- cl k]
  else CMat 1 (size (cl 0%N)) (nseq (size (cl 0%N)) [::]).

Lemma cchain_ok D cl X : cinv D cl X -> cc_chain conv X = Ok [seq cbmat cl k | k <- iota 0 D.+1].
Proof.
move=> iv; rewrite /cc_chain; have [[_ _ _ _ ->] _ _ _ _] := iv; apply: omapm_Ok_eq => -[|k]; rewrite mem_iota add0n => lk.
  by have := cncell_ok iv (leq0n D); rewrite /cc_ncell => ->.
have [A [EA EM]] := cboundary_ok iv lk; rewrite [k.+1 == 0%N]/= EA; cbn [obind]; exact: EM.
Qed.

Lemma cbmx_chain cl n k : (k < n)%N -> bmx [seq cbmat cl k | k <- iota 0 n] k = cbmat cl k.
Proof. by move=> lk; rewrite /bmx (nth_map 0%N) ?size_iota // nth_iota. Qed.

Lemma cbmat_square D cl X k : cinv D cl X ->
  mxc (nrow (cbmat cl k)) (ncol (cbmat cl k)) (cols (cbmat cl k)) *m mxc (ncol (cbmat cl k)) (size (cl k.+1)) (cols (cbmat cl k.+1)) = 0.
Proof.
move=> iv; apply/matrixP => r c; rewrite mxE [RHS]mxE; case: k r c => [|k] r c.
  apply: big1 => i _; rewrite !mxE /= nth_nseq; case: ifP; rewrite coef_nil mul0r //.
have si : nth [::] (cl k.+2) c \in cl k.+2 by exact: mem_nth.
have [_ _ cf] := cinv_Wc k.+2 iv; have [vs _ _] := cl_cube iv si.
have := @ccol_square F D (cl k) (cl k.+1) (nth [::] (cl k.+2) c) r (size_cval vs) (cf _ si).
move=> H; apply: etrans H; apply: eq_bigr => i _; rewrite !mxE /=.
by rewrite (nth_map [::]) // (nth_map [::]).
Qed.

(** the boundary matrix: one row per k-cube, one column per (k+1)-cube, and the entry at the row of t and the column of s
    is the coefficient of t in the boundary of s *)
Theorem C25_boundary X k : cc_built X -> (k < cc_maxdim X)%N ->
  exists A (M : cmat F),
  [/\ cc_boundary_csc X k.+1 = Ok A, cm_of_csc conv A = Ok M, cc_ncell X k = Ok (nrow M) /\ cc_ncell X k.+1 = Ok (ncol M), cm_wf M &
      forall i j t s, ccell_is X k i t -> ccell_is X k.+1 j s ->
        coef (nth [::] (cols M) j) i = (bd_coef (cc_maxdim X) t s)%:~R].
Proof.
move=> b lk; have [cl iv _] := cbuilt_inv b; have [A [EA EM]] := cboundary_ok iv lk.
have [_ _ cf] := cinv_Wc k.+1 iv.
exists A, (cbmat cl k.+1); split=> //; [exact: EM|split; [exact: cncell_ok iv (ltnW lk)|exact: cncell_ok iv lk]| |].
  rewrite /= /cm_wf /= size_map eqxx all_map /=; apply/allP => s si; exact: ccol_wf (cf s si).
move=> i j t s /(ccell_is_iff _ _ _ iv) [li et] /(ccell_is_iff _ _ _ iv) [lj es]; rewrite /= (nth_map [::]) // -es.
have si : s \in cl k.+1 by rewrite es mem_nth.
have [vs _ _] := cl_cube iv si; have [_ u _] := cinv_Wc k iv.
have -> : ccol conv (cl k) s = ccol (fun z : int => z%:~R) (cl k) s by [].
rewrite coef_ccol /bd_coef rmorph_sum /= (cbdE _ vs) big_nat_cond [RHS]big_nat_cond; apply: eq_bigr => d /andP [ld nd].
have K x : x = lo s d \/ x = hi s d -> (index (at_point s d x) (cl k) == i) = (t == at_point s d x).
  move=> hx; have xi : at_point s d x \in cl k.
    have [|f fi ->] := (mem_cfaces (at_point s d x) vs).2; last exact: cf fi.
    by exists d => //; case: hx => ->; [left|right].
  apply/eqP/eqP => [e|e]; first by rewrite et -e nth_index.
  by rewrite -e et index_uniq.
by rewrite rmorphM rmorphX rmorphB !rmorph_nat rmorphN rmorph1 !K; [|left|right].
Qed.

(** consecutive boundaries compose to zero, over every field *)
Theorem C25_square X k : cc_built X -> (k.+1 < cc_maxdim X)%N ->
  exists A B (MA MB : cmat F),
  [/\ cc_boundary_csc X k.+1 = Ok A, cc_boundary_csc X k.+2 = Ok B, cm_of_csc conv A = Ok MA, cm_of_csc conv B = Ok MB &
      nrow MB = ncol MA /\ mxc (nrow MA) (ncol MA) (cols MA) *m mxc (ncol MA) (ncol MB) (cols MB) = 0].
Proof.
move=> b lk; have [cl iv _] := cbuilt_inv b; have [A [EA EM]] := cboundary_ok iv (ltnW lk); have [B [EB EMB]] := cboundary_ok iv lk.
exists A, B, (cbmat cl k.+1), (cbmat cl k.+2); split=> //; [exact: EM|exact: EMB|].
by split=> //; exact: cbmat_square iv.
Qed.

(** ChainComplex(X) is a well formed chain complex with one cell per cube, and has the properties C14-C22 ask of complexes *)
Theorem C25_chain X : cc_built X ->
  exists C, [/\ cc_chain conv X = Ok C, size C = (cc_maxdim X).+1, chain_wf C, cells_like C &
    forall k, (k <= cc_maxdim X)%N -> cc_ncell X k = Ok (ncol (bmx C k))].
Proof.
move=> b; have [cl iv _] := cbuilt_inv b; exists [seq cbmat cl k | k <- iota 0 (cc_maxdim X).+1].
have nz k s : s \in cl k.+1 -> sv_wf (size (cl k)) (ccol conv (cl k) s).
  by move=> si; have [_ _ cf] := cinv_Wc k.+1 iv; apply: ccol_wf; exact: cf.
split.
- exact: cchain_ok iv.
- by rewrite size_map size_iota.
- split; first by rewrite size_map size_iota.
    rewrite all_map; apply/allP => -[|k]; rewrite mem_iota add0n => lk.
      by rewrite /= /cm_wf /= size_nseq eqxx all_nseq orbT.
    by rewrite /= /cm_wf /= size_map eqxx all_map /=; apply/allP => s si; exact: nz.
  move=> k; rewrite size_map size_iota => lk; rewrite !cbmx_chain //; last exact: ltnW.
  by split; [case: (k)|exact: cbmat_square iv].
- split.
  + move=> i j; rewrite cbmx_chain //= => lj; rewrite nth_nseq; case: ifP => _; exact: coef_nil.
  + move=> j; case: (ltnP 1 (cc_maxdim X).+1) => l1; last by rewrite /bmx nth_default ?size_map ?size_iota.
    rewrite cbmx_chain //= => lj; rewrite (nth_map [::]) //.
    have si : nth [::] (cl 1%N) j \in cl 1%N by exact: mem_nth.
    have [vs ds _] := cl_cube iv si; have [_ _ cf] := cinv_Wc 1%N iv; move: (cf _ si) ds vs; set s := nth _ _ _ => fin ds vs.
    under eq_bigr do rewrite (coef_ccol F (cl 0%N) s).
    rewrite /cbd exchange_big /=.
    transitivity (\sum_(f <- cfaces s) f.2%:~R : F).
      rewrite big_seq [RHS]big_seq; apply: eq_bigr => f fi; rewrite -mulr_sumr.
      have lt : (index f.1 (cl 0%N) < size (cl 0%N))%N by rewrite index_mem; exact: fin.
      rewrite (bigD1 (Ordinal lt)) //= eqxx big1 ?addr0 ?mulr1 // => i ne.
      by case: eqP => // e; case/eqP: ne; apply: val_inj.
    have -> : \sum_(f <- cfaces s) f.2%:~R = cbd (fun _ => 1 : F) s by apply: eq_bigr => f _; rewrite mulr1.
    by rewrite (cbdE _ vs); apply: big1 => i _; rewrite subrr mulr0.
  + move=> [|k] j // _; rewrite size_map size_iota => lk; rewrite cbmx_chain //= => lj; rewrite (nth_map [::]) //.
    have si : nth [::] (cl k.+1) j \in cl k.+1 by exact: mem_nth.
    have [vs ds _] := cl_cube iv si.
    have /and3P [so _ nzr] := nz _ _ si.
    case E: (ccol conv (cl k) _) so nzr => [|p v] so nzr.
      by move/(congr1 size): E; rewrite /ccol size_zip size_srt size_map size_srtc size_cidx minnn (cfaces_size vs) ds.
    by exists p.1; rewrite coef_head //; case/andP: nzr.
- move=> k lk; rewrite cbmx_chain // (cncell_ok iv lk); by case: (k).
Qed.
End OverField.

(** ** a concrete case: the solid square and its skeleton *)
Definition ex_cubes : ccx := if cc_add_recursive (cc_new 2) [:: 0; 1; 0; 1] is Ok (X, _) then X else cc_new 2.
Theorem C25_nonvacuous : [/\ cc_built ex_cubes, cc_maxdim ex_cubes = 2,
  [/\ cc_ncell ex_cubes 0 = Ok 4, cc_ncell ex_cubes 1 = Ok 4 & cc_ncell ex_cubes 2 = Ok 1],
  ccell_is ex_cubes 2 0 [:: 0; 1; 0; 1] & bd_coef 2 [:: 0; 1; 1; 1] [:: 0; 1; 0; 1] = (-1)%R].
Proof.
have [X [r E]] : exists X r, cc_add_recursive (cc_new 2) [:: 0; 1; 0; 1] = Ok (X, r) by vm_compute; do 2 eexists.
have EX : ex_cubes = X by rewrite /ex_cubes E.
split; first by rewrite EX; apply: ccb_add_recursive E; exact: ccb_new.
- by vm_compute.
- by split; vm_compute.
- by exists 1; [vm_compute|split; vm_compute].
- by rewrite /bd_coef unlock; vm_compute.
Qed.
