(** C24: boundaries of simplicial complexes. *)
From mathcomp Require Import all_ssreflect all_algebra zify.
From Verif Require Import Outcome M_SparseVec M_Perm M_ColMatrix M_CSC M_Simplicial S_Perm S_Linalg S_Homology S_Simplicial P_Outcome P_SparseVec P_SparseVec2 P_Trie P_Simplicial P_ScOps P_ScBuild P_ScBoundary Props_Simplicial.
Set Implicit Arguments.
Unset Strict Implicit.
Unset Printing Implicit Defensive.
Import GRing.Theory.

(** boundary(k+1, i) of a (k+1)-simplex s: the indices find_idx gives to the k+2 faces of s, in increasing order, each
    with the sign (-1)^(k+2-j) for the face without vertex j. *)
Theorem C24_boundary X k i s : built X -> cell_is X k.+1 i s ->
  exists f c (ix : nat -> nat),
  [/\ sc_boundary X k.+1 i = Ok (f, c), size f = k.+2 /\ size c = k.+2, sorted leq f,
      forall j, j < k.+2 -> sc_find X (take j s ++ drop j.+1 s) = Ok (Some (ix j)) &
      perm_eq (zip f c) [seq (ix j, (-1) ^+ (k.+2 - j))%R | j <- iota 0 k.+2]].
Proof.
move=> /built_inv [cl iv _] /(cell_is_iff _ _ _ iv) [li ->]; set s' := nth _ _ _.
have si : s' \in cl k.+1 by exact: mem_nth.
have ss := cl_size iv si; have [_ _ _ _ T] := iv; have [_ _ cf] := inv_Wc iv k.+1.
exists (rowf (cl k) s'), (rowc (cl k) s'), (fun j => index (skip j s') (cl k)); split.
- exact: boundary_ok iv li.
- by rewrite size_rowf size_rowc ss.
- exact: rowf_sorted.
- move=> j lj; have sz : size (skip j s') = k.+1 by rewrite size_skip ss.
  have nz : skip j s' != [::] by rewrite -size_eq0 sz.
  by rewrite (find_ok T nz) sz [k.+1.-1]/= cf ?ss.
- by rewrite -[in X in perm_eq _ X]ss; exact: row_fpairs.
Qed.

(** boundary_csc(k+1) has one row per k-simplex and one column per (k+1)-simplex; converted to a ColumnMatrix, column i
    is boundary(k+1, i) with converted coefficients. *)
Theorem C24_matrix (T : Type) (conv : int -> T) X k : built X -> k.+1 < sc_dims X ->
  exists A M, [/\ sc_boundary_csc X k.+1 = Ok A, cm_of_csc conv A = Ok M,
    sc_ncell X k = Ok (nrow M), sc_ncell X k.+1 = Ok (ncol M) &
    size (cols M) = ncol M /\ forall i, i < ncol M -> exists f c,
      sc_boundary X k.+1 i = Ok (f, c) /\ nth [::] (cols M) i = zip f (map conv c)].
Proof.
move=> /built_inv [cl iv _] lk; have [A [EA EM]] := boundary_csc_ok iv lk.
do 2 eexists; split; [exact: EA|exact: EM|exact: ncell_ok iv (ltnW lk)|exact: ncell_ok iv lk|].
rewrite /= size_map; split=> // i li.
by do 2 eexists; split; [exact: (boundary_ok iv li)|rewrite (nth_map [::])].
Qed.

Section OverField.
Variable F : fieldType.
Local Open Scope ring_scope.
Let conv (z : int) : F := z%:~R.

Definition bmat (cl : cells_t) (k : nat) : cmat F :=
  if k is k'.+1 then CMat (size (cl k')) (size (cl k)) [seq bcol F (cl k') s | s <- cl k]
  else CMat 1 (size (cl 0%N)) (nseq (size (cl 0%N)) [::]).

Lemma chain_ok cl X : inv cl X -> (0 < sc_dims X)%N -> sc_chain conv X = Ok [seq bmat cl k | k <- iota 0 (sc_dims X)].
Proof.
move=> iv d0; rewrite /sc_chain; apply: omapm_Ok_eq => -[|k]; rewrite mem_iota add0n => lk.
  by have := ncell_ok iv d0; rewrite /sc_ncell => ->.
have [A [EA EM]] := boundary_csc_ok iv lk; rewrite [k.+1 == 0%N]/= EA; cbn [obind]; exact: EM.
Qed.

Lemma bmx_chain cl n k : (k < n)%N -> bmx [seq bmat cl k | k <- iota 0 n] k = bmat cl k.
Proof. by move=> lk; rewrite /bmx (nth_map 0%N) ?size_iota // nth_iota. Qed.

Lemma bmat_square cl X k : inv cl X ->
  mxc (nrow (bmat cl k)) (ncol (bmat cl k)) (cols (bmat cl k)) *m mxc (ncol (bmat cl k)) (size (cl k.+1)) (cols (bmat cl k.+1)) = 0.
Proof.
move=> iv; apply/matrixP => r c; rewrite mxE [RHS]mxE; case: k r c => [|k] r c.
  apply: big1 => i _; rewrite !mxE /= nth_nseq; case: ifP; rewrite coef_nil mul0r //.
have si : nth [::] (cl k.+2) c \in cl k.+2 by exact: mem_nth.
have [w _ _] := inv_Wc iv k.+1; have [_ _ cf] := inv_Wc iv k.+2.
have := @bcol_square F (cl k) (cl k.+1) (nth [::] (cl k.+2) c) r (cf _ si).
rewrite (cl_size iv si) => /(_ w) H; apply: etrans H; apply: eq_bigr => i _; rewrite !mxE /=.
by rewrite (nth_map [::]) // (nth_map [::]).
Qed.

(** consecutive boundaries compose to zero, whatever was added, over every field *)
Theorem C24_square X k : built X -> (k.+2 < sc_dims X)%N ->
  exists A B (MA MB : cmat F),
  [/\ sc_boundary_csc X k.+1 = Ok A, sc_boundary_csc X k.+2 = Ok B, cm_of_csc conv A = Ok MA, cm_of_csc conv B = Ok MB &
      nrow MB = ncol MA /\ mxc (nrow MA) (ncol MA) (cols MA) *m mxc (ncol MA) (ncol MB) (cols MB) = 0].
Proof.
move=> /built_inv [cl iv _] lk; have [A [EA EM]] := boundary_csc_ok iv (ltnW lk); have [B [EB EMB]] := boundary_csc_ok iv lk.
exists A, B, (bmat cl k.+1), (bmat cl k.+2); split=> //; [exact: EM|exact: EMB|].
by split=> //; exact: bmat_square iv.
Qed.

(** when no simplex repeats a vertex, ChainComplex(X) is a well formed chain complex with one cell per simplex, and has
    the properties C14-C22 ask of complexes *)
Theorem C24_chain X : built X -> nondegenerate X ->
  exists C, [/\ sc_chain conv X = Ok C, size C = sc_dims X, chain_wf C, cells_like C &
    forall k, (k < sc_dims X)%N -> sc_ncell X k = Ok (ncol (bmx C k))].
Proof.
move=> /built_inv [cl iv d0] nd; exists [seq bmat cl k | k <- iota 0 (sc_dims X)]; split.
- exact: chain_ok iv d0.
- by rewrite size_map size_iota.
- split; first by rewrite size_map size_iota.
    rewrite all_map; apply/allP => -[|k]; rewrite mem_iota add0n => lk.
      by rewrite /= /cm_wf /= size_nseq eqxx all_nseq orbT.
    rewrite /= /cm_wf /= size_map eqxx all_map /=; apply/allP => s si; have ss := cl_size iv si.
    have [_ _ cf] := inv_Wc iv k.+1; rewrite /=; apply: bcol_wf; first exact: cf.
    by apply: nd; apply/(contains_iff iv); rewrite -?size_eq0 ss.
  move=> k; rewrite size_map size_iota => lk; rewrite !bmx_chain //; last exact: ltnW.
  by split; [case: (k)|exact: bmat_square iv].
- have nz k s : s \in cl k.+1 -> sv_wf (size (cl k)) (bcol F (cl k) s).
    move=> si; have ss := cl_size iv si; have [_ _ cf] := inv_Wc iv k.+1; apply: bcol_wf; first exact: cf.
    by apply: nd; apply/(contains_iff iv); rewrite -?size_eq0 ss.
  split.
  + move=> i j; rewrite bmx_chain //= => lj; rewrite nth_nseq; case: ifP => _; exact: coef_nil.
  + move=> j; case: (ltnP 1 (sc_dims X)) => l1; last by rewrite /bmx nth_default ?size_map ?size_iota.
    rewrite bmx_chain //= => lj; rewrite (nth_map [::]) //.
    have si : nth [::] (cl 1%N) j \in cl 1%N by exact: mem_nth.
    have ss := cl_size iv si; have [_ _ cf] := inv_Wc iv 1; move: (cf _ si) ss; set s := nth _ _ _ => fin ss.
    under eq_bigr do rewrite coef_bcol.
    rewrite -mulr_sumr.
    have -> : \sum_(i < size (cl 0%N)) alt (delta F (cl 0%N) i) s = alt (fun _ => 1) s.
      rewrite /alt exchange_big /=; apply: eq_bigr => j' _; rewrite -mulr_sumr; congr (_ * _).
      have lt : (index (skip j' s) (cl 0%N) < size (cl 0%N))%N by rewrite index_mem; exact: fin.
      rewrite (bigD1 (Ordinal lt)) //= /delta eqxx big1 ?addr0 // => i ne.
      by case: eqP => // e; case/eqP: ne; apply: val_inj.
    by rewrite /alt ss !big_ord_recl big_ord0 /= expr0 expr1 !mulr1 addr0 subrr mulr0.
  + move=> [|k] j // _; rewrite size_map size_iota => lk; rewrite bmx_chain //= => lj; rewrite (nth_map [::]) //.
    have si : nth [::] (cl k.+1) j \in cl k.+1 by exact: mem_nth.
    have /and3P [so _ nzr] := nz _ _ si; have ss := cl_size iv si.
    case E: (bcol F (cl k) _) so nzr => [|p v] so nzr.
      by move/(congr1 size): E; rewrite /bcol size_zip size_rowf size_map size_rowc ss minnn.
    by exists p.1; rewrite coef_head //; case/andP: nzr.
- move=> k lk; rewrite bmx_chain // (ncell_ok iv lk); by case: (k).
Qed.
End OverField.

(** how to stay nondegenerate *)
Theorem C24_nondegenerate_new m : nondegenerate (sc_new m).
Proof. by move=> [|a s] // [i]; rewrite /sc_find /=. Qed.

Theorem C24_nondegenerate_add X s X' r : built X -> nondegenerate X -> uniq s -> s != [::] ->
  sc_add X s = Ok (X', r) -> nondegenerate X'.
Proof.
move=> b nd u n0 E [|a t] //; have [ct _ _ _] := C23_add b n0 E.
by move=> /(ct (a :: t) isT) [/nd|[-> _]] //; rewrite sort_uniq.
Qed.

Theorem C24_nondegenerate_add_recursive X s X' r : built X -> nondegenerate X -> uniq s -> s != [::] ->
  sc_add_recursive X s = Ok (X', r) -> nondegenerate X'.
Proof.
move=> b nd u n0 E [|a t] //; have [ct _ _ _] := C23_add_recursive b n0 E.
move=> /(ct (a :: t) isT) [/nd //|st]; apply: subseq_uniq st _; by rewrite sort_uniq.
Qed.

Theorem C24_nonvacuous : built ex_complex /\ nondegenerate ex_complex.
Proof.
have [E1 E2 b _ _] := C23_nonvacuous; split; first exact: b.
have b1 : built ex_triangle := built_add_recursive (built_new 0) E1.
have n1 : nondegenerate ex_triangle := @C24_nondegenerate_add_recursive _ [:: 2; 0; 1] _ _ (built_new 0) (@C24_nondegenerate_new 0) isT isT E1.
exact: (@C24_nondegenerate_add_recursive _ [:: 1; 3] _ _ b1 n1 isT isT E2).
Qed.

(** with a repeated vertex the column has a repeated row index, so it is not a sparse vector *)
Theorem C24_degenerate : built ex_degenerate /\ sc_boundary ex_degenerate 1 0 = Ok ([:: 0; 0], [:: (-1)%R; 1%R]).
Proof. by split; [have [] := C23_degenerate|vm_compute]. Qed.
