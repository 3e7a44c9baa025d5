(** Zigzag barcodes: a concrete run (C46), and what happens when maxdim is too small. *)
From mathcomp Require Import all_ssreflect all_algebra zify.
From Verif Require Import Outcome P_Outcome M_SparseVec M_Perm M_ColMatrix M_Homology M_Zigzag
  S_Linalg S_Homology S_Induced S_Zigzag P_SparseVec P_SparseVec2 Ex_Reduction Props_Zigzag.
Set Implicit Arguments.
Unset Strict Implicit.
Unset Printing Implicit Defensive.
Import GRing.Theory.
Local Open Scope ring_scope.

Section E.
Variable F : fieldType.
(** a triangle whose boundary is filled by two different 2-cells *)
Definition disks : seq (cmat F) := [:: CMat 1 3 [:: [::]; [::]; [::]];
  CMat 3 3 [:: [:: (0%N, -1); (1%N, 1)]; [:: (0%N, -1); (2%N, 1)]; [:: (1%N, -1); (2%N, 1)]];
  CMat 3 2 [:: [:: (0%N, 1); (1%N, -1); (2%N, 1)]; [:: (0%N, 1); (1%N, -1); (2%N, 1)]]].
Lemma disks_wf : chain_wf disks.
Proof.
have n1 : (-1 : F) != 0 by rewrite oppr_eq0 oner_neq0.
have n2 := oner_neq0 F.
split=> //.
  by rewrite /= /cm_wf /= /sv_wf /sv_sorted /sv_below /sv_nonzero /= !n1 !n2.
case=> [|[|k]] //= _; split=> //; apply/matrixP => i j; rewrite !mxE !big_ord_recl big_ord0 !mxE.
  by rewrite /= !coef_nil !mul0r !addr0; case: i j => [[|i] li] // [[|[|[|j]]] lj].
case: i => [[|[|[|i]]] li] //; case: j => [[|[|j]] lj] //=;
  rewrite /coef /= !big_cons !big_nil /=;
  rewrite ?mulr0 ?mul0r ?addr0 ?add0r ?mulrN ?mulNr ?mulr1 ?mul1r ?opprK ?addrN ?addNr //.
Qed.
Lemma disks_bd0 : no_bd0 disks.
Proof. by move=> i [|[|[|j]]] //= _; rewrite /entry /= coef_nil. Qed.

Notation ev k i b := (RFV k i i 0%N b).
(** the triangle grows with edges in the order 0 2 1, is filled by cell 1, which is then replaced by cell 0; then everything leaves *)
Definition disk_events : seq (rfv nat) := [:: ev 0 0 true; ev 0 1 true; ev 0 2 true; ev 1 0 true; ev 1 2 true; ev 1 1 true;
  ev 2 1 true; ev 2 1 false; ev 2 0 true; ev 2 0 false; ev 1 2 false; ev 1 1 false; ev 1 0 false; ev 0 2 false; ev 0 1 false; ev 0 0 false]%N.

(** a check that implies zigzag_ok *)
Definition ev_check (C : seq (cmat F)) (pre : seq (rfv nat)) (e : rfv nat) : bool :=
  let k := z_dim e in let i := z_ind e in
  [&& (k < size C)%N, (i < ncell C k)%N &
   if z_entry e then ~~ entered pre k i &&
      (if k is k'.+1 then all (fun x => present pre k' x.1) (nth [::] (cols (bmx C k)) i) else true)
   else [&& present pre k i, all (fun j => (i \notin [seq x.1 | x <- nth [::] (cols (bmx C k.+1)) j]) || ~~ present pre k.+1 j)
         (iota 0 (size (cols (bmx C k.+1)))) & all (fun e' => ~~ present pre k (z_ind e') || (z_ind e' <= i)%N) pre]].
Fixpoint evs_check C (pre evs : seq (rfv nat)) : bool :=
  if evs is e :: evs' then ev_check C pre e && evs_check C (rcons pre e) evs' else true.
Lemma coef_notin (x : svec F) i : i \notin [seq p.1 | p <- x] -> coef x i = 0.
Proof.
move=> ni; rewrite /coef big1_seq // => p /andP[/eqP e px]; case/negP: ni; apply/mapP; exists p => //.
Qed.
Lemma all_has (T : Type) (a b : pred T) (l : seq T) : all a l -> has b l -> exists x, a x && b x.
Proof. by elim: l => //= x l IH /andP[ax al] /orP[bx|/(IH al)]; [exists x; rewrite ax bx|]. Qed.
Lemma ev_checkP C pre e : ev_check C pre e -> event_ok C pre e.
Proof.
move=> /and3P[a b c]; split=> //; case: (z_entry e) c => [/andP[-> c]|/and3P[-> c2 c3]]; split=> //.
- move=> k' i' ek; rewrite ek /= in c; rewrite /entry ek; case: (boolP (i' \in [seq p.1 | p <- nth [::] (cols (bmx C k'.+1)) (z_ind e)])).
    by case/mapP => p px -> _; apply: (allP c).
  by move/coef_notin => ->; rewrite eqxx.
- move=> j; rewrite /entry => n; case: (ltnP j (size (cols (bmx C (z_dim e).+1)))) => lj.
    have /(_ j) := allP c2; rewrite mem_iota lj => /(_ isT)/orP[/coef_notin e1|//]; by rewrite e1 eqxx in n.
  by move: n; rewrite nth_default // coef_nil eqxx.
- move=> j pj; have /andP[en _] := pj; have [x /andP[/orP hx /andP[_ /andP[_ /eqP ej]]]] := all_has c3 en.
  by rewrite ej in hx; case: hx => //; rewrite pj.
Qed.
Lemma evs_checkP C evs : evs_check C [::] evs -> zigzag_ok C evs.
Proof.
have G pre p0 e post : evs_check C p0 (pre ++ e :: post) -> ev_check C (p0 ++ pre) e.
  elim: pre p0 => [|x l IH] p0 /=; first by rewrite cats0 => /andP[].
  by move=> /andP[_ /IH]; rewrite cat_rcons.
by move=> H pre e post eq; apply: ev_checkP; apply: (G pre [::] e post); rewrite -eq.
Qed.
Lemma disk_events_ok : zigzag_ok disks disk_events.
Proof. by apply: evs_checkP. Qed.
End E.

(** the hypotheses of zigzag_barcode hold, and what the program returns: H_0: the component of vertex 0 lives until vertex 0
    leaves, those of vertices 1 and 2 die when edges 0 and 2 enter, two components appear when edges 1 and 0 leave; H_1: the
    loop born with edge 1, killed by cell 1; alive between the removal of cell 1 and the entry of cell 0; alive from the
    removal of cell 0 until edge 2 leaves *)
Theorem zigzag_barcode_example :
  [/\ chain_wf (disks F2), no_bd0 (disks F2), zigzag_ok (disks F2) disk_events, (size (disks F2) <= (dims_asked (disks F2) None).+1)%N &
  exists bars, zigzag_barcode_reduction (ops_of F2) 99%N (disks F2) disk_events None = Ok bars /\
  [seq [seq (zp_birth_ind b, zp_birth_entry b, zp_death_ind b, zp_death_entry b) | b <- bk] | bk <- bars] =
  [:: [:: (0, true, Some 0, false); (1, true, Some 0, true); (2, true, Some 2, true); (1, false, Some 2, false);
          (0, false, Some 1, false)];
      [:: (1, true, Some 1, true); (1, false, Some 0, true); (0, false, Some 2, false)]]%N].
Proof.
split; [exact: disks_wf|exact: disks_bd0|exact: disk_events_ok|by []|].
by eexists; split; vm_compute.
Qed.

(** The bound on maxdim is needed: when only H_0 is asked for, the removal of the 2-cells does not clear the pivot of their
    column (only dimensions <= maxdim+1 are handled), and the next entry of a 2-cell reads the last entry of an empty column. *)
Theorem zigzag_small_maxdim_refuted :
  [/\ chain_wf (disks F2), no_bd0 (disks F2), zigzag_ok (disks F2) disk_events &
  zigzag_barcode_reduction (ops_of F2) 99%N (disks F2) disk_events (Some 0%N) = UB].
Proof. by split; [exact: disks_wf|exact: disks_bd0|exact: disk_events_ok|vm_compute]. Qed.
