(** C43: barcodes of type-A quiver representations (quiver/sparse.hpp).  The specification is in S_Quiver.v: [denq m dg q] says
    that the Diagram dg holds the first m arrows of the representation q, [interval_decomposition] what the pairs must be. *)
From mathcomp Require Import all_ssreflect all_fingroup all_algebra zify.
From Verif Require Import Outcome P_Outcome M_SparseVec M_ColMatrix S_Linalg P_SparseVec M_Fact S_Fact P_Den P_Reduce M_Quiver S_Quiver
  P_Quiver1 P_Quiver2 P_Quiver3 P_Quiver4 P_Quiver6 P_Quiver7 P_Quiver9.
Set Implicit Arguments.
Unset Strict Implicit.
Unset Printing Implicit Defensive.
Import GRing.Theory.
Local Open Scope ring_scope.

Section F.
Variable F : fieldType.
Notation O := (ops_of F).
Variable d : nat -> nat.
Notation rep := (rep F d).

(** every algorithm returns the interval decomposition of the diagram: mixed arrow directions, any dimensions (also 0) *)
Theorem C43_rightward (dg : diagram F) m hdim (q : rep) : (0 < m)%N -> denq m dg q ->
  exists2 ps, barcode_rightward O dg hdim = Ok ps & interval_decomposition m hdim q ps.
Proof. exact: rightward_intervals. Qed.
Theorem C43_leftward (dg : diagram F) m hdim (q : rep) : (0 < m)%N -> denq m dg q ->
  exists2 ps, barcode_leftward O dg hdim = Ok ps & interval_decomposition m hdim q ps.
Proof. exact: leftward_intervals. Qed.
(** divide and conquer: for every number of threads and every order of the spawned tasks *)
Theorem C43_divide_conquer (dg : diagram F) m hdim (q : rep) nthreads sch : (0 < m)%N -> denq m dg q ->
  exists2 ps, barcode_dc O nthreads sch dg hdim = Ok ps & interval_decomposition m hdim q ps.
Proof.
move=> m0' dq; have [ms e pf] := divide_conquer_form nthreads sch m0' dq; rewrite /barcode_dc e; exact: pform_intervals.
Qed.

(** the intervals determine, and are determined by, the ranks of the zigzags between any two nodes *)
Theorem C43_zigzag_rank m hdim (q : rep) ps s n : interval_decomposition m hdim q ps -> (n + s <= m)%N ->
  zrank q s n = count (fun p => (p_birth p <= s)%N && (n + s <= p_death p)%N) ps.
Proof. exact: zrank_count. Qed.
Theorem C43_unique m hdim hdim' (q : rep) ps ps' :
  interval_decomposition m hdim q ps -> interval_decomposition m hdim' q ps' ->
  perm_eq [seq (p_birth p, p_death p) | p <- ps] [seq (p_birth p, p_death p) | p <- ps'].
Proof. exact: interval_unique. Qed.

(** when all arrows from s to n + s point right, the zigzag rank is the rank of their composite *)
Lemma zreachR (q : rep) s n (W : 'M[F]_(d s)) : (forall k, (s <= k < n + s)%N -> ~~ is_lft (q k)) ->
  (zreach q n W :=: W *m (compR q s n)^T)%MS.
Proof.
elim: n => [|n IH] H; first by rewrite /= trmx1 mulmx1.
have {}IH : (zreach q n W :=: W *m (compR q s n)^T)%MS.
  by apply: IH => k /andP[a b]; apply: H; rewrite a addSn ltnS ltnW.
have nl : ~~ is_lft (q (n + s)%N) by apply: H; rewrite leq_addl addSn ltnSn.
rewrite /=; move: nl.
case: (q (n + s)%N) => // M _ /=; apply: eqmx_trans (genmxE _) _.
by rewrite trmx_mul mulmxA; apply: eqmxMr.
Qed.
Theorem C43_composite_rank (q : rep) s n : (forall k, (s <= k < n + s)%N -> ~~ is_lft (q k)) ->
  zrank q s n = \rank (compR q s n).
Proof.
by move=> H; rewrite /zrank !(zreachR _ H) mul1mx mul0mx mxrank0 subn0 mxrank_tr.
Qed.

(** so the three algorithms agree, whatever the number of threads and the schedule *)
Theorem C43_agree (dg : diagram F) m hdim (q : rep) nthreads sch ps1 ps2 ps3 : (0 < m)%N -> denq m dg q ->
  barcode_rightward O dg hdim = Ok ps1 -> barcode_leftward O dg hdim = Ok ps2 -> barcode_dc O nthreads sch dg hdim = Ok ps3 ->
  perm_eq [seq (p_birth p, p_death p) | p <- ps1] [seq (p_birth p, p_death p) | p <- ps2] /\
  perm_eq [seq (p_birth p, p_death p) | p <- ps1] [seq (p_birth p, p_death p) | p <- ps3].
Proof.
move=> m0' dq; have [p1 -> h1] := C43_rightward hdim m0' dq; have [p2 -> h2] := C43_leftward hdim m0' dq.
have [p3 -> h3] := C43_divide_conquer hdim nthreads sch m0' dq => -[<-] [<-] [<-].
by split; [exact: interval_unique h1 h2|exact: interval_unique h1 h3].
Qed.

End F.

(** the barcode in all dimensions of a diagram of vectors of matrices: the concatenation of the interval decompositions,
    each labelled with its dimension *)
Definition denqs (F : fieldType) (m K : nat) (D : mdiagram F) (d : nat -> nat -> nat) (q : forall k, rep F (d k)) : Prop :=
  [/\ size (melist D) = m, size (medata D) = m &
      forall j k, (j < m)%N -> size (nth [::] (medata D) j) = K /\
        ((k < K)%N -> dene (nth (CMat 0 0 [::]) (nth [::] (medata D) j) k) (q k j) /\
           nth (0, 0)%N (melist D) j = if is_lft (q k j) then (j.+1, j) else (j, j.+1))].

Lemma extract_ok (F : fieldType) m K (D : mdiagram F) d (q : forall k, rep F (d k)) k : denqs m K D q -> (k < K)%N ->
  exists2 dg, extract_dimension D k = Ok dg & denq m dg (q k).
Proof.
move=> [s1 s2 h] kK; rewrite /extract_dimension s2.
suff [acc -> [a1 a2 a3]] : exists2 acc : seq (nat * nat) * seq (cmat F),
  ofold (fun acc i => do e <- oget (melist D) i; do ms <- oget (medata D) i; do A <- oget ms k; Ok (rcons acc.1 e, rcons acc.2 A))
    ([::], [::]) (iota 0 m) = Ok acc &
  [/\ size acc.1 = m, size acc.2 = m & forall i, (i < m)%N -> nth (0, 0)%N acc.1 i = nth (0, 0)%N (melist D) i /\
        nth (CMat 0 0 [::]) acc.2 i = nth (CMat 0 0 [::]) (nth [::] (medata D) i) k].
  cbn [obind]; eexists; first by []; split=> //= i im; have [e1 e2] := a3 i im; have [_ /(_ kK)[g1 g2]] := h i k im.
  by rewrite e1 e2.
have : (m <= m)%N by [].
elim: {-2}m => [|n IH] nm; first by exists ([::], [::]).
have [acc e [a1 a2 a3]] := IH (ltnW nm).
have -> : iota 0 n.+1 = iota 0 n ++ [:: n] by rewrite -[n.+1]addn1 iotaD.
rewrite ofold_cat e; cbn [obind ofold].
rewrite (oget_nth (0, 0)%N) ?s1 //; cbn [obind]; rewrite (oget_nth [::]) ?s2 //; cbn [obind].
have [sz _] := h n k nm; rewrite (oget_nth (CMat 0 0 [::])) ?sz //; cbn [obind].
eexists; first by []; split; rewrite ?size_rcons ?a1 ?a2 // => i; rewrite ltnS leq_eqVlt => /orP[/eqP ->|il].
  by rewrite /= !nth_rcons a1 a2 ltnn eqxx.
by rewrite /= !nth_rcons a1 a2 il; apply: a3.
Qed.

Lemma all_ok (F : fieldType) (alg : diagram F -> nat -> outcome (seq ppair)) m K (D : mdiagram F) d (q : forall k, rep F (d k)) :
  (forall dg k, denq m dg (q k) -> exists2 ps, alg dg k = Ok ps & interval_decomposition m k (q k) ps) ->
  (0 < m)%N -> denqs m K D q ->
  exists pss, [/\ size pss = K, barcode_all alg D = Ok (flatten pss) &
    forall k, (k < K)%N -> interval_decomposition m k (q k) (nth [::] pss k)].
Proof.
move=> H m0' dq; have [s1 s2 h] := dq; rewrite /barcode_all (oget_nth [::]) ?s2 //; cbn [obind].
have [-> _] := h 0%N 0%N m0'.
have : (K <= K)%N by [].
elim: {-2}K => [|n IH] nK; first by exists [::].
have [pss [sz e hp]] := IH (ltnW nK).
have -> : iota 0 n.+1 = iota 0 n ++ [:: n] by rewrite -[n.+1]addn1 iotaD.
rewrite ofold_cat e; cbn [obind ofold]; have [dg -> dqn] := extract_ok dq nK; cbn [obind].
have [ps -> hps] := H dg n dqn; cbn [obind]; exists (rcons pss ps); split.
- by rewrite size_rcons sz.
- by rewrite flatten_rcons.
- move=> k; rewrite ltnS leq_eqVlt => /orP[/eqP ->|kn]; rewrite nth_rcons sz; first by rewrite ltnn eqxx.
  by rewrite kn; apply: hp.
Qed.

Theorem C43_all_dimensions (F : fieldType) m K (D : mdiagram F) d (q : forall k, rep F (d k)) nthreads sch :
  (0 < m)%N -> denqs m K D q ->
  exists pss, [/\ size pss = K, barcode_all (barcode_dc (ops_of F) nthreads sch) D = Ok (flatten pss) &
    forall k, (k < K)%N -> interval_decomposition m k (q k) (nth [::] pss k)].
Proof.
move=> m0' dq; apply: all_ok => // dg k dk; exact: C43_divide_conquer.
Qed.
Theorem C43_all_dimensions_sequential (F : fieldType) m K (D : mdiagram F) d (q : forall k, rep F (d k)) :
  (0 < m)%N -> denqs m K D q ->
  (exists pss, [/\ size pss = K, barcode_all (barcode_rightward (ops_of F)) D = Ok (flatten pss) &
    forall k, (k < K)%N -> interval_decomposition m k (q k) (nth [::] pss k)]) /\
  (exists pss, [/\ size pss = K, barcode_all (barcode_leftward (ops_of F)) D = Ok (flatten pss) &
    forall k, (k < K)%N -> interval_decomposition m k (q k) (nth [::] pss k)]).
Proof.
move=> m0' dq; split; apply: all_ok => // dg k dk; [exact: C43_rightward|exact: C43_leftward].
Qed.

(** a diagram without edges is outside of what the algorithms support: they read the first edge *)
Theorem C43_no_edges (F : fieldType) nodes hdim nthreads sch :
  [/\ barcode_rightward (ops_of F) (Dgm nodes [::]) hdim = UB, barcode_leftward (ops_of F) (Dgm nodes [::]) hdim = UB &
      barcode_dc (ops_of F) nthreads sch (Dgm nodes [::]) hdim = UB].
Proof. by case: nodes => [|e l]; split. Qed.

(** every diagram of well formed matrices on a path with fitting dimensions holds a representation *)
Definition fits (F : fieldType) (m : nat) (d : nat -> nat) (dg : diagram F) : Prop :=
  [/\ size (elist dg) = m, size (edata dg) = m &
      forall k, (k < m)%N -> let A := nth (CMat 0 0 [::]) (edata dg) k in cm_wf A /\
        ((nth (0, 0)%N (elist dg) k = (k.+1, k) /\ (nrow A, ncol A) = (d k, d k.+1)) \/
         (nth (0, 0)%N (elist dg) k = (k, k.+1) /\ (nrow A, ncol A) = (d k.+1, d k)))].
Theorem C43_every_diagram (F : fieldType) m d (dg : diagram F) : fits m d dg -> exists q : rep F d, denq m dg q.
Proof.
move=> [s1 s2 h].
exists (fun k => let A := nth (CMat 0 0 [::]) (edata dg) k in
  if nth (0, 0)%N (elist dg) k == (k.+1, k) then Lft (mxc (d k) (d k.+1) (cols A)) else Rgt (mxc (d k.+1) (d k) (cols A))).
split=> // k km; have [wf [[-> [e1 e2]]|[-> [e1 e2]]]] := h k km; rewrite ?eqxx; first by split.
have -> : ((k, k.+1) == (k.+1, k)) = false by apply/eqP => -[]; clear; lia.
by split.
Qed.

(** 7 nodes of dimensions 1 2 2 1 2 2 1 with arrows -> -> <- -> <- <- *)
Notation OQ := (ops_of rat_fieldType).
Definition qz (n : nat) : rat := n%:R.
Definition exd (k : nat) : nat := nth 0%N [:: 1; 2; 2; 1; 2; 2; 1]%N k.
Definition exq : diagram rat_fieldType := Dgm [:: (0, 1); (1, 2); (3, 2); (3, 4); (5, 4); (6, 5)]%N
  [:: CMat 2 1 [:: [:: (0%N, qz 1); (1%N, qz 2)]];
      CMat 2 2 [:: [:: (0%N, qz 1); (1%N, qz 1)]; [:: (0%N, qz 3)]];
      CMat 2 1 [:: [:: (0%N, qz 7); (1%N, qz 1)]];
      CMat 2 1 [:: [:: (1%N, qz 5)]];
      CMat 2 2 [:: [:: (0%N, qz 1); (1%N, qz 2)]; [:: (0%N, qz 2); (1%N, qz 4)]];
      CMat 2 1 [:: [:: (0%N, qz 2); (1%N, - qz 1)]]].
Definition exbars (r : outcome (seq ppair)) : outcome (seq (nat * nat)) := do ps <- r; Ok [seq (p_birth p, p_death p) | p <- ps].
Lemma exq_fits : fits 6 exd exq.
Proof.
split; [by []|by []|move=> k].
do 6 (case: k => [|k]; first by move=> _; cbv zeta; split; [vm_compute; reflexivity|
  first [right; split; vm_compute; reflexivity|left; split; vm_compute; reflexivity]]).
by [].
Qed.
Definition exqs : mdiagram rat_fieldType := MDgm (elist exq) [seq [:: A; A] | A <- edata exq].
Theorem C43_nonvacuous :
  [/\ fits 6 exd exq, exists q : rep rat_fieldType exd, denq 6 exq q,
      exbars (barcode_dc OQ 4 (fun _ _ => true) exq 1) = Ok [:: (0, 4); (1, 2); (4, 5); (5, 6)]%N,
      exbars (barcode_leftward OQ exq 1) = Ok [:: (0, 4); (1, 2); (4, 5); (5, 6)]%N &
      exists q : forall k, rep rat_fieldType ((fun _ => exd) k), denqs 6 2 exqs q].
Proof.
have f := exq_fits; have [q dq] := C43_every_diagram f; split; [exact: f|exists q; exact: dq|vm_compute; reflexivity|vm_compute; reflexivity|].
exists (fun _ => q); split; [by vm_compute|by vm_compute|move=> j k jm]; rewrite (nth_map (CMat 0 0 [::])); last exact: jm.
split; [by []|move=> k2]; have [_ _ h] := dq; have [h1 h2] := h j jm.
case: k k2 => [|[|k]]; [move=> _|move=> _|by []]; split; [exact: h1|exact: h2|exact: h1|exact: h2].
Qed.
