(** DG vector spaces, part 2: reordering the differentials; anti-transposes and their pivots. *)
From mathcomp Require Import all_ssreflect all_algebra zify.
From Verif Require Import Outcome P_Outcome M_SparseVec M_Perm M_ColMatrix M_Reduce M_Homology M_Persist
  M_Induced M_DG S_Linalg S_Perm S_Homology P_SparseVec P_Pairing P_Reduce P_Perm P_PermMx P_ColMatrix P_Homology P_Betti
  P_Update P_Chain P_DG1.
Set Implicit Arguments.
Unset Strict Implicit.
Unset Printing Implicit Defensive.
Import GRing.Theory.
Local Open Scope ring_scope.

Section A.
Variable F : fieldType.
Notation O := (ops_of F).
Notation cmat := (cmat F).
Notation m0 := (CMat 0 0 [::] : cmat).
Notation p2c_t := (seq (option nat)).

Lemma bmxE (D : seq cmat) k : nth m0 D k = bmx D k. Proof. by []. Qed.

Lemma oupdE (D : seq cmat) k f A : (k < size D)%N -> f (bmx D k) = Ok A ->
  oupd D k f = Ok (set_nth m0 D k A).
Proof. by move=> lt E; rewrite /oupd (oget_nth m0) //= bmxE E /= (oset_Ok m0). Qed.

(** the loop over the dimensions, degree -1: fA k acts on D[k], fB k on D[k+1] *)
Section Loop.
Variables (m : nat) (D : seq cmat) (fA fB : nat -> cmat -> outcome cmat) (G E : nat -> cmat).
Variable step : seq cmat -> nat -> outcome (seq cmat).
Hypothesis sD : size D = m.+2.
Hypothesis HB : forall k, (0 < k <= m)%N -> fB k.-1 (bmx D k) = Ok (G k).
Hypothesis HA : forall k, (0 < k <= m)%N -> fA k (G k) = Ok (E k).
Hypothesis H0 : m = 0%N -> fB 0 (bmx D 1) = Ok (bmx D 1).
Hypothesis step0 : forall ds, size ds = m.+2 -> step ds 0 = oupd ds 1 (fB 0).
Hypothesis stepm : forall ds, size ds = m.+2 -> (0 < m)%N -> step ds m = oupd ds m (fA m).
Hypothesis stepk : forall ds k A B, size ds = m.+2 -> (0 < k < m)%N ->
  fA k (bmx ds k) = Ok A -> fB k (bmx ds k.+1) = Ok B ->
  exists2 ds', step ds k = Ok ds' & size ds' = m.+2 /\
    forall l, bmx ds' l = if l == k then A else if l == k.+1 then B else bmx ds l.

Lemma dg_loop : exists2 D', ofold step D (iota 0 m.+1) = Ok D' & size D' = m.+2 /\
  forall k, bmx D' k = if (0 < k <= m)%N then E k else bmx D k.
Proof.
pose P l (ds : seq cmat) := size ds = m.+2 /\ forall k, bmx ds k =
   if ((0 < k < l) && (k <= m))%N then E k else if [&& (0 < k)%N, k == l & (k <= m)%N] then G k else bmx D k.
have [||D' EQ [s' H']] := @ofold_iota_ind _ step P m.+1 D.
- by split=> // k; case: k.
- move=> l ds lm [s H].
  have sz k A : (k < m.+2)%N -> size (set_nth m0 ds k A) = m.+2.
    by move=> lt; rewrite size_set_nth s; apply/maxn_idPr.
  have bs k A j : bmx (set_nth m0 ds k A) j = if j == k then A else bmx ds j by rewrite /bmx nth_setE.
  case: (posnP l) => [l0|l0].
    rewrite l0 step0 //; have E1 : bmx ds 1 = bmx D 1 by rewrite H l0.
    case: (posnP m) => [mz|mp].
      rewrite (@oupdE _ _ _ (bmx D 1)) ?s ?E1 //; last exact: H0.
      eexists; first by []; split; first by rewrite sz.
      move=> k; rewrite bs H l0; case: eqP => [->|ne]; first by rewrite mz.
      have -> : ((0 < k < 0) && (k <= m))%N = false by move: ne; clear; lia.
      have -> : ((0 < k < 1) && (k <= m))%N = false by clear; lia.
      have -> : [&& (0 < k)%N, k == 0%N & (k <= m)%N] = false by clear; lia.
      by rewrite andbF.
    rewrite (@oupdE _ _ _ (G 1)) ?s ?E1 //; last by apply: (HB (k := 1)).
    eexists; first by []; split; first by rewrite sz.
    move=> k; rewrite bs H l0; case: eqP => [->|ne]; first by rewrite mp.
    have -> : ((0 < k < 0) && (k <= m))%N = false by clear; lia.
    have -> : ((0 < k < 1) && (k <= m))%N = false by clear; lia.
    have -> : [&& (0 < k)%N, k == 0%N & (k <= m)%N] = false by clear; lia.
    by rewrite andbF.
  have El : bmx ds l = G l.
    rewrite H ltnn andbF /= l0 eqxx /=.
    by have -> : (l <= m)%N by move: lm; clear; lia.
  case: (eqVneq l m) => [lE|ne].
    subst l; rewrite stepm // (@oupdE _ _ _ (E m)) ?s ?El //; last by apply: HA; rewrite l0 /=.
    eexists; first by []; split; first by rewrite sz.
    move=> k; rewrite bs H; case: eqP => [->|ne]; first by rewrite l0 ltnSn leqnn.
    rewrite andbF.
    have -> : [&& (0 < k)%N, k == m.+1 & (k <= m)%N] = false by clear; lia.
    by have -> : ((0 < k < m.+1) && (k <= m))%N = ((0 < k < m) && (k <= m))%N by move: ne; clear; lia.
  have lm' : (l < m)%N by move: lm ne; clear; lia.
  have El1 : bmx ds l.+1 = bmx D l.+1.
    rewrite H; have -> : ((0 < l.+1 < l) && (l.+1 <= m))%N = false by clear; lia.
    by have -> : [&& (0 < l.+1)%N, l.+1 == l & (l.+1 <= m)%N] = false by clear; lia.
  have r1 : (0 < l < m)%N by rewrite l0.
  have r2 : fA l (bmx ds l) = Ok (E l) by rewrite El HA // l0 /= ltnW.
  have r3 : fB l (bmx ds l.+1) = Ok (G l.+1) by rewrite El1; apply: (HB (k := l.+1)).
  have [ds' E1 [s1 H1]] := stepk s r1 r2 r3.
  exists ds' => //; split=> // k; rewrite H1; case: (eqVneq k l) => [->|n1].
    by rewrite l0 ltnSn (ltnW lm').
  case: (eqVneq k l.+1) => [->|n2]; first by rewrite ltnn andbF /= lm'.
  rewrite H (negbTE n1) !andbF.
  by have -> : ((0 < k < l.+1) && (k <= m))%N = ((0 < k < l) && (k <= m))%N by move: n1; clear; lia.
exists D' => //; split=> // k; rewrite H'.
have -> : [&& (0 < k)%N, k == m.+1 & (k <= m)%N] = false by clear; lia.
by have -> : ((0 < k < m.+1) && (k <= m))%N = (0 < k <= m)%N by clear; lia.
Qed.
End Loop.

(** A' is A with rows and columns reindexed *)
Definition reord (A A' : cmat) (a b : seq nat) : Prop :=
  [/\ cm_wf A', nrow A' = nrow A, ncol A' = ncol A &
      forall i j, (i < nrow A)%N -> (j < ncol A)%N -> ent A' i j = ent A (nth 0%N a i) (nth 0%N b j)].

Lemma row_reord (A : cmat) a : cm_wf A -> is_perm a -> size a = nrow A ->
  exists2 A', (do ip <- inv_perm a; permute_rows ip A) = Ok A' & reord A A' a (iota 0 (ncol A)).
Proof.
move=> W P s; have [A' [E W' nr nc H]] := inv_permute_rows_spec P s W erefl.
by exists A' => //; split=> // i j im jn; rewrite H // nth_iota.
Qed.
Lemma col_reord (A : cmat) b : cm_wf A -> is_perm b -> size b = ncol A ->
  exists2 A', ipermute_cols b A = Ok A' & reord A A' (iota 0 (nrow A)) b.
Proof.
move=> W P s; have [A' [E W' nr nc H]] := ipermute_cols_spec P s W erefl.
by exists A' => //; split=> // i j im jn; rewrite H // nth_iota.
Qed.

Lemma cm_eq0 (A A' : cmat) : cm_wf A -> cm_wf A' -> nrow A' = nrow A -> ncol A' = ncol A ->
  nrow A = 0%N \/ ncol A = 0%N -> A' = A.
Proof.
case: A => r2 c2 l2; case: A' => r1 c1 l1 W W' /= e1 e2; subst => H.
have -> : l1 = l2; last by [].
apply: (cm_ext W' W); apply/matrixP => i j; case: H => e; exfalso.
  by have := ltn_ord i; move: e; clear; lia.
by have := ltn_ord j; move: e; clear; lia.
Qed.

Definition rowsp (deg : int) (p q : seq nat) := if deg == -1 then p else q.

(** ipermute_basis: the inner differentials are reordered, the outer two are untouched *)
Lemma dg_ipermute_spec m deg (D : seq cmat) qs : deg = -1 \/ deg = 1 ->
  size D = m.+2 -> size qs = m.+1 -> (forall k, (k <= m)%N -> is_perm (nth [::] qs k)) ->
  (forall k, (0 < k <= m)%N -> [/\ cm_wf (bmx D k),
     nrow (bmx D k) = size (nth [::] qs (if deg == -1 then k.-1 else k)) &
     ncol (bmx D k) = size (nth [::] qs (if deg == -1 then k else k.-1))]) ->
  (m = 0%N -> cm_wf (bmx D 1) /\ if deg == -1 then nrow (bmx D 1) = size (nth [::] qs 0) /\ ncol (bmx D 1) = 0%N
     else ncol (bmx D 1) = size (nth [::] qs 0) /\ nrow (bmx D 1) = 0%N) ->
  exists2 D', dg_ipermute qs (DG deg D) = Ok (DG deg D') & size D' = m.+2 /\
   forall k, if (0 < k <= m)%N
     then reord (bmx D k) (bmx D' k) (nth [::] qs (if deg == -1 then k.-1 else k))
                (nth [::] qs (if deg == -1 then k else k.-1))
     else bmx D' k = bmx D k.
Proof.
move=> Hd sD sq Hq HD H0; rewrite /dg_ipermute /= sq.
pose rows k A := do ip <- inv_perm (nth [::] qs k); permute_rows ip A : outcome cmat.
pose colf k := @ipermute_cols F (nth [::] qs k).
pose fA := if deg == -1 then colf else rows.
pose fB := if deg == -1 then rows else colf.
have nm : (-1 == 1 :> int) = false by [].
have GE k : (0 < k <= m)%N -> exists G E, [/\ fB k.-1 (bmx D k) = Ok G, fA k G = Ok E &
    reord (bmx D k) E (nth [::] qs (if deg == -1 then k.-1 else k)) (nth [::] qs (if deg == -1 then k else k.-1))].
  move=> kr; have [W nr nc] := HD k kr; have k1 : (k.-1 <= m)%N by move: kr; clear; lia.
  have km : (k <= m)%N by move: kr; clear; lia.
  rewrite /fA /fB; case: Hd nr nc => -> /= nr nc.
    have [G EG [WG nrG ncG HG]] := row_reord W (Hq _ k1) (esym nr).
    have [|E EE [WE nrE ncE HE]] := col_reord WG (Hq _ km); first by rewrite ncG nc.
    exists G, E; split=> //; split=> //; [by rewrite nrE | by rewrite ncE |].
    move=> i j im jn; have jn' : (j < ncol G)%N by rewrite ncG.
    have im' : (i < nrow G)%N by rewrite nrG.
    rewrite HE // nth_iota // add0n HG //; last by rewrite nc is_perm_lt ?Hq // -nc.
    by rewrite nth_iota ?add0n // nc is_perm_lt ?Hq // -nc.
  have [G EG [WG nrG ncG HG]] := col_reord W (Hq _ k1) (esym nc).
  have [|E EE [WE nrE ncE HE]] := row_reord WG (Hq _ km); first by rewrite nrG nr.
  exists G, E; split=> //; split=> //; [by rewrite nrE | by rewrite ncE |].
  move=> i j im jn; have jn' : (j < ncol G)%N by rewrite ncG.
  have im' : (i < nrow G)%N by rewrite nrG.
  rewrite HE // nth_iota // add0n HG //; last by rewrite nr is_perm_lt ?Hq // -nr.
  by rewrite nth_iota ?add0n // nr is_perm_lt ?Hq // -nr.
have CH (P : nat -> cmat -> cmat -> Prop) : (forall k, (0 < k <= m)%N -> exists G E, P k G E) ->
    exists G E : nat -> cmat, forall k, (0 < k <= m)%N -> P k (G k) (E k).
  move=> H; have : exists l : seq (cmat * cmat), forall k, (0 < k <= m)%N -> P k (nth (m0, m0) l k).1 (nth (m0, m0) l k).2.
    elim: (m) P H {GE} => [|n IH] P H; first by exists [::] => -[|k] /andP[].
    have [|l Hl] := IH P; first by move=> k kr; apply: H; move: kr; clear; lia.
    have [|G [E PE]] := H n.+1; first by rewrite leqnn.
    exists (set_nth (m0, m0) l n.+1 (G, E)) => k /andP[k0 kn]; rewrite nth_setE.
    by case: eqP => [->|ne] //; apply: Hl; move: k0 kn ne; clear; lia.
  by move=> [l Hl]; exists (fun k => (nth (m0, m0) l k).1), (fun k => (nth (m0, m0) l k).2).
have [G [E HGE]] := CH _ GE.
pose stepf (ds : seq cmat) (k : nat) : outcome (seq cmat) := if k == 0%N then oupd ds 1 (fB 0%N) else if k == (size ds - 2)%N then oupd ds k (fA k)
   else if deg == (-1) then do D' <- oupd ds k (fA k); oupd D' k.+1 (fB k)
   else do D' <- oupd ds k.+1 (fB k); oupd D' k (fA k).
have stepE ds k : (k <= m)%N -> (do p <- oget qs k; dg_ipermute1 deg ds k p) =
   stepf ds k.
  move=> km; rewrite (oget_nth [::]) ?sq //= /dg_ipermute1 /stepf /fA /fB.
  by case: Hd => -> /=; case: (eqVneq k 0%N) => [->|].
have m2 : (m.+2 - 2)%N = m by rewrite -addn2 addnK.
have EQ : ofold (fun ds k => do p <- oget qs k; dg_ipermute1 deg ds k p) D (iota 0 m.+1) =
   ofold stepf D (iota 0 m.+1).
  have : all (fun k => k <= m)%N (iota 0 m.+1) by apply/allP => k; rewrite mem_iota.
  elim: (iota 0 m.+1) (D) => //= k l IH ds /andP[km a]; rewrite stepE //.
  by case: (stepf ds k) => //= ds'; apply: IH.
rewrite EQ.
have [|||||| D' -> [s' H']] := @dg_loop m D fA fB G E stepf sD.
- by move=> k /HGE[].
- by move=> k /HGE[].
- move=> mz; have [W] := H0 mz; rewrite /fB; case: (Hd) => -> /= [e1 e2].
    have [|A EA [WA nr nc HA]] := row_reord W (Hq 0%N (leq0n _)) _; first by [].
    by rewrite /rows EA (cm_eq0 W WA nr nc (or_intror e2)).
  have [|A EA [WA nr nc HA]] := col_reord W (Hq 0%N (leq0n _)) _; first by [].
  by rewrite /colf EA (cm_eq0 W WA nr nc (or_introl e2)).
- by [].
- by move=> ds s mp; rewrite /stepf s m2 eqxx (gtn_eqF mp).
- move=> ds k A B s kr EA EB; rewrite /stepf s m2.
  have k0 : (k == 0%N) = false by move: kr; clear; lia.
  have km : (k == m) = false by move: kr; clear; lia.
  have l1 : (k < m.+2)%N by move: kr; clear; lia.
  have l2 : (k.+1 < m.+2)%N by move: kr; clear; lia.
  have sz ds1 j X : size ds1 = m.+2 -> (j < m.+2)%N -> size (set_nth m0 ds1 j X) = m.+2.
    by move=> s1 lt; rewrite size_set_nth s1; apply/maxn_idPr.
  have bs ds1 h X j : bmx (set_nth m0 ds1 h X) j = if j == h then X else bmx ds1 j by rewrite /bmx nth_setE.
  rewrite k0 km; case: (Hd) => -> /=.
    rewrite (oupdE _ EA) ?s //=; rewrite (@oupdE _ k.+1 _ B) ?sz ?bs //; last first.
      by rewrite (gtn_eqF (ltnSn k)).
    eexists; first by []; split; first by rewrite !sz.
    by move=> l; rewrite !bs; case: (eqVneq l k) => [->|] //; rewrite (ltn_eqF (ltnSn k)).
  rewrite (oupdE _ EB) ?s //=; rewrite (@oupdE _ k _ A) ?sz ?bs //; last first.
    by rewrite (ltn_eqF (ltnSn k)).
  eexists; first by []; split; first by rewrite !sz.
  by move=> l; rewrite !bs.
exists D' => //; split=> // k; rewrite H'; case kr: (0 < k <= m)%N => //.
by have [_ _] := HGE k kr.
Qed.
End A.
