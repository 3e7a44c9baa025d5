(** Zigzag barcodes, quiver part: pushing upper triangular factors to the left. *)
From mathcomp Require Import all_ssreflect all_fingroup all_algebra zify.
From Verif Require Import Outcome P_Outcome RingTac M_SparseVec M_Perm M_ColMatrix S_Linalg P_SparseVec
  P_SparseVec2 P_Reduce P_Homology P_Pairing P_ColMatrix M_Fact S_Fact P_Den P_Fact4 P_Fact5 P_Fact6 M_Quiver S_Quiver
  P_Quiver1 P_Quiver2.
Set Implicit Arguments.
Unset Strict Implicit.
Unset Printing Implicit Defensive.
Import GRing.Theory.
Local Open Scope ring_scope.

Section S.
Variable F : fieldType.
Notation O := (ops_of F).
Notation svec := (svec F).
Notation cmat := (cmat F).

Definition sv_of (f : nat -> F) (m : nat) : svec := [seq (i, f i) | i <- iota 0 m & f i != 0].
Lemma sv_of_wf f m : sv_wf m (sv_of f m).
Proof.
apply/and3P; split.
- rewrite /sv_sorted /sv_of -map_comp (eq_map (f2 := id)) ?map_id //; apply: sorted_filter; [exact: ltn_trans|exact: iota_ltn_sorted].
- by apply/allP => p /mapP[i]; rewrite mem_filter mem_iota => /andP[_ /andP[_ li]] ->.
- by apply/allP => p /mapP[i]; rewrite mem_filter => /andP[n _] ->.
Qed.
Lemma coef_sv_of f m i : (i < m)%N -> coef (sv_of f m) i = f i.
Proof.
move=> im; rewrite /coef /sv_of big_map big_filter_cond /=.
case: (eqVneq (f i) 0) => [e|ne].
  by rewrite e; apply: big1 => j /andP[nj /eqP e']; rewrite e' e.
rewrite -big_filter (_ : [seq _ <- _ | _] = [:: i]) ?big_seq1 //.
rewrite (eq_filter (a2 := pred1 i)) ?filter_pred1_uniq ?iota_uniq ?mem_iota //.
by move=> j /=; case: (eqVneq j i) => [->|]; rewrite ?ne ?andbF.
Qed.
Lemma den_ex m n (M : 'M[F]_(m, n)) : exists A, den A M.
Proof.
pose f j i := if insub i is Some i' then if insub j is Some j' then M i' j' else 0 else 0.
exists (CMat m n [seq sv_of (f j) m | j <- iota 0 n]).
split=> //=; first by rewrite /cm_wf /= size_map size_iota eqxx; apply/allP => c /mapP[j _ ->]; exact: sv_of_wf.
apply/matrixP => i j; rewrite mxE (nth_map 0%N) ?size_iota // nth_iota // add0n coef_sv_of // /f.
by rewrite !valK.
Qed.

(** right arrows in EU form, left arrows in hat EU form *)
Definition shZ a b (E : arrow F a b) := match E with Rgt E => shape_EU E | Lft E => shape_EUhat E end.
Lemma shZ_pivot a b (E : arrow F a b) : shZ E -> pivot_arrow E.
Proof. by case: E => M []. Qed.

Lemma push1 a b (E : arrow F a b) (X : 'M[F]_b) : shZ E -> utri X -> exists2 Y : 'M[F]_a, utri Y & chbase E Y X = E.
Proof.
case: E => M /= sE tX; have [AM dM] := den_ex M.
  have [AX dX] := den_ex X; have [R [MR [_ _ uR [dR _] e]]] := EU_U_commute_ok dM dX sE tX.1.
  have tR : utri MR by split=> //; apply: dR; case: tX.
  by exists MR => //; congr Lft; rewrite -mulmxA -e mulKmx // utri_unit.
have tX' := utri_inv tX; have [AX dX] := den_ex (invmx X).
have [R [MR [_ _ uR [dR _] e]]] := U_EU_commute_ok dM dX sE tX'.1.
have tR : utri MR by split=> //; apply: dR; case: tX'.
by exists (invmx MR); [exact: utri_inv|congr Rgt; rewrite e mulmxK // utri_unit].
Qed.

Variable d : nat -> nat.
Notation rep := (rep F d).

Lemma pushn (q E : rep) n (G : forall k, 'M[F]_(d k)) (X : 'M[F]_(d n)) :
  (forall k, (k < n)%N -> shZ (E k)) -> (forall k, G k \in unitmx) ->
  (forall k, (k < n)%N -> chbase (q k) (G k) (G k.+1) = E k) -> utri X ->
  exists G' : forall k, 'M[F]_(d k), [/\ forall k, G' k \in unitmx, G' n = G n *m X,
    forall k, (n < k)%N -> G' k = G k & forall k, (k < n)%N -> chbase (q k) (G' k) (G' k.+1) = E k].
Proof.
elim: n G X => [|n IH] G X sh uG eG tX.
  have [G' [e1 e2]] := dupd G (G 0%N *m X); exists G'; split=> //.
  - move=> k; case: (eqVneq k 0%N) => [->|ne]; first by rewrite e1 unitmx_mul uG utri_unit.
    by rewrite e2.
  - by move=> k k0; rewrite e2 //; move: k0; clear; lia.
have uX := utri_unit tX.
have [Y tY eY] := push1 (sh n (ltnSn n)) tX.
have uY := utri_unit tY.
have [|k kn|G1 [u1 g1 o1 e1]] := IH G Y _ uG _ tY.
- by move=> k kn; apply: sh; apply: ltnW.
- by apply: eG; apply: ltnW.
have [G' [e2 e3]] := dupd G1 (G n.+1 *m X); exists G'.
have Gk k : (k <= n)%N -> G' k = G1 k by move=> kn; rewrite e3 //; move: kn; clear; lia.
split=> //.
- move=> k; case: (eqVneq k n.+1) => [->|ne]; first by rewrite e2 unitmx_mul uG.
  by rewrite e3.
- by move=> k k0; rewrite e3 ?o1 //; move: k0; clear; lia.
- move=> k; rewrite ltnS leq_eqVlt => /orP[/eqP ->|kn]; last by rewrite !Gk ?e1 // ltnW.
  by rewrite Gk // e2 g1 -chbase_comp ?uG // eG ?ltnSn.
Qed.

(** the sweep: at node k the basis is B k; arrow k has a remaining upper triangular factor on its left node *)
Lemma sweep_iso (q E : rep) m (B : forall k, 'M[F]_(d k)) :
  (forall k, (k < m)%N -> shZ (E k)) -> (forall k, B k \in unitmx) ->
  (forall k, (k < m)%N -> exists2 X, utri X & chbase (q k) (B k *m X) (B k.+1) = E k) -> isorep m q E.
Proof.
move=> sh uB H.
suff [G [uG _ eG]] : exists G : forall k, 'M[F]_(d k), [/\ forall k, G k \in unitmx,
   G m = B m & forall k, (k < m)%N -> chbase (q k) (G k) (G k.+1) = E k].
  by exists G => // k km; rewrite eG.
elim: m sh H => [|m IH] sh H; first by exists B; split.
have [k km|k km|G [uG gm eG]] := IH.
- by apply: sh; apply: ltnW.
- by apply: H; apply: ltnW.
have [X tX eX] := H m (ltnSn m).
have [k km|G1 [u1 g1 o1 e1]] := @pushn q E m G X _ uG eG tX; first by apply: sh; apply: ltnW.
have [G' [e2 e3]] := dupd G1 (B m.+1); exists G'.
have Gk k : (k <= m)%N -> G' k = G1 k by move=> kn; rewrite e3 //; move: kn; clear; lia.
split=> //.
  move=> k; case: (eqVneq k m.+1) => [->|ne]; first by rewrite e2.
  by rewrite e3.
move=> k; rewrite ltnS leq_eqVlt => /orP[/eqP ->|kn]; last by rewrite !Gk ?e1 // ltnW.
by rewrite Gk // e2 g1 gm eX.
Qed.
End S.
