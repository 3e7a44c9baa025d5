(** DG vector spaces, part 9: permute_basis and update_filtration of the reduced complex. *)
From mathcomp Require Import all_ssreflect all_algebra zify.
From Verif Require Import Outcome P_Outcome M_SparseVec M_Perm M_ColMatrix M_Reduce M_Homology M_Persist
  M_Induced M_DG S_Linalg S_Perm S_Homology S_Persist S_DG P_SparseVec P_Pairing P_Reduce P_Perm P_PermMx P_ColMatrix P_Homology P_Betti
  P_Update P_Chain P_Sort P_Persist P_Pairs P_UpdFilt P_DG1 P_DG2 P_DG3 P_DG4 P_DG5 P_DG6 P_DG7 P_DG8.
Set Implicit Arguments.
Unset Strict Implicit.
Unset Printing Implicit Defensive.
Import GRing.Theory.
Local Open Scope ring_scope.

Section A.
Variable F : fieldType.
Notation O := (ops_of F).
Notation cmat := (cmat F).
Notation m0 := (CMat 0 0 [::] : cmat).
Notation p2c_t := (seq (option nat)).

Definition getok (o : outcome cmat) : cmat := if o is Ok x then x else m0.

(** rows and columns of the k-th differential are the cells of these dimensions *)
Definition rix (deg : int) k := if deg == -1 then k.-1 else k.
Definition cix (deg : int) k := if deg == -1 then k else k.-1.

(** D' is D reordered by qs in the inner differentials *)
Definition dgr m (deg : int) (D D' : seq cmat) (qs : seq (seq nat)) : Prop :=
  size D' = m.+2 /\ forall k, if (0 < k <= m)%N
    then reord (bmx D k) (bmx D' k) (nth [::] qs (rix deg k)) (nth [::] qs (cix deg k))
    else bmx D' k = bmx D k.

(** the permutations fit *)
Definition dgp m (deg : int) (D : seq cmat) (qs : seq (seq nat)) : Prop :=
  [/\ size qs = m.+1, forall k, (k <= m)%N -> is_perm (nth [::] qs k),
      forall k, (0 < k <= m)%N -> (if deg == -1 then ncol (bmx D k) else nrow (bmx D k)) = size (nth [::] qs k),
      forall k, (k < maxn m 1)%N -> (if deg == -1 then nrow (bmx D k.+1) else ncol (bmx D k.+1)) = size (nth [::] qs k) &
      m = 0%N -> (if deg == -1 then ncol (bmx D 1) else nrow (bmx D 1)) = 0%N].

Lemma dgp_r m deg D qs k : dgp m deg D qs -> (0 < k <= m)%N -> nrow (bmx D k) = size (nth [::] qs (rix deg k)) /\
   is_perm (nth [::] qs (rix deg k)).
Proof.
move=> [s P L H _] kr; rewrite /rix; have k1 : (k.-1 <= m)%N by move: kr; clear; lia.
have km : (k <= m)%N by move: kr; clear; lia.
have k2 : (k.-1 < maxn m 1)%N by move: kr; clear; lia.
have := L k kr; have := H _ k2; rewrite prednK; last by move: kr; clear; lia.
by case: ifP => _ e1 e2; split=> //; apply: P.
Qed.
Lemma dgp_c m deg D qs k : dgp m deg D qs -> (0 < k <= m)%N -> ncol (bmx D k) = size (nth [::] qs (cix deg k)) /\
   is_perm (nth [::] qs (cix deg k)).
Proof.
move=> [s P L H _] kr; rewrite /cix; have k1 : (k.-1 <= m)%N by move: kr; clear; lia.
have km : (k <= m)%N by move: kr; clear; lia.
have k2 : (k.-1 < maxn m 1)%N by move: kr; clear; lia.
have := L k kr; have := H _ k2; rewrite prednK; last by move: kr; clear; lia.
by case: ifP => _ e1 e2; split=> //; apply: P.
Qed.

Definition dgu (D : seq cmat) (X : rdg F) : Prop :=
  [/\ size (rd_R X) = size D, size (rd_U X) = size D, size (rd_p2c X) = size D &
    forall k, (k < size D)%N -> urec (bmx D k) (bmx (rd_R X) k) (bmx (rd_U X) k) (nth [::] (rd_p2c X) k)].

Lemma rd_permute_loop m deg D qs (U R : seq cmat) : deg = -1 \/ deg = 1 -> size D = m.+2 -> dgp m deg D qs ->
  size R = m.+2 -> size U = m.+2 ->
  (forall k, (k < m.+2)%N -> [/\ cm_wf (bmx R k), nrow (bmx R k) = nrow (bmx D k), ncol (bmx R k) = ncol (bmx D k),
     cm_wf (bmx U k) & nrow (bmx U k) = ncol (bmx D k) /\ ncol (bmx U k) = ncol (bmx D k)]) ->
  exists U1 R1, [/\ ofold (fun UR k => do p <- oget qs k; rd_permute1 deg UR k p) (U, R) (iota 0 m.+1) = Ok (U1, R1),
    size U1 = m.+2, size R1 = m.+2,
    (forall k, (0 < k <= m)%N ->
       reord (bmx R k) (bmx R1 k) (nth [::] qs (rix deg k)) (iota 0 (ncol (bmx D k))) /\
       reord (bmx U k) (bmx U1 k) (nth [::] qs (cix deg k)) (iota 0 (ncol (bmx D k)))) &
    (forall k, (k < m.+2)%N -> ~~ (0 < k <= m)%N -> bmx R1 k = bmx R k /\
       (bmx U1 k = bmx U k \/ [/\ m = 0%N, deg = 1, k = 1%N &
          reord (bmx U k) (bmx U1 k) (nth [::] qs 0) (iota 0 (ncol (bmx D k)))]))].
Proof.
move=> Hd sD DP sR sU HX; have [sq Pq L H HZ] := DP.
pose f k := permute_rows (T := F) (ipl (nth [::] qs k)).
have fE k A : (k <= m)%N -> cm_wf A -> nrow A = size (nth [::] qs k) ->
    f k A = Ok (getok (f k A)) /\ reord A (getok (f k A)) (nth [::] qs k) (iota 0 (ncol A)).
  move=> km W s; have [A' + RA] := row_reord W (Pq k km) (esym s).
  by rewrite (inv_permE (Pq k km)); cbn [obind] => EA; rewrite /f EA.
have k1m k : (k < maxn m 1)%N -> (k <= m)%N by clear; lia.
have stepE (U0 R0 : seq cmat) k : (k <= m)%N -> size R0 = m.+2 ->
   (do p <- oget qs k; rd_permute1 deg (U0, R0) k p) =
   if deg == -1 then do a <- low f U0 k; do b <- high m f R0 k; Ok (a, b)
   else do a <- high m f U0 k; do b <- low f R0 k; Ok (a, b).
  move=> km s0; rewrite (oget_nth [::]) ?sq //; cbn [obind]; rewrite /rd_permute1 inv_permE; last exact: Pq.
  cbn [obind]; rewrite /low /high s0 (_ : (m.+2 - 2)%N = m); last by clear; lia.
  case: (eqVneq k 0%N) => [->|k0].
    by case: (deg == -1) => //=; case: (oupd _ _ _).
  by case: (deg == -1); case: (eqVneq k m) => [->|ne] //=.
have IO k : List.In k (iota 0 m.+1) -> (k <= m)%N.
  move=> Hk; have : k \in iota 0 m.+1 by elim: (iota 0 m.+1) Hk => //= a l IH [->|/IH]; rewrite inE ?eqxx // => ->; rewrite orbT.
  by rewrite mem_iota.
have m1 k : (k < m.+2)%N -> ~~ (0 < k <= m)%N -> (0 < k <= maxn m 1)%N -> m = 0%N /\ k = 1%N by clear; lia.
have m2 k : (k < maxn m 1)%N -> (k.+1 < m.+2)%N by clear; lia.
have kr2 k : (0 < k <= m)%N -> [/\ (k < m.+2)%N, (k.-1 < maxn m 1)%N, (0 < k <= maxn m 1)%N & k.-1.+1 = k] by clear; move=> kr; split; lia.
have eT : (-1 == -1 :> int) = true by [].
have eF : (1 == -1 :> int) = false by [].
case: Hd => dE; subst deg.
- rewrite eT in L H HZ stepE.
  have [|U1 EU [sU1 HU]] := @low_loop F m U f (fun k => getok (f k (bmx U k))) sU.
    move=> k kr; have [k2 _ _ _] := kr2 k kr; have [_ _ _ W [n1 _]] := HX k k2.
    have km : (k <= m)%N by move: kr; clear; lia.
    by have [|<- _] := fE k (bmx U k) km W; first by rewrite n1 L.
  have [|R1 ER [sR1 HR]] := @high_loop F m R f (fun k => getok (f k.-1 (bmx R k))) sR.
    move=> k kr; have [W n1 _ _ _] := HX _ (m2 k kr).
    by have [|<- _] := fE k (bmx R k.+1) (k1m k kr) W; first by rewrite n1 H.
  exists U1, R1; split=> //.
  + apply: (ofold_pair (Q := fun b : seq cmat => size b = m.+2) (f := low f) (g := high m f)) EU ER => //.
      by move=> a b k /IO km s; rewrite stepE.
    by move=> b b1 k <- /high_size.
  + move=> k kr; have [k2 k3 k4 k5] := kr2 k kr; have [W n1 c1 WU [n2 c2]] := HX k k2.
    have km : (k <= m)%N by move: kr; clear; lia.
    rewrite HR k4 HU kr /rix /cix eT; split.
      rewrite -c1; have [|_ //] := fE k.-1 (bmx R k) (k1m _ k3) W.
      by rewrite n1 -(H _ k3) k5.
    rewrite -c2; have [|_ //] := fE k (bmx U k) km WU.
    by rewrite n2 L.
  + move=> k k2 nk; rewrite HU (negbTE nk); split; last by left.
    rewrite HR; case k4: (0 < k <= maxn m 1)%N => //; have [mz k1] := m1 k k2 nk k4.
    have [W n1 c1 _ _] := HX k k2; rewrite k1 in W n1 c1 *.
    have [|_ [WG nG cG _]] := fE 0%N (bmx R 1) (leq0n _) W.
      by rewrite n1 H // mz.
    apply: (cm_eq0 W WG nG cG); right; by rewrite c1 HZ.
- rewrite eF in L H HZ stepE.
  have [|R1 ER [sR1 HR]] := @low_loop F m R f (fun k => getok (f k (bmx R k))) sR.
    move=> k kr; have [k2 _ _ _] := kr2 k kr; have [W n1 _ _ _] := HX k k2.
    have km : (k <= m)%N by move: kr; clear; lia.
    by have [|<- _] := fE k (bmx R k) km W; first by rewrite n1 L.
  have [|U1 EU [sU1 HU]] := @high_loop F m U f (fun k => getok (f k.-1 (bmx U k))) sU.
    move=> k kr; have [_ _ _ W [n1 _]] := HX _ (m2 k kr).
    by have [|<- _] := fE k (bmx U k.+1) (k1m k kr) W; first by rewrite n1 H.
  exists U1, R1; split=> //.
  + apply: (ofold_pair (Q := fun b : seq cmat => size b = m.+2) (f := high m f) (g := low f)) EU ER => //.
      by move=> a b k /IO km s; rewrite stepE.
    by move=> b b1 k <- /low_size.
  + move=> k kr; have [k2 k3 k4 k5] := kr2 k kr; have [W n1 c1 WU [n2 c2]] := HX k k2.
    have km : (k <= m)%N by move: kr; clear; lia.
    rewrite HR kr HU k4 /rix /cix eF; split.
      rewrite -c1; have [|_ //] := fE k (bmx R k) km W.
      by rewrite n1 L.
    rewrite -c2; have [|_ //] := fE k.-1 (bmx U k) (k1m _ k3) WU.
    by rewrite n2 -(H _ k3) k5.
  + move=> k k2 nk; rewrite HR (negbTE nk); split=> //.
    rewrite HU; case k4: (0 < k <= maxn m 1)%N; [right | by left]; have [mz k1] := m1 k k2 nk k4.
    split=> //; have [_ _ _ W [n1 c1]] := HX k k2; rewrite k1 in W n1 c1 *; rewrite -c1.
    have [|_ //] := fE 0%N (bmx U 1) (leq0n _) W.
    by rewrite n1 H // mz.
Qed.
End A.
