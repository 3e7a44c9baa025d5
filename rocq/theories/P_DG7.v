(** DG vector spaces, part 7: persistence pairs in the two degrees. *)
From mathcomp Require Import all_ssreflect all_algebra zify.
From Verif Require Import Outcome P_Outcome M_SparseVec M_Perm M_ColMatrix M_Reduce M_Homology M_Persist
  M_Induced M_DG S_Linalg S_Perm S_Homology S_Persist S_DG P_SparseVec P_Pairing P_Reduce P_Perm P_PermMx P_ColMatrix P_Homology P_Betti
  P_Update P_Chain P_Persist P_Pairs P_UpdFilt P_DG1 P_DG2 P_DG3 P_DG4 P_DG5 P_DG6.
Set Implicit Arguments.
Unset Strict Implicit.
Unset Printing Implicit Defensive.
Import GRing.Theory.
Local Open Scope ring_scope.

Section A.
Variable F : fieldType.
Notation O := (ops_of F).
Notation cmat := (cmat F).
Notation m0 := (CMat 0 0 [::] : cmat).
Notation p2c_t := (seq (option nat)).
Variables (disp : unit) (V : orderType disp) (v0 inf : V).

Variables (m : nat) (E : seq cmat) (val : seq (seq V)) (qs : seq (seq nat)).
Notation Zm := (cm_zero F (ncol (bmx E m)) 0).
Notation D := (rcons E Zm).
Hypothesis sE : size E = m.+1.
Hypothesis EW : chain_wf E.
Hypothesis PO : perms_ok E qs.
Hypothesis VO : vals_ok E val.

Let DW : chain_wf D. Proof. by have := rcons_chain EW; rewrite sE. Qed.
Let sD : size D = m.+2. Proof. by rewrite size_rcons sE. Qed.
Let bD k : (k <= m)%N -> bmx D k = bmx E k. Proof. by move=> km; rewrite bmx_rcons sE ltnS km. Qed.
Let bDm : bmx D m.+1 = Zm. Proof. by rewrite bmx_rcons sE ltnn eqxx. Qed.

(** the part of a reduced DG complex that a ReducedChainComplex stores *)
Definition rcc_part (X : rdg F) : rcc F := RCC [::] (take m.+1 (rd_R X)) [::] (take m.+1 (rd_p2c X)).

Lemma rcc_part_good X : dgood D X -> rfgood E (rcc_part X).
Proof.
move=> [sR sp G _]; split=> /=; rewrite ?size_take ?sR ?sp ?sD ?ltnSn ?sE //.
move=> k km; rewrite /bmx !nth_take //; have := G k; rewrite sD bD // => H; apply: H; exact: leqW.
Qed.

Let cell (X : rdg F) (deg : int) k i : (k <= m)%N -> (i < ncol (bmx E k))%N ->
  rfd_cell (RFDG X val (if deg == 1 :> int then [seq rev p | p <- qs] else qs)) k i =
  let c := nth 0%N (nth [::] qs k) (if deg == 1 then (ncol (bmx E k) - i.+1)%N else i) in
  Ok (c, nth v0 (nth [::] val k) c).
Proof.
move=> km il; rewrite /rfd_cell /=; have [sq HQ] := PO; have [sv HV] := VO.
have kE : (k < size E)%N by rewrite sE.
have [P s] := HQ k kE.
have -> : oget (if deg == 1 then [seq rev p | p <- qs] else qs) k =
   Ok (if deg == 1 then rev (nth [::] qs k) else nth [::] qs k).
  by case: ifP => _; rewrite (oget_nth [::]) ?size_map ?sq // (nth_map [::]) ?sq.
cbn [obind].
have -> : oget (if deg == 1 then rev (nth [::] qs k) else nth [::] qs k) i =
   Ok (nth 0%N (nth [::] qs k) (if deg == 1 then (ncol (bmx E k) - i.+1)%N else i)).
  by case: ifP => _; rewrite (oget_nth 0%N) ?size_rev ?s // nth_rev ?s.
cbn [obind]; rewrite (oget_nth [::]) ?sv //; cbn [obind].
rewrite (oget_nth v0) // HV // -s is_perm_lt // s; case: ifP => // _.
by move: il; clear; lia.
Qed.

Lemma hom_pair X k i : dgood D X -> rd_degree X = -1 -> (k <= m)%N -> (i < ncol (bmx E k))%N ->
  rfd_pair inf (RFDG X val qs) k i =
  Ok (if ~~ pcol (mx (bmx E k)) i then [:: mkpair v0 inf val qs (rd_p2c X) k false i] else [::]).
Proof.
move=> DG dX km il; have [sR sp G _] := DG; rewrite /rfd_pair /= dX eqxx.
have kD : (k < size D)%N by rewrite sD; apply: leqW.
have [nR cR [sc _ _ Zc]] := G k kD; rewrite bD // in nR cR sc Zc.
rewrite (oget_nth m0) ?sR //; cbn [obind]; rewrite bmxE (oget_nth ([::] : svec F)) ?sc //; cbn [obind].
rewrite size_eq0 Zc // -/(pcol _ i); case: ifP => // nz.
have C1 := cell X (-1) km il; rewrite (_ : (-1 == 1 :> int) = false) // in C1.
have [_ _ DD] := DW.
have k1D : (k.+1 < size D)%N by rewrite sD.
have [En _] := DD k k1D; rewrite (bD km) in En.
have [_ _ [_ _ PV _]] := G _ k1D.
have -> : (if k == (size D - 2)%N then Ok None else do p <- oget (rd_p2c X) k.+1; oget p i) =
   Ok (epiv (rd_p2c X) k i).
  rewrite /epiv sD; have [s1 H1] := PV.
  have il1 : (i < nrow (bmx D k.+1))%N by rewrite En.
  case: eqP => [Ek|ne]; last by rewrite (oget_nth [::]) ?sp //= (oget_nth None) // s1.
  congr Ok; apply/esym; case Ee: (nth None _ i) => [j|] //; move/(H1 _ il1): Ee => /andP[].
  have -> : k = m by move: Ek; clear; lia.
  by rewrite bDm.
cbn [obind]; rewrite C1; cbn [obind]; rewrite /mkpair.
case Ee: (epiv _ k i) => [j|] //.
have /andP[jn _] : (j < ncol (bmx D k.+1))%N && is_pivot (mx (bmx D k.+1)) i j.
  by apply/(PV.2 _ _ _).1 => //; rewrite En.
case: (ltnP k m) => km1; last first.
  exfalso; move: jn; have -> : k = m by move: km km1; clear; lia.
  by rewrite bDm.
rewrite bD // in jn.
have C2 := cell X (-1) km1 jn; rewrite (_ : (-1 == 1 :> int) = false) // in C2.
by rewrite C2.
Qed.

Lemma flat_if (T : Type) (P : pred nat) (f : nat -> T) l :
  flatten [seq if P i then [:: f i] else [::] | i <- l] = [seq f i | i <- [seq i <- l | P i]].
Proof. by elim: l => //= i l ->; case: (P i). Qed.

Definition pair_list (p2c : seq p2c_t) k : seq (ppair V) :=
  [seq mkpair v0 inf val qs p2c k false i
     | i <- [seq i <- iota 0 (ncol (bmx E k)) | ~~ pcol (mx (bmx E k)) i]].

Lemma hom_pairs X k : dgood D X -> rd_degree X = -1 -> (k <= m)%N ->
  rfd_pairs inf (RFDG X val qs) k = Ok (pair_list (rd_p2c X) k).
Proof.
move=> DG dX km; have [sR sp G _] := DG; rewrite /rfd_pairs /= dX /dg_ix eqxx.
have kD : (k < size D)%N by rewrite sD; apply: leqW.
have [nR cR _] := G k kD; rewrite bD // in cR.
rewrite (oget_nth m0) ?sR //; cbn [obind]; rewrite bmxE cR.
rewrite (omapm_Ok_eq (g := fun i => if ~~ pcol (mx (bmx E k)) i then [:: mkpair v0 inf val qs (rd_p2c X) k false i] else [::])).
  by cbn [obind]; rewrite (flat_if (fun i => ~~ pcol (mx (bmx E k)) i)).
by move=> i; rewrite mem_iota add0n => /andP[_ il]; apply: hom_pair.
Qed.

(** ** degree +1 *)
Variable Dc : seq cmat.
Hypothesis sDc : size Dc = m.+2.
Hypothesis AT : forall k, (k <= m.+1)%N -> atr (bmx D k) (bmx Dc k).

Lemma coh_pair X p2c k i : dgood Dc X -> rd_degree X = 1 ->
  (forall k i, (k <= m)%N -> (i < ncol (bmx E k))%N -> forall j,
     epiv p2c k i = Some j <-> (j < ncol (bmx D k.+1))%N && is_pivot (mx (bmx D k.+1)) i j) ->
  (k <= m)%N -> (i < ncol (bmx E k))%N ->
  rfd_pair inf (RFDG X val [seq rev p | p <- qs]) k i =
  Ok (if ~~ pcol (mx (bmx E k)) (ncol (bmx E k) - i.+1)
      then [:: mkpair v0 inf val qs p2c k false (ncol (bmx E k) - i.+1)] else [::]).
Proof.
move=> DG dX HP km il; have [sR sp G L] := DG; rewrite /rfd_pair /= dX (_ : (1 == -1 :> int) = false) //.
have k1D : (k.+1 < size Dc)%N by rewrite sDc.
have A1 := AT (km : (k.+1 <= m.+1)%N); have [W1 n1 c1 _] := A1.
have A0 := AT (leqW km); have [W0 n0 c0 _] := A0; rewrite bD // in A0 n0 c0.
have [_ _ DD] := DW.
have k1D' : (k.+1 < size D)%N by rewrite sD.
have [En ZZ] := DD k k1D'; rewrite (bD km) in En ZZ.
have [nR cR [sc wc _ Zc]] := G _ k1D.
rewrite (oget_nth m0) ?sR //; cbn [obind]; rewrite bmxE (oget_nth ([::] : svec F)) ?sc ?c1 ?En //; cbn [obind].
have C1 := cell X 1 km il; rewrite eqxx in C1.
set i' := (ncol (bmx E k) - i.+1)%N in C1 *.
have il' : (i' < ncol (bmx E k))%N by rewrite /i'; move: il; clear; lia.
have ilD : (i < nrow (bmx D k.+1))%N by rewrite En.
have ilc : (i < ncol (bmx Dc k.+1))%N by rewrite c1.
rewrite lt0n size_eq0 Zc // negbK -/(pcol _ i).
have ei : (nrow (bmx D k.+1) - i.+1)%N = i' by rewrite En.
have PC := atr_pcol A1 ilD; rewrite ei in PC.
rewrite PC; case: ifP => pr.
  have npc : ~~ pcol (mx (bmx E k)) i'.
    have [V1 [u1 d1 r1]] := reduction_exists (chain_wf_nth k EW).
    have [V2 [u2 d2 r2]] := reduction_exists (chain_wf_nth k.+1 DW).
    move: pr u2 d2 r2 ZZ; rewrite /mx; move: (cols (bmx D k.+1)) (ncol (bmx D k.+1)) V2 => cs q V2.
    rewrite En => Hq u2 d2 r2 ZZ.
    exact: (pivots_disjoint (i := Ordinal il') ZZ u1 (diag1_n0 d1) r1 u2 (diag1_n0 d2) r2 Hq).
  rewrite npc; move: pr; rewrite -PC => /existsP[[j jl] pv].
  have {pv} pv : is_pivot (mx (bmx Dc k.+1)) j i := pv.
  have /(_ i) := L k.+1 j _ k1D jl; move=> /(_ ilc) [_ /(_ pv) LI].
  have jn : (j < ncol (bmx D k.+1))%N by rewrite -n1.
  have lz : exists v, lastnz (nth [::] (cols (bmx (rd_R X) k.+1)) i) = Ok (j, v).
    case: (nth _ _ i) LI => //= a l [<-]; exists (last a l).2; congr Ok.
    by case: (last a l).
  have [v ->] := lz; cbn [obind]; rewrite C1; cbn [obind].
  case: (ltnP k m) => km1; last first.
    exfalso; move: jn; have -> : k = m by move: km km1; clear; lia.
  by rewrite bDm.
  have jnE : (j < ncol (bmx E k.+1))%N by rewrite -bD.
  have C2 := cell X 1 km1 jnE; rewrite eqxx in C2; rewrite C2; cbn [obind]; rewrite /mkpair.
  have -> // : epiv p2c k i' = Some (ncol (bmx E k.+1) - j.+1)%N.
  apply/HP => //; apply/andP; split; first by rewrite bD //; move: jnE; clear; lia.
  have ej : (ncol (bmx D k.+1) - j.+1)%N = (ncol (bmx E k.+1) - j.+1)%N by rewrite bD.
  by move: pv; rewrite (atr_pivot A1 ilD jn) ei ej.
have kD : (k < size Dc)%N by rewrite sDc; apply: leqW.
have [_ _ [_ _ PV _]] := G _ kD; have [s1 H1] := PV.
rewrite (oget_nth [::]) ?sp //; cbn [obind]; rewrite (oget_nth None) ?s1 ?n0 //; cbn [obind].
have ilr : (i < nrow (bmx Dc k))%N by rewrite n0.
have := pivots_exact_prow PV ilr; rewrite (atr_prow A0 il) -/i' => <-.
case: (nth None _ i) => [j|] //=.
rewrite C1; cbn [obind]; rewrite /mkpair.
suff -> : epiv p2c k i' = None by [].
case Ee: (epiv p2c k i') => [j|] //; move/(HP _ _ km il'): Ee => /andP[jn pv].
suff : prow (mx (bmx D k.+1)) i' by rewrite pr.
by apply/existsP; exists (Ordinal jn).
Qed.

Lemma iota_rev n : [seq (n - i.+1)%N | i <- iota 0 n] = rev (iota 0 n).
Proof.
apply: (@eq_from_nth _ 0%N); rewrite size_map size_iota ?size_rev ?size_iota // => i il.
rewrite (nth_map 0%N) ?size_iota // nth_rev ?size_iota // !nth_iota //; move: il; clear; lia.
Qed.

Lemma coh_pairs X p2c k : dgood Dc X -> rd_degree X = 1 ->
  (forall k i, (k <= m)%N -> (i < ncol (bmx E k))%N -> forall j,
     epiv p2c k i = Some j <-> (j < ncol (bmx D k.+1))%N && is_pivot (mx (bmx D k.+1)) i j) ->
  (k <= m)%N ->
  rfd_pairs inf (RFDG X val [seq rev p | p <- qs]) k = Ok (rev (pair_list p2c k)).
Proof.
move=> DG dX HP km; have [sR sp G _] := DG; rewrite /rfd_pairs /= dX /dg_ix (_ : (1 == -1 :> int) = false) //.
have kD : (k.+1 < size Dc)%N by rewrite sDc.
have [_ n1 c1 _] := AT (km : (k.+1 <= m.+1)%N).
have [nR cR _] := G _ kD.
have [_ _ DD] := DW.
have k1D' : (k.+1 < size D)%N by rewrite sD.
have [En _] := DD k k1D'; rewrite (bD km) in En.
rewrite (oget_nth m0) ?sR //; cbn [obind]; rewrite bmxE cR c1 En.
rewrite (omapm_Ok_eq (g := fun i => if ~~ pcol (mx (bmx E k)) (ncol (bmx E k) - i.+1)
   then [:: mkpair v0 inf val qs p2c k false (ncol (bmx E k) - i.+1)] else [::])); last first.
  by move=> i; rewrite mem_iota add0n => /andP[_ il]; apply: coh_pair.
cbn [obind]; congr Ok; rewrite /pair_list -map_rev -filter_rev -iota_rev.
rewrite (flat_if (fun i => ~~ pcol (mx (bmx E k)) (ncol (bmx E k) - i.+1))
  (fun i => mkpair v0 inf val qs p2c k false (ncol (bmx E k) - i.+1))).
by rewrite filter_map -map_comp.
Qed.

Lemma dgood_epiv X : dgood D X -> forall k i, (k <= m)%N -> (i < ncol (bmx E k))%N -> forall j,
     epiv (rd_p2c X) k i = Some j <-> (j < ncol (bmx D k.+1))%N && is_pivot (mx (bmx D k.+1)) i j.
Proof.
move=> [sR sp G _] k i km il j.
have k1D : (k.+1 < size D)%N by rewrite sD.
have [_ _ DD] := DW; have [En _] := DD k k1D; rewrite (bD km) in En.
have [_ _ [_ _ [s1 H1] _]] := G _ k1D; apply: H1; by rewrite En.
Qed.
End A.
