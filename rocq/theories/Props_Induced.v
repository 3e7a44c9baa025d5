(** Properties C20, C21: homology representatives, preferred representatives, induced maps.
    Read with S_Homology.v and S_Induced.v. *)
From mathcomp Require Import all_ssreflect all_algebra zify.
From Verif Require Import Outcome P_Outcome M_SparseVec M_Perm M_ColMatrix M_Reduce M_Homology M_Induced
  S_Linalg S_Perm S_Homology S_Induced P_SparseVec P_Pairing P_Reduce P_ColMatrix P_Homology P_Betti P_Rep P_Induced.
Set Implicit Arguments.
Unset Strict Implicit.
Unset Printing Implicit Defensive.
Import GRing.Theory.
Local Open Scope ring_scope.

(** C20. With any option that keeps a basis, the listed representatives are cycles, and every cycle is
    homologous to exactly one combination of them *)
Theorem C20_representatives (F : fieldType) opt (C : seq (cmat F)) : has_basis opt -> chain_wf C ->
  exists X, rcc_of (ops_of F) opt C = Ok X /\
    forall k, (k < size C)%N ->
      (forall j, (j < size (gens X k))%N -> exists v,
         [/\ get_preferred_representative X j k = Ok v, sv_wf (ncell C k) v &
             cycle (vec (ncell C k) v)]) /\
      forall z : 'cV[F]_(ncell C k), cycle z ->
        exists h, homologous z (repmx (ncell C k) X k *m h) /\
          forall h', homologous z (repmx (ncell C k) X k *m h') -> h' = h.
Proof.
move=> hb CW; have [X E RX] := rcc_of_rep CW hb; exists X; split=> // k kC.
split; last by move=> z; apply: reps_basis RX kC _.
move=> j lj; have [EI sU /(_ k kC)[Uc [EU WU Uu Ud HU]]] := RX.
have := mem_nth 0%N lj; set i := nth _ _ _; rewrite (gens_filter CW RX kC) mem_filter mem_iota leq0n add0n.
move=> /andP[/andP[np _] lt]; rewrite /= in lt.
have /cm_wfP[/= s W] := WU; exists (nth [::] Uc i); split.
- rewrite /get_preferred_representative (@oget_nth _ (CMat 0 0 [::])) ?sU // -/(bmx _ _) EU; cbn [obind cols].
  rewrite (oget_nth [::]) ?EI ?size_map ?size_iota //; cbn [obind]; rewrite -EI -/(gens X k).
  by rewrite (oget_nth 0%N) //; cbn [obind]; rewrite (@oget_nth _ [::]) ?s.
- exact: nth_wf.
have := HU (Ordinal lt) np => e; apply: etrans e; congr (_ *m _); by apply/colP => a; rewrite !mxE.
Qed.

(** C20. chain_preferred_representative: homologous to its argument; the same for homologous arguments;
    a combination of the representatives if the argument is a cycle *)
Theorem C20_preferred (F : fieldType) opt (C : seq (cmat F)) :
  opt = ClearingBasis \/ opt = StandardBasis -> chain_wf C ->
  exists X, rcc_of (ops_of F) opt C = Ok X /\
    forall k, (k < size C)%N -> forall c, sv_wf (ncell C k) c -> exists c',
      [/\ chain_preferred (ops_of F) X c k = Ok c', sv_wf (ncell C k) c',
          homologous (vec (ncell C k) c') (vec (ncell C k) c),
          cycle (vec (ncell C k) c) -> exists h, vec (ncell C k) c' = repmx (ncell C k) X k *m h &
          forall d, sv_wf (ncell C k) d -> homologous (vec (ncell C k) d) (vec (ncell C k) c) ->
            chain_preferred (ops_of F) X d k = Ok c'].
Proof.
move=> ho CW; have [X E FX] := rcc_of_factored ho CW; exists X; split=> // k kC c Wc.
have [c' [dc [Ec Wc' Hc Uc Zc]]] := chain_preferredE CW FX kC Wc.
exists c'; split=> //.
  move=> Z; have Z' := homologous_cycle CW kC (homologous_sym Hc) Z.
  rewrite Uc in Z'; have [_ H] := cleared_cycle CW FX kC Z' Zc.
  have gm (j : 'I_(size (gens X k))) : (nth 0%N (gens X k) j < ncell C k)%N.
    have := mem_nth 0%N (ltn_ord j); set i := nth _ _ _.
    by rewrite (gens_filter CW (factored_rep FX) kC) mem_filter mem_iota => /andP[_ /andP[_]]; rewrite add0n.
  exists (\col_j dc (Ordinal (gm j)) 0); rewrite Uc; apply: H => j i Ei; rewrite mxE.
  by congr (dc _ _); apply: val_inj.
move=> d Wd Hd; have [d' [dd [-> Wd' Hd' Ud Zd]]] := chain_preferredE CW FX kC Wd; congr Ok.
apply: (vec_inj Wd' Wc'); rewrite Ud Uc; congr (_ *m _).
apply: (cleared_inj CW FX kC) => //; rewrite -Ud -Uc.
exact: homologous_trans Hd' (homologous_trans Hd (homologous_sym Hc)).
Qed.

(** C21. induced_map(F, C, D, k): a matrix, rows the generators of D and columns those of C, such that F takes
    each representative of C to the combination of representatives of D in its column, up to a boundary;
    and the only such matrix *)
Theorem C21_induced (F : fieldType) opt opt' (C D : seq (cmat F)) Fs :
  has_basis opt -> opt' = ClearingBasis \/ opt' = StandardBasis ->
  chain_wf C -> chain_wf D -> chain_map C D Fs ->
  exists X Y, [/\ rcc_of (ops_of F) opt C = Ok X, rcc_of (ops_of F) opt' D = Ok Y &
    forall k, (k < size C)%N -> exists M,
      let N := CMat (size (gens Y k)) (size (gens X k)) M in
      [/\ induced_map (ops_of F) (bmx Fs k) X Y k = Ok N, cm_wf N,
          (forall j, homologous (fmx C D Fs k *m col j (repmx (ncell C k) X k))
                                (repmx (ncell D k) Y k *m col j (mx N))) &
          forall N', (forall j, homologous (fmx C D Fs k *m col j (repmx (ncell C k) X k))
                                (repmx (ncell D k) Y k *m col j N')) -> N' = mx N]].
Proof.
move=> hb ho CW DW CM; have [X EX RX] := rcc_of_rep CW hb; have [Y EY FY] := rcc_of_factored ho DW.
exists X, Y; split=> // k kC; have [M /= [E W [H EH]]] := induced_mapE CW DW CM RX FY kC.
exists M => /=; split=> //.
  move=> j; exists (col j H); rewrite !colE !mulmxA -mulmxBl EH; by [].
move=> N' HN; have [sD _ _ _ _] := CM; have kD : (k < size D)%N by rewrite sD.
have [W' HW'] := fin_all_exists HN.
apply: (@induced_unique _ D Y k _ (fmx C D Fs k *m repmx (ncell C k) X k) N' _ (\matrix_(i, j) W' j i 0) H
   DW (factored_rep FY) kD) => //.
apply/matrixP => i j; have /colP/(_ i) := HW' j; rewrite !colE !mulmxA -mulmxBl -!colE.
rewrite [col _ _ _ _]mxE => ->; rewrite [LHS]mxE [RHS]mxE; by apply: eq_bigr => a _; rewrite !mxE.
Qed.

(** C21, functoriality.  Identity: *)
Theorem C21_identity (F : fieldType) opt (C : seq (cmat F)) Fs :
  opt = ClearingBasis \/ opt = StandardBasis -> chain_wf C -> chain_map C C Fs ->
  exists X, rcc_of (ops_of F) opt C = Ok X /\
    forall k, (k < size C)%N -> fmx C C Fs k = 1%:M -> exists M,
      let N := CMat (size (gens X k)) (size (gens X k)) M in
      induced_map (ops_of F) (bmx Fs k) X X k = Ok N /\ mx N = 1%:M.
Proof.
move=> ho CW CM; have [X E FX] := rcc_of_factored ho CW; exists X; split=> // k kC E1.
have [M /= [EM W [H EH]]] := induced_mapE CW CW CM (factored_rep FX) FX kC.
exists M; split=> //; apply: (induced_unique CW (factored_rep FX) kC EH (W' := 0)).
by rewrite E1 mul1mx mulmx1 subrr mulmx0.
Qed.

(** Composition: *)
Theorem C21_composition (F : fieldType) opt (C D E : seq (cmat F)) Fs Gs Hs :
  opt = ClearingBasis \/ opt = StandardBasis -> chain_wf C -> chain_wf D -> chain_wf E ->
  chain_map C D Fs -> chain_map D E Gs -> chain_map C E Hs ->
  exists X Y Z, [/\ rcc_of (ops_of F) opt C = Ok X, rcc_of (ops_of F) opt D = Ok Y,
     rcc_of (ops_of F) opt E = Ok Z &
    forall k, (k < size C)%N -> fmx C E Hs k = fmx D E Gs k *m fmx C D Fs k ->
    exists M1 M2 M3,
      let c := size (gens X k) in let d := size (gens Y k) in let e := size (gens Z k) in
      [/\ induced_map (ops_of F) (bmx Fs k) X Y k = Ok (CMat d c M1),
          induced_map (ops_of F) (bmx Gs k) Y Z k = Ok (CMat e d M2),
          induced_map (ops_of F) (bmx Hs k) X Z k = Ok (CMat e c M3) &
          mxc e c M3 = mxc e d M2 *m mxc d c M1]].
Proof.
move=> ho CW DW EW FM GM HM.
have [X EX FX] := rcc_of_factored ho CW; have [Y EY FY] := rcc_of_factored ho DW.
have [Z EZ FZ] := rcc_of_factored ho EW; exists X, Y, Z; split=> // k kC EH.
have [sD _ _ _ _] := FM; have kD : (k < size D)%N by rewrite sD.
have [sE _ _ _ _] := GM; have kE : (k < size E)%N by rewrite sE.
have [M1 /= [E1 _ [W1 H1]]] := induced_mapE CW DW FM (factored_rep FX) FY kC.
have [M2 /= [E2 _ [W2 H2]]] := induced_mapE DW EW GM (factored_rep FY) FZ kD.
have [M3 /= [E3 _ [W3 H3]]] := induced_mapE CW EW HM (factored_rep FX) FZ kC.
exists M1, M2, M3; split=> //.
have [W4 H4] : exists W4, fmx D E Gs k *m bd1 D k *m W1 = bd1 E k *m W4.
  have [_ _ _ co _] := GM; case: (ltnP k.+1 (size D)) => lt.
    by exists (fmx D E Gs k.+1 *m W1); rewrite mulmxA co.
  exists 0; rewrite mulmx0; suff -> : bd1 D k = 0 by rewrite mulmx0 mul0mx.
  have E0 : bmx D k.+1 = CMat 0 0 [::] by rewrite /bmx nth_default.
  by apply/matrixP => i j; rewrite !mxE E0 /= nth_nil coef_nil.
apply: (induced_unique EW (factored_rep FZ) kE H3 (W' := W4 + W2 *m mx (CMat (size (gens Y k)) (size (gens X k)) M1))).
rewrite EH mulmxDr -H4 (mulmxA (bd1 E k)) -H2 mulmxBl -(mulmxA _ (bd1 D k)) -H1 mulmxBr !mulmxA.
by rewrite addrA subrK.
Qed.

(** C21. The rank of the induced map does not depend on the reductions chosen on either side *)
Theorem C21_rank (F : fieldType) opt1 opt2 opt1' opt2' (C D : seq (cmat F)) Fs :
  has_basis opt1 -> has_basis opt2 ->
  opt1' = ClearingBasis \/ opt1' = StandardBasis -> opt2' = ClearingBasis \/ opt2' = StandardBasis ->
  chain_wf C -> chain_wf D -> chain_map C D Fs ->
  exists X1 X2 Y1 Y2,
   [/\ rcc_of (ops_of F) opt1 C = Ok X1 /\ rcc_of (ops_of F) opt2 C = Ok X2,
       rcc_of (ops_of F) opt1' D = Ok Y1 /\ rcc_of (ops_of F) opt2' D = Ok Y2 &
    forall k, (k < size C)%N -> exists m1 m2 n1 n2 M1 M2,
      [/\ induced_map (ops_of F) (bmx Fs k) X1 Y1 k = Ok (CMat m1 n1 M1),
          induced_map (ops_of F) (bmx Fs k) X2 Y2 k = Ok (CMat m2 n2 M2) &
          \rank (mxc m1 n1 M1) = \rank (mxc m2 n2 M2)]].
Proof.
move=> h1 h2 h1' h2' CW DW CM.
have [X1 EX1 R1] := rcc_of_rep CW h1; have [X2 EX2 R2] := rcc_of_rep CW h2.
have [Y1 EY1 F1] := rcc_of_factored h1' DW; have [Y2 EY2 F2] := rcc_of_factored h2' DW.
exists X1, X2, Y1, Y2; split=> // k kC.
have [M1 /= [E1 _ [W1 H1]]] := induced_mapE CW DW CM R1 F1 kC.
have [M2 /= [E2 _ [W2 H2]]] := induced_mapE CW DW CM R2 F2 kC.
do 6 eexists; split; [exact: E1 | exact: E2 | apply/eqP; rewrite eqn_leq].
have r1 := factored_rep F1; have r2 := factored_rep F2.
by rewrite (induced_rank_le CW DW CM R1 R2 r1 r2 kC H1 H2) (induced_rank_le CW DW CM R2 R1 r2 r1 kC H2 H1).
Qed.
