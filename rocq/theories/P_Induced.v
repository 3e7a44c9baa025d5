(** Preferred representatives and induced maps. *)
From mathcomp Require Import all_ssreflect all_algebra zify.
From Verif Require Import Outcome P_Outcome RingTac M_SparseVec M_Perm M_ColMatrix M_Reduce M_Homology M_Induced
  S_Linalg S_Perm S_Homology S_Induced P_SparseVec P_SparseVec2 P_Pairing P_Reduce P_ColMatrix P_Solve P_Homology P_Betti P_Rep.
Set Implicit Arguments.
Unset Strict Implicit.
Unset Printing Implicit Defensive.
Import GRing.Theory.
Local Open Scope ring_scope.

Section S.
Variable F : fieldType.
Notation O := (ops_of F).
Notation svec := (svec F).
Notation cmat := (cmat F).

Lemma vec_low m (v : svec) (i : 'I_m) : sv_wf m v -> last_ind v = Some (i : nat) <-> is_low (vec m v) i 0.
Proof.
move=> /and3P[S B N]; rewrite last_ind_spec // /is_low mxE; split=> -[H K]; split=> //.
  by move=> i' lt; rewrite mxE K.
move=> i' lt; case: (ltnP i' m) => im; last by rewrite (coef_ge B).
by have := K (Ordinal im) lt; rewrite mxE.
Qed.

Section Loop.
Variables (U R1 : cmat) (p : seq (option nat)) (n q : nat).
Hypothesis WU : all (sv_wf n) (cols U).
Hypothesis sU : size (cols U) = n.
Hypothesis nU : ncol U = n.
Hypothesis up : upper (mxc n n (cols U)).
Hypothesis dn : diagn0 (mxc n n (cols U)).
Hypothesis WR : all (sv_wf n) (cols R1).
Hypothesis sR : size (cols R1) = q.
Hypothesis nR : nrow R1 = n.
Hypothesis sp : size p = n.
Hypothesis Hp : forall j i, (j < n)%N -> nth None p j = Some i ->
  (i < q)%N /\ last_ind (nth [::] (cols R1) i) = Some j.
Notation mU := (mxc n n (cols U)).
Notation mR := (mxc n q (cols R1)).

Lemma bd_col j i : (j < n)%N -> nth None p j = Some i ->
  exists z w, [/\ u_solve O U (nth [::] (cols R1) i) = Ok z, sv_wf n z,
     mU *m vec n z = vec n (nth [::] (cols R1) i), lastnz z = Ok (j, w) &
     [/\ coef z j = w, w != 0 & forall k, (j < k)%N -> coef z k = 0]].
Proof.
move=> jn E; have [iq L] := Hp jn E; have Wi := nth_wf i WR.
case: (u_solveE WU sU up Wi nU) => [[z [Ez Wz Mz]]|[_ [k kn Z]]]; last first.
  by have := dn (Ordinal kn); rewrite mxE Z eqxx.
have Lz : last_ind z = Some j.
  rewrite -[j]/(nat_of_ord (Ordinal jn)); apply/vec_low => //; apply/(low_upper_mul _ _ _ up dn).
  by rewrite Mz; apply/vec_low.
have ne : z <> [::] by move=> E0; rewrite E0 in Lz.
have [j' [w [El Li _ cw wn]]] := lastnz_spec Wz ne.
have Ej : j' = j by move: Li; rewrite Lz => -[].
subst j'; exists z, w; split=> //; split=> // k lt.
by have /and3P[S _ N] := Wz; have [_ H] := (last_ind_spec j S N).1 Lz; apply: H.
Qed.

Definition finv (y0 : 'cV[F]_n) (y : svec) := exists w : 'cV[F]_q, mU *m vec n y = y0 + mR *m w.

Lemma fpr_clean fuel b y : sv_wf n y -> (b < fuel)%N ->
  (forall j, (j < n)%N -> nth None p j <> None -> coef y j = 0) ->
  fpr_loop O fuel U R1 p b y = Ok y.
Proof.
elim: fuel b => // fuel IH b W bf C; rewrite [fpr_loop _ _ _ _ _ _ _]/=.
have := before_spec b W; case: (split_lb y b).1 => // a r.
case: (last a r) => j v [jb jn Ey vn _]; rewrite (oget_nth None) ?sp //=.
case E: (nth None p j) => [i|].
  by move: vn; rewrite -Ey C ?eqxx // E.
by apply: IH => //; move: jb bf; clear; lia.
Qed.

Lemma fpr_loopE y0 fuel b y : sv_wf n y -> (b + n.+2 < fuel)%N -> finv y0 y ->
  (forall j, (b <= j < n)%N -> nth None p j <> None -> coef y j = 0) ->
  exists y', [/\ fpr_loop O fuel U R1 p b y = Ok y', sv_wf n y', finv y0 y' &
    forall j, (j < n)%N -> nth None p j <> None -> coef y' j = 0].
Proof.
elim: fuel b y => // fuel IH b y W bf I C; rewrite [fpr_loop _ _ _ _ _ _ _]/=.
have := before_spec b W; case: (split_lb y b).1 => [|a r].
  move=> Z; exists y; split=> // j jn E; case: (ltnP j b) => jb; first exact: Z.
  by apply: C; rewrite ?jb.
case: (last a r) => j v [jb jn Ey vn [_ K]]; rewrite (oget_nth None) ?sp //=.
have Kj k : (j < k < n)%N -> nth None p k <> None -> coef y k = 0.
  move=> /andP[jk kn] E; case: (ltnP k b) => kb; first by apply: K; rewrite jk.
  by apply: C; rewrite ?kb.
case E: (nth None p j) => [i|]; last first.
  apply: IH => //; first by move: jb bf; clear; lia.
  move=> k /andP[]; rewrite leq_eqVlt => /orP[/eqP <- _|jk kn]; first by rewrite E.
  by apply: Kj; rewrite jk.
have [z [w [Ez Wz Mz Lz [cw wn Kz]]]] := bd_col jn E; have [iq Li] := Hp jn E.
rewrite (@oget_nth svec [::]) ?sR //= Ez /= Lz /= /odiv is0E (negbTE wn) /=.
set c := v / w; set y2 := axpy O (- c) z y.
have W2 : sv_wf n y2 by apply: sv_wf_axpy.
have C2 k : coef y2 k = coef y k - c * coef z k by rewrite /y2 coef_axpy mulNr.
have I2 : finv y0 y2.
  case: I => x Hx; exists (x - c *: delta_mx (Ordinal iq) 0).
  have -> : vec n y2 = vec n y - c *: vec n z by apply/colP => k; rewrite !mxE C2.
  rewrite mulmxBr Hx -scalemxAr Mz mulmxBr -scalemxAr -colE addrA; congr (_ - _ *: _).
  by apply/colP => k; rewrite !mxE.
have Z2 k : (j <= k < n)%N -> nth None p k <> None -> coef y2 k = 0.
  move=> /andP[jk kn] Ek; rewrite C2; move: jk; rewrite leq_eqVlt => /orP[/eqP Ejk|jk].
    by rewrite -Ejk Ey cw /c divfK // subrr.
  by rewrite Kj ?jk // Kz // mulr0 subr0.
case: eqP => [j0|_]; last by apply: IH => //; move: jb bf; clear; lia.
exists y2; have Z3 k : (k < n)%N -> nth None p k <> None -> coef y2 k = 0.
  by move=> kn; apply: Z2; rewrite j0.
split=> //; apply: fpr_clean => //; rewrite nR; move: jb bf; clear; lia.
Qed.
End Loop.

(** ** complex level *)
Implicit Types C D : seq cmat.

Lemma ncell_succ C k : chain_wf C -> (k.+1 < size C)%N -> nrow (bmx C k.+1) = ncell C k.
Proof. by move=> [_ _ H] lt; have [] := H k lt. Qed.

Lemma bd_bd1 C k : chain_wf C -> (k < size C)%N -> bd C k *m bd1 C k = 0.
Proof.
move=> CW kC; case: (ltnP k.+1 (size C)) => lt; first by case: CW => _ _ H; have [] := H k lt.
have E : bmx C k.+1 = CMat 0 0 [::] by rewrite /bmx nth_default.
have -> : bd1 C k = 0 by apply/matrixP => i j; rewrite !mxE E /= nth_nil coef_nil.
by rewrite mulmx0.
Qed.

Lemma prow_bd1 C k j : chain_wf C -> prow (bd1 C k) j = prow (mx (bmx C k.+1)) j.
Proof.
move=> CW; case: (ltnP k.+1 (size C)) => lt; first by rewrite /mx (ncell_succ CW lt).
have E : bmx C k.+1 = CMat 0 0 [::] by rewrite /bmx nth_default.
have Z : ncol (bmx C k.+1) = 0%N by rewrite E.
rewrite /prow; apply/existsP/existsP => -[[i li]]; exfalso; by move: li; rewrite /ncell Z.
Qed.

Lemma hindsE C k : chain_wf C ->
  hinds C k = [seq j <- iota 0 (ncell C k) | ~~ pcol (bd C k) j && ~~ prow (bd1 C k) j].
Proof. by move=> CW; apply: eq_filter => j; rewrite prow_bd1. Qed.

Lemma vex_bd C k : chain_wf C -> exists V, [/\ upper V, diagn0 V & reduced (bd C k *m V)].
Proof. by move=> CW; apply: grec_vex; apply: chain_wf_nth. Qed.

Lemma vex_bd1 C k : chain_wf C -> exists V, [/\ upper V, diagn0 V & reduced (bd1 C k *m V)].
Proof.
move=> CW; case: (ltnP k.+1 (size C)) => lt.
  have := grec_vex (chain_wf_nth k.+1 CW); by rewrite /mx (ncell_succ CW lt).
exists 1%:M; split.
- by move=> i j lt'; rewrite mxE -val_eqE /= gtn_eqF.
- by move=> i; rewrite mxE eqxx oner_neq0.
- have E : bmx C k.+1 = CMat 0 0 [::] by rewrite /bmx nth_default.
  have Z : ncell C k.+1 = 0%N by rewrite /ncell E.
  by move=> i j; exfalso; move: (ltn_ord j); rewrite {2}Z.
Qed.

(** a reduction with a basis: upper triangular U, U_j a cycle exactly when column j of B_k carries no pivot *)
Definition rep_ok C (X : rcc F) : Prop :=
  [/\ rc_I X = [seq hinds C k | k <- iota 0 (size C)], size (rc_U X) = size C &
    forall k, (k < size C)%N -> exists Uc,
     [/\ bmx (rc_U X) k = CMat (ncell C k) (ncell C k) Uc, cm_wf (CMat (ncell C k) (ncell C k) Uc),
         upper (mxc (ncell C k) (ncell C k) Uc), diagn0 (mxc (ncell C k) (ncell C k) Uc) &
         forall j : 'I_(ncell C k), ~~ pcol (bd C k) j -> bd C k *m col j (mxc (ncell C k) (ncell C k) Uc) = 0]].

Lemma rcc_of_rep opt C : chain_wf C -> has_basis opt ->
  exists2 X, rcc_of O opt C = Ok X & rep_ok C X.
Proof.
move=> CW hb; have [X [E EI _ G]] := rcc_of_spec opt CW.
have [X' [E' sU G']] := rcc_of_basis CW hb; exists X => //.
have EX : X' = X by move: E'; rewrite E => -[].
subst X'; split=> // k kC; have [nU cU WU [V [Vu Vd EV HV]]] := G' k kC.
have [_ _ [_ _ _ HR]] := G k kC.
case EU: (bmx (rc_U X) k) => [a b Uc] in nU cU WU EV *; move: nU cU => /= nU cU; subst a b.
rewrite /= in EV; exists Uc; rewrite EV; split=> // j np.
have := HR j (ltn_ord j); rewrite HV (negbTE (np : ~~ [exists i, _])) => /nzcolN Z.
apply/colP => i; rewrite [RHS]mxE; apply: etrans (Z i); rewrite !mxE; apply: eq_bigr => l _.
by rewrite [col _ _ _ _]mxE.
Qed.

Section Rep.
Variables (C : seq cmat) (X : rcc F) (k : nat).
Hypothesis CW : chain_wf C.
Hypothesis RO : rep_ok C X.
Hypothesis kC : (k < size C)%N.
Notation n := (ncell C k).

Lemma gensE : gens X k = hinds C k.
Proof. by case: RO => EI _ _; rewrite /gens EI (nth_map 0%N) ?size_iota // nth_iota. Qed.

Lemma gens_filter : gens X k = [seq j <- iota 0 n | ~~ pcol (bd C k) j && ~~ prow (bd1 C k) j].
Proof. by rewrite gensE hindsE. Qed.

Lemma rep_col (j : 'I_(size (gens X k))) : exists (i : 'I_n) Uc,
  [/\ bmx (rc_U X) k = CMat n n Uc, (i : nat) = nth 0%N (gens X k) j,
      col j (repmx n X k) = col i (mxc n n Uc), ~~ pcol (bd C k) i &
      upper (mxc n n Uc) /\ diagn0 (mxc n n Uc)].
Proof.
have := mem_nth 0%N (ltn_ord j); rewrite {3}gens_filter mem_filter mem_iota add0n => /andP[/andP[np _] /andP[_ lt]].
have [_ _ /(_ k kC)[Uc [EU WU Vu Vd Z]]] := RO.
exists (Ordinal lt), Uc; split=> //.
by apply/colP => i; rewrite !mxE /entry EU.
Qed.

Lemma rep_cycle : bd C k *m repmx n X k = 0.
Proof.
apply/matrixP => a j; rewrite [RHS]mxE.
have [i [Uc [EU Ei Ec np [Vu Vd]]]] := rep_col j.
have [_ _ /(_ k kC)[Uc' [EU' WU _ _ Z]]] := RO.
have E : Uc' = Uc by move: EU'; rewrite EU => -[].
subst Uc'; have := Z i np; rewrite -Ec => /colP/(_ a); rewrite [RHS]mxE => e; apply: etrans e.
by rewrite !mxE; apply: eq_bigr => l _; rewrite [col _ _ _ _]mxE.
Qed.

Lemma rep_lows (j : 'I_(size (gens X k))) (i : 'I_n) : (i : nat) = nth 0%N (gens X k) j ->
  is_low (repmx n X k) i j.
Proof.
move=> Ei; have [i' [Uc [EU Ei' Ec np [Vu Vd]]]] := rep_col j.
have E : i' = i by apply: val_inj; rewrite /= Ei Ei'.
subst i'; have G a : repmx n X k a j = mxc n n Uc a i by move/colP/(_ a): Ec; rewrite !mxE.
split=> [|a lt]; rewrite G; [exact: Vd | exact: Vu].
Qed.

Lemma reps_basis (z : 'cV_n) : cycle z ->
  exists h : 'cV_(size (gens X k)), homologous z (repmx n X k *m h) /\
    forall h', homologous z (repmx n X k *m h') -> h' = h.
Proof.
move=> Z; have [V0 [u0 n0 r0]] := vex_bd k CW; have [V1 [u1 n1 r1]] := vex_bd1 k CW.
have BB := bd_bd1 CW kC.
have [h [w E]] := rep_span u0 n0 r0 u1 n1 r1 BB gens_filter rep_cycle rep_lows Z.
exists h; split; first by exists w; rewrite E addrC addKr.
move=> h' [w' E']; apply/eqP; rewrite -subr_eq0; apply/eqP.
apply: (rep_indep u1 n1 r1 gens_filter rep_lows (w := w - w')).
have E2 : bd1 C k *m w = z - repmx n X k *m h by rewrite E addrAC subrr add0r.
by rewrite !mulmxBr -E' E2 opprB [RHS]addrC addrA subrK.
Qed.
End Rep.

(** ** reductions with R = B U *)
Definition factored C (X : rcc F) : Prop :=
  [/\ rc_I X = [seq hinds C k | k <- iota 0 (size C)],
     [/\ size (rc_R X) = size C, size (rc_U X) = size C & size (rc_p2c X) = size C] &
     forall k, (k < size C)%N -> urec (bmx C k) (bmx (rc_R X) k) (bmx (rc_U X) k) (nth [::] (rc_p2c X) k)].

Lemma rcc_of_factored opt C : opt = ClearingBasis \/ opt = StandardBasis -> chain_wf C ->
  exists2 X, rcc_of O opt C = Ok X & factored C X.
Proof.
move=> [->|->] CW.
  by have [X [E1 E2 [? ? ?] G]] := rcc_clearingU_spec CW; exists X.
by have [X [E1 E2 [? ? ?] G]] := rcc_standard_spec CW; exists X.
Qed.

Lemma factored_rep C X : factored C X -> rep_ok C X.
Proof.
move=> [EI [sR sU sp] G]; split=> // k kC; have [[nR cR [_ _ P HR]]] := G k kC.
case EU: (bmx (rc_U X) k) => [a b Uc] [/= nU cU WU' ER [V [Vu Vd EV RV red]]].
subst a b; exists Uc; rewrite EV; split=> // j np.
have := HR j (ltn_ord j); rewrite (negbTE (np : ~~ [exists i, _])) => /eqP Z.
apply/colP => i; rewrite [RHS]mxE.
have -> : bd C k *m col j V = col j (mx (bmx C k) *m V) by rewrite !colE mulmxA.
by rewrite -RV !mxE Z coef_nil.
Qed.

Lemma homologous_refl C k (z : 'cV[F]_(ncell C k)) : homologous z z.
Proof. by exists 0; rewrite subrr mulmx0. Qed.
Lemma homologous_sym C k (z w : 'cV[F]_(ncell C k)) : homologous z w -> homologous w z.
Proof. by move=> [x E]; exists (- x); rewrite mulmxN -E opprB. Qed.
Lemma homologous_trans C k (a b c : 'cV[F]_(ncell C k)) : homologous a b -> homologous b c -> homologous a c.
Proof. by move=> [x E] [y E']; exists (x + y); rewrite mulmxDr -E -E' addrA subrK. Qed.
Lemma homologous_cycle C k (a b : 'cV[F]_(ncell C k)) : chain_wf C -> (k < size C)%N ->
  homologous a b -> cycle a -> cycle b.
Proof.
move=> CW kC [w E]; rewrite /cycle => Z.
have -> : b = a - bd1 C k *m w by rewrite -E opprB addrC subrK.
by rewrite mulmxBr Z mulmxA bd_bd1 // mul0mx subr0.
Qed.

Section Fact.
Variables (C : seq cmat) (X : rcc F) (k : nat).
Hypothesis CW : chain_wf C.
Hypothesis FX : factored C X.
Hypothesis kC : (k < size C)%N.
Notation n := (ncell C k).
Definition umx : 'M[F]_n := mxc n n (cols (bmx (rc_U X) k)).

Lemma uok : [/\ oget (rc_U X) k = Ok (bmx (rc_U X) k), nrow (bmx (rc_U X) k) = n,
  ncol (bmx (rc_U X) k) = n, cm_wf (bmx (rc_U X) k) & upper umx /\ diagn0 umx].
Proof.
have [_ [_ sU _] /(_ k kC)[_ [nU cU WU WR [V [Vu Vd EV _ _]]]]] := FX.
split=> //; first by rewrite (@oget_nth cmat (CMat 0 0 [::])) // sU.
by rewrite /umx -EV in Vu Vd *.
Qed.

Lemma uallwf : all (sv_wf n) (cols (bmx (rc_U X) k)) /\ size (cols (bmx (rc_U X) k)) = n.
Proof. by have [_ nU cU /cm_wfP[s W] _] := uok; rewrite nU in W; rewrite cU in s. Qed.

(** B U is reduced, its nonzero columns are the pivot columns *)
Lemma bu_pcol : reduced (bd C k *m umx) /\ forall j : 'I_n, nzcol (bd C k *m umx) j = pcol (bd C k) j.
Proof.
have [_ _ /(_ k kC)[_ [_ _ _ _ [V [Vu Vd EV RV red]]]]] := FX.
rewrite /umx EV -RV; split=> // j; rewrite RV in red *.
apply/nzcolP/existsP => -[i].
  by exists i; rewrite (pivot_low _ _ Vu Vd red); apply/lowP.
by rewrite (pivot_low _ _ Vu Vd red) => /lowP; exists i.
Qed.

Lemma find_preferredE (y : svec) : sv_wf n y ->
  exists y', [/\ find_preferred O X y k = Ok y', sv_wf n y', homologous (umx *m vec n y') (umx *m vec n y) &
    forall j : 'I_n, prow (bd1 C k) j -> coef y' j = 0].
Proof.
move=> Wy; have [EI [sR sU sp] G] := FX; rewrite /find_preferred sR; case: eqP => [E1|/eqP ne].
  exists y; split=> //; first exact: homologous_refl.
  move=> j /existsP[[i li]]; exfalso; move: li.
  by rewrite /ncell /bmx nth_default ?E1.
have k1 : (k.+1 < size C)%N by move: kC ne; clear; lia.
have [EU nU cU WU [Uu Ud]] := uok; have [WUa sUa] := uallwf.
have [[nR cR [sRc WRc [spp P] HR]] [_ _ _ _ [V [Vu Vd EV RV red]]]] := G k.+1 k1.
rewrite EU (@oget_nth cmat (CMat 0 0 [::])) ?sR // (oget_nth [::]) ?sp //; cbn [obind].
rewrite -!/(bmx _ _) nR ncell_succ //.
have nB := ncell_succ CW k1; rewrite /mx nB in WRc spp P RV red.
have L := @fpr_loopE (bmx (rc_U X) k) (bmx (rc_R X) k.+1) (nth [::] (rc_p2c X) k.+1) n (ncell C k.+1)
  WUa sUa cU Uu Ud WRc sRc (etrans nR nB) spp.
have Hp : forall j i : nat, (j < n)%N -> nth None (nth [::] (rc_p2c X) k.+1) j = Some i ->
   (i < ncell C k.+1)%N /\ last_ind (nth [::] (cols (bmx (rc_R X) k.+1)) i) = Some j.
  move=> j i jn /(P j jn)/andP[iq piv]; split=> //.
  apply/(@last_ind_low _ n (ncell C k.+1) _ (Ordinal jn) (Ordinal iq)); first exact: nth_wf.
  apply/lowP; rewrite RV -(pivot_low _ _ Vu Vd) //; by rewrite -RV.
have [||| y' [E W' [w Hw] Z]] := L Hp (umx *m vec n y) (2 * n.+2).+1 n.+1 y Wy.
- by move: n; clear => n; lia.
- by exists 0; rewrite mulmx0 addr0.
- by move=> j /andP[a b]; move: a b; clear; lia.
exists y'; split=> //.
  exists (V *m w); rewrite Hw addrAC subrr add0r mulmxA; congr (_ *m w); exact: RV.
move=> j pr; apply: Z => // Ej; move: pr => /existsP[i piv].
have := (P j (ltn_ord j) i).2; rewrite Ej ltn_ord /= => H.
by have := H piv.
Qed.

Lemma umx_unit : umx \in unitmx.
Proof. by have [_ _ _ _ [Uu Ud]] := uok; apply: upper_unit. Qed.

(** a chain with cleared pivot rows is determined by its class *)
Lemma cleared_inj (d1 d2 : 'cV[F]_n) :
  homologous (umx *m d1) (umx *m d2) ->
  (forall j : 'I_n, prow (bd1 C k) j -> d1 j 0 = 0) -> (forall j : 'I_n, prow (bd1 C k) j -> d2 j 0 = 0) ->
  d1 = d2.
Proof.
move=> [w E] Z1 Z2; apply/eqP; rewrite -subr_eq0; apply/negPn/negP => ne.
have [_ _ _ _ [Uu Ud]] := uok.
have /nzcolP[i L] : nzcol (d1 - d2) 0.
  apply: contraNT ne => /nzcolN Z; apply/eqP/colP => i; rewrite [RHS]mxE; exact: Z.
have [V1 [u1 n1 r1]] := vex_bd1 k CW.
have pr : prow (bd1 C k) i.
  apply/(prow_lowP u1 n1 r1); exists w; rewrite -E -mulmxBr.
  exact: ((low_upper_mul (d1 - d2) i 0 Uu Ud).1 L).
by case: L; rewrite !mxE Z1 // Z2 // subrr eqxx.
Qed.

Lemma gens_sorted : sorted ltn (gens X k).
Proof. by rewrite (gens_filter CW (factored_rep FX) kC) sorted_filter ?iota_ltn_sorted //; exact: ltn_trans. Qed.

(** a cycle with cleared pivot rows is the combination of the representatives read off at the generators *)
Lemma cleared_cycle (d : 'cV[F]_n) : cycle (umx *m d) -> (forall j : 'I_n, prow (bd1 C k) j -> d j 0 = 0) ->
  (forall j : 'I_n, (j : nat) \notin gens X k -> d j 0 = 0) /\
  forall h : 'cV[F]_(size (gens X k)),
    (forall (j : 'I_(size (gens X k))) (i : 'I_n), (i : nat) = nth 0%N (gens X k) j -> h j 0 = d i 0) ->
  umx *m d = repmx n X k *m h.
Proof.
move=> Z Zr; have RX := factored_rep FX.
have [red pc] := bu_pcol.
have Z0 (j : 'I_n) : (j : nat) \notin gens X k -> d j 0 = 0.
  rewrite (gens_filter CW RX kC) mem_filter mem_iota add0n leq0n ltn_ord !andbT negb_and !negbK => /orP[pj|pj]; last first.
    exact: Zr pj.
  by apply: (reduced_indep red); rewrite ?pc // -mulmxA.
split=> // h Hh; apply/colP => i; rewrite [LHS]mxE [RHS]mxE.
have gm x : x \in gens X k -> (x < n)%N.
  by rewrite (gens_filter CW RX kC) mem_filter mem_iota => /andP[_ /andP[]].
have sub (j : 'I_(size (gens X k))) : (nth 0%N (gens X k) j < n)%N by apply: gm; apply: mem_nth.
pose f j := Ordinal (sub j).
rewrite (eq_bigr (fun j => umx i (f j) * d (f j) 0)); last first.
  move=> j _; rewrite (Hh j (f j)) //; congr (_ * _); rewrite !mxE /entry.
  by have [_ nU cU _ _] := uok.
rewrite (bigID (fun j : 'I_n => (j : nat) \in gens X k)) /= [X in _ + X]big1 ?addr0; last first.
  by move=> j nj; rewrite Z0 ?mulr0.
have lt0 (j : 'I_n) : (j : nat) \in gens X k -> (index (j : nat) (gens X k) < size (gens X k))%N.
  by rewrite index_mem.
pose g (j : 'I_n) (j0 : 'I_(size (gens X k))) : 'I_(size (gens X k)) := insubd j0 (index (j : nat) (gens X k)).
case: (posnP (size (gens X k))) => [s0|pos].
  rewrite big1 => [|j]; first by rewrite big1 // => -[j lj]; exfalso; move: lj; rewrite s0.
  by rewrite (size0nil s0).
pose j0 := Ordinal pos.
rewrite (reindex f); last first.
  exists (fun j => g j j0) => [j|j] mj; apply: val_inj.
    rewrite /g val_insubd; have E : index (nth 0%N (gens X k) j) (gens X k) = j.
      by rewrite index_uniq // ; apply: (sorted_uniq ltn_trans ltnn gens_sorted).
    by rewrite /= E ltn_ord.
  rewrite /= -[nat_of_ord (g _ _)]/(val (g _ _)) val_insubd index_mem.
  by move: mj; rewrite inE /= => mj; rewrite mj nth_index.
by apply: eq_bigl => j; rewrite /= mem_nth.
Qed.

Lemma solve_umx (c : svec) : sv_wf n c ->
  exists x, [/\ u_solve O (bmx (rc_U X) k) c = Ok x, sv_wf n x & umx *m vec n x = vec n c].
Proof.
move=> W; have [_ _ cU _ [Uu Ud]] := uok; have [WUa sUa] := uallwf.
case: (u_solveE WUa sUa Uu W cU) => // -[_ [j jn Z]].
by have := Ud (Ordinal jn); rewrite mxE Z eqxx.
Qed.

Lemma chain_preferredE (c : svec) : sv_wf n c ->
  exists c' d, [/\ chain_preferred O X c k = Ok c', sv_wf n c', homologous (vec n c') (vec n c),
     vec n c' = umx *m d & forall j : 'I_n, prow (bd1 C k) j -> d j 0 = 0].
Proof.
move=> W; have [EU nU cU WU [Uu Ud]] := uok.
have [x [Ex Wx Hx]] := solve_umx W; have [y [Ey Wy Hy Zy]] := find_preferredE Wx.
have Bx : sv_below (ncol (bmx (rc_U X) k)) y by rewrite cU; have /and3P[] := Wy.
have [z [Ez Wz Hz]] := gemvE WU Bx.
rewrite /chain_preferred /to_hom_basis /from_hom_basis EU; cbn [obind]; rewrite Ex; cbn [obind].
rewrite Ey; cbn [obind]; rewrite Ez.
have EZ : vec n z = umx *m vec n y by move: Hz; rewrite /umx /mx nU cU.
exists z, (vec n y); split=> //; first by rewrite nU in Wz.
  by rewrite EZ -Hx.
by move=> j pj; rewrite mxE Zy.
Qed.

Lemma vec_inj (v w : svec) : sv_wf n v -> sv_wf n w -> vec n v = vec n w -> v = w.
Proof.
move=> /and3P[S1 B1 N1] /and3P[S2 B2 N2] E; apply: sv_ext => // i.
case: (ltnP i n) => le; last by rewrite !(@coef_ge _ n).
by move/colP/(_ (Ordinal le)): E; rewrite !mxE.
Qed.
End Fact.

Lemma cycle_succ C k (z : 'cV[F]_(ncell C k.+1)) : chain_wf C -> (k.+1 < size C)%N ->
  cycle z <-> bd1 C k *m z = 0.
Proof. by move=> CW lt; have E := ncell_succ CW lt; rewrite /cycle /bd /bd1 /mx E. Qed.

Lemma map_cycle C D Fs k (z : 'cV[F]_(ncell C k)) : chain_wf C -> chain_wf D -> chain_map C D Fs ->
  (k < size C)%N -> cycle z -> cycle (fmx C D Fs k *m z).
Proof.
move=> CW DW [sD sF sh co c0]; case: k z => [|k] z kC Z; first exact: c0.
have kD : (k.+1 < size D)%N by rewrite sD.
by apply/(cycle_succ _ DW kD); rewrite mulmxA co // -mulmxA ((cycle_succ _ CW kC).1 Z) mulmx0.
Qed.

Lemma map_homologous C D Fs k (x y : 'cV[F]_(ncell C k)) : chain_map C D Fs -> 
  (k < size C)%N -> homologous x y -> homologous (fmx C D Fs k *m x) (fmx C D Fs k *m y).
Proof.
move=> [sD sF sh co c0] kC [w E]; rewrite /homologous -mulmxBr E mulmxA.
case: (ltnP k.+1 (size C)) => lt; first by exists (fmx C D Fs k.+1 *m w); rewrite mulmxA co.
exists 0; rewrite mulmx0; suff -> : bd1 C k = 0 by rewrite mulmx0 mul0mx.
have E0 : bmx C k.+1 = CMat 0 0 [::] by rewrite /bmx nth_default.
by apply/matrixP => i j; rewrite !mxE E0 /= nth_nil coef_nil.
Qed.


(** M represents the map on homology: F takes the representatives of C, up to boundaries, to the combinations
    of the representatives of D given by M *)
Lemma induced_mapE C D Fs (X Y : rcc F) k : chain_wf C -> chain_wf D -> chain_map C D Fs ->
  rep_ok C X -> factored D Y -> (k < size C)%N ->
  exists M, let N := CMat (size (gens Y k)) (size (gens X k)) M in
    [/\ induced_map O (bmx Fs k) X Y k = Ok N, cm_wf N &
     exists W, fmx C D Fs k *m repmx (ncell C k) X k - repmx (ncell D k) Y k *m mx N = bd1 D k *m W].
Proof.
move=> CW DW CM RX FY kC; have [sD sF sh co c0] := CM; have kD : (k < size D)%N by rewrite sD.
have RY := factored_rep FY.
have [WF nF cF] := sh k kC.
have [IX sUX /(_ k kC)[Uc [EU WU Uu Ud HU]]] := RX.
have [EV nV cV WV [Vu Vd]] := uok FY kD.
have EI (E : seq cmat) (Z : rcc F) : rc_I Z = [seq hinds E k | k <- iota 0 (size E)] -> (k < size E)%N ->
    oget (rc_I Z) k = Ok (gens Z k).
  by move=> EI lt; rewrite (oget_nth [::]) // EI size_map size_iota.
rewrite /induced_map (@oget_nth cmat (CMat 0 0 [::])) ?sUX // EV; cbn [obind].
rewrite -/(bmx _ _) EU cF nF cV !eqxx; cbn [obind ncol nrow orb negb].
have [IY _ _] := FY; rewrite (EI C X) // (EI D Y) //; cbn [obind cols].
set f := fun i : nat => _.
have key i : (i < size (gens X k))%N -> exists2 b, f (nth 0%N (gens X k) i) = Ok b &
    sv_wf (size (gens Y k)) b /\
    homologous (fmx C D Fs k *m \col_a coef (nth [::] Uc (nth 0%N (gens X k) i)) a)
       (repmx (ncell D k) Y k *m vec (size (gens Y k)) b).
  move=> li; have mi := mem_nth 0%N li; set j := nth 0%N (gens X k) i in mi *.
  move: mi; rewrite (gens_filter CW RX kC) mem_filter mem_iota add0n leq0n => /andP[/andP[np _] jn].
  rewrite /= in jn; have /cm_wfP[/= sUc WUc] := WU.
  have Wc : sv_wf (ncell C k) (nth [::] Uc j) by apply: nth_wf.
  have Bc : sv_below (ncol (bmx Fs k)) (nth [::] Uc j) by rewrite cF; have /and3P[] := Wc.
  have [x [Ex Wx Hx]] := gemvE WF Bc.
  rewrite nF in Wx.
  have {Hx}Hx : vec (ncell D k) x = fmx C D Fs k *m vec (ncell C k) (nth [::] Uc j).
    by move: Hx; rewrite /fmx /mx nF cF.
  have [y [Ey Wy Hy]] := solve_umx FY kD Wx; have [y' [Ey' Wy' Hy' Zy']] := find_preferredE DW FY kD Wy.
  have Wyc := Wy'; have /and3P[Sy By Ny] := Wyc.
  have [Ss Bs Ns Cs] := selectE (gens_sorted DW FY kD) Sy.
  exists (select y' (gens Y k)).
    rewrite /f (@oget_nth svec [::]) ?sUc //; cbn [obind]; rewrite Ex; cbn [obind].
    by rewrite Ey; cbn [obind]; rewrite Ey'.
  split; first by apply/and3P; split=> //; apply: Ns.
  have Zc : cycle (vec (ncell C k) (nth [::] Uc j)).
    have := HU (Ordinal jn) np; rewrite /cycle => e; apply: etrans e; congr (_ *m _).
    by apply/colP => a; rewrite !mxE.
  have ZF := map_cycle CW DW CM kC Zc.
  rewrite Hy Hx in Hy'; have ZU := homologous_cycle DW kD (homologous_sym Hy') ZF.
  have [Z0 Hc] := cleared_cycle DW FY kD ZU (fun j pj => etrans (mxE _ _ _ _) (Zy' j pj)).
  rewrite -(Hc (vec (size (gens Y k)) (select y' (gens Y k)))); last first.
    by move=> a i' Ei; rewrite !mxE Cs // Ei.
  apply: homologous_sym; have E : (\col_a coef (nth [::] Uc j) a) = vec (ncell C k) (nth [::] Uc j).
    by apply/colP => a; rewrite !mxE.
  by rewrite E.
have [cs [-> scs Hcs]] := @omapm_exists _ _ f
  (fun i b => sv_wf (size (gens Y k)) b /\
    homologous (fmx C D Fs k *m \col_a coef (nth [::] Uc i) a)
       (repmx (ncell D k) Y k *m vec (size (gens Y k)) b)) _ 0%N [::] key.
cbn [obind]; exists cs; split=> //.
  by rewrite /cm_wf /= scs eqxx; apply/(all_nthP [::]) => i; rewrite scs => /Hcs[].
have := @fin_all_exists _ _ (fun (j : 'I_(size (gens X k))) w =>
   fmx C D Fs k *m (\col_a coef (nth [::] Uc (nth 0%N (gens X k) j)) a) -
       repmx (ncell D k) Y k *m vec (size (gens Y k)) (nth [::] cs j) = bd1 D k *m w)
   (fun j => (Hcs j (ltn_ord j)).2).
move=> [W HW]; set N := CMat _ _ _; exists (\matrix_(i, j) W j i 0).
suff H j : col j (fmx C D Fs k *m repmx (ncell C k) X k - repmx (ncell D k) Y k *m mx N) =
           col j (bd1 D k *m (\matrix_(i, j) W j i 0)).
  by apply/matrixP => i j; move/colP/(_ i): (H j); rewrite [col _ _ _ _]mxE [X in _ = X -> _]mxE.
rewrite !colE mulmxBl -!mulmxA -!colE.
have -> : col j (repmx (ncell C k) X k) = \col_a coef (nth [::] Uc (nth 0%N (gens X k) j)) a.
  by apply/colP => a; rewrite !mxE /entry EU.
have -> : col j (mx N) = vec (size (gens Y k)) (nth [::] cs j) by apply/colP => a; rewrite !mxE.
by rewrite HW; congr (_ *m _); apply/colP => a; rewrite !mxE.
Qed.

(** the relation determines M *)
Lemma induced_unique D (Y : rcc F) k m (A : 'M[F]_(ncell D k, m)) (M M' : 'M[F]_(size (gens Y k), m)) W W' :
  chain_wf D -> rep_ok D Y -> (k < size D)%N ->
  A - repmx (ncell D k) Y k *m M = bd1 D k *m W ->
  A - repmx (ncell D k) Y k *m M' = bd1 D k *m W' -> M = M'.
Proof.
move=> DW RY kD E E'.
have [V1 [u1 n1 r1]] := vex_bd1 k DW.
apply/matrixP => i j; apply/eqP; rewrite -subr_eq0; apply/eqP.
have Z : repmx (ncell D k) Y k *m col j (M - M') = bd1 D k *m col j (W' - W).
  rewrite !colE !mulmxA; congr (_ *m _); rewrite !mulmxBr -E -E'.
  by rewrite opprB [RHS]addrC addrA subrK.
have := rep_indep u1 n1 r1 (gens_filter DW RY kD) (rep_lows DW RY kD) Z.
by move/colP/(_ i); rewrite !mxE.
Qed.

Lemma reps_matrix D (Y : rcc F) k m (A : 'M[F]_(ncell D k, m)) : chain_wf D -> rep_ok D Y -> (k < size D)%N ->
  bd D k *m A = 0 -> exists P W, A - repmx (ncell D k) Y k *m P = bd1 D k *m W.
Proof.
move=> DW RY kD Z.
have H (j : 'I_m) : exists p : 'cV[F]_(size (gens Y k)) * 'cV[F]_(ncell D k.+1),
    col j A - repmx (ncell D k) Y k *m p.1 = bd1 D k *m p.2.
  have Zj : cycle (col j A) by rewrite /cycle colE mulmxA Z mul0mx.
  by have [h [[w E] _]] := reps_basis DW RY kD Zj; exists (h, w).
have [f Hf] := fin_all_exists H.
exists (\matrix_(i, j) (f j).1 i 0), (\matrix_(i, j) (f j).2 i 0).
suff E j : col j (A - repmx (ncell D k) Y k *m (\matrix_(i, j) (f j).1 i 0)) =
           col j (bd1 D k *m (\matrix_(i, j) (f j).2 i 0)).
  by apply/matrixP => i j; move/colP/(_ i): (E j); rewrite [col _ _ _ _]mxE [X in _ = X -> _]mxE.
rewrite !colE mulmxBl -!mulmxA -!colE.
have -> : col j (\matrix_(i, j) (f j).1 i 0) = (f j).1 by apply/colP => a; rewrite !mxE.
have -> : col j (\matrix_(i, j) (f j).2 i 0) = (f j).2 by apply/colP => a; rewrite !mxE.
exact: Hf.
Qed.

Lemma map_bd1 C D Fs k m (W : 'M[F]_(ncell C k.+1, m)) : chain_map C D Fs -> (k < size C)%N ->
  exists W', fmx C D Fs k *m (bd1 C k *m W) = bd1 D k *m W'.
Proof.
move=> [sD sF sh co c0] kC; case: (ltnP k.+1 (size C)) => lt.
  by exists (fmx C D Fs k.+1 *m W); rewrite !mulmxA co.
exists 0; rewrite mulmx0; suff -> : bd1 C k = 0 by rewrite mul0mx mulmx0.
have E0 : bmx C k.+1 = CMat 0 0 [::] by rewrite /bmx nth_default.
by apply/matrixP => i j; rewrite !mxE E0 /= nth_nil coef_nil.
Qed.

Lemma induced_rank_le C D Fs (X X' Y Y' : rcc F) k
    (M : 'M[F]_(size (gens Y k), size (gens X k))) (M' : 'M[F]_(size (gens Y' k), size (gens X' k))) W W' :
  chain_wf C -> chain_wf D -> chain_map C D Fs -> rep_ok C X -> rep_ok C X' -> rep_ok D Y -> rep_ok D Y' ->
  (k < size C)%N ->
  fmx C D Fs k *m repmx (ncell C k) X k - repmx (ncell D k) Y k *m M = bd1 D k *m W ->
  fmx C D Fs k *m repmx (ncell C k) X' k - repmx (ncell D k) Y' k *m M' = bd1 D k *m W' ->
  (\rank M <= \rank M')%N.
Proof.
move=> CW DW CM RX RX' RY RY' kC E E'; have [sD _ _ _ _] := CM; have kD : (k < size D)%N by rewrite sD.
have [P [W1 E1]] := reps_matrix CW RX' kC (rep_cycle CW RX kC).
have [Q [W2 E2]] := reps_matrix DW RY kD (rep_cycle DW RY' kD).
have [W3 E3] := map_bd1 W1 CM kC.
have EM : M = Q *m M' *m P.
  apply: (induced_unique (W' := W2 *m M' *m P + W' *m P + W3) DW RY kD E).
  rewrite !mulmxDr.
  have -> : bd1 D k *m (W2 *m M' *m P) = repmx (ncell D k) Y' k *m M' *m P - repmx (ncell D k) Y k *m Q *m M' *m P.
    by rewrite !mulmxA -E2 !mulmxBl.
  have -> : bd1 D k *m (W' *m P) =
     fmx C D Fs k *m repmx (ncell C k) X' k *m P - repmx (ncell D k) Y' k *m M' *m P.
    by rewrite !mulmxA -E' !mulmxBl.
  have -> : bd1 D k *m W3 = fmx C D Fs k *m repmx (ncell C k) X k - fmx C D Fs k *m repmx (ncell C k) X' k *m P.
    by rewrite -E3 -E1 mulmxBr !mulmxA.
  rewrite !mulmxA [X in _ = X + _]addrC addrA subrK [RHS]addrC addrA subrK.
  by [].
by rewrite EM; apply: leq_trans (mxrankM_maxl _ _) (mxrankM_maxr _ _).
Qed.
End S.
