(** Zigzag barcodes: the removal of a cell, homology part. *)
From mathcomp Require Import all_ssreflect all_algebra zify.
From Verif Require Import Outcome P_Outcome RingTac M_SparseVec M_Perm M_ColMatrix M_Reduce M_Homology M_Induced M_Zigzag
  S_Linalg S_Perm S_Homology S_Induced S_Zigzag S_Fact P_SparseVec P_SparseVec2 P_Pairing P_Reduce P_ColMatrix P_Solve P_Homology
  P_Betti P_Rep P_Induced P_Den P_Zig1 P_Zig3 P_Zig4 P_Zig5 P_Zig6 P_Zig7.
Set Implicit Arguments.
Unset Strict Implicit.
Unset Printing Implicit Defensive.
Import GRing.Theory.
Local Open Scope ring_scope.

Section S.
Variable F : fieldType.
Notation O := (ops_of F).
Notation svec := (svec F).
Notation cmat := (cmat F).
Notation nz := (nth [::]).
Notation c0 := (CMat 0 0 [::]).
Variables (C : seq cmat) (zd : nat).
Hypothesis CW : chain_wf C.
Hypothesis nb0 : no_bd0 C.
Hypothesis szd : (size C <= zd.+1)%N.
Variables (A : Type) (vmax : A).

Notation cR X k := (cols (bmx (rc_R X) k)).
Notation cU X k := (cols (bmx (rc_U X) k)).
Notation pc X k := (nth [::] (rc_p2c X) k).
Notation Bk k := (mxc (nrow (bmx C k)) (ncell C k) (cols (bmx C k))).

Lemma record_then (s : zstate F A) F1 F2 fv k B (f : zstate F A -> outcome (zstate F A)) :
  (forall s', zs_F s' = F1 -> f s' = Ok (setF s' F2)) ->
  (do s' <- zz_record O vmax s F1 fv k B; f s') = zz_record O vmax s F2 fv k B.
Proof.
move=> H; rewrite /zz_record.
do 13! [match goal with |- obind (obind ?x _) _ = _ => case: x => [?|||] //; cbn [obind] end].
by rewrite H.
Qed.

Section Removal.
Variables (P P' : nat -> nat -> bool) (X : rcc F) (ev : rfv A).
Notation k := (z_dim ev).
Notation ind := (z_ind ev).
Hypothesis HI : hinv C zd P X.
Hypothesis en : ~~ z_entry ev.
Hypothesis kC : (k < size C)%N.
Hypothesis ik : (ind < ncell C k)%N.
Hypothesis Pi : P k ind.
Hypothesis PE : forall k' j, P' k' j = P k' j && ~~ ((k' == k) && (j == ind)).
Hypothesis cof : forall j, entry (bmx C k.+1) ind j != 0 -> ~~ P k.+1 j.
Hypothesis mx : forall j, P k j -> (j <= ind)%N.

Let P'k x : P' k x = P k x && (x != ind). Proof. by rewrite PE eqxx. Qed.
Let P'o k' : k' != k -> P k' =1 P' k'. Proof. by move=> ne x; rewrite PE (negPf ne) andbT. Qed.

Notation Mi := (nz (cR X k) ind).
Notation M1 := (set_nth [::] (cR X k) ind [::]).
Notation V1 := (set_nth [::] (cU X k) ind [::]).

Definition clr (Y : rcc F) : rcc F :=
  RCC (set_nth c0 (rc_U Y) k (CMat (nrow (bmx (rc_U Y) k)) (ncol (bmx (rc_U Y) k)) (set_nth [::] (cU Y k) ind [::])))
      (set_nth c0 (rc_R Y) k (CMat (nrow (bmx (rc_R Y) k)) (ncol (bmx (rc_R Y) k)) (set_nth [::] (cR Y k) ind [::])))
      (rc_I Y) (rc_p2c Y).

Section Clr.
Variables (Q : seq (seq (option nat))) (p' : seq (option nat)).
Hypothesis sQ : size Q = size C.
Hypothesis HQ : forall k', nth [::] Q k' = if k' == k then p' else pc X k'.
Hypothesis sp' : size p' = nrow (bmx C k).
Hypothesis Hp' : forall i, nth None p' i = if last_ind Mi == Some i then None else nth None (pc X k) i.

Definition Xc (I' : seq (seq nat)) : rcc F := clr (RCC (rc_U X) (rc_R X) I' Q).

Lemma cR_Xc I' k' j : nz (cR (Xc I') k') j = if (k' == k) && (j == ind) then [::] else nz (cR X k') j.
Proof. by rewrite /Xc /clr /= bmx_set; case: eqP => [->|] //=; rewrite nth_setE. Qed.
Lemma cU_Xc I' k' j : nz (cU (Xc I') k') j = if (k' == k) && (j == ind) then [::] else nz (cU X k') j.
Proof. by rewrite /Xc /clr /= bmx_set; case: eqP => [->|] //=; rewrite nth_setE. Qed.

Lemma zd_c : zdim (Bk k) (P' k) None M1 V1 p'.
Proof.
have [[sM WM] [sU WU HU] spk eM Hp] := zd_at HI kC; split=> //.
- by rewrite size_set ?sM //; split=> //; apply: all_set; rewrite ?sM.
- split; [by rewrite size_set ?sU|by apply: all_set; rewrite ?sU|].
  move=> j jn; rewrite P'k => /andP[Pj ji]; rewrite nth_setE (negPf ji); have [a b c] := HU j jn Pj; split=> // i n.
  rewrite P'k a //=; apply: contraNneq n => ->; rewrite c // ltn_neqAle ji; exact: mx.
- by move=> j jn; rewrite P'k => /andP[Pj ji]; rewrite !nth_setE (negPf ji); apply: eM.
- move=> i j im; rewrite Hp'; have Hpk := Hp; rewrite nth_setE; case: (last_ind Mi =P Some i) => [Li|nL].
    split=> // -[jn]; rewrite P'k => /andP[Pj ji] _; rewrite (negPf ji) => Lj.
    have e1 : nth None (pc X k) i = Some j by apply/Hpk.
    have e2 : nth None (pc X k) i = Some ind by apply/Hpk.
    by move: e1 ji; rewrite e2 => -[->]; rewrite eqxx.
  rewrite Hpk //; case: (eqVneq j ind) => [->|ji]; first by split=> [[_ _ _ /nL]|[_]] //; rewrite P'k eqxx andbF.
  by rewrite P'k ji andbT; split.
Qed.

Lemma hv_c z0 I' : size I' = size C ->
  (forall k', (k' < z0)%N -> (k' < size C)%N -> sorted ltn (nth [::] I' k') /\ forall j, j \in nth [::] I' k' <-> gen C P' (Xc I') k' j) ->
  hinv C z0 P' (Xc I').
Proof.
move=> sI' HI'; have [[sR sU sI sp] D Z cl _] := HI; split=> //.
- by split=> //=; rewrite size_set ?sR ?sU.
- by move=> k' k'C; have [a b c d] := D k' k'C; split=> /=; rewrite bmx_set; case: eqP => [e|_] //=; rewrite -e.
- move=> k' k'C; rewrite /Xc /clr /= !bmx_set HQ; case: (eqVneq k' k) => [->|ne]; first exact: zd_c.
  exact: (zdim_ext (P'o ne)) (Z k' k'C).
- move=> k' i j k'C jn'; rewrite !PE => /andP[Pj _] ne; rewrite (cl k' i j) //=.
  apply/negP => /andP[/eqP e1 /eqP e2]; subst k' i.
  by move: (cof ne); rewrite Pj.
Qed.

Lemma top_none : nth None (pc X k.+1) ind = None.
Proof.
case e : (nth None _ ind) => [r|] //; exfalso.
have k1 : (k.+1 < size C)%N.
  have [[_ _ _ sp] _ _ _ _] := HI; rewrite -sp ltnNge; apply/negP => h.
  by move: e; rewrite [pc X k.+1]nth_default // nth_nil.
have hX : hinv C 0 P' (Xc (rc_I X)) by apply: hv_c => //; have [[]] := HI.
have [[_ WM] _ _ _ Hp] := zd_succ CW HI k1; have [rn Pr _ Lr] := (Hp _ _ ik).1 e.
have P'r : P' k.+1 r by rewrite -P'o // gtn_eqF.
have Wr := nth_wf r WM; have /and3P[S _ N] := Wr; have [cj _] := (last_ind_spec ind S N).1 Lr.
have := Rsupp CW hX k1 rn P'r (i := ind); rewrite cR_Xc (gtn_eqF (ltnSn _)) => /(_ cj).
by rewrite P'k eqxx andbF.
Qed.

Lemma gen_oc I' k' j : k' != k -> k'.+1 != k -> gen C P' (Xc I') k' j <-> gen C P X k' j.
Proof. by move=> n1 n2; rewrite /gen cR_Xc /= HQ (negPf n1) (negPf n2) -P'o. Qed.
Lemma gen_kc I' j : gen C P' (Xc I') k j <-> gen C P X k j /\ j != ind.
Proof.
rewrite /gen cR_Xc /= HQ eqxx (gtn_eqF (ltnSn _)) P'k; case: (eqVneq j ind) => [->|_]; rewrite ?andbF ?andbT /=.
  by split=> [[]|[]].
by split=> [[]|[[]]].
Qed.
Lemma gen_pc I' k' j : k'.+1 = k -> gen C P' (Xc I') k' j <-> gen C P X k' j \/ last_ind Mi = Some j.
Proof.
move=> e; have n1 : k' != k by rewrite -e ltn_eqF.
have k'C : (k' < size C)%N by rewrite (ltn_trans _ kC) // -e.
have kC1 : (k'.+1 < size C)%N by rewrite e.
rewrite /gen cR_Xc /= HQ (negPf n1) e eqxx -P'o // Hp'.
case: (last_ind Mi =P Some j) => [Li|nL]; last by split=> [|[]] // h; left.
split=> [_|_]; first by right.
have [[_ WM] _ _ _ Hp] := zd_at HI kC; have Wr := nth_wf ind WM.
have /and3P[S B N] := Wr; have [cj _] := (last_ind_spec j S N).1 Li.
have mk : nrow (bmx C k) = ncell C k' by rewrite -e; apply: ncell_succ.
have jn : (j < ncell C k')%N by rewrite -mk; case: (ltnP j (nrow (bmx C k))) => // h; move: cj; rewrite (coef_ge B h) eqxx.
have pj : nth None (pc X k) j = Some ind by apply/Hp; rewrite ?mk.
by have [a b] := piv_zero CW HI k'C kC1 jn (r := ind) (etrans (f_equal (fun x => nth None (pc X x) j) e) pj).
Qed.
End Clr.

Lemma clearE (s : zstate F A) Y : zs_F s = Y -> rc_U Y = rc_U X -> rc_R Y = rc_R X -> zz_clear s ev = Ok (setF s (clr Y)).
Proof.
move=> eY eU eR; have [[sR sU sI sp] D _ _ _] := HI; have [[sM _] [sV _ _] _ _ _] := zd_at HI kC.
rewrite /zz_clear eY eU eR (oget_nth c0) ?sR //; cbn [obind]; rewrite (oget_nth c0) ?sU //; cbn [obind].
rewrite (oset_Ok [::]) ?sM //; cbn [obind]; rewrite (oset_Ok [::]) ?sV //; cbn [obind].
by rewrite (oset_Ok c0) ?sR //; cbn [obind]; rewrite (oset_Ok c0) ?sU //; cbn [obind]; rewrite /setF /clr eU eR.
Qed.

Lemma removal_step : exists X' r, [/\
  forall s, zs_F s = X -> zz_removal O vmax zd s ev = if r is Some (k1, B) then zz_record O vmax s X' ev k1 B else Ok (setF s X'),
  (if r is Some (k1, B) then k1 < zd else true)%N,
  hinv C zd P' X',
  forall k' j, (k' < size C)%N -> ~~ ((k' == k) && (j == ind)) -> nz (cR X' k') j = nz (cR X k') j /\ nz (cU X' k') j = nz (cU X k') j &
  forall k', (k' < zd)%N -> exists M : 'M[F]_(size (gens X k'), size (gens X' k')),
    hmap P (repmx (ncell C k') X' k') (repmx (ncell C k') X k') M /\ zout r k' (gens X k') (gens X' k') M].
Proof.
have [[sR sU sI sp] D Z cl II] := HI; have [nR ncR nU ncU] := D k kC.
have [[sM WM] _ spk eMk Hp] := zd_at HI kC.
have run s : zs_F s = X -> zz_removal O vmax zd s ev =
  (do s' <-
   (if (k <= zd) && (0 < size Mi) then
      do (i, _) <- lastnz Mi;
      if k is k1.+1 then
        do v <- find_preferred O X (sv_unit O i) k1;
        do I1 <- oget (rc_I X) k1;
        do B <- boundary_insertion_map O I1 i (select v I1);
        do Ix <- oset (rc_I X) k1 (ins_at I1 i);
        do pk <- oget (rc_p2c X) k; do pk' <- oset pk i None; do p' <- oset (rc_p2c X) k pk';
        zz_record O vmax s (RCC (rc_U X) (rc_R X) Ix p') ev k1 B
      else UB
    else if k < zd then
      do Ik <- oget (rc_I X) k;
      do B <- cycle_insertion_map O Ik ind;
      do Ix <- oset (rc_I X) k (take (size Ik).-1 Ik);
      zz_record O vmax s (setI X Ix) ev k B
    else Ok s);
  zz_clear s' ev)%N.
  by move=> es; rewrite /zz_removal es (oget_nth c0) ?sR //; cbn [obind]; rewrite (@oget_nth svec [::]) ?sM //; cbn [obind].
case: (Mi =P [::]) => [z|ne].
  (* a cycle disappears *)
  pose Q := rc_p2c X.
  have HQ k' : nth [::] Q k' = if k' == k then pc X k else pc X k' by case: eqP => [->|].
  have Hp' i : nth None (pc X k) i = if last_ind Mi == Some i then None else nth None (pc X k) i by rewrite z.
  have gp I' k' j : k'.+1 = k -> gen C P' (Xc Q I') k' j <-> gen C P X k' j.
    by move=> e; rewrite (gen_pc HQ Hp' _ _ e) z /=; split=> [[]|] // h; left.
  have go I' k' j : k' != k -> gen C P' (Xc Q I') k' j <-> gen C P X k' j.
    by move=> n1; case: (eqVneq k'.+1 k) => [e|n2]; [apply: gp|apply: (gen_oc HQ)].
  have gk I' j : gen C P' (Xc Q I') k j <-> gen C P X k j /\ j != ind by apply: (gen_kc HQ).
  have zz : ((k <= zd) && (0 < size Mi))%N = false by rewrite z andbF.
  have stay I' k' : k' != k -> (k' < zd)%N -> nth [::] I' k' = gens X k' ->
     exists2 M : 'M[F]_(size (gens X k'), size (gens (Xc Q I') k')), idm M & hmap P (repmx (ncell C k') (Xc Q I') k') (repmx (ncell C k') X k') M.
    move=> nk kz' e; have e' : gens (Xc Q I') k' = gens X k' by [].
    have [j _|M iM eM] := @hmap_id F (ncell C k') (cU (Xc Q I') k') (cU X k') _ _ e'.
      by rewrite cU_Xc (negPf nk).
    by exists M => //; apply: hmap_eq.
  case: (ltnP k zd) run => kz run; last first.
    exists (Xc Q (rc_I X)), None; split=> //.
    - move=> s es; rewrite run // zz; cbn [obind]; rewrite (clearE es) //.
    - apply: (hv_c _ HQ) => // k' kz' k'C; have [so G] := II k' kz' k'C; split=> // j; rewrite go //.
      by apply/eqP => e; move: kz; rewrite -e leqNgt kz'.
    - by move=> k' j _ /negPf nk; rewrite cR_Xc cU_Xc nk.
    - move=> k' kz'; have nk : k' != k by apply/eqP => e; move: kz; rewrite -e leqNgt kz'.
      by have [M iM hM] := stay (rc_I X) k' nk kz' erefl; exists M.
  have [so G] := II k kz kC.
  have ig : ind \in gens X k by apply/G; split=> //; apply: (top_none (p' := pc X k) _ HQ).
  have [sJ mJ] := take_last so ig (fun j h => let: And4 _ b _ _ := (G j).1 h in mx b).
  set J := take _ _ in sJ mJ; set I' := set_nth [::] (rc_I X) k J.
  have nJ : ind \notin J by rewrite mJ eqxx andbF.
  have eI : gens X k = ins_at J ind by apply: ins_rem.
  have gX k' : gens (Xc Q I') k' = if k' == k then J else gens X k' by rewrite /gens /= nth_setE.
  have gJ : gens (Xc Q I') k = J by rewrite gX eqxx.
  have [B [M [eB dB eW]]] := cim_ok (ncell C k) (cU X k) sJ nJ eI.
  exists (Xc Q I'), (Some (k, B)); split=> //.
  - move=> s es; rewrite run // zz (oget_nth [::]) ?sI //; cbn [obind]; rewrite -/(gens X k) eB; cbn [obind].
    rewrite (oset_Ok [::]) ?sI //; cbn [obind]; apply: record_then => s' es'; rewrite (clearE es') //.
  - apply: (hv_c _ HQ) => //; first by rewrite size_set ?sI.
    move=> k' kz' k'C; rewrite -/(gens (Xc Q I') k') gX; case: (eqVneq k' k) => [->|n1].
      by split=> // j; rewrite mJ gk -G; split=> [/andP[]|[-> ->]].
    by have [so' G'] := II k' kz' k'C; split=> // j; rewrite G' go.
  - by move=> k' j _ /negPf nk; rewrite cR_Xc cU_Xc nk.
  - move=> k' kz'; case: (eqVneq k' k) => [->|n1]; last first.
      have e' : nth [::] I' k' = gens X k' by rewrite -/(gens (Xc Q I') k') gX (negPf n1).
      have [M1 iM hM] := stay I' k' n1 kz' e'.
      by exists M1; split=> //; rewrite /zout (negPf n1); split.
    rewrite /zout eqxx.
    have -> : repmx (ncell C k) (Xc Q I') k = Wof (ncell C k) (cU (Xc Q I') k) (gens (Xc Q I') k) by [].
    rewrite gJ; exists M; split=> //; apply: hmap_eq; rewrite -[RHS]eW; apply/matrixP => r x; rewrite !mxE cU_Xc eqxx.
    by have := mem_nth 0%N (ltn_ord x); rewrite mJ => /andP[_ /negPf ->].
(* a boundary disappears *)
have kzd : (k <= zd)%N by rewrite -ltnS; apply: leq_trans szd.
have [i [w [El Li im _ _]]] := lastnz_spec (nth_wf ind WM) ne.
have s0 : (0 < size Mi)%N by case: (Mi) ne.
have k0 : k != 0%N.
  by apply/eqP => ek; have := dim0_zero CW nb0 HI (j := ind); rewrite -ek => /(_ ik Pi); exact: ne.
have [k1 ek] : exists k1, k = k1.+1 by exists k.-1; rewrite prednK // lt0n.
have k1z : (k1 < zd)%N by rewrite -ek.
have k1C : (k1 < size C)%N by rewrite (ltn_trans _ kC) // ek.
have [so G] := II k1 k1z k1C.
have kC1 : (k1.+1 < size C)%N by rewrite -ek.
have mk : nrow (bmx C k) = ncell C k1 by rewrite ek; apply: ncell_succ.
have ik1 : (i < ncell C k1)%N by rewrite -mk.
have k1k : k1 != k by rewrite ek ltn_eqF.
have pi : nth None (pc X k) i = Some ind by apply/Hp.
have [P1i zi] : P k1 i /\ nz (cR X k1) i = [::] by apply: (piv_zero CW HI k1C kC1 ik1 (r := ind)); rewrite -ek.
have niI : i \notin gens X k1 by apply/negP => /G[_ _ _]; rewrite -ek pi.
pose p' := set_nth None (pc X k) i None; pose Q := set_nth [::] (rc_p2c X) k p'.
have HQ k' : nth [::] Q k' = if k' == k then p' else pc X k' by rewrite nth_setE.
have sQ : size Q = size C by rewrite size_set ?sp.
have Hp' i' : nth None p' i' = if last_ind Mi == Some i' then None else nth None (pc X k) i'.
  by rewrite nth_setE Li (inj_eq Some_inj) eq_sym.
have sp' : size p' = nrow (bmx C k) by rewrite size_set spk.
set J := ins_at (gens X k1) i; set I' := set_nth [::] (rc_I X) k1 J.
have gX k' : gens (Xc Q I') k' = if k' == k1 then J else gens X k' by rewrite /gens /= nth_setE.
have gJ : gens (Xc Q I') k1 = J by rewrite gX eqxx.
have Ui : mxc (ncell C k1) (ncell C k1) (cU X k1) *m vec (ncell C k1) (sv_unit O i) = vec (ncell C k1) (nz (cU X k1) i).
  apply/colP => r; rewrite !mxE (bigD1 (Ordinal ik1)) //= big1 ?addr0; first by rewrite !mxE coef_unit eqxx mulr1.
  by move=> x nx; rewrite !mxE coef_unit; case: eqP => [e|_]; [case/eqP: nx; apply: val_inj|rewrite mulr0].
have [|||v [ev1 Wv hom gv]] := find_prefE CW HI k1C (y := sv_unit O i).
- exact: sv_wf_unit.
- by move=> x; rewrite coef_unit; case: (i =P x) => [<- _|]; rewrite ?P1i ?eqxx.
- have [_ _ _ eM _] := zd_at HI k1C; rewrite Ui /cycle /bd /mx -eM // zi.
  by apply/colP => r; rewrite !mxE coef_nil.
rewrite Ui in hom.
have rs := rep_sel (C := C) so (fun j h => let: And4 a _ _ _ := (G j).1 h in a) Wv (fun j h => (G j).2 (gv j h)).
rewrite rs in hom.
have Wsel : sv_wf (size (gens X k1)) (select v (gens X k1)).
  have /and3P[S B N] := Wv; have [a b c _] := selectE so S; by rewrite /sv_wf a b c.
have [B [M [eB dB HM]]] := bim_ok (ncell C k1) (cU X k1) so niI (erefl J) Wsel.
exists (Xc Q I'), (Some (k1, B)); split=> //.
- move=> s es; rewrite run // kzd s0 El; cbn [obind andb]; rewrite {1}ek ev1; cbn [obind].
  rewrite (oget_nth [::]) ?sI //; cbn [obind]; rewrite -/(gens X k1) eB; cbn [obind].
  rewrite (oset_Ok [::]) ?sI //; cbn [obind]; rewrite (oget_nth [::]) ?sp //; cbn [obind].
  rewrite (oset_Ok None) ?spk //; cbn [obind]; rewrite (oset_Ok [::]) ?sp //; cbn [obind].
  by apply: record_then => s' es'; rewrite (clearE es').
- apply: (hv_c sQ HQ sp' Hp'); first by rewrite size_set ?sI.
  move=> k' kz' k'C; rewrite -/(gens (Xc Q I') k') gX; case: (eqVneq k' k1) => [->|n1].
    split; first exact: sorted_ins.
    move=> j; rewrite mem_ins (gen_pc HQ Hp' _ _ (esym ek)) -G Li.
    by split=> [/orP[/eqP ->|]|[->|[->]]]; [right|left|rewrite orbT|rewrite eqxx].
  have [so' G'] := II k' kz' k'C; split=> // j; rewrite G'.
  case: (eqVneq k' k) => [->|n2]; last by rewrite (gen_oc HQ) // ek eqSS.
  rewrite (gen_kc HQ); split=> [h|[]] //; split=> //; apply/eqP => e; case: h => _ _ + _.
  by rewrite e.
- by move=> k' j _ /negPf nk; rewrite cR_Xc cU_Xc nk.
- move=> k' kz'; case: (eqVneq k' k1) => [->|n1]; last first.
    have e' : gens (Xc Q I') k' = gens X k' by rewrite gX (negPf n1).
    have [j|M1 iM eM] := @hmap_id F (ncell C k') (cU (Xc Q I') k') (cU X k') _ _ e'.
      rewrite e' cU_Xc; case: andP => // -[/eqP e1 /eqP e2]; rewrite e1 in kz' *.
      by have [_ G'] := II k kz' kC; move/G' => [_ _]; rewrite e2.
    by exists M1; split; [exact: hmap_eq|rewrite /zout (negPf n1)].
  rewrite /zout eqxx.
  have -> : repmx (ncell C k1) (Xc Q I') k1 = Wof (ncell C k1) (cU (Xc Q I') k1) (gens (Xc Q I') k1) by [].
  rewrite gJ; exists M; split=> // x; have := HM x.
  have eW : Wof (ncell C k1) (cU (Xc Q I') k1) J = Wof (ncell C k1) (cU X k1) J.
    by apply/matrixP => r y; rewrite !mxE cU_Xc (negPf k1k).
  rewrite eW; case: eqP => [e ->|_ ->]; last exact: hom_refl.
  suff -> : col x (Wof (ncell C k1) (cU X k1) J) = vec (ncell C k1) (nz (cU X k1) i) by [].
  by apply/colP => r; rewrite !mxE e.
Qed.
End Removal.
End S.
