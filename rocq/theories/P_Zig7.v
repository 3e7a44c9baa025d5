(** Zigzag barcodes: one event, homology part. *)
From mathcomp Require Import all_ssreflect all_algebra zify.
From Verif Require Import Outcome P_Outcome RingTac M_SparseVec M_Perm M_ColMatrix M_Reduce M_Homology M_Induced M_Zigzag
  S_Linalg S_Perm S_Homology S_Induced S_Zigzag S_Fact P_SparseVec P_SparseVec2 P_Pairing P_Reduce P_ColMatrix P_Solve P_Homology
  P_Betti P_Rep P_Induced P_Den P_Zig1 P_Zig3 P_Zig4 P_Zig5 P_Zig6.
Set Implicit Arguments.
Unset Strict Implicit.
Unset Printing Implicit Defensive.
Import GRing.Theory.
Local Open Scope ring_scope.

Section S.
Variable F : fieldType.
Notation O := (ops_of F).
Notation svec := (svec F).
Notation cmat := (cmat F).
Notation nz := (nth [::]).
Notation c0 := (CMat 0 0 [::]).
Variables (C : seq cmat) (zd : nat).
Hypothesis CW : chain_wf C.
Hypothesis nb0 : no_bd0 C.
Hypothesis szd : (size C <= zd.+1)%N.
Variables (A : Type) (vmax : A).

Notation cR X k := (cols (bmx (rc_R X) k)).
Notation cU X k := (cols (bmx (rc_U X) k)).
Notation pc X k := (nth [::] (rc_p2c X) k).
Notation Bk k := (mxc (nrow (bmx C k)) (ncell C k) (cols (bmx C k))).

Definition setF (s : zstate F A) X := ZState X (zs_bars s) (zs_piv s) (zs_L s) (zs_P s) (zs_dir s).
Definition idm a b (M : 'M[F]_(a, b)) : Prop := forall i j, M i j = (i == j :> nat)%:R.
(** the matrix recorded in dimension k, or the identity *)
Definition zout (r : option (nat * cmat)) (k : nat) (I I' : seq nat) a b (M : 'M[F]_(a, b)) : Prop :=
  if r is Some (k1, B) then if k == k1 then den B M else I = I' /\ idm M else I = I' /\ idm M.
(** M is the map of homology spaces induced by the inclusion of a subcomplex into the subcomplex P *)
Definition hmap P k a b (W : 'M[F]_(ncell C k, a)) (W' : 'M[F]_(ncell C k, b)) (M : 'M[F]_(b, a)) : Prop :=
  forall x, homologous_in P (col x W) (W' *m col x M).

Lemma hom_refl P k (z : 'cV[F]_(ncell C k)) : homologous_in P z z.
Proof. by exists 0; [move=> i; rewrite mxE eqxx|rewrite subrr mulmx0]. Qed.
Lemma hmap_eq P k a b (W : 'M[F]_(ncell C k, a)) (W' : 'M[F]_(ncell C k, b)) M : W = W' *m M -> hmap P W W' M.
Proof. by move=> e x; rewrite e !colE mulmxA; apply: hom_refl. Qed.

Lemma hmap_id n (cs cs' : seq svec) I I' : I = I' -> (forall j, j \in I -> nz cs' j = nz cs j) ->
  exists2 M : 'M[F]_(size I', size I), idm M & Wof n cs I = Wof n cs' I' *m M.
Proof.
move=> <- H; exists 1%:M; first by move=> i j; rewrite mxE.
by rewrite mulmx1; apply/matrixP => i x; rewrite !mxE H // mem_nth.
Qed.

Lemma bmx_set (R : seq cmat) k B k' : bmx (set_nth c0 R k B) k' = if k' == k then B else bmx R k'.
Proof. by rewrite /bmx nth_setE. Qed.

Lemma zdim_ext m n (Bd : 'M[F]_(m, n)) (P P' : pred nat) ex M U p : P =1 P' -> zdim Bd P ex M U p -> zdim Bd P' ex M U p.
Proof.
move=> e [h1 [u1 u2 u3] h3 h4 h5]; split=> //.
- split=> // j jn; rewrite -e => Pj; have [a b c] := u3 j jn Pj; split=> // i; rewrite -e; exact: a.
- by move=> j jn; rewrite -e; apply: h4.
- by move=> i j im; rewrite h5 // e.
Qed.

Section Piv.
Variables (z0 : nat) (P : nat -> nat -> bool) (X : rcc F).
Hypothesis HI : hinv C z0 P X.
Lemma piv_zero k j r : (k < size C)%N -> (k.+1 < size C)%N -> (j < ncell C k)%N -> nth None (pc X k.+1) j = Some r ->
  P k j /\ nz (cR X k) j = [::].
Proof.
move=> kC k1 jn e; have [[_ WM] _ _ eM Hp] := zd_succ CW HI k1; have [rn Pr _ Lr] := (Hp _ _ jn).1 e.
have Sr := Rsupp CW HI k1 rn Pr; have Wr := nth_wf r WM.
have [y [Wy Sy ey]] := U_solve HI kC (chain_supp (C := C) Sr).
have cy : cycle (vec (ncell C k) (nz (cR X k.+1) r)) by rewrite /cycle eM // mulmxA (bd_bd1 CW kC) mul0mx.
have Ly : last_ind y = Some j.
  have [_ HU _ _ _] := zd_at HI kC; have [_ D _ _ _] := HI; have [_ _ _ ncU] := D k kC.
  have ny : y <> [::].
    move=> e0; move: ey; rewrite e0 (_ : vec (ncell C k) [::] = 0) ?mulmx0 => [/colP/(_ (Ordinal jn))|].
      rewrite !mxE /= => z; have /and3P[S _ N] := Wr; have [] := (last_ind_spec j S N).1 Lr; by rewrite z eqxx.
    by apply/colP => i; rewrite !mxE coef_nil.
  have [i [w [_ Li _ _ _]]] := lastnz_spec Wy ny.
  by have [_ /(_ _ Wr (esym ey))] := ucols_low HU Wy Sy Li; rewrite Lr Li.
have /and3P[S _ N] := Wy; have [cj _] := (last_ind_spec j S N).1 Ly; split; first exact: Sy.
apply: (cyc_zero HI kC (chain_supp Sy) (j := Ordinal jn)); last by rewrite mxE.
by rewrite -ey.
Qed.
Lemma dim0_zero j : (j < ncell C 0)%N -> P 0%N j -> nz (cR X 0) j = [::].
Proof.
move=> jn Pj; have sC : (0 < size C)%N by case: CW.
have [[_ WM] _ _ eM _] := zd_at HI sC; apply/eqP/negPn/negP => /eqP ne.
have [i [w [_ _ im cw wn]]] := lastnz_spec (nth_wf j WM) ne.
have /colP/(_ (Ordinal im)) := eM j jn Pj; rewrite !mxE /= cw => e; case/eqP: wn; rewrite e.
by apply: big1 => x _; rewrite !mxE; have := nb0 i (ltn_ord x); rewrite /entry => ->; rewrite mul0r.
Qed.
End Piv.

Section Entry.
Variables (P P' : nat -> nat -> bool) (X : rcc F) (ev : rfv A).
Notation k := (z_dim ev).
Notation ind := (z_ind ev).
Hypothesis HI : hinv C zd P X.
Hypothesis en : z_entry ev.
Hypothesis kC : (k < size C)%N.
Hypothesis ik : (ind < ncell C k)%N.
Hypothesis nP : ~~ P k ind.
Hypothesis PE : forall k' j, P' k' j = P k' j || ((k' == k) && (j == ind)).
Hypothesis fR : nz (cR X k) ind = nz (cols (bmx C k)) ind.
Hypothesis fU : nz (cU X k) ind = sv_unit O ind.
Hypothesis fc : forall k' i, k = k'.+1 -> entry (bmx C k) i ind != 0 -> P k' i.

Let P'k x : P' k x = P k x || (x == ind). Proof. by rewrite PE eqxx. Qed.
Let P'o k' : k' != k -> P k' =1 P' k'. Proof. by move=> ne x; rewrite PE (negPf ne) orbF. Qed.
Let Pind : P' k ind. Proof. by rewrite P'k eqxx orbT. Qed.

Let Z0 : zdim (Bk k) (P' k) (Some ind) (cR X k) (cU X k) (pc X k).
Proof.
have [[sM WM] [sU WU HU] sp eM Hp] := zd_at HI kC; split=> //.
- split=> // j jn; rewrite P'k => /orP[Pj|/eqP ->].
    have [a b c] := HU j jn Pj; split=> // i n; rewrite P'k a //.
  rewrite fU; split; first by move=> i; rewrite coef_unit; case: (ind =P i) => [<- _|]; rewrite ?Pind ?eqxx.
    by rewrite coef_unit eqxx oner_neq0.
  by move=> i h; rewrite coef_unit ltn_eqF.
- move=> j jn; rewrite P'k => /orP[Pj|/eqP ->]; first exact: eM.
  rewrite fR fU; apply/colP => i; rewrite !mxE (bigD1 (Ordinal ik)) //= big1 ?addr0.
    by rewrite !mxE coef_unit eqxx mulr1.
  by move=> x ne; rewrite !mxE coef_unit; case: eqP => [e|_]; [case/eqP: ne; apply: val_inj|rewrite mulr0].
- move=> i j im; rewrite Hp // P'k (inj_eq Some_inj); split=> [[? Pj _ ?]|[? Pj nj ?]]; split=> //.
  + by rewrite Pj.
  + by apply: contraNneq nP => ->.
  + by case/orP: Pj => // /eqP e; rewrite e eqxx in nj.
Qed.
Let K0 : zkeep (P' k) ind (cR X k) (cU X k) (pc X k) ind (cR X k) (cU X k) (pc X k).
Proof. by split=> //; rewrite ?eqxx // => x _ ->. Qed.

Section Red.
Variables (M' V' : seq svec) (p' : seq (option nat)) (j' : nat).
Hypothesis jn : (j' < ncell C k)%N.
Hypothesis Pj : P' k j'.
Hypothesis Zd : zdim (Bk k) (P' k) None M' V' p'.
Variable p1 : seq (option nat).
Hypothesis KK : zkeep (P' k) ind (cR X k) (cU X k) (pc X k) j' M' V' p1.

Definition X1 (I' : seq (seq nat)) : rcc F :=
  RCC (set_nth c0 (rc_U X) k (CMat (nrow (bmx (rc_U X) k)) (ncol (bmx (rc_U X) k)) V'))
      (set_nth c0 (rc_R X) k (CMat (nrow (bmx (rc_R X) k)) (ncol (bmx (rc_R X) k)) M')) I' (set_nth [::] (rc_p2c X) k p').

Lemma ku x : P k x -> nz (cR X k) x = [::] -> nz V' x = nz (cU X k) x /\ nz M' x = [::].
Proof.
move=> Px z; have [_ h2 _ _ _] := KK; have xi : x != ind by apply: contraNneq nP => <-.
by have [a b] := h2 x xi z.
Qed.
Lemma kz x : P' k x -> (nz M' x == [::]) = ((x == j') && (nz M' j' == [::])) || (P k x && (nz (cR X k) x == [::])).
Proof.
move=> Px; have [_ _ h3 h4 _] := KK; case: (eqVneq x j') => [->|ne] /=.
  have -> : P k j' && (nz (cR X k) j' == [::]) = false.
    by move: h4; case: eqP => [->|_ /=]; [rewrite (negPf nP)|move/negPf => ->; rewrite andbF].
  by rewrite orbF.
rewrite h3 //; congr (_ && _); move: Px; rewrite P'k; case: (eqVneq x ind) => [->|_]; rewrite ?(negPf nP) ?orbF //.
Qed.

Lemma gen_o I' k' j : k' != k -> k'.+1 != k -> gen C P' (X1 I') k' j <-> gen C P X k' j.
Proof.
by move=> n1 n2; rewrite /gen /X1 /= bmx_set nth_setE (negPf n1) (negPf n2) -P'o.
Qed.
Lemma gen_k I' j : gen C P' (X1 I') k j <-> gen C P X k j \/ (j = j' /\ nz M' j' = [::]).
Proof.
rewrite /gen /X1 /= bmx_set nth_setE eqxx (gtn_eqF (ltnSn _)).
split=> [[a b c d]|[[a b c d]|[-> z]]].
- move: (kz b); rewrite c eqxx => /esym/orP[/andP[/eqP -> /eqP z]|/andP[Px /eqP z]]; [by right|by left].
- by split=> //; [rewrite P'k b|case: (ku b c)].
- split=> //; case e : (nth None (pc X k.+1) j') => [r|] //; exfalso.
  have k1 : (k.+1 < size C)%N.
    have [[_ _ _ sp] _ _ _ _] := HI; rewrite -sp ltnNge; apply/negP => h.
    by move: e; rewrite [pc X k.+1]nth_default // nth_nil.
  have [Px zx] := piv_zero HI kC k1 jn e; have [_ _ _ h4 _] := KK.
  by move: h4; rewrite zx eqxx orbF => /eqP ej; move: nP; rewrite -ej Px.
Qed.
Lemma gen_p I' k' j : k'.+1 = k -> gen C P' (X1 I') k' j <-> [/\ (j < ncell C k')%N, P k' j, nz (cR X k') j = [::] & nth None p' j = None].
Proof.
move=> e; have n1 : k' != k by rewrite -e ltn_eqF.
by rewrite /gen /X1 /= bmx_set nth_setE (negPf n1) e eqxx -P'o.
Qed.

Lemma hv z0 I' : size I' = size C ->
  (forall k', (k' < z0)%N -> (k' < size C)%N -> sorted ltn (nth [::] I' k') /\ forall j, j \in nth [::] I' k' <-> gen C P' (X1 I') k' j) ->
  hinv C z0 P' (X1 I').
Proof.
move=> sI' HI'; have [[sR sU sI sp] D Z cl _] := HI; split=> //.
- by split=> //=; rewrite size_set ?sR ?sU ?sp.
- by move=> k' k'C; have [a b c d] := D k' k'C; split=> /=; rewrite bmx_set; case: eqP => [e|_] //=; rewrite -e.
- move=> k' k'C /=; rewrite !bmx_set nth_setE; case: (eqVneq k' k) => [->|ne] //.
  exact: (zdim_ext (P'o ne)) (Z k' k'C).
- move=> k' i j k'C jn'; rewrite !PE => /orP[Px ne|/andP[/eqP e1 /eqP e2] ne]; first by rewrite (cl k' i j).
  by rewrite (fc (k' := k')) // -e1 -e2.
Qed.
End Red.

Lemma entry_step : exists X' r, [/\
  forall s, zs_F s = X -> zz_entry O vmax zd s ev = if r is Some (k1, B) then zz_record O vmax s X' ev k1 B else Ok (setF s X'),
  (if r is Some (k1, B) then k1 < zd else true)%N,
  hinv C zd P' X',
  forall k' j, (k' < size C)%N -> ~~ P' k' j -> nz (cR X' k') j = nz (cR X k') j /\ nz (cU X' k') j = nz (cU X k') j &
  forall k', (k' < zd)%N -> exists M : 'M[F]_(size (gens X' k'), size (gens X k')),
    hmap P' (repmx (ncell C k') X k') (repmx (ncell C k') X' k') M /\ zout r k' (gens X k') (gens X' k') M].
Proof.
have [[sR sU sI sp] D Z cl II] := HI; have [nR ncR nU ncU] := D k kC.
have [[sM WM] _ spk _ _] := zd_at HI kC.
have fuel : is_true (if last_ind (nz (cR X k) ind) is Some i then i.+2 <= (nrow (bmx (rc_R X) k)).+2 else 0 < (nrow (bmx (rc_R X) k)).+2)%N.
  case e : (last_ind _) => [i|] //; have /and3P[S B N] := nth_wf ind WM; have [c _] := (last_ind_spec i S N).1 e.
  by rewrite nR !ltnS leqNgt; apply/negP => h; move: c; rewrite (coef_ge B) ?eqxx // ltnW.
have [M' [V' [p' [j' [ez [jn Pj] Zd Fin]]]]] := zz_reduceE ik Pind Z0 K0 fuel.
have KK : exists p1, zkeep (P' k) ind (cR X k) (cU X k) (pc X k) j' M' V' p1.
  by case: Fin => [[_ K]|[i [_ _ _ _ [p1 K _]]]]; [exists p'|exists p1].
have [[sM' WM'] _ sp' _ Hp'] := Zd.
have gU I' k' j : j \in gens X k' -> (k' < zd)%N -> nz (cU (X1 M' V' p' I') k') j = nz (cU X k') j.
  rewrite /X1 /= bmx_set => jg kz; case: (eqVneq k' k) => [e|//]; rewrite e in jg kz *.
  have [_ /(_ j) G] := II k kz kC; have [a b c d] := G.1 jg; case: KK => p1 KK; by have [-> _] := ku KK b c.
have run s : zs_F s = X -> zz_entry O vmax zd s ev =
   (let X' := X1 M' V' p' in do c <- oget M' j';
     if (k <= zd) && (0 < size c) then do (i, _) <- lastnz c;
      if k is k1.+1 then do I1 <- oget (rc_I X) k1; do x <- oget I1 (M_Zigzag.lowb I1 i);
       if i != x then Throw else
        let I1' := take (M_Zigzag.lowb I1 i) I1 ++ drop (M_Zigzag.lowb I1 i).+1 I1 in
        do Ix <- oset (rc_I X) k1 I1'; do v <- find_preferred O (X' Ix) (sv_unit O i) k1;
        do B <- boundary_insertion_map O I1' i (select v I1'); zz_record O vmax s (X' Ix) ev k1 B
      else UB
     else if k < zd then do Ik <- oget (rc_I X) k; do Ix <- oset (rc_I X) k (ins_at Ik j');
        do B <- cycle_insertion_map O (ins_at Ik j') j'; zz_record O vmax s (X' Ix) ev k B
     else Ok (setF s (X' (rc_I X))))%N.
  move=> es; rewrite /zz_entry es (oget_nth c0) ?sR //; cbn [obind]; rewrite (oget_nth c0) ?sU //; cbn [obind].
  rewrite (oget_nth [::]) ?sp //; cbn [obind]; rewrite ez; cbn [obind].
  by rewrite (oset_Ok c0) ?sR //; cbn [obind]; rewrite (oset_Ok c0) ?sU //; cbn [obind]; rewrite (oset_Ok [::]) ?sp //.
rewrite (@oget_nth svec [::]) ?sM' // in run; cbn [obind] in run.
have fresh I' k' j : (k' < size C)%N -> ~~ P' k' j -> nz (cR (X1 M' V' p' I') k') j = nz (cR X k') j /\ nz (cU (X1 M' V' p' I') k') j = nz (cU X k') j.
  rewrite /X1 /= !bmx_set; case: eqP => [->|_] // _ nPj; case: KK => p1 [h1 _ _ _ _]; exact: h1.
case: KK => p1 KK; case: Fin => [[z K]|[i [im Li pi pi' [p2 K Kp]]]].
  (* a new cycle *)
  have gk I' : forall j, gen C P' (X1 M' V' p' I') k j <-> gen C P X k j \/ j = j'.
    by move=> j; rewrite (gen_k p' jn Pj K); split=> [[a|[a _]]|[a|a]]; [left|right|left|right].
  have gp I' k' j : k'.+1 = k -> gen C P' (X1 M' V' p' I') k' j <-> gen C P X k' j.
    move=> e; rewrite (gen_p _ _ _ _ _ e) /gen e; have [_ _ _ _ h5] := K; have := h5 j.
    by case: (nth None p' j); case: (nth None (pc X k) j) => //= a b _; split=> -[].
  have go I' k' j : k' != k -> gen C P' (X1 M' V' p' I') k' j <-> gen C P X k' j.
    by move=> ne; case: (eqVneq k'.+1 k) => [e|ne']; [apply: gp|apply: gen_o].
  rewrite z andbF in run; case: (ltnP k zd) run => kz run; last first.
    exists (X1 M' V' p' (rc_I X)), None; split=> //.
    - apply: (hv Zd) => // k' kz' k'C; have [so G] := II k' kz' k'C; split=> // j; rewrite go //.
      by apply/eqP => e; move: kz; rewrite -e leqNgt kz'.
    - exact: fresh.
    - move=> k' kz'; have [M iM eM] := @hmap_id (ncell C k') (cU X k') (cU (X1 M' V' p' (rc_I X)) k') _ _ (erefl (gens X k')) (fun j h => gU _ _ _ h kz').
      by exists M; split; [exact: hmap_eq|].
  have [so G] := II k kz kC.
  have nj : j' \notin gens X k by apply/negP => /G[a b c _]; have [_ _ _ h4 _] := K; move: h4 nP; rewrite c eqxx orbF => /eqP <-; rewrite b.
  have {}run s : zs_F s = X -> zz_entry O vmax zd s ev = (do B <- cycle_insertion_map O (ins_at (gens X k) j') j';
       zz_record O vmax s (X1 M' V' p' (set_nth [::] (rc_I X) k (ins_at (gens X k) j'))) ev k B).
    by move/run => ->; rewrite (oget_nth [::]) ?sI //; cbn [obind]; rewrite (oset_Ok [::]) ?sI.
  set X' := X1 M' V' p' _ in run.
  have gX k' : gens X' k' = if k' == k then ins_at (gens X k) j' else gens X k' by rewrite /gens /= nth_setE.
  have eJ : gens X' k = ins_at (gens X k) j' by rewrite gX eqxx.
  have [B [M [eB dB eW]]] := cim_ok (ncell C k) (cU X' k) so nj eJ.
  exists X', (Some (k, B)); split=> //.
  - by move=> s /run ->; rewrite -eJ eB.
  - apply: (hv Zd); first by rewrite size_set ?sI.
    move=> k' kz' k'C; rewrite -/(gens X' k') gX -/X'; case: (eqVneq k' k) => [->|ne].
      split; first exact: sorted_ins.
      move=> j; rewrite mem_ins gk -G; split=> [/orP[/eqP|]|[|->]]; [by right|by left|by move=> ->; rewrite orbT|by rewrite eqxx].
    by have [so' G'] := II k' kz' k'C; split=> // j; rewrite G' go.
  - exact: fresh.
  - move=> k' kz'; case: (eqVneq k' k) => [->|ne].
      exists M; split; last by rewrite /zout eqxx.
      apply: hmap_eq; rewrite -[RHS]eW; apply/matrixP => r x; rewrite !mxE gU // mem_nth //.
    have e' : gens X k' = gens X' k' by rewrite gX (negPf ne).
    have [M1 iM eM] := @hmap_id (ncell C k') (cU X k') (cU X' k') _ _ e' (fun j h => gU _ _ _ h kz').
    by exists M1; split; [exact: hmap_eq|rewrite /zout (negPf ne)].
(* a boundary *)
have kzd : (k <= zd)%N by rewrite -ltnS; apply: leq_trans szd.
have ne : nz M' j' <> [::] by move=> e; rewrite e in Li.
have [i' [w [El Li' _ _ _]]] := lastnz_spec (nth_wf j' WM') ne.
have ei : i' = i by move: Li'; rewrite Li => -[].
subst i'.
have s0 : (0 < size (nz M' j'))%N by case: (nz M' j') ne.
rewrite kzd s0 El in run; cbn [obind andb] in run.
have gk I' : forall j, gen C P' (X1 M' V' p' I') k j <-> gen C P X k j.
  by move=> j; rewrite (gen_k p' jn Pj KK); split=> [[|[_ e]]|]; [|rewrite e in ne|left].
have hX : hinv C 0 P' (X1 M' V' p' (rc_I X)) by apply: (hv Zd).
have k0 : k != 0%N.
  apply/eqP => ek; have eR : cR (X1 M' V' p' (rc_I X)) k = M' by rewrite /X1; cbn [rc_R]; rewrite bmx_set eqxx.
  have := dim0_zero hX (j := j'); rewrite -ek eR => /(_ jn Pj); exact: ne.
have [k1 ek] : exists k1, k = k1.+1 by exists k.-1; rewrite prednK // lt0n.
have k1z : (k1 < zd)%N by rewrite -ek.
have k1C : (k1 < size C)%N by rewrite (ltn_trans _ kC) // ek.
have [so G] := II k1 k1z k1C.
have kC1 : (k1.+1 < size C)%N by rewrite -ek.
have mk : nrow (bmx C k) = ncell C k1 by rewrite ek; apply: ncell_succ.
have ik1 : (i < ncell C k1)%N by rewrite -mk.
have k1k : k1 != k by rewrite ek ltn_eqF.
have iI : i \in gens X k1.
  have := piv_zero hX k1C kC1 ik1 (r := j'); rewrite /X1 /= nth_setE bmx_set (negPf k1k) -ek eqxx => /(_ pi')[a b].
  apply/G; split=> //; [by rewrite (P'o k1k)|by rewrite -ek].
have [ls el sJ mJ] := lowb_in so iI; set J := take _ _ ++ _ in sJ mJ.
set X' := X1 M' V' p' (set_nth [::] (rc_I X) k1 J).
have gX k' : gens X' k' = if k' == k1 then J else gens X k' by rewrite /gens /= nth_setE.
have gJ : gens X' k1 = J by rewrite gX eqxx.
have {}run s : zs_F s = X -> zz_entry O vmax zd s ev = (do v <- find_preferred O X' (sv_unit O i) k1;
     do B <- boundary_insertion_map O J i (select v J); zz_record O vmax s X' ev k1 B).
  move/run => ->; rewrite {1}ek (oget_nth [::]) ?sI //; cbn [obind]; rewrite -/(gens X k1) (oget_nth 0%N) //; cbn [obind].
  by rewrite el eqxx; cbn [negb]; rewrite (oset_Ok [::]) ?sI.
have HX' : hinv C zd P' X'.
  apply: (hv Zd); first by rewrite size_set ?sI.
  move=> k' kz' k'C; rewrite -/(gens X' k') gX -/X'; case: (eqVneq k' k1) => [->|n1].
    split=> // j; rewrite mJ (gen_p _ _ _ _ _ (esym ek)); have [_ _ _ _ h5] := K.
    have Gj := G j; rewrite /gen -ek in Gj.
    split=> [/andP[/Gj[a b c d] ji]|[a b c d]].
      by split=> //; rewrite Kp //; have := h5 j; rewrite d; case: (nth None p2 j).
    have ji : j != i by apply/eqP => e; rewrite e pi' in d.
    rewrite ji andbT; apply/Gj; split=> //; have := h5 j; rewrite -Kp // d; by case: (nth None (pc X k) j).
  have [so' G'] := II k' kz' k'C; split=> // j; rewrite G'.
  case: (eqVneq k' k) => [->|n2]; first by rewrite gk.
  by rewrite gen_o // ek eqSS.
have niJ : i \notin J by rewrite mJ eqxx andbF.
have eI : gens X k1 = ins_at J i by apply: ins_rem.
have Pi : P' k1 i by have /G[_ b _ _] := iI; rewrite -(P'o k1k).
have Ui : mxc (ncell C k1) (ncell C k1) (cU X' k1) *m vec (ncell C k1) (sv_unit O i) = vec (ncell C k1) (nz (cU X' k1) i).
  apply/colP => r; rewrite !mxE (bigD1 (Ordinal ik1)) //= big1 ?addr0; first by rewrite !mxE coef_unit eqxx mulr1.
  by move=> x nx; rewrite !mxE coef_unit; case: eqP => [e|_]; [case/eqP: nx; apply: val_inj|rewrite mulr0].
have cU1 : cU X' k1 = cU X k1 by rewrite /X' /X1 /= bmx_set (negPf k1k).
have cR1 : cR X' k1 = cR X k1 by rewrite /X' /X1 /= bmx_set (negPf k1k).
have [|||v [ev1 Wv hom gv]] := find_prefE CW HX' k1C (y := sv_unit O i).
- exact: sv_wf_unit.
- by move=> x; rewrite coef_unit; case: (i =P x) => [<- _|]; rewrite ?Pi ?eqxx.
- have [_ _ _ eM _] := zd_at HX' k1C; rewrite Ui /cycle /bd /mx -eM // cR1; have /G[_ _ -> _] := iI.
  by apply/colP => r; rewrite !mxE coef_nil.
rewrite Ui in hom.
have [so' G'] : sorted ltn (gens X' k1) /\ forall j, j \in gens X' k1 <-> gen C P' X' k1 j by have [_ _ _ _ h] := HX'; apply: h.
have rs := rep_sel (C := C) so' (fun j h => let: And4 a _ _ _ := (G' j).1 h in a) Wv (fun j h => (G' j).2 (gv j h)).
rewrite rs in hom.
have Wsel : sv_wf (size J) (select v J).
  have /and3P[S B N] := Wv; have [a b c _] := selectE sJ S; by rewrite /sv_wf a b c.
have [B [M [eB dB HM]]] := bim_ok (ncell C k1) (cU X' k1) sJ niJ eI Wsel.
exists X', (Some (k1, B)); split=> //.
- by move=> s /run ->; rewrite ev1; cbn [obind]; rewrite eB.
- exact: fresh.
- move=> k' kz'; case: (eqVneq k' k1) => [->|n1]; last first.
    have e' : gens X k' = gens X' k' by rewrite gX (negPf n1).
    have [M1 iM eM] := @hmap_id (ncell C k') (cU X k') (cU X' k') _ _ e' (fun j h => gU _ _ _ h kz').
    by exists M1; split; [exact: hmap_eq|rewrite /zout (negPf n1)].
  move: hom; rewrite /zout eqxx.
  have -> : repmx (ncell C k1) X' k1 = Wof (ncell C k1) (cU X' k1) (gens X' k1) by [].
  rewrite gJ => hom; exists M; split=> // x; have := HM x.
  have -> : repmx (ncell C k1) X k1 = Wof (ncell C k1) (cU X' k1) (gens X k1) by rewrite cU1.
  case: eqP => [e ->|_ ->]; last exact: hom_refl.
  suff -> : col x (Wof (ncell C k1) (cU X' k1) (gens X k1)) = vec (ncell C k1) (nz (cU X' k1) i) by [].
  by apply/colP => r; rewrite !mxE e.
Qed.
End Entry.
End S.
