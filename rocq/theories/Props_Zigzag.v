(** Zigzag barcodes (C46): zigzag_barcode_reduction returns the interval decomposition of the zigzag of homology spaces. *)
From mathcomp Require Import all_ssreflect all_fingroup all_algebra zify.
From Verif Require Import Outcome P_Outcome RingTac M_SparseVec M_Perm M_ColMatrix M_Reduce M_Homology M_Induced M_Zigzag
  S_Linalg S_Perm S_Homology S_Induced S_Zigzag S_Fact P_SparseVec P_SparseVec2 P_Pairing P_Reduce P_ColMatrix P_Solve P_Homology
  P_Betti P_Rep P_Induced P_Den M_Quiver S_Quiver P_Quiver1 P_Quiver2 P_Quiver5 P_Quiver6
  P_Zig1 P_Zig2 P_Zig3 P_Zig4 P_Zig5 P_Zig6 P_Zig7 P_Zig8 P_Zig9 P_Zig10.
Set Implicit Arguments.
Unset Strict Implicit.
Unset Printing Implicit Defensive.
Import GRing.Theory.
Local Open Scope ring_scope.

Section S.
Variable F : fieldType.
Notation O := (ops_of F).
Notation svec := (svec F).
Notation cmat := (cmat F).
Variables (A : Type) (vmax : A).
Notation event := (rfv A).

Lemma linv_eqp K dd piv piv' bars lab : (forall s, (K < s)%N -> dd s = 0%N) -> (forall s j, (s < K)%N -> piv s j = piv' s j) ->
  linv K dd piv bars lab -> linv K dd piv' bars lab.
Proof.
move=> z e [h1 h2 h3 h4 h5]; split=> // s i j li lj; rewrite h5 // e //.
by rewrite ltnNge; apply/negP => h; rewrite z in lj.
Qed.

Section Dim.
Variables (d : nat -> nat) (k : nat) (evs : seq event) (q : rep F d).
Hypothesis d0 : d 0%N = 0%N.
(** the state of one homology dimension at time t *)
Definition dimok t (L P : cmat) (dir : bool) (zb : seq (zpair A)) (pv : amap) : Prop :=
  exists (E : rep F d) (B : forall t, 'M[F]_(d t)) gb lab,
  [/\ forall u, (u < t)%N -> shZ (E u) /\ is_lft (E u) = is_lft (q u),
      forall u, B u \in unitmx,
      forall u, (u < t)%N -> exists2 U, utri U & chbase (q u) (B u *m U) (B u.+1) = E u,
      linv t (trunc d t) (pivq E) gb lab &
      [/\ isB L P dir (B t), pv = [seq (i, lab t i) | i <- iota 0 (d t)] & rep_ok vmax k evs t gb zb]].

Lemma dimok_init dir : dimok 0 (cm0 F) (cm0 F) dir [::] [::].
Proof.
exists (fun t => Lft 0), (fun t => 1%:M), [::], (fun _ _ => 0%N); split=> //.
- by move=> u; apply: unitmx1.
- split=> //.
  + by move=> s i; rewrite /trunc; case: s => //=; rewrite d0.
  + by move=> s i i'; rewrite /trunc; case: s => //=; rewrite d0.
- split=> //; last by rewrite d0.
  have D : den (cm0 F) (1%:M : 'M[F]_(d 0%N)).
    by move: (1%:M); rewrite d0 => M; split=> //; apply/matrixP => i; case: i.
  exists 1%:M, 1%:M; split=> //; [exact: ltri1|exact: permmx1|by rewrite mulmx1 invmx1'; case: dir].
Qed.

Section Step.
Variables (t : nat) (e : event).
Hypothesis te : forall e0, nth e0 evs t = e.
Variables (L P : cmat) (dir : bool) (zb : seq (zpair A)) (pv : amap).

(** adding time t+1 *)
Lemma extend (E : rep F d) (B : forall t, 'M[F]_(d t)) gb lab U (B1 : 'M[F]_(d t.+1)) E1 :
  (forall u, (u < t)%N -> shZ (E u) /\ is_lft (E u) = is_lft (q u)) -> (forall u, B u \in unitmx) ->
  (forall u, (u < t)%N -> exists2 U, utri U & chbase (q u) (B u *m U) (B u.+1) = E u) ->
  linv t (trunc d t) (pivq E) gb lab ->
  shZ E1 /\ is_lft E1 = is_lft (q t) -> utri U -> chbase (q t) (B t *m U) B1 = E1 -> B1 \in unitmx ->
  exists (E' : rep F d) (B' : forall t, 'M[F]_(d t)), [/\
   forall u, (u < t.+1)%N -> shZ (E' u) /\ is_lft (E' u) = is_lft (q u),
   forall u, B' u \in unitmx,
   forall u, (u < t.+1)%N -> exists2 U, utri U & chbase (q u) (B' u *m U) (B' u.+1) = E' u,
   linv t (trunc d t) (pivq E') gb lab & E' t = E1 /\ B' t.+1 = B1].
Proof.
move=> h1 h2 h3 I s1 tU ch uB; have [E' [e1 e2]] := dupd E E1; have [B' [b1 b2]] := dupd B B1; exists E', B'.
have Bu u : (u <= t)%N -> B' u = B u by move=> le; rewrite b2 // ltn_eqF.
have Eu u : (u < t)%N -> E' u = E u by move=> le; rewrite e2 // ltn_eqF.
split=> //.
- by move=> u; rewrite ltnS leq_eqVlt => /orP[/eqP ->|lt]; [rewrite e1|rewrite Eu //; apply: h1].
- by move=> u; case: (eqVneq u t.+1) => [->|ne]; rewrite ?b1 ?b2.
- move=> u; rewrite ltnS leq_eqVlt => /orP[/eqP ->|lt]; first by exists U => //; rewrite e1 b1 Bu.
  by have [V tV cV] := h3 u lt; exists V => //; rewrite Eu // !Bu // ltnW.
- apply: linv_eqp I; first by move=> s lt; rewrite /trunc leqNgt lt.
  by move=> s j lt; rewrite /pivq Eu.
Qed.

Lemma dimok_id : d t = d t.+1 -> match q t with Lft M => idm M | Rgt M => idm M end ->
  dimok t L P dir zb pv -> dimok t.+1 L P dir zb pv.
Proof.
move=> ed iq [E [B [gb [lab [h1 h2 h3 I [iB ep R]]]]]].
have [B1 [sh ch iB1]] := id_ok iB ed iq.
have [E' [B' [g1 g2 g3 I' [eE eB]]]] := extend h1 h2 h3 I (conj sh erefl) (utri1 F _) ch (isB_unit iB1).
have iE : match E' t return Prop with Lft M => idm M | Rgt M => idm M end by rewrite eE; exact: iq.
have [gb' [lab' [I2 o2 ep' R']]] := id_bars e d0 I' R (shZ_pivot (g1 t (ltnSn t)).1) ed iE.
by exists E', B', gb', lab'; split=> //; rewrite eB ep'.
Qed.

Lemma dimok_rec (zd : nat) (s : zstate F A) X' (X : cmat) : (k < zd)%N ->
  [/\ size (zs_bars s) = zd, size (zs_piv s) = zd, size (zs_L s) = zd, size (zs_P s) = zd & size (zs_dir s) = zd] ->
  dimok t (nth (cm0 F) (zs_L s) k) (nth (cm0 F) (zs_P s) k) (nth false (zs_dir s) k) (nth [::] (zs_bars s) k) (nth [::] (zs_piv s) k) ->
  dene X (q t) -> is_lft (q t) = ~~ z_entry e ->
  exists L' P' zb' p', zz_record O vmax s X' e k X = Ok (ZState X' (set_nth [::] (zs_bars s) k zb') (set_nth [::] (zs_piv s) k p')
      (set_nth (cm0 F) (zs_L s) k L') (set_nth (cm0 F) (zs_P s) k P') (set_nth false (zs_dir s) k (z_entry e))) /\
    dimok t.+1 L' P' (z_entry e) zb' p'.
Proof.
move=> kz sz [E [B [gb [lab [h1 h2 h3 I [iB ep R]]]]]] dX lq.
have [E1 [U [B1 [EE [L' [P' [s1 tU ch iB1 [dE run]]]]]]]] := rec_ok vmax X' kz sz iB dX lq.
have [E' [B' [g1 g2 g3 I' [eE eB]]]] := extend h1 h2 h3 I s1 tU ch (isB_unit iB1).
have lE : is_lft (E' t) = ~~ z_entry e by have [_ ->] := g1 t (ltnSn t).
have dE' : dene EE (E' t) by rewrite eE.
have [gb' [lab' [zb' [I2 o2 eu R']]]] := rec_bars te d0 I' R (shZ_pivot (g1 t (ltnSn t)).1) lE dE'.
rewrite -ep in eu; do 4!eexists; split; first exact: run eu.
by exists E', B', gb', lab'; split=> //; rewrite eB.
Qed.
End Step.
End Dim.

Section Run.
Variables (C : seq cmat) (zd : nat).
Hypothesis CW : chain_wf C.
Hypothesis nb0 : no_bd0 C.
Hypothesis szd : (size C <= zd.+1)%N.
Variable evs : seq event.
Hypothesis Z : zigzag_ok C evs.
Variable e0 : event.
Variables (X : nat -> rcc F) (r : nat -> option (nat * cmat)).
Hypothesis X0 : X 0%N = rcc_initialize O C.
Hypothesis HX : forall t, (t < size evs)%N -> onestep C zd vmax (take t evs) (nth e0 evs t) (X t) (X t.+1) (r t).
Notation d k := (fun t => size (gens (X t) k)).
Variable q : forall k, rep F (d k).
Hypothesis Hq : forall k, (k < zd)%N -> forall t, (t < size evs)%N ->
  is_lft (q k t) = ~~ z_entry (nth e0 evs t) /\ zoutv (r t) k (gens (X t) k) (gens (X t.+1) k) (q k t).

Let d00 k : d k 0%N = 0%N.
Proof. by cbv beta; rewrite X0 /gens /= nth_nseq; case: ifP. Qed.

Lemma run_ok t : (t <= size evs)%N -> exists s, [/\ ofold (zz_step O vmax zd) (zz_init O A C zd) (take t evs) = Ok s, zs_F s = X t,
  [/\ size (zs_bars s) = zd, size (zs_piv s) = zd, size (zs_L s) = zd, size (zs_P s) = zd & size (zs_dir s) = zd] &
  forall k, (k < zd)%N -> dimok k evs (q k) t (nth (cm0 F) (zs_L s) k) (nth (cm0 F) (zs_P s) k) (nth false (zs_dir s) k)
    (nth [::] (zs_bars s) k) (nth [::] (zs_piv s) k)].
Proof.
elim: t => [|t IH] lt.
  exists (zz_init O A C zd); rewrite take0 /= !size_nseq X0; split=> // k kz; rewrite !nth_nseq kz; exact: dimok_init.
have [s [run eF sz H]] := IH (ltnW lt).
rewrite (take_nth e0) // ofold_rcons run; cbn [obind].
have [Hs k1z _ _] := HX lt; rewrite Hs //.
have idk k : (k < zd)%N -> (if r t is Some (k1, _) then k != k1 else true) ->
   size (gens (X t) k) = size (gens (X t.+1) k) /\ match q k t with Lft M => idm M | Rgt M => idm M end.
  move=> kz; have [_] := Hq kz lt; rewrite /zoutv; case: (q k t) => M; rewrite /zout; case: (r t) => [[k1 B]|].
  - by case: eqP => // _ [ei h] _; split=> //; rewrite -ei.
  - by move=> [ei h] _; split=> //; rewrite -ei.
  - by case: eqP => // _ [ei h] _; split=> //; rewrite -ei.
  - by move=> [ei h] _; split=> //; rewrite -ei.
case er : (r t) k1z idk => [[k1 B]|] k1z idk; last first.
  exists (setF s (X t.+1)); split=> // k kz; have [ed iq] := idk k kz isT; apply: dimok_id (H k kz) => //; exact: d00.
have [lq zq] := Hq k1z lt.
have dB : dene B (q k1 t) by move: zq; rewrite /zoutv /zout er; case: (q k1 t) => M; rewrite eqxx.
have te e1 : nth e1 evs t = nth e0 evs t by apply: set_nth_default.
have [L' [P' [zb' [p' [-> D]]]]] := dimok_rec (d00 k1) te (X t.+1) k1z sz (H k1 k1z) dB lq.
eexists; split; first by [].
- by [].
- by case: sz => s1 s2 s3 s4 s5; split; rewrite /= size_set ?s1 ?s2 ?s3 ?s4 ?s5.
- move=> k kz; cbn [zs_L zs_P zs_dir zs_bars zs_piv]; rewrite !nth_setE; case: eqP => [->|/eqP ne] //.
  by have [ed iq] := idk k kz ne; apply: dimok_id (H k kz) => //; exact: d00.
Qed.
End Run.

Theorem zigzag_barcode (C : seq cmat) (evs : seq event) (maxdim : option nat) : chain_wf C -> no_bd0 C -> zigzag_ok C evs ->
  (size C <= (dims_asked C maxdim).+1)%N ->
  exists bars, [/\ zigzag_barcode_reduction O vmax C evs maxdim = Ok bars, size bars = dims_asked C maxdim &
    forall k, (k < dims_asked C maxdim)%N -> exists ps, zigzag_intervals C evs k ps /\
      size (nth [::] bars k) = size ps /\
      forall b z0, (b < size ps)%N -> reports vmax evs k (nth (0%N, None) ps b) (nth z0 (nth [::] bars k) b)].
Proof.
move=> CW nb0 Z szd; rewrite -[dims_asked C maxdim]/(zz_dims C maxdim) in szd *; set zd := zz_dims C maxdim in szd *.
pose ev0 : event := RFV 0 0 0 vmax true.
have [X [r [X0 HI HX]]] := chain_ok CW nb0 szd vmax ev0 Z.
pose d k t := size (gens (X t) k).
have [q Hq] : exists q : forall k, rep F (d k), forall k, (k < zd)%N -> forall t, (t < size evs)%N ->
   [/\ is_lft (q k t) = ~~ z_entry (nth ev0 evs t), hlink C (k := k) (take t evs) (nth ev0 evs t) (q k t) &
       zoutv (r t) k (gens (X t) k) (gens (X t.+1) k) (q k t)].
  apply: (@dchoice (fun k => rep F (d k)) (fun k q => forall t, (t < size evs)%N ->
   [/\ is_lft (q t) = ~~ z_entry (nth ev0 evs t), hlink C (k := k) (take t evs) (nth ev0 evs t) (q t) &
       zoutv (r t) k (gens (X t) k) (gens (X t.+1) k) (q t)]) (fun k t => Lft 0)).
  move=> k kz; apply: (@dchoice (fun t => arrow F (d k t) (d k t.+1)) (fun t v =>
   [/\ is_lft v = ~~ z_entry (nth ev0 evs t), hlink C (k := k) (take t evs) (nth ev0 evs t) v &
       zoutv (r t) k (gens (X t) k) (gens (X t.+1) k) v]) (fun t => Lft 0)).
  by move=> t lt; have [_ _ _ h] := HX t lt; apply: h.
have Hq' k : (k < zd)%N -> forall t, (t < size evs)%N ->
  is_lft (q k t) = ~~ z_entry (nth ev0 evs t) /\ zoutv (r t) k (gens (X t) k) (gens (X t.+1) k) (q k t).
  by move=> kz t lt; have [] := Hq k kz t lt.
have [s [run _ [sb _ _ _ _] H]] := run_ok X0 HX Hq' (leqnn _); rewrite take_size in run.
exists (zs_bars s); split=> //; first by rewrite /zigzag_barcode_reduction run.
move=> k kz; have [E [B [gb [lab [h1 h2 h3 I [_ _ [sz R]]]]]]] := H k kz.
have i1 := sweep_iso (fun u lu => (h1 u lu).1) h2 h3.
have [G uG eG] := isorep_trans i1 (labrep_iso (fun u lu => shZ_pivot (h1 u lu).1) I).
set T := size evs in I R *; exists [seq pint T b | b <- gb].
have tr t : (t <= T)%N -> trunc (d k) T t = d k t by rewrite /trunc => ->.
case: I => l1 l2 l3 l4 l5; rewrite size_map.
have st b : (b < size gb)%N -> [/\ (0 < b_start (nb gb b))%N, (b_start (nb gb b) <= b_end (nb gb b))%N & (b_end (nb gb b) <= T)%N].
  move=> lb; have [/andP[x1 x2] [x3 _] _] := l4 b lb; split=> //.
  by rewrite lt0n; apply/eqP => z; move: x3; rewrite z /trunc /= /d X0 /gens /= nth_nseq; case: ifP.
have lv b t : (b < size gb)%N -> (t <= T)%N -> lives (nth (0%N, None) [seq pint T b | b <- gb] b) t = bal (nb gb b) t.
  move=> lb lt; have [s1 s2 s3] := st b lb; rewrite (nth_map b0) // /lives /pint /bal /= -ltnS prednK // ltnS.
  by case: (eqVneq (b_end (nb gb b)) T) => [->|_] //=; rewrite lt.
split; last by split=> // b z0 lb; rewrite (nth_map b0) //; apply: R.
exists (d k), (fun t => repmx (ncell C k) (X t) k *m G t), lab; split.
- by move=> t lt; have [hi _] := HI t lt; exact: (basis_unit (basis_all CW hi kz) (uG t)).
- move=> t lt; rewrite size_map -(tr t lt); split.
  + by move=> x lx; have [a b] := l1 _ _ lx; rewrite lv.
  + exact: l2.
  + by move=> b lb; rewrite lv // => /(l3 _ _ lb).
- move=> t e lt; rewrite (set_nth_default ev0) //; have [lq hq _] := Hq k kz t lt; have := eG t lt.
  have lE := (h1 t lt).2; rewrite /labrep; move: lq hq lE; rewrite /hlink -(take_nth ev0) //.
  case: (q k t) => M; case: (E t) => M1 //= lq hq _ [eM]; rewrite -[z_entry _]negbK -lq /= => x.
    have {}eM : M *m G t.+1 = G t *m \matrix_(i, j) (lab t i == lab t.+1 j)%:R by rewrite eM -!mulmxA mulKVmx.
    rewrite -(lab_col (repmx (ncell C k) (X t) k *m G t) (fun i j => lab t i == lab t.+1 j)) -mulmxA -eM.
    by rewrite !colE -!mulmxA; apply: hmap_lin.
  have {}eM : M *m G t = G t.+1 *m \matrix_(i, j) (lab t.+1 i == lab t j)%:R by rewrite eM -!mulmxA mulKVmx.
  rewrite -(lab_col (repmx (ncell C k) (X t.+1) k *m G t.+1) (fun i j => lab t.+1 i == lab t j)) -mulmxA -eM.
  by rewrite !colE -!mulmxA; apply: hmap_lin.
- move=> b; rewrite size_map => lb; rewrite (nth_map b0) // /pint; have [s1 s2 s3] := st b lb; cbv zeta; cbn [fst snd].
  split; first by rewrite prednK //; apply: leq_trans s2 s3.
  case: eqP => // /eqP ne; rewrite prednK // s2 ltn_neqAle ne //.
Qed.
End S.
