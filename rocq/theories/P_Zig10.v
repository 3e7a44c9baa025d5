(** Zigzag barcodes: the homology part of the whole run. *)
From mathcomp Require Import all_ssreflect all_fingroup all_algebra zify.
From Verif Require Import Outcome P_Outcome RingTac M_SparseVec M_Perm M_ColMatrix M_Reduce M_Homology M_Induced M_Zigzag
  S_Linalg S_Perm S_Homology S_Induced S_Zigzag S_Fact P_SparseVec P_SparseVec2 P_Pairing P_Reduce P_ColMatrix P_Solve P_Homology
  P_Betti P_Rep P_Induced P_Den M_Quiver S_Quiver P_Quiver1 P_Zig1 P_Zig3 P_Zig4 P_Zig5 P_Zig6 P_Zig7 P_Zig8.
Set Implicit Arguments.
Unset Strict Implicit.
Unset Printing Implicit Defensive.
Import GRing.Theory.
Local Open Scope ring_scope.

Section S.
Variable F : fieldType.
Notation O := (ops_of F).
Notation svec := (svec F).
Notation cmat := (cmat F).
Notation nz := (nth [::]).
Notation c0 := (CMat 0 0 [::]).
Variables (C : seq cmat) (zd : nat).
Hypothesis CW : chain_wf C.
Hypothesis nb0 : no_bd0 C.
Hypothesis szd : (size C <= zd.+1)%N.
Variables (A : Type) (vmax : A).
Notation event := (rfv A).

Notation cR X k := (cols (bmx (rc_R X) k)).
Notation cU X k := (cols (bmx (rc_U X) k)).

Section Ev.
Implicit Types (pre evs : seq event) (e : event).
Lemma entered_rcons pre e k i : entered (rcons pre e) k i = entered pre k i || (z_entry e && at_cell k i e).
Proof. by rewrite /entered -cats1 has_cat /= orbF. Qed.
Lemma removed_rcons pre e k i : removed (rcons pre e) k i = removed pre k i || (~~ z_entry e && at_cell k i e).
Proof. by rewrite /removed -cats1 has_cat /= orbF. Qed.
Lemma entered_cat pre evs k i : entered pre k i -> entered (pre ++ evs) k i.
Proof. by rewrite /entered has_cat => ->. Qed.
Lemma zok_rcons pre e : zigzag_ok C (rcons pre e) -> zigzag_ok C pre /\ event_ok C pre e.
Proof.
move=> H; split; last by apply: (H pre e [::]); rewrite cats1.
by move=> a x b eq; apply: (H a x (rcons b e)); rewrite eq rcons_cat.
Qed.
Lemma rem_ent pre k i : zigzag_ok C pre -> removed pre k i -> entered pre k i.
Proof.
elim/seq.last_ind: pre => [|pre e IH] //= /zok_rcons[Z [_ _ H]]; rewrite removed_rcons entered_rcons => /orP[/(IH Z) -> //|].
move=> /andP[ne /andP[/eqP ek /eqP ei]]; move: H; rewrite (negPf ne) ek ei => -[/andP[-> _] _ _] //.
Qed.
Lemma pres_entry pre e k i : zigzag_ok C (rcons pre e) -> z_entry e ->
  present (rcons pre e) k i = present pre k i || ((k == z_dim e) && (i == z_ind e)).
Proof.
move=> /zok_rcons[Z [_ _ +]] en; rewrite en /present entered_rcons removed_rcons en /= orbF => -[ne _].
rewrite /at_cell ![z_dim e == _]eq_sym ![z_ind e == _]eq_sym.
case: (eqVneq k _) => [ek|_]; case: (eqVneq i _) => [ei|_]; rewrite /= ?orbF //.
subst k i; rewrite !orbT; apply/negP => /(rem_ent Z); exact/negP.
Qed.
Lemma pres_removal pre e k i : z_entry e = false ->
  present (rcons pre e) k i = present pre k i && ~~ ((k == z_dim e) && (i == z_ind e)).
Proof.
move=> en; rewrite /present entered_rcons removed_rcons en /= orbF negb_or andbA.
by rewrite /at_cell ![z_dim e == _]eq_sym ![z_ind e == _]eq_sym.
Qed.
End Ev.

Definition zinv (pre : seq event) (X : rcc F) : Prop :=
  hinv C zd (present pre) X /\
  forall k j, (k < size C)%N -> (j < ncell C k)%N -> ~~ entered pre k j ->
    nz (cR X k) j = nz (cols (bmx C k)) j /\ nz (cU X k) j = sv_unit O j.

(** one event: the new state, the recorded matrix, the map of homology spaces *)
Definition hlink (pre : seq event) (e : event) k (X X' : rcc F) (v : arrow F (size (gens X k)) (size (gens X' k))) : Prop :=
  let W := repmx (ncell C k) X k in let W' := repmx (ncell C k) X' k in
  match v with
  | Rgt M => hmap (present (rcons pre e)) W W' M
  | Lft M => hmap (present pre) W' W M
  end.
Definition zoutv (r : option (nat * cmat)) (k : nat) (I I' : seq nat) a b (v : arrow F a b) : Prop :=
  match v with Rgt M => zout r k I I' M | Lft M => zout r k I I' M end.
Definition onestep (pre : seq event) (e : event) (X X' : rcc F) (r : option (nat * cmat)) : Prop :=
  [/\ forall s, zs_F s = X -> zz_step O vmax zd s e = if r is Some (k1, B) then zz_record O vmax s X' e k1 B else Ok (setF s X'),
      (if r is Some (k1, B) then k1 < zd else true)%N,
      zinv (rcons pre e) X' &
      forall k, (k < zd)%N -> exists v : arrow F (size (gens X k)) (size (gens X' k)),
        [/\ is_lft v = ~~ z_entry e, hlink pre e v & zoutv r k (gens X k) (gens X' k) v]].

Lemma step_ok pre e X : zigzag_ok C (rcons pre e) -> zinv pre X -> exists X' r, onestep pre e X X' r.
Proof.
move=> Zr [HI fr]; have [Z [kC ik Hev]] := zok_rcons Zr; case en : (z_entry e) Hev => Hev.
  have [ne fc] := Hev; have PE k i := pres_entry k i Zr en.
  have [fR fU] := fr _ _ kC ik ne.
  have nP : ~~ present pre (z_dim e) (z_ind e) by rewrite /present (negPf ne).
  have [X' [r [h1 h2 h3 h4 h5]]] := entry_step CW nb0 szd vmax HI kC ik nP PE fR fU fc; exists X', r; split=> //.
  - by move=> s es; rewrite /zz_step en h1.
  - split=> // k j kC' jn; rewrite entered_rcons negb_or => /andP[nj nat].
    have [|a b] := h4 k j kC'; last by rewrite a b; apply: fr.
    by rewrite /present entered_rcons negb_and negb_or nj nat.
  - by move=> k kz; have [M [hM zM]] := h5 k kz; exists (Rgt M); rewrite /= en.
have [Pi cof mx] := Hev; have PE k i := pres_removal pre k i en.
have [X' [r [h1 h2 h3 h4 h5]]] := removal_step CW nb0 szd vmax HI kC ik Pi PE cof mx; exists X', r; split=> //.
- by move=> s es; rewrite /zz_step en h1.
- split=> // k j kC' jn; rewrite entered_rcons en orbF => nj.
  have [|a b] := h4 k j kC'; last by rewrite a b; apply: fr.
  by apply/negP => /andP[/eqP ek /eqP ej]; move: nj Pi; rewrite ek ej /present => /negPf ->.
- by move=> k kz; have [M [hM zM]] := h5 k kz; exists (Lft M); rewrite /= en.
Qed.

Lemma init_ok : zinv [::] (rcc_initialize O C).
Proof.
have bU k : (k < size C)%N -> bmx (rc_U (rcc_initialize O C)) k = cm_identity O (ncell C k).
  by move=> kC; rewrite /bmx /= (nth_map c0).
have idn n : den (cm_identity O n) (1%:M : 'M[F]_n) by apply: den_identity.
split; last first.
  move=> k j kC jn _; rewrite bU //; split=> //; rewrite /cm_identity /= (nth_map 0%N) ?size_iota // nth_iota //.
split.
- by rewrite /= !size_map size_nseq.
- by move=> k kC; rewrite /hdims bU.
- move=> k kC; rewrite bU //; have /andP[/eqP s1 a1] := chain_wf_nth k CW.
  have [/andP[/eqP s2 a2] _ _ _] := idn (ncell C k); split=> //.
  + by rewrite /= (nth_map c0) // size_nseq.
  + by move=> i j im; rewrite /= (nth_map c0) // nth_nseq im; split=> // -[].
- by [].
- move=> k kz kC; have e : gens (rcc_initialize O C) k = [::] by rewrite /gens /= nth_nseq kC.
  by rewrite e; split=> // j; split=> // -[].
Qed.

Lemma chain_ok evs (e0 : event) : zigzag_ok C evs -> exists X r, [/\ X 0%N = rcc_initialize O C,
  forall t, (t <= size evs)%N -> zinv (take t evs) (X t) &
  forall t, (t < size evs)%N -> onestep (take t evs) (nth e0 evs t) (X t) (X t.+1) (r t)].
Proof.
elim/seq.last_ind: evs => [|pre e IH] Zr.
  by exists (fun _ => rcc_initialize O C), (fun _ => None); split=> // t; rewrite leqn0 => /eqP ->; apply: init_ok.
have [Z _] := zok_rcons Zr; have [X [r [h0 h1 h2]]] := IH Z.
have Zn := h1 _ (leqnn _); rewrite take_size in Zn.
have [X' [r' S]] := step_ok Zr Zn.
have tk t : (t <= size pre)%N -> take t (rcons pre e) = take t pre by move=> le; rewrite -cats1 takel_cat.
exists (fun t => if t == (size pre).+1 then X' else X t), (fun t => if t == size pre then r' else r t).
rewrite size_rcons; split=> //.
- move=> t; rewrite leq_eqVlt; case: eqP => [-> _|_] /=; last by rewrite ltnS => le; rewrite tk //; apply: h1.
  by rewrite take_oversize ?size_rcons //; case: S.
- move=> t; rewrite ltnS leq_eqVlt eqSS => /orP[/eqP ->|lt].
    by rewrite eqxx ltn_eqF // tk // take_size nth_rcons ltnn eqxx.
  rewrite (ltn_eqF lt) (ltn_eqF (ltnW lt : (t < (size pre).+1)%N)) tk ?(ltnW lt) // nth_rcons lt; exact: h2.
Qed.

(** bases and changes of basis *)
Lemma hmap_lin P k a b (W : 'M[F]_(ncell C k, a)) (W' : 'M[F]_(ncell C k, b)) M (h : 'cV[F]_a) :
  hmap P W W' M -> homologous_in P (W *m h) (W' *m (M *m h)).
Proof.
move=> H; have ex x : exists w : 'cV[F]_(ncell C k.+1), (forall i, w i 0 != 0 -> P k.+1 i) /\ col x W - W' *m col x M = bd1 C k *m w.
  by have [w w1 w2] := H x; exists w.
have [w hw] : exists w : 'I_a -> 'cV[F]_(ncell C k.+1), forall x, (forall i, w x i 0 != 0 -> P k.+1 i) /\ col x W - W' *m col x M = bd1 C k *m w x.
  exact: (fin_all_exists ex).
exists (\sum_x h x 0 *: w x).
  move=> i; rewrite summxE => n; apply/negPn/negP => nP; case/eqP: n; apply: big1 => x _; rewrite mxE.
  by have [/(_ i) q _] := hw x; case: (eqVneq (w x i 0) 0) => [->|/q]; [rewrite mulr0|rewrite (negPf nP)].
rewrite mulmx_sumr mulmxA; have E c (Y : 'M[F]_(c, a)) : Y *m h = \sum_x h x 0 *: col x Y.
  apply/colP => i; rewrite mxE summxE; apply: eq_bigr => x _; rewrite !mxE mulrC //.
rewrite !E -sumrB; apply: eq_bigr => x _;
have [_ q] := hw x; rewrite -scalemxAr -q -scalerBr; congr (_ *: (_ - _)).
by rewrite !colE mulmxA.
Qed.
Lemma basis_unit P k r (W : 'M[F]_(ncell C k, r)) (G : 'M[F]_r) : basis_in P W -> G \in unitmx -> basis_in P (W *m G).
Proof.
move=> [h1 h2] uG; split.
  move=> j; rewrite colE -mulmxA; set h := _ *m _; split.
    move=> i n; rewrite mxE in n; apply/negPn/negP => nP; case/eqP: n; apply: big1 => x _.
    have [c _] := h1 x; case: (eqVneq (W i x) 0) => [->|n]; first by rewrite mul0r.
    by case/negP: nP; apply: c; rewrite mxE.
  rewrite /cycle mulmxA; suff -> : bd C k *m W = 0 by rewrite mul0mx.
  apply/matrixP => i x; have [_ /colP/(_ i)] := h1 x; rewrite /cycle colE mulmxA -colE !mxE => ->.
  by [].
move=> z cz; have [h [q1 q2]] := h2 z cz; exists (invmx G *m h); split.
  by rewrite mulmxA mulmxK.
by move=> h' q; rewrite -(q2 (G *m h')) ?mulKmx // mulmxA.
Qed.
Lemma basis_all P X k : hinv C zd P X -> (k < zd)%N -> basis_in P (repmx (ncell C k) X k).
Proof.
move=> HI kz; case: (ltnP k (size C)) => kC; first exact: (W_basis CW HI kz kC).
have n0 : ncell C k = 0%N by rewrite /ncell /bmx nth_default.
have g0 : gens X k = [::] by have [[_ _ sI _] _ _ _ _] := HI; rewrite /gens nth_default ?sI.
have z0 (z : 'cV[F]_(ncell C k)) : z = 0 by apply/colP => i; have := ltn_ord i; rewrite {2}n0.
split; first by move=> j; have := ltn_ord j; rewrite {2}g0.
move=> z _; exists 0; split; first by exists 0; [move=> i; rewrite mxE eqxx|rewrite (z0 z) !mulmx0 subrr].
by move=> h' _; apply/colP => i; have := ltn_ord i; rewrite {2}g0.
Qed.

(** finite choice *)
Lemma dchoice (T : nat -> Type) (Q : forall t, T t -> Prop) (g : forall t, T t) n : (forall t, (t < n)%N -> exists v, Q t v) ->
  exists q : forall t, T t, forall t, (t < n)%N -> Q t (q t).
Proof.
elim: n => [|n IH] H; first by exists g.
have [|q hq] := IH; first by move=> t lt; apply: H; apply: ltnW.
have [v hv] := H n (ltnSn n); have [q' [e1 e2]] := dupd q v; exists q' => t; rewrite ltnS leq_eqVlt => /orP[/eqP ->|lt].
  by rewrite e1.
by rewrite e2 ?ltn_eqF //; apply: hq.
Qed.
End S.
