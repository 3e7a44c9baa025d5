(** DG vector spaces, part 1: every reduction records the last nonzero rows of its columns. *)
From mathcomp Require Import all_ssreflect all_algebra zify.
From Verif Require Import Outcome P_Outcome M_SparseVec M_Perm M_ColMatrix M_Reduce M_Homology M_Persist
  M_Induced M_DG S_Linalg S_Perm S_Homology P_SparseVec P_Pairing P_Reduce P_Perm P_PermMx P_Homology P_Betti.
Set Implicit Arguments.
Unset Strict Implicit.
Unset Printing Implicit Defensive.
Import GRing.Theory.
Local Open Scope ring_scope.

Section A.
Variable F : fieldType.
Notation O := (ops_of F).
Notation cmat := (cmat F).
Notation m0 := (CMat 0 0 [::] : cmat).
Notation p2c_t := (seq (option nat)).

Definition plow (R : cmat) (p : p2c_t) : Prop :=
  forall i k, (i < nrow R)%N -> nth None p i = Some k <->
     (k < ncol R)%N /\ last_ind (nth [::] (cols R) k) = Some i.

Lemma red_colU_proj fuel (M U : seq (svec F)) p j M' U' p' :
  red_colU O fuel M U p j = Ok (M', U', p') -> red_col O fuel M p j = Ok (M', p').
Proof.
elim: fuel M U => // fuel IH M U.
rewrite -/red_colU -/red_col; cbn [red_colU red_col].
case: (oget M j) => //= c; case: c => [|q c]; first by case=> <- _ <-.
case: (lastnz _) => [[i v]| | |] //=; case: (oget p i) => [[k|]| | |] //=; last first.
  by case: (oset p i _) => //= p1 [<- _ <-].
case: (oget M k) => //= ck; case: (lastnz ck) => [[_ w]| | |] //=.
case: (odiv _ _ _) => //= a; case: (oset M j _) => //= M1.
case: (oget U j) => //= uj; case: (oget U k) => //= uk; case: (oset U j _) => //= U1.
exact: IH.
Qed.

Lemma reduce_standardU_out (M U R U' : cmat) p :
  reduce_standardU O M U = Ok (R, U', p) -> reduce_standard O M = Ok (R, p).
Proof.
rewrite /reduce_standardU; case: eqP => //= _; rewrite /reduce_standard.
pose g (st : seq (svec F) * seq (svec F) * p2c_t) j := red_colU O (nrow M).+2 st.1.1 st.1.2 st.2 j.
pose h (st : seq (svec F) * p2c_t) j := red_col O (nrow M).+2 st.1 st.2 j.
rewrite -/g -/h.
suff P l a b c R0 U0 p0 : ofold g (a, b, c) l = Ok (R0, U0, p0) -> ofold h (a, c) l = Ok (R0, p0).
  case E: (ofold g _ _) => [[[R0 U0] p0]| | |] //= [<- _ <-].
  by rewrite (P _ _ _ _ _ _ _ E).
elim: l a b c => [|j l IH] a b c /=; first by case=> -> _ ->.
case E: (g (a, b, c) j) => [[[M1 U1] p1]| | |] //=.
by rewrite {1}/h (red_colU_proj E) /=; apply: IH.
Qed.

Lemma reduce_standard_plow (M R : cmat) p : cm_wf M -> reduce_standard O M = Ok (R, p) ->
  [/\ nrow R = nrow M, ncol R = ncol M & plow R p].
Proof.
move=> WM; have [R' [p' [-> [U I] _]]] := reduce_standard_pgood WM; case=> <- <-; split=> //.
by case: I => _ _ _ _ H i k im /=; apply: H.
Qed.

Lemma plow_std (M R : cmat) p : cm_wf M -> reduce_standard O M = Ok (R, p) -> plow R p.
Proof. by move=> W /(reduce_standard_plow W)[]. Qed.

Lemma reduce_clearing_plow (M R : cmat) l p : cm_wf M -> reduce_clearing O M l = Ok (R, p) ->
  plow R p.
Proof.
move=> /andP[/eqP s W]; rewrite /reduce_clearing.
case E: (ofold _ _ _) => [cs| | |] //= E2; apply: plow_std E2 => //.
change ((size cs == ncol M) && all (sv_wf (nrow M)) cs).
move: s W E; elim: l (cols M) => [|i l IH] c /= s W; first by case=> <-; rewrite s eqxx.
case E: (oset c i [::]) => [c1| | |] //=; move: E; rewrite /oset; case: ltnP => // lt [<-].
apply: IH; first by rewrite size_set_nth s; apply/maxn_idPr; rewrite -s.
apply/(all_nthP [::]) => j jl; rewrite nth_set_nth /=; case: eqP => // _.
by apply: nth_wf W.
Qed.

Lemma reduce_clearingU_plow (M U0 R0 R U : cmat) p0 p : cm_wf M ->
  reduce_clearingU O M U0 R0 p0 = Ok (R, U, p) -> plow R p.
Proof.
move=> /andP[/eqP s W]; rewrite /reduce_clearingU.
case E: (ofold _ _ _) => [[cm cu]| | |] //= E2; apply: plow_std (reduce_standardU_out E2) => //.
change ((size cm == ncol M) && all (sv_wf (nrow M)) cm).
move: s W E; elim: (iota _ _) (cols M) (cols U0) => [|i l IH] c u /= s W; first by case=> <- _; rewrite s eqxx.
case: (nth None p0 i) => [j|] /=; last exact: IH.
case E: (oset c i [::]) => [c1| | |] //=.
case: (oget _ _) => //= r; case: (oset u i r) => //= u1.
move: E; rewrite /oset; case: ltnP => // lt [<-].
apply: IH; first by rewrite size_set_nth s; apply/maxn_idPr; rewrite -s.
apply/(all_nthP [::]) => h hl; rewrite nth_set_nth /=; case: eqP => // _.
by apply: nth_wf W.
Qed.

Lemma reduce_compression_plow (M R : cmat) c p : cm_wf M -> reduce_compression O M c = Ok (R, p) -> plow R p.
Proof.
move=> /andP[/eqP s W]; rewrite /reduce_compression /clear_rows.
case: eqP => //= sc; case E: (omapm _ _) => [cs| | |] //= E2; apply: plow_std E2 => //.
have [s1 H] := omapm_inv [::] [::] E; rewrite /cm_wf /= s1 s eqxx /=.
apply/(all_nthP [::]) => j; rewrite s1 => jl; move: (H j jl); rewrite /clear_inds; case: ifP => // _ [<-].
have /and3P[a b d] := nth_wf j W; apply/and3P; split; first exact: sv_sorted_filter.
  exact: all_filter_sub.
exact: all_filter_sub.
Qed.

Notation x0 := (m0, [::] : p2c_t).
Notation y0 := (m0, m0, [::] : p2c_t).

Lemma clearing_loop_plow Cs rs : all (@cm_wf F) Cs -> clearing_loop O Cs = Ok rs ->
  size rs = size Cs /\ forall k, (k < size Cs)%N -> plow (nth x0 rs k).1 (nth x0 rs k).2.
Proof.
elim: Cs rs => [|B Cs IH] rs /=; first by move=> _ [<-].
move=> /andP[WB W]; case E: (clearing_loop O Cs) => [rs1| | |] //=; have [s1 H1] := IH _ W E.
case E2: (if _ is _ :: _ then _ else _) => [[R p]| | |] //= [<-]; rewrite /= s1; split=> // -[|k] //=; last exact: H1.
move=> _; case: rs1 E2 {E H1 s1} => [|r rs1]; first by move=> /(reduce_standard_plow WB)[].
exact: reduce_clearing_plow.
Qed.

Lemma clearing_loopU_plow Cs rs : all (@cm_wf F) Cs -> clearing_loopU O Cs = Ok rs ->
  size rs = size Cs /\ forall k, (k < size Cs)%N -> plow (nth y0 rs k).1.1 (nth y0 rs k).2.
Proof.
elim: Cs rs => [|B Cs IH] rs /=; first by move=> _ [<-].
move=> /andP[WB W]; case E: (clearing_loopU O Cs) => [rs1| | |] //=; have [s1 H1] := IH _ W E.
case E2: (if _ is _ :: _ then _ else _) => [[[R U] p]| | |] //= [<-]; rewrite /= s1; split=> // -[|k] //=; last exact: H1.
move=> _; case: rs1 E2 {E H1 s1} => [|r rs1]; first by move=> /reduce_standardU_out /(reduce_standard_plow WB)[].
exact: reduce_clearingU_plow.
Qed.

Lemma compression_loop_plow c Cs rs : all (@cm_wf F) Cs -> compression_loop O c Cs = Ok rs ->
  size rs = size Cs /\ forall k, (k < size Cs)%N -> plow (nth x0 rs k).1 (nth x0 rs k).2.
Proof.
elim: Cs c rs => [|B Cs IH] c rs /=; first by move=> _ [<-].
move=> /andP[WB W].
case E2: (if c is Some _ then _ else _) => [[R p]| | |] //=.
case E: (compression_loop O _ Cs) => [rs1| | |] //=; have [s1 H1] := IH _ _ W E; case=> <-.
rewrite /= s1; split=> // -[|k] //=; last exact: H1.
by move=> _; case: c E2 => [c|]; [apply: reduce_compression_plow | move=> /(reduce_standard_plow WB)[]].
Qed.

Definition opt_of (o : dgopt) : options :=
  match o with DBasis => StandardBasis | DNoBasis => StandardNoBasis | DClearing => Clearing
             | DClearingBasis => ClearingBasis | DCompression => Compression end.

Lemma rcc_dg_reduce o (C : seq cmat) X : rcc_of O (opt_of o) C = Ok X ->
  dg_reduce O o C = Ok (rc_U X, rc_R X, rc_p2c X).
Proof.
case: o => /=; rewrite /rcc_standard /rcc_nobasis /rcc_clearing /rcc_clearingU /rcc_compression.
- by case: (omapm _ _) => //= rs; case: (set_indices _ _) => //= Ix [<-].
- by case: (omapm _ _) => //= rs; case: (set_indices _ _) => //= Ix [<-].
- by case: (clearing_loop _ _) => //= rs; case: (set_indices _ _) => //= Ix [<-].
- by case: (clearing_loopU _ _) => //= rs; case: (set_indices _ _) => //= Ix [<-].
- by case: (compression_loop _ _ _) => //= rs; case: (set_indices _ _) => //= Ix [<-].
Qed.

Lemma dg_reduce_plow o (C : seq cmat) U R p : all (@cm_wf F) C -> dg_reduce O o C = Ok (U, R, p) ->
  forall k, (k < size C)%N -> plow (bmx R k) (nth [::] p k).
Proof.
move=> W; case: o => /=.
- case E: (omapm _ _) => [rs| | |] //= [_ <- <-] k kC.
  have [s H] := omapm_inv m0 y0 E; rewrite /bmx !(nth_map y0) ?s //.
  case Er: (nth y0 rs k) (H k kC) => [[R0 U0] p0] /reduce_standardU_out E0.
  by apply: plow_std E0; apply: (all_nthP m0 W).
- case E: (omapm _ _) => [rs| | |] //= [_ <- <-] k kC.
  have [s H] := omapm_inv m0 x0 E; rewrite /bmx !(nth_map x0) ?s //.
  case Er: (nth x0 rs k) (H k kC) => [R0 p0] E0.
  by apply: plow_std E0; apply: (all_nthP m0 W).
- case E: (clearing_loop _ _) => [rs| | |] //= [_ <- <-] k kC.
  have [s H] := clearing_loop_plow W E; rewrite /bmx !(nth_map x0) ?s //; exact: H.
- case E: (clearing_loopU _ _) => [rs| | |] //= [_ <- <-] k kC.
  have [s H] := clearing_loopU_plow W E; rewrite /bmx !(nth_map y0) ?s //; exact: H.
- case E: (compression_loop _ _ _) => [rs| | |] //= [_ <- <-] k kC.
  have [s H] := compression_loop_plow W E; rewrite /bmx !(nth_map x0) ?s //; exact: H.
Qed.

(** the reductions on a chain complex: pivots, and the last nonzero of every column is its pivot *)
Lemma dg_reduce_spec o (C : seq cmat) : chain_wf C ->
  exists U R p, [/\ dg_reduce O o C = Ok (U, R, p), size R = size C /\ size p = size C,
    (forall k, (k < size C)%N -> grec (bmx C k) (bmx R k) (nth [::] p k)) &
    (forall k i j, (k < size C)%N -> (i < nrow (bmx C k))%N -> (j < ncol (bmx C k))%N ->
       (last_ind (nth [::] (cols (bmx R k)) j) = Some i) <-> is_pivot (mx (bmx C k)) i j)].
Proof.
move=> CW; have [X [E _ S G]] := rcc_of_spec (opt_of o) CW.
exists (rc_U X), (rc_R X), (rc_p2c X); have E1 := rcc_dg_reduce E; split=> // k i j kC im jn.
have [_ W _] := CW; have PL := dg_reduce_plow W E1 kC.
have [En Em [_ _ [_ Hp] _]] := G k kC; rewrite -/(bmx _ _) in En Em.
have := PL i j; rewrite En Em => /(_ im) H; have := Hp i im j; rewrite jn /= => H2.
by split=> [L|P]; [apply/H2/H | have /H2/H[] := P].
Qed.
End A.
