(** persistence_pairs and update_filtration. *)
From mathcomp Require Import all_ssreflect all_algebra zify.
From Verif Require Import Outcome P_Outcome RingTac M_SparseVec M_Perm M_ColMatrix M_Reduce M_Homology
  M_Persist S_Linalg P_SparseVec P_Pairing P_Reduce S_Perm P_Perm P_PermMx S_Homology S_Persist
  P_Homology P_Betti P_Update P_Extra P_Chain P_Sort P_Persist.
Set Implicit Arguments.
Unset Strict Implicit.
Unset Printing Implicit Defensive.
Import GRing.Theory Order.TTheory.
Local Open Scope ring_scope.

Section H.
Variable F : fieldType.
Notation O := (ops_of F).
Notation svec := (svec F).
Notation cmat := (cmat F).
Variables (disp : unit) (V : orderType disp) (v0 inf : V).
Notation ltv := (fun x y : V => (x < y)%O).
Notation fsp := (filtration_sortperm ltv v0).

Lemma fsp_nth val k : (k < size val)%N -> nth [::] (fsp val) k = sortperm ltv v0 (nth [::] val k).
Proof. by move=> lt; rewrite (nth_map [::]). Qed.
Lemma fsp_ok (C : seq cmat) val : vals_ok C val -> perms_ok C (fsp val).
Proof.
move=> [sv H]; split; first by rewrite size_map.
move=> k kC; rewrite fsp_nth ?sv // size_sortperm H //; split=> //; exact: sortperm_perm.
Qed.

Lemma fcc_make_spec (C : seq cmat) val : chain_wf C -> (1 < size C)%N -> aug_const C -> vals_ok C val ->
  exists D, [/\ fcc_make ltv v0 val C = Ok (FCC val D (fsp val)), reordered C D (fsp val) & chain_wf D].
Proof.
move=> CW C2 AC VO; have [D [E R W]] := cc_ipermute_spec CW C2 AC (fsp_ok VO).
by exists D; split=> //; rewrite /fcc_make E.
Qed.

Lemma reordered_ncol (C D : seq cmat) perms k : reordered C D perms -> ncol (bmx D k) = ncol (bmx C k).
Proof.
move=> [s H]; case: (ltnP k (size C)) => kC; first by have [] := H k kC.
by rewrite /bmx !nth_default ?s.
Qed.

(** what the pairs are computed from *)
Definition rfgood (D : seq cmat) (RC : rcc F) : Prop :=
  [/\ size (rc_R RC) = size D, size (rc_p2c RC) = size D &
      forall k, (k < size D)%N -> grec (bmx D k) (bmx (rc_R RC) k) (nth [::] (rc_p2c RC) k)].

Definition epiv (p2c : seq (seq (option nat))) k i := nth None (nth [::] p2c k.+1) i.

Definition mkpair (val : seq (seq V)) (perms : seq (seq nat)) p2c k (permuted : bool) i : ppair V :=
  let pi := nth 0%N (nth [::] perms k) i in
  let e := epiv p2c k i in
  PPair k (if permuted then i else pi)
    (if e is Some j then Some (if permuted then j else nth 0%N (nth [::] perms k.+1) j) else None)
    (nth v0 (nth [::] val k) pi)
    (if e is Some j then nth v0 (nth [::] val k.+1) (nth 0%N (nth [::] perms k.+1) j) else inf).

Lemma epiv_lt (D : seq cmat) RC k i j : chain_wf D -> rfgood D RC -> (k < size D)%N -> (i < ncol (bmx D k))%N ->
  epiv (rc_p2c RC) k i = Some j -> (k.+1 < size D)%N /\ (j < ncol (bmx D k.+1))%N.
Proof.
move=> DW [sR sp G] kD il; rewrite /epiv => E.
have k1 : (k.+1 < size D)%N.
  rewrite ltnNge; apply/negP => ge; by move: E; rewrite (nth_default [::]) ?sp // nth_nil.
split=> //; have [_ _ [_ _ [s P] _]] := G _ k1.
have [_ _ DD] := DW; have [En _] := DD k k1.
by move/P: E => /(_ (eq_ind_r (fun x => (i < x)%N) il En)) /andP[].
Qed.

Lemma pairsE (D : seq cmat) RC val perms k permuted : chain_wf D -> rfgood D RC ->
  perms_ok D perms -> vals_ok D val -> (k < size D)%N ->
  persistence_pairs inf (RFCC RC val perms) k permuted =
  Ok [seq mkpair val perms (rc_p2c RC) k permuted i
     | i <- [seq i <- iota 0 (ncol (bmx D k)) | ~~ pcol (mx (bmx D k)) i]].
Proof.
move=> DW RG [sP PO] [sV VO] kD; have [sR sp G] := RG.
have [nR cR [sc _ _ Z]] := G k kD.
rewrite /persistence_pairs /= (oget_nth (CMat 0 0 [::])) ?sR //= -/(bmx (rc_R RC) k) cR.
rewrite (omapm_Ok_eq (g := fun i => if ~~ pcol (mx (bmx D k)) i
    then [:: mkpair val perms (rc_p2c RC) k permuted i] else [::])) /=; last first.
  move=> i; rewrite mem_iota add0n => /andP[_ iN]; rewrite /ppair_of /=.
  rewrite (oget_nth (CMat 0 0 [::])) ?sR //= -/(bmx (rc_R RC) k) (@oget_nth svec [::]) ?sc //=.
  rewrite size_eq0 Z // -/(pcol _ i); case: ifP => // _.
  have [Pk sk] := PO k kD.
  have lp : (nth 0%N (nth [::] perms k) i < ncol (bmx D k))%N by rewrite -sk is_perm_lt // sk.
  rewrite (oget_nth [::]) ?sV //= (oget_nth [::]) ?sP //= (oget_nth 0%N) ?sk //= (oget_nth v0) ?VO //=.
  have -> : (if k == (size D - 1)%N then Ok None
             else do p <- oget (rc_p2c RC) k.+1; oget p i) = Ok (epiv (rc_p2c RC) k i).
    rewrite /epiv; case: eqP => [Ek|ne].
      by rewrite (nth_default [::]) ?nth_nil // sp; lia.
    have k1 : (k.+1 < size D)%N by lia.
    have [_ _ [_ _ [s1 _] _]] := G _ k1; have [_ _ DD] := DW; have [En _] := DD k k1.
    by rewrite (oget_nth [::]) ?sp //= (oget_nth None) // s1 En.
  rewrite /= /mkpair; case Ee: (epiv _ k i) => [j|] //.
  have [k1 jn] := epiv_lt DW RG kD iN Ee; have [Pk1 sk1] := PO _ k1.
  have lp1 : (nth 0%N (nth [::] perms k.+1) j < ncol (bmx D k.+1))%N by rewrite -sk1 is_perm_lt // sk1.
  by rewrite (oget_nth [::]) ?sV //= (oget_nth [::]) ?sP //= (oget_nth 0%N) ?sk1 //= (oget_nth v0) ?VO.
congr Ok; elim: (iota 0 _) => //= i l ->; by case: ifP.
Qed.

Lemma card_ord_pred n (P : pred nat) : #|[set i : 'I_n | P i]| = count P (iota 0 n).
Proof. by rewrite -size_filter size_filter_iota. Qed.

(** the boundary matrices of dimension k+1 with rows counted by the k-cells *)
Definition bmx1 (C : seq cmat) k : cmat := CMat (ncol (bmx C k)) (ncol (bmx C k.+1)) (cols (bmx C k.+1)).

Lemma bmx1_wf (C : seq cmat) k : chain_wf C -> cm_wf (bmx1 C k) /\
  mxc (nrow (bmx C k)) (ncol (bmx C k)) (cols (bmx C k)) *m mx (bmx1 C k) = 0.
Proof.
move=> CW; case: (ltnP k.+1 (size C)) => k1; last first.
  have E : bmx C k.+1 = CMat 0 0 [::] by rewrite /bmx nth_default.
  split; first by rewrite /cm_wf /bmx1 E.
  apply/matrixP => i j; exfalso; by move: j; rewrite /bmx1 E /= => -[].
have [_ _ H] := CW; have [En D] := H k k1; split=> //.
by have /andP[a b] := chain_wf_nth k.+1 CW; rewrite /cm_wf /bmx1 /= a -En.
Qed.

Lemma epivE (D : seq cmat) RC k i j : chain_wf D -> rfgood D RC -> (k < size D)%N -> (i < ncol (bmx D k))%N ->
  epiv (rc_p2c RC) k i = Some j <-> (j < ncol (bmx D k.+1))%N && is_pivot (mx (bmx1 D k)) i j.
Proof.
move=> DW RG kD il; have [sR sp G] := RG.
case: (ltnP k.+1 (size D)) => k1; last first.
  rewrite /epiv (nth_default [::]) ?sp // nth_nil; split=> // /andP[].
  by rewrite /bmx nth_default.
have [_ _ [_ _ [s P] _]] := G _ k1.
have [_ _ DD] := DW; have [En _] := DD k k1.
have il1 : (i < nrow (bmx D k.+1))%N by rewrite En.
rewrite /epiv P // /bmx1; by rewrite -En; case: (bmx D k.+1).
Qed.

(** ** Counting pairs *)
Lemma rank_lowerleft (C D : seq cmat) perms k (s t : pred nat) a b :
  chain_wf C -> chain_wf D -> perms_ok C perms -> reordered C D perms -> (k < size C)%N ->
  (forall i, (i < ncol (bmx C k))%N -> s (nth 0%N (nth [::] perms k) i) = (i < a)%N) ->
  (forall j, (j < ncol (bmx C k.+1))%N -> t (nth 0%N (nth [::] perms k.+1) j) = (j < b)%N) ->
  [/\ rll (mx (bmx D k)) 0 a = \rank (mx (bmx C k) *m mask F _ s),
      rll (mx (bmx1 D k)) 0 b = \rank (mx (bmx1 C k) *m mask F _ t) &
      rll (mx (bmx1 D k)) a b = \rank (mask F _ (predC s) *m mx (bmx1 C k) *m mask F _ t)].
Proof.
move=> CW DW [sP PO] RO kC Hs Ht; have [sD RE] := RO.
have [Pk sk] := PO k kC; have [En Em RK] := RE k kC.
have W1 : forall A B : cmat, nrow B = nrow A -> ncol B = ncol A ->
   forall p (P : is_perm p) (sp : size p = nrow A) q (Q : is_perm q) (sq : size q = ncol A)
     (s1 s2 : pred nat) a1 b1,
   (forall i j, (i < nrow A)%N -> (j < ncol A)%N ->
      coef (nth [::] (cols B) j) i = coef (nth [::] (cols A) (nth 0%N q j)) (nth 0%N p i)) ->
   (forall i, (i < nrow A)%N -> s1 (nth 0%N p i) = (a1 <= i)%N) ->
   (forall j, (j < ncol A)%N -> s2 (nth 0%N q j) = (j < b1)%N) ->
   rll (mx B) a1 b1 = \rank (mask F _ s1 *m mx A *m mask F _ s2).
  move=> [nA mA cA] [nB mB cB] /= -> -> p P sp q Q sq s1 s2 a1 b1 E H1 H2.
  apply: (rank_reindex (P := P) (s := sp) (Q := Q) (s' := sq)) => i j.
  rewrite mul_mask mask_mul !mxE /= H1 ?H2 ?ltn_ord // E ?ltn_ord //.
  by case: (a1 <= i)%N; case: (j < b1)%N.
have mask1 n (s1 : pred nat) m (A : 'M[F]_(n, m)) : (forall i, (i < n)%N -> s1 i) -> mask F n s1 *m A = A.
  by move=> H; apply/matrixP => i j; rewrite mask_mul H ?ltn_ord.
split.
- rewrite (W1 (bmx C k) (bmx D k) En Em
     (if k is k'.+1 then nth [::] perms k' else iota 0 (nrow (bmx C k))) _ _ _ Pk sk predT s 0%N a) ?mask1 //.
  + case: (k) kC {Pk sk En Em RK Hs Ht} => [|k'] kC; first exact: is_perm_iota.
    by have [] := PO k' (ltnW kC).
  + case: (k) kC {Pk sk En Em RK Hs Ht} => [|k'] kC; first exact: size_iota.
    have [_ _ CC] := CW; have [-> _] := CC k' kC; by have [] := PO k' (ltnW kC).
  + move=> i j im jn; rewrite RK //; congr coef; case: (k) im => [|k'] im //.
    by rewrite nth_iota.
- case: (ltnP k.+1 (size C)) => k1; last first.
    have E : bmx C k.+1 = CMat 0 0 [::] by rewrite /bmx nth_default.
    have E' : bmx D k.+1 = CMat 0 0 [::] by rewrite /bmx nth_default ?sD.
    rewrite /rll /bmx1 E E' /=; have z (m : nat) (A : 'M[F]_(m, 0)) : \rank A = 0%N.
      by apply/eqP; rewrite -leqn0 rank_leq_col.
    by rewrite !z.
  have [Pk1 sk1] := PO _ k1; have [En1 Em1 RK1] := RE _ k1.
  have [_ _ CC] := CW; have [Ec _] := CC k k1; have [_ _ DD] := DW.
  have [Ed _] := DD k (eq_ind_r (fun x => (k.+1 < x)%N) k1 sD).
  rewrite (W1 (bmx1 C k) (bmx1 D k) Em Em1 _ Pk sk _ Pk1 sk1 predT t 0%N b) ?mask1 //=.
  by move=> i j im jn; rewrite RK1 // Ec.
case: (ltnP k.+1 (size C)) => k1; last first.
  have E : bmx C k.+1 = CMat 0 0 [::] by rewrite /bmx nth_default.
  have E' : bmx D k.+1 = CMat 0 0 [::] by rewrite /bmx nth_default ?sD.
  rewrite /rll /bmx1 E E' /=; have z (m : nat) (A : 'M[F]_(m, 0)) : \rank A = 0%N.
    by apply/eqP; rewrite -leqn0 rank_leq_col.
  by rewrite !z.
have [Pk1 sk1] := PO _ k1; have [En1 Em1 RK1] := RE _ k1.
have [_ _ CC] := CW; have [Ec _] := CC k k1; have [_ _ DD] := DW.
have [Ed _] := DD k (eq_ind_r (fun x => (k.+1 < x)%N) k1 sD).
rewrite (W1 (bmx1 C k) (bmx1 D k) Em Em1 _ Pk sk _ Pk1 sk1 (predC s) t a b) //=.
  by move=> i j im jn; rewrite RK1 // Ec.
by move=> i im; rewrite /= Hs // -leqNgt.
Qed.

Lemma pairs_rank (C D : seq cmat) RC val k permuted (s t : V) :
  chain_wf C -> chain_wf D -> vals_ok C val -> reordered C D (fsp val) -> rfgood D RC ->
  (k < size C)%N -> (t < inf)%O ->
  exists2 ps, persistence_pairs inf (RFCC RC val (fsp val)) k permuted = Ok ps &
  count (fun p => (pp_birth p <= s)%O && (t < pp_death p)%O) ps =
  pbetti C k (fun i => (nth v0 (nth [::] val k) i <= s)%O)
             (fun j => (nth v0 (nth [::] val k.+1) j <= t)%O).
Proof.
move=> CW DW VO RO RG kC tinf; have PO := fsp_ok VO; have [sD RE] := RO.
have kD : (k < size D)%N by rewrite sD.
have nc k' := reordered_ncol k' RO.
have POD : perms_ok D (fsp val).
  by have [a b] := PO; split; rewrite ?sD // => k'; rewrite ?sD nc; apply: b.
have VOD : vals_ok D val by have [a b] := VO; split; rewrite ?sD // => k'; rewrite ?sD nc; apply: b.
eexists; first exact: pairsE DW RG POD VOD kD.
set S := (fun i => (_ <= s)%O); set T := (fun j => (_ <= t)%O).
have [a a_le Ha] := sortperm_cut v0 (nth [::] val k) s.
have [b b_le Hb] := sortperm_cut v0 (nth [::] val k.+1) t.
have [sV VS] := VO.
have fk : nth [::] (fsp val) k = sortperm ltv v0 (nth [::] val k) by rewrite fsp_nth ?sV.
have HS i : (i < ncol (bmx C k))%N -> S (nth 0%N (nth [::] (fsp val) k) i) = (i < a)%N.
  by move=> il; rewrite /S fk Ha ?VS.
have HT j : (j < ncol (bmx C k.+1))%N -> T (nth 0%N (nth [::] (fsp val) k.+1) j) = (j < b)%N.
  case: (ltnP k.+1 (size C)) => k1; last by rewrite /bmx nth_default.
  by move=> jl; rewrite /T fsp_nth ?sV // Hb ?VS.
have [R1 R2 R3] := rank_lowerleft CW DW PO RO kC HS HT.
have [WC ZC] := bmx1_wf k CW; have [WD ZD] := bmx1_wf k DW.
have PB := pbet_rank S T ZC.
have [V1 [u1 d1 r1]] := reduction_exists (chain_wf_nth k DW).
have [V2 [u2 d2 r2]] := reduction_exists WD.
have := pivot_count a b ZD u1 (diag1_n0 d1) r1 u2 (diag1_n0 d2) r2.
rewrite R1 R2 R3 -/(bmx1 C k).
have cS : #|[set i : 'I_(ncol (bmx C k)) | S i]| = #|[set i : 'I_(ncol (bmx D k)) | (i < a)%N]|.
  have [Pk sk] := PO.2 k kC.
  rewrite (card_ord_pred _ S) (card_ord_pred _ (fun i => i < a)%N) nc.
  have -> : count S (iota 0 (ncol (bmx C k))) = count S (nth [::] (fsp val) k).
    by rewrite -sk; move: Pk; rewrite /is_perm perm_sym => /permP.
  rewrite -[X in count S X](mkseq_nth 0%N) /mkseq count_map sk.
  apply: eq_in_count => i.
  by rewrite mem_iota add0n => /andP[_ il] /=; rewrite HS.
move: PB; rewrite -/(pbetti C k S T) cS.
set N := #|[set i : 'I_(ncol (bmx D k)) | [&& _, _ & _]]|.
have -> : count (fun p => (pp_birth p <= s)%O && (t < pp_death p)%O)
   [seq mkpair val (fsp val) (rc_p2c RC) k permuted i
     | i <- [seq i <- iota 0 (ncol (bmx D k)) | ~~ pcol (mx (bmx D k)) i]] = N.
  rewrite count_map count_filter /N (card_ord_pred _ (fun i => [&& (i < a)%N, ~~ pcol (mx (bmx D k)) i &
     ~~ [exists j : 'I_(ncol (bmx D k.+1)), is_pivot (mx (bmx1 D k)) i j && (j < b)%N]])).
  apply: eq_in_count => i.
  rewrite mem_iota add0n => /andP[_ il] /=.
  have il' : (i < ncol (bmx C k))%N by rewrite -nc.
  rewrite -/(S _) HS // -andbA [_ && ~~ pcol _ _]andbC; congr [&& _, _ & _].
  case Ee: (epiv _ k i) => [j|].
    have /andP[jn pv] := (epivE j DW RG kD il).1 Ee.
    have jn' : (j < ncol (bmx C k.+1))%N by rewrite -nc.
    rewrite ltNge -/(T _) HT //; congr negb; apply/idP/existsP => [jb|[j' /andP[pv' jb]]].
      by exists (Ordinal jn); rewrite /= pv.
    have : epiv (rc_p2c RC) k i = Some (j' : nat) by apply/(epivE _ DW RG kD il); rewrite ltn_ord.
    by rewrite Ee => -[->].
  rewrite tinf; apply/esym/existsP => -[j' /andP[pv' jb]].
  have : epiv (rc_p2c RC) k i = Some (j' : nat) by apply/(epivE _ DW RG kD il); rewrite ltn_ord.
  by rewrite Ee.
rewrite /pbetti -/(bmx1 C k) -/(mx (bmx1 C k)).
move: (\rank _) (\rank _) (\rank _) (pbet _ _ _ _) => r1' r2' r3' pb; lia.
Qed.

End H.
