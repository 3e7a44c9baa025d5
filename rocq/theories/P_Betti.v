(** Betti numbers for the constructors of ReducedChainComplex. *)
From mathcomp Require Import all_ssreflect all_algebra zify.
From Verif Require Import Outcome P_Outcome RingTac M_SparseVec M_Perm M_ColMatrix M_Reduce M_Homology
  S_Linalg S_Homology P_SparseVec P_Pairing P_Reduce P_Homology.
Set Implicit Arguments.
Unset Strict Implicit.
Unset Printing Implicit Defensive.
Import GRing.Theory.
Local Open Scope ring_scope.

Section H.
Variable F : fieldType.
Notation O := (ops_of F).
Notation svec := (svec F).
Notation cmat := (cmat F).
Notation p2c_t := (seq (option nat)).
Notation m0 := (CMat 0 0 [::]).

(** (R,p) is a good reduction record of the boundary B *)
Definition grec (B : cmat) (R : cmat) (p : p2c_t) : Prop :=
  [/\ nrow R = nrow B, ncol R = ncol B & pgood (mx B) (cols R) p].

Lemma pivots_exact_prow m n (B : 'M[F]_(m, n)) p i : pivots_exact B p -> (i < m)%N ->
  isSome (nth None p i) = prow B i.
Proof.
move=> [sp H] im; apply/idP/existsP.
  case E: (nth None p i) => [j|] // _; move/(H i im): E => /andP[jn P].
  by exists (Ordinal jn).
by move=> [j P]; rewrite ((H i im j).2 _) // ltn_ord P.
Qed.

Lemma hinds_count (C : seq cmat) k : chain_wf C -> (k < size C)%N ->
  (size (hinds C k) + brank C k + brank C k.+1 = ncol (bmx C k))%N.
Proof.
move=> [_ W BB] kC; rewrite /hinds size_filter_iota /brank.
have Wk l : cm_wf (bmx C l).
  case: (ltnP l (size C)) => lt; first by apply: (all_nthP _ W).
  by rewrite /bmx nth_default.
have [V1 [u1 d1 r1]] := reduction_exists (Wk k).
have [V2 [u2 d2 r2]] := reduction_exists (Wk k.+1).
have n1 := diag1_n0 d1; have n2 := diag1_n0 d2.
rewrite (rank_pivot_cols u1 n1 r1).
set S := [set j | _ && _].
set P := [set j : 'I_(ncol (bmx C k)) | pcol (mx (bmx C k)) j].
pose Q := [set j : 'I_(ncol (bmx C k)) | prow (mx (bmx C k.+1)) j].
have EQ : \rank (mx (bmx C k.+1)) = #|Q|.
  case: (ltnP k.+1 (size C)) => lt; last first.
    have E0 : bmx C k.+1 = m0 by rewrite /bmx nth_default.
    rewrite eq_card0; first by rewrite E0; apply/eqP; rewrite -leqn0; apply: rank_leq_col.
    move=> j; rewrite !inE; apply/existsP => -[[l ll]] _.
    by move: ll; rewrite {1}E0.
  have [En _] := BB k lt.
  rewrite (rank_pivot_rows u2 n2 r2) /Q.
  by case: _ / En.
rewrite EQ -/P -[RHS]card_ord.
have dPQ : P :&: Q = set0.
  apply/setP => j; rewrite !inE; apply/negP => /andP[Hp Hq].
  case: (ltnP k.+1 (size C)) => lt; last first.
    have E0 : bmx C k.+1 = m0 by rewrite /bmx nth_default.
    by move/existsP: Hq => -[[l ll]] _; move: ll; rewrite {1}E0.
  have [En B0] := BB k lt.
  have : prow (mx (bmx C k.+1)) j by [].
  move: u2 n2 r2 B0; rewrite /mx; move: (cols (bmx C k.+1)) (ncol (bmx C k.+1)) V2 d2 => cs q V2 _.
  rewrite En => u2 n2 r2 B0 Hq'.
  by have := pivots_disjoint B0 u1 n1 r1 u2 n2 r2 Hq'; rewrite -/(pcol _ _) Hp.
have -> : S = ~: (P :|: Q).
  by apply/setP => j; rewrite !inE negb_or.
rewrite -addnA cardsCs setCK card_ord -cardsUI dPQ cards0 addn0 subnK //.
by have := max_card (P :|: Q); rewrite card_ord.
Qed.

Lemma set_indices_spec (C : seq cmat) (Rs : seq cmat) (ps : seq p2c_t) :
  chain_wf C -> size Rs = size C -> size ps = size C ->
  (forall k, (k < size C)%N -> grec (bmx C k) (nth m0 Rs k) (nth [::] ps k)) ->
  set_indices Rs ps = Ok [seq hinds C k | k <- iota 0 (size C)].
Proof.
move=> [C0 W BB] sR sp G; rewrite /set_indices sR.
case sC: (size C) C0 => [//|d] _.
have -> : [seq hinds C k | k <- iota 0 d.+1] = rcons [seq hinds C k | k <- iota 0 d] (hinds C d).
  by rewrite -[in LHS]addn1 iotaD map_cat cats1.
have Gk k : (k < size C)%N -> size (cols (nth m0 Rs k)) = ncol (nth m0 Rs k) /\
    ncol (nth m0 Rs k) = ncol (bmx C k).
  by move=> kC; have [_ E [s _ _ _]] := G k kC; rewrite s E.
rewrite (omapm_Ok_eq (g := hinds C)); last first.
  move=> k; rewrite mem_iota add0n => /andP[_ kd].
  have kC : (k < size C)%N by rewrite sC ltnW.
  have kC1 : (k.+1 < size C)%N by rewrite sC.
  rewrite (oget_nth m0) ?sR //= (oget_nth [::]) ?sp //=.
  have [s1 s2] := Gk _ kC; have [_ _ [_ _ _ He]] := G k kC.
  have [_ _ [_ _ Hp _]] := G _ kC1; have [En _] := BB k kC1.
  rewrite extract_basis_indicesE //; last by case: Hp => -> _; rewrite En s2.
  congr Ok; rewrite s2 /hinds; apply: eq_in_filter => j; rewrite mem_iota add0n => /andP[_ jn].
  by rewrite He // (pivots_exact_prow Hp) // En.
have dC : (d < size C)%N by rewrite sC.
rewrite /= (oget_nth m0) ?sR //=; have [s1 s2] := Gk _ dC; have [_ _ [_ _ _ He]] := G d dC.
rewrite extract_basis_indices_topE //=; congr Ok.
congr rcons; rewrite s2 /hinds; apply: eq_in_filter => j; rewrite mem_iota add0n => /andP[_ jn].
rewrite He //; suff -> : prow (mx (bmx C d.+1)) j = false by rewrite andbT.
have E0 : bmx C d.+1 = m0 by rewrite /bmx nth_default // sC.
by apply/existsP => -[[l ll]] _; move: ll; rewrite {1}E0.
Qed.

Lemma chain_wf_nth (C : seq cmat) k : chain_wf C -> cm_wf (bmx C k).
Proof.
move=> [_ W _]; case: (ltnP k (size C)) => lt; first by apply: (all_nthP _ W).
by rewrite /bmx nth_default.
Qed.

(** ** Standard *)

(** what a record with a basis satisfies: R = B U, U upper triangular and invertible, R reduced *)
Definition ubasis (B R U : cmat) : Prop :=
  [/\ nrow U = ncol B, ncol U = ncol B, cm_wf U, cm_wf R &
      exists V : 'M[F]_(ncol B),
        [/\ upper V, diagn0 V, mxc (ncol B) (ncol B) (cols U) = V,
            mxc (nrow B) (ncol B) (cols R) = mx B *m V &
            reduced (mxc (nrow B) (ncol B) (cols R))]].

Lemma rcc_standard_spec (C : seq cmat) : chain_wf C ->
  exists X, [/\ rcc_standard O C = Ok X,
     rc_I X = [seq hinds C k | k <- iota 0 (size C)],
     [/\ size (rc_R X) = size C, size (rc_U X) = size C & size (rc_p2c X) = size C] &
     forall k, (k < size C)%N ->
       grec (bmx C k) (bmx (rc_R X) k) (nth [::] (rc_p2c X) k) /\
       ubasis (bmx C k) (bmx (rc_R X) k) (bmx (rc_U X) k)].
Proof.
move=> CW; rewrite /rcc_standard.
have [|rs [-> sr G]] := @omapm_exists _ _ (fun B => reduce_standardU O B (cm_identity O (ncol B)))
  (fun B x => grec B x.1.1 x.2 /\ ubasis B x.1.1 x.1.2) C m0 (m0, m0, [::]).
  move=> k kC; have Wk := chain_wf_nth k CW; rewrite -/(bmx C k).
  have [R [U [p [-> Ir Pg]]]] := reduce_standardU_pgood Wk (cm_wf_identity F (ncol (bmx C k))) erefl.
  eexists; first by []; split=> //=.
  have := rinv_reduced Ir; rewrite mxc_identity /= in Ir.
  case: Ir => [[sR sU sp] WR WU [V [Vu Vd ER EU]] Hp] red.
  split=> //=; [by rewrite /cm_wf /= sU eqxx | by rewrite /cm_wf /= sR eqxx |].
  by exists V; rewrite EU mul1mx; split=> //; apply: diag1_n0.
cbn [obind].
have Gn k : (k < size C)%N -> grec (bmx C k) (nth m0 [seq x.1.1 | x <- rs] k)
          (nth [::] [seq x.2 | x <- rs] k) /\
          ubasis (bmx C k) (nth m0 [seq x.1.1 | x <- rs] k) (nth m0 [seq x.1.2 | x <- rs] k).
  by move=> kC; rewrite !(nth_map (m0, m0, [::])) ?sr //; apply: G.
rewrite (set_indices_spec CW) ?size_map //; last by move=> k /Gn[].
by cbn [obind]; eexists; split; [by [] | by [] | rewrite /= !size_map | exact: Gn].
Qed.

Lemma rcc_nobasis_spec (C : seq cmat) : chain_wf C ->
  exists X, [/\ rcc_nobasis O C = Ok X,
     rc_I X = [seq hinds C k | k <- iota 0 (size C)],
     size (rc_R X) = size C /\ size (rc_p2c X) = size C &
     forall k, (k < size C)%N ->
       grec (bmx C k) (bmx (rc_R X) k) (nth [::] (rc_p2c X) k)].
Proof.
move=> CW; rewrite /rcc_nobasis.
have [|rs [-> sr G]] := @omapm_exists _ _ (fun B => reduce_standard O B)
  (fun B x => grec B x.1 x.2) C m0 (m0, [::]).
  move=> k kC; have Wk := chain_wf_nth k CW; rewrite -/(bmx C k).
  have [R [p [-> _ Pg]]] := reduce_standard_pgood Wk.
  by eexists; first by [].
cbn [obind].
have Gn k : (k < size C)%N -> grec (bmx C k) (nth m0 [seq x.1 | x <- rs] k)
          (nth [::] [seq x.2 | x <- rs] k).
  by move=> kC; rewrite !(nth_map (m0, [::])) ?sr //; apply: G.
rewrite (set_indices_spec CW) ?size_map //.
by cbn [obind]; eexists; split; [by [] | by [] | rewrite /= !size_map | exact: Gn].
Qed.

(** ** Clearing *)

(** the column operation clearing performs: column i becomes the reduced column whose pivot is i *)
Definition clearV n (R2 : seq svec) (p2 : p2c_t) : 'M[F]_n :=
  \matrix_(i, j) (if nth None p2 j is Some k then coef (nth [::] R2 k) i else (i == j)%:R).

Lemma clearVP m n q (B1 : 'M[F]_(m, n)) (B2 : 'M[F]_(n, q)) (V2 : 'M[F]_q) R2 p2 (cs cs' : seq svec) :
  B1 *m B2 = 0 -> upper V2 -> diagn0 V2 -> mxc n q R2 = B2 *m V2 -> reduced (mxc n q R2) ->
  pgood B2 R2 p2 -> mxc m n cs = B1 ->
  (forall j, (j < n)%N -> nth [::] cs' j = if nth None p2 j is Some _ then [::] else nth [::] cs j) ->
  [/\ upper (clearV n R2 p2), diagn0 (clearV n R2 p2) & mxc m n cs' = B1 *m clearV n R2 p2].
Proof.
move=> BB Vu Vd ER red [sR WR [sp Hp] He] EB Hcs.
have low j k : nth None p2 j = Some k -> (j < n)%N -> 
    exists jO : 'I_n, exists2 kO : 'I_q, is_low (mxc n q R2) jO kO & (jO : nat) = j /\ (kO : nat) = k.
  move=> E jn; move/(Hp _ jn): E => /andP[kq P]; exists (Ordinal jn), (Ordinal kq) => //.
  by rewrite ER; apply/lowP; rewrite -pivot_low // -ER.
split.
- move=> i j ji; rewrite mxE; case E: (nth None p2 j) => [k|]; last first.
    by rewrite -val_eqE gtn_eqF.
  have [jO [kO [_ L] [/val_inj EjO Ek]]] := low _ _ E (ltn_ord j).
  by subst jO; have := L i ji; rewrite mxE Ek.
- move=> j; rewrite mxE; case E: (nth None p2 j) => [k|]; last by rewrite eqxx oner_neq0.
  have [jO [kO [L _] [/val_inj EjO Ek]]] := low _ _ E (ltn_ord j).
  by subst jO; move: L; rewrite mxE Ek.
apply/matrixP => i j; rewrite [LHS]mxE Hcs // [RHS]mxE; case E: (nth None p2 j) => [k|]; last first.
  rewrite (bigD1 j) //= mxE E eqxx mulr1 big1 ?addr0; first by rewrite -EB mxE.
  by move=> l ne; rewrite mxE E (negbTE ne) mulr0.
rewrite coef_nil; have [jO [kO [_ L] [/val_inj EjO Ek]]] := low _ _ E (ltn_ord j).
have := congr1 (fun M : 'M_(m, q) => M i kO) (mulmxA B1 B2 V2).
rewrite BB mul0mx -ER [RHS]mxE => E0; transitivity ((B1 *m mxc n q R2) i kO); first by rewrite E0.
rewrite mxE.
by apply: eq_bigr => l _; rewrite !mxE E Ek.
Qed.

Lemma ofold_clear (cs : seq svec) l : all (fun i => i < size cs)%N l ->
  exists cs', [/\ ofold (fun cs i => oset cs i [::]) cs l = Ok cs', size cs' = size cs &
    forall j, nth [::] cs' j = if j \in l then [::] else nth [::] cs j].
Proof.
elim: l cs => [|i l IH] cs /=; first by exists cs.
move=> /andP[lt al]; rewrite (oset_Ok [::] _ lt) /=.
have [|cs' [-> s N]] := IH (set_nth [::] cs i [::]).
  by rewrite size_set_nth (maxn_idPr lt).
exists cs'; split=> //; first by rewrite s size_set_nth (maxn_idPr lt).
by move=> j; rewrite N nth_set_nth /= inE; case: (j =P i) => [->|_] /=; case: (_ \in _).
Qed.

Lemma mem_clearing_inds p i : (i \in get_clearing_inds p) = isSome (nth None p i).
Proof.
rewrite mem_filter mem_iota /= add0n; case: (ltnP i (size p)) => lt; first by rewrite andbT.
by rewrite nth_default.
Qed.

(** a record produced by standard reduction after clearing (no basis) *)
Definition vrec (B R : cmat) (p : p2c_t) : Prop :=
  grec B R p /\ exists V : 'M[F]_(ncol B),
     [/\ upper V, diagn0 V, mxc (nrow B) (ncol B) (cols R) = mx B *m V &
         reduced (mxc (nrow B) (ncol B) (cols R))].

Lemma pgood_mul_upper m n (B : 'M[F]_(m, n)) V R p : upper V -> diagn0 V ->
  pgood (B *m V) R p -> pgood B R p.
Proof.
move=> Vu Vd [sR WR [sp Hp] He]; split=> //.
  by split=> // i im j; rewrite Hp // is_pivot_mul_upper.
move=> j jn; rewrite He //; congr (~~ _); apply: eq_existsb => i.
by rewrite is_pivot_mul_upper.
Qed.

Lemma diagn0_mul n (A B : 'M[F]_n) : upper A -> upper B -> diagn0 A -> diagn0 B -> diagn0 (A *m B).
Proof. by move=> UA UB DA DB i; rewrite diag_mul // mulf_neq0. Qed.

Lemma reduce_clearing_spec (B B2 R2 : cmat) p2 : cm_wf B -> nrow B2 = ncol B ->
  mxc (nrow B) (ncol B) (cols B) *m mxc (ncol B) (ncol B2) (cols B2) = 0 ->
  vrec B2 R2 p2 ->
  exists R p, reduce_clearing O B (get_clearing_inds p2) = Ok (R, p) /\ vrec B R p.
Proof.
move=> WB En BB [[_ _ PG2] [V2 [u2 d2 ER2 r2]]].
have sp2 : size p2 = ncol B by case: PG2 => _ _ [-> _].
have /andP[/eqP sB aB] := WB.
have [|cs' [Eo s N]] := @ofold_clear (cols B) (get_clearing_inds p2).
  by apply/allP => i; rewrite mem_filter mem_iota add0n sp2 sB => /andP[_ /andP[]].
rewrite /reduce_clearing Eo; cbn [obind].
have Wcs : cm_wf (CMat (nrow B) (ncol B) cs').
  rewrite /cm_wf /= s sB eqxx /=; apply/(all_nthP [::]) => j _; rewrite N.
  by case: ifP => // _; apply: nth_wf.
have [R [p [E [U I1] PG]]] := reduce_standard_pgood Wcs.
rewrite E /=; exists (CMat (nrow B) (ncol B) R), p; split=> //.
move: PG2 ER2 r2; rewrite /mx En => PG2 ER2 r2.
have [|cu cd EV] := clearVP BB u2 d2 ER2 r2 PG2 (erefl (mxc (nrow B) (ncol B) (cols B))) (cs' := cs').
  by move=> j jn; rewrite N mem_clearing_inds; case: (nth None p2 j).
have red := rinv_reduced I1.
case: I1 => _ WR _ [V [Vu Vd RV _]] _; rewrite /= EV in RV PG.
split; first by split=> //=; apply: pgood_mul_upper cu cd PG.
exists (clearV (ncol B) (cols R2) p2 *m V); split.
- exact: upper_mul.
- by apply: diagn0_mul => //; apply: diag1_n0.
- by rewrite mulmxA.
- exact: red.
Qed.

Lemma chain_wf_cons (B B2 : cmat) C : chain_wf (B :: B2 :: C) ->
  [/\ cm_wf B, nrow B2 = ncol B,
      mxc (nrow B) (ncol B) (cols B) *m mxc (ncol B) (ncol B2) (cols B2) = 0 &
      chain_wf (B2 :: C)].
Proof.
move=> [_ /= /andP[WB W] BB]; have [E0 Z0] := BB 0%N isT; split=> //; split=> // k lt.
exact: (BB k.+1 lt).
Qed.

Lemma vrec_standard (B : cmat) : cm_wf B ->
  exists R p, reduce_standard O B = Ok (R, p) /\ vrec B R p.
Proof.
move=> WB; have [R [p [E [U I1] PG]]] := reduce_standard_pgood WB.
exists (CMat (nrow B) (ncol B) R), p; split=> //.
have red := rinv_reduced I1; case: I1 => _ WR _ [V [Vu Vd RV _]] _.
by split=> //; exists V; split=> //; apply: diag1_n0.
Qed.

Lemma clearing_loop_spec (C : seq cmat) : chain_wf C ->
  exists rs, [/\ clearing_loop O C = Ok rs, size rs = size C &
    forall k, (k < size C)%N -> vrec (bmx C k) (nth (m0, [::]) rs k).1 (nth (m0, [::]) rs k).2].
Proof.
elim: C => [|B C IH]; first by case.
case: C IH => [_|B2 C IH] W.
  have WB : cm_wf B by case: W => _ /andP[].
  have [R [p [E V]]] := vrec_standard WB.
  by exists [:: (R, p)]; rewrite /= E; split=> // -[].
have [WB En BB W2] := chain_wf_cons W.
have [rs [E s G]] := IH W2; case: rs E s G => [//|[R2 p2] rs] E s G.
have [R [p [E2 V]]] := reduce_clearing_spec WB En BB (G 0%N isT).
exists ((R, p) :: (R2, p2) :: rs); split; last 1 first.
- by move=> [|k] lt //; apply: G.
- by rewrite -[LHS]/(do rs0 <- clearing_loop O (B2 :: C); _) E /= E2.
- by move: s => /= ->.
Qed.

Lemma rcc_clearing_spec (C : seq cmat) : chain_wf C ->
  exists X, [/\ rcc_clearing O C = Ok X,
     rc_I X = [seq hinds C k | k <- iota 0 (size C)],
     size (rc_R X) = size C /\ size (rc_p2c X) = size C &
     forall k, (k < size C)%N ->
       vrec (bmx C k) (bmx (rc_R X) k) (nth [::] (rc_p2c X) k)].
Proof.
move=> CW; rewrite /rcc_clearing; have [rs [-> sr G]] := clearing_loop_spec CW; cbn [obind].
have Gn k : (k < size C)%N -> vrec (bmx C k) (nth m0 [seq x.1 | x <- rs] k)
          (nth [::] [seq x.2 | x <- rs] k).
  by move=> kC; rewrite !(nth_map (m0, [::])) ?sr //; apply: G.
rewrite (set_indices_spec CW) ?size_map //; last by move=> k /Gn[].
by cbn [obind]; eexists; split; [by [] | by [] | rewrite /= !size_map | exact: Gn].
Qed.

(** ** Clearing with basis *)
Definition urec (B R U : cmat) (p : p2c_t) : Prop := grec B R p /\ ubasis B R U.

Lemma urec_vrec (B R U : cmat) p : urec B R U p -> vrec B R p.
Proof. by move=> [G [_ _ _ _ [V [Vu Vd _ RV red]]]]; split=> //; exists V. Qed.

Lemma urec_standard (B : cmat) : cm_wf B ->
  exists R U p, reduce_standardU O B (cm_identity O (ncol B)) = Ok (R, U, p) /\ urec B R U p.
Proof.
move=> Wk.
have [R [U [p [-> Ir Pg]]]] := reduce_standardU_pgood Wk (cm_wf_identity F (ncol B)) erefl.
do 3 eexists; split; first by []. split=> //=.
have := rinv_reduced Ir; rewrite mxc_identity /= in Ir.
case: Ir => [[sR sU sp] WR WU [V [Vu Vd ER EU]] Hp] red.
split=> //=; [by rewrite /cm_wf /= sU eqxx | by rewrite /cm_wf /= sR eqxx |].
by exists V; rewrite EU mul1mx; split=> //; apply: diag1_n0.
Qed.

Lemma ofold_clearU (cs us : seq svec) (R2 : seq svec) (p2 : p2c_t) n :
  size cs = n -> size us = n -> (n <= size p2)%N ->
  (forall j k, nth None p2 j = Some k -> (k < size R2)%N) ->
  exists cs' us', [/\ ofold (fun (st : seq svec * seq svec) i =>
          if nth None p2 i is Some j then
            do cm <- oset st.1 i [::];
            do r <- oget R2 j;
            do cu <- oset st.2 i r;
            Ok (cm, cu)
          else Ok st) (cs, us) (iota 0 n) = Ok (cs', us'), size cs' = n, size us' = n &
    forall j, (j < n)%N ->
      nth [::] cs' j = (if nth None p2 j is Some _ then [::] else nth [::] cs j) /\
      nth [::] us' j = (if nth None p2 j is Some k then nth [::] R2 k else nth [::] us j)].
Proof.
move=> sc su sp Hp.
have [||[cs' us'] E [s1 s2 N]] := ofold_iota_ind (P := fun i (st : seq svec * seq svec) =>
  [/\ size st.1 = n, size st.2 = n & forall j, (j < n)%N ->
     nth [::] st.1 j = (if (j < i)%N then if nth None p2 j is Some _ then [::] else nth [::] cs j
                        else nth [::] cs j) /\
     nth [::] st.2 j = (if (j < i)%N then if nth None p2 j is Some k then nth [::] R2 k else nth [::] us j
                        else nth [::] us j)])
  (n := n) (a := (cs, us)) (g := fun (st : seq svec * seq svec) i =>
          if nth None p2 i is Some j then
            do cm <- oset st.1 i [::];
            do r <- oget R2 j;
            do cu <- oset st.2 i r;
            Ok (cm, cu)
          else Ok st) => //.
  move=> i [cs' us'] li /= [s1 s2 N].
  have step j : (j < i.+1)%N = (j == i) || (j < i)%N by rewrite ltnS leq_eqVlt.
  case Ei: (nth None p2 i) => [k|]; last first.
    eexists; first by []; split=> //= j jn; rewrite step; have [N1 N2] := N j jn.
    by case: eqP N1 N2 => //= ->; rewrite ltnn Ei.
  rewrite (oset_Ok [::]) ?s1 //= (oget_nth [::]) ?(Hp _ _ Ei) //= (oset_Ok [::]) ?s2 //=.
  eexists; first by []; split=> /=; rewrite ?size_set_nth ?s1 ?s2; try exact/maxn_idPr.
  move=> j jn; rewrite !nth_set_nth /= step; have [N1 N2] := N j jn.
  by case: eqP => //= ->; rewrite Ei.
exists cs', us'; split=> // j jn; have := N j jn; by rewrite jn.
Qed.

Lemma reduce_clearingU_spec (B B2 R2 : cmat) p2 : cm_wf B -> nrow B2 = ncol B ->
  mxc (nrow B) (ncol B) (cols B) *m mxc (ncol B) (ncol B2) (cols B2) = 0 ->
  vrec B2 R2 p2 ->
  exists R U p, reduce_clearingU O B (cm_identity O (ncol B)) R2 p2 = Ok (R, U, p) /\ urec B R U p.
Proof.
move=> WB En BB [[_ EnR PG2] [V2 [u2 d2 ER2 r2]]].
have sp2 : size p2 = ncol B by case: PG2 => _ _ [-> _].
have /andP[/eqP sB aB] := WB.
have /andP[/eqP sI aI] := cm_wf_identity F (ncol B).
have Wr2 : all (sv_wf (ncol B)) (cols R2) by rewrite -En; case: PG2.
have [||||cs' [us' [Eo s1 s2 N]]] := @ofold_clearU (cols B) (cols (cm_identity O (ncol B)))
   (cols R2) p2 (ncol B) => //; first by rewrite sp2.
  case: PG2 => sR2 _ [_ Hp] _ j k E.
  have jn : (j < nrow B2)%N.
    by rewrite En -sp2; case: (ltnP j (size p2)) => // ge; move: E; rewrite nth_default.
  by move/(Hp _ jn): E => /andP[]; rewrite sR2.
rewrite /reduce_clearingU sp2 Eo; cbn [obind].
have Wcs : cm_wf (CMat (nrow B) (ncol B) cs').
  rewrite /cm_wf /= s1 eqxx /=; apply/(all_nthP [::]) => j; rewrite s1 => jn.
  by have [-> _] := N j jn; case: (nth None p2 j) => [k|] //; apply: nth_wf.
have Wus : cm_wf (CMat (ncol B) (ncol B) us').
  rewrite /cm_wf /= s2 eqxx /=; apply/(all_nthP [::]) => j; rewrite s2 => jn.
  have [_ ->] := N j jn; case: (nth None p2 j) => [k|]; apply: nth_wf => //.
have [R [U [p [E I1 PG]]]] := reduce_standardU_pgood Wcs Wus erefl.
rewrite E /=; do 3 eexists; split; first by [].
move: PG2 ER2 r2; rewrite /mx En => PG2 ER2 r2.
have [|cu cd EV] := clearVP BB u2 d2 ER2 r2 PG2 (erefl (mxc (nrow B) (ncol B) (cols B))) (cs' := cs').
  by move=> j jn; have [-> _] := N j jn.
have EU0 : mxc (ncol B) (ncol B) us' = clearV (ncol B) (cols R2) p2.
  apply/matrixP => i j; rewrite !mxE; have [_ ->] := N j (ltn_ord j).
  case: (nth None p2 j) => [//|].
  by have := congr1 (fun M : 'M_(ncol B) => M i j) (mxc_identity F (ncol B)); rewrite !mxE.
have red := rinv_reduced I1.
case: I1 => [[sR sU _]] WR WU [V [Vu Vd RV UV]] _; rewrite /= EV in RV PG; rewrite /= EU0 in UV.
split; first by split=> //=; apply: pgood_mul_upper cu cd PG.
split=> //=; try by rewrite /cm_wf /= ?sU ?sR eqxx.
exists (clearV (ncol B) (cols R2) p2 *m V); split.
- exact: upper_mul.
- by apply: diagn0_mul => //; apply: diag1_n0.
- by [].
- by rewrite mulmxA.
- exact: red.
Qed.

Notation r0 := (m0, m0, [::] : p2c_t).
Lemma clearing_loopU_spec (C : seq cmat) : chain_wf C ->
  exists rs, [/\ clearing_loopU O C = Ok rs, size rs = size C &
    forall k, (k < size C)%N ->
      urec (bmx C k) (nth r0 rs k).1.1 (nth r0 rs k).1.2 (nth r0 rs k).2].
Proof.
elim: C => [|B C IH]; first by case.
case: C IH => [_|B2 C IH] W.
  have WB : cm_wf B by case: W => _ /andP[].
  have [R [U [p [E V]]]] := urec_standard WB.
  by exists [:: (R, U, p)]; rewrite /= E; split=> // -[].
have [WB En BB W2] := chain_wf_cons W.
have [rs [E s G]] := IH W2; case: rs E s G => [//|[[R2 U2] p2] rs] E s G.
have [R [U [p [E2 V]]]] := reduce_clearingU_spec WB En BB (urec_vrec (G 0%N isT)).
exists ((R, U, p) :: (R2, U2, p2) :: rs); split; last 1 first.
- by move=> [|k] lt //; apply: G.
- by rewrite -[LHS]/(do rs0 <- clearing_loopU O (B2 :: C); _) E /= E2.
- by move: s => /= ->.
Qed.

Lemma rcc_clearingU_spec (C : seq cmat) : chain_wf C ->
  exists X, [/\ rcc_clearingU O C = Ok X,
     rc_I X = [seq hinds C k | k <- iota 0 (size C)],
     [/\ size (rc_R X) = size C, size (rc_U X) = size C & size (rc_p2c X) = size C] &
     forall k, (k < size C)%N ->
       urec (bmx C k) (bmx (rc_R X) k) (bmx (rc_U X) k) (nth [::] (rc_p2c X) k)].
Proof.
move=> CW; rewrite /rcc_clearingU; have [rs [-> sr G]] := clearing_loopU_spec CW; cbn [obind].
have Gn k : (k < size C)%N -> urec (bmx C k) (nth m0 [seq x.1.1 | x <- rs] k)
          (nth m0 [seq x.1.2 | x <- rs] k) (nth [::] [seq x.2 | x <- rs] k).
  by move=> kC; rewrite !(nth_map r0) ?sr //; apply: G.
rewrite (set_indices_spec CW) ?size_map //; last by move=> k /Gn[].
by cbn [obind]; eexists; split; [by [] | by [] | rewrite /= !size_map | exact: Gn].
Qed.

(** ** Compression *)

(** B2 with the rows that are pivot columns of B1 zeroed *)
Definition compM m n q (B1 : 'M[F]_(m, n)) (B2 : 'M[F]_(n, q)) : 'M[F]_(n, q) :=
  \matrix_(i, j) (if pcol B1 i then 0 else B2 i j).

Section Comp.
Variables (m n q : nat) (B1 : 'M[F]_(m, n)) (B2 : 'M[F]_(n, q)) (V1 : 'M[F]_n).
Hypothesis u1 : upper V1.
Hypothesis n1 : diagn0 V1.
Hypothesis r1 : reduced (B1 *m V1).
Hypothesis BB : B1 *m B2 = 0.

Lemma compM_mul r (V : 'M[F]_(q, r)) : compM B1 (B2 *m V) = compM B1 B2 *m V.
Proof.
apply/matrixP => i j; rewrite !mxE; case: ifP => P.
  by rewrite big1 // => k _; rewrite mxE P mul0r.
by apply: eq_bigr => k _; rewrite mxE P.
Qed.

Lemma cycle_low_npcol r (z : 'M[F]_(n, r)) i j : B1 *m z = 0 -> is_low z i j -> ~~ pcol B1 i.
Proof.
move=> Z /lowP L; have L' : lowb (z *m 1%:M) i j by rewrite mulmx1.
have := pivot_zero_col Z u1 n1 r1 L'; apply: contra => /existsP[h].
by rewrite (pivot_low _ _ u1 n1 r1) => /lowP L2; apply/nzcolP; exists h.
Qed.

(** compression keeps the last nonzero of every cycle *)
Lemma compM_low r (z : 'M[F]_(n, r)) i j : B1 *m z = 0 -> is_low (compM B1 z) i j <-> is_low z i j.
Proof.
move=> Z.
have key k : is_low z k j -> is_low (compM B1 z) k j.
  move=> L; have := cycle_low_npcol Z L; case: L => H K nP; split; first by rewrite mxE (negbTE nP).
  by move=> k' lt; rewrite mxE K //; case: ifP.
split; last exact: key.
move=> L; case: (boolP [exists k, z k j != 0]) => [/existsP[k /low_exists[k' L' _]]|].
  by have <- := low_unique (key _ L') L.
rewrite negb_exists => /forallP N; case: L => + _; rewrite mxE; case: ifP; rewrite ?eqxx // => _.
by rewrite (eqP (negPn (N i))) eqxx.
Qed.

Lemma compM_nzcol r (z : 'M[F]_(n, r)) j : B1 *m z = 0 -> nzcol (compM B1 z) j = nzcol z j.
Proof. by move=> Z; apply/nzcolP/nzcolP => -[i L]; exists i; apply/compM_low. Qed.

Lemma compM_pivot (V2 : 'M[F]_q) (i : 'I_n) (j : 'I_q) : upper V2 -> diagn0 V2 -> reduced (B2 *m V2) ->
  is_pivot (compM B1 B2) i j = is_pivot B2 i j.
Proof.
move=> u2 n2 r2.
have Z : B1 *m (B2 *m V2) = 0 by rewrite mulmxA BB mul0mx.
have red : reduced (compM B1 B2 *m V2).
  by rewrite -compM_mul => h k k' /(compM_low h k Z) L /(compM_low h k' Z) L'; apply: r2 L L'.
rewrite (pivot_low _ _ u2 n2 red) (pivot_low _ _ u2 n2 r2) -compM_mul.
by apply/lowP/lowP => /(compM_low i j Z).
Qed.
End Comp.

Lemma pgood_comp m n q (B1 : 'M[F]_(m, n)) (B2 : 'M[F]_(n, q)) V1 V2 R p :
  upper V1 -> diagn0 V1 -> reduced (B1 *m V1) -> B1 *m B2 = 0 ->
  upper V2 -> diagn0 V2 -> reduced (B2 *m V2) ->
  pgood (compM B1 B2) R p -> pgood B2 R p.
Proof.
move=> u1 n1 r1 BB u2 n2 r2 [sR WR [sp Hp] He]; split=> //.
  split=> // i im j; rewrite Hp //; case: (ltnP j q) => //= jq.
  by rewrite (compM_pivot u1 n1 r1 BB (Ordinal im) (Ordinal jq) u2 n2 r2).
move=> j jq; rewrite He //; congr (~~ _); apply: eq_existsb => i.
by rewrite (compM_pivot u1 n1 r1 BB i (Ordinal jq) u2 n2 r2).
Qed.

Lemma clear_rows_spec (B1 R1 B2 : cmat) p1 : grec B1 R1 p1 -> cm_wf B2 -> nrow B2 = ncol B1 ->
  exists cs, [/\ clear_rows (get_compression_inds R1) B2 = Ok (CMat (nrow B2) (ncol B2) cs),
     cm_wf (CMat (nrow B2) (ncol B2) cs) &
     mxc (ncol B1) (ncol B2) cs = compM (mx B1) (mxc (ncol B1) (ncol B2) (cols B2))].
Proof.
move=> [_ En1 [sR1 WR1 _ He]] /andP[/eqP s2 W2] En.
set c := get_compression_inds R1.
have sc : size c = ncol B1 by rewrite size_map size_iota En1.
have nc i : (i < ncol B1)%N -> nth false c i = pcol (mx B1) i.
  move=> lt; rewrite /c (nth_map 0%N) ?size_iota ?En1 // nth_iota // add0n /colof.
  rewrite -[pcol _ _]negbK /pcol -He //; by case: (nth [::] (cols R1) i).
rewrite /clear_rows sc En eqxx /=.
rewrite (omapm_Ok (g := fun v => [seq x <- v | ~~ nth false c x.1])) /=; last first.
  move=> v /In_mem Hv; rewrite /clear_inds sc -En; have /and3P[_ Bv _] := allP W2 v Hv.
  by rewrite -/(sv_below _ v) Bv.
exists [seq [seq x <- v | ~~ nth false c x.1] | v <- cols B2]; split; first by [].
  rewrite /cm_wf /= size_map s2 eqxx all_map /=; apply/allP => v Hv /=.
  have /and3P[Sv Bv Nv] := allP W2 v Hv; apply/and3P; split; first exact: sv_sorted_filter.
    by rewrite -En; apply: all_filter_sub.
  exact: all_filter_sub.
apply/matrixP => i j; rewrite !mxE (nth_map [::]) ?s2 //.
rewrite (coef_filter (fun h => ~~ nth false c h)) nc //.
by case: (pcol _ _).
Qed.

Lemma grec_vex (B : cmat) : cm_wf B -> exists V, [/\ upper V, diagn0 V & reduced (mx B *m V)].
Proof. by move=> /reduction_exists[V [u d r]]; exists V; split=> //; apply: diag1_n0. Qed.

(** basis in the compressed case: R is the compressed B times U *)
Definition cbasis (B R U : cmat) : Prop :=
  [/\ nrow U = ncol B, ncol U = ncol B, cm_wf U, cm_wf R &
      exists V : 'M[F]_(ncol B),
        [/\ upper V, diag1 V, mxc (ncol B) (ncol B) (cols U) = V &
            forall j : 'I_(ncol B), (nth [::] (cols R) j == [::]) = ~~ nzcol (mx B *m V) j]].

Lemma reduce_compressionU_spec (B1 R1 B2 : cmat) p1 : cm_wf B1 -> grec B1 R1 p1 ->
  cm_wf B2 -> nrow B2 = ncol B1 ->
  mxc (nrow B1) (ncol B1) (cols B1) *m mxc (ncol B1) (ncol B2) (cols B2) = 0 ->
  exists R U p,
    [/\ reduce_compressionU O B2 (cm_identity O (ncol B2)) (get_compression_inds R1) = Ok (R, U, p),
        grec B2 R p & cbasis B2 R U].
Proof.
move=> W1 G1 W2 En BB; have [cs [E Wc Ec]] := clear_rows_spec G1 W2 En.
rewrite /reduce_compressionU E; cbn [obind].
have [R [U [p [E2 I1 PG]]]] := reduce_standardU_pgood Wc (cm_wf_identity F (ncol B2)) erefl.
rewrite E2; do 3 eexists; split; first by [].
  have [V1 [u1 n1 r1]] := grec_vex W1; have [V2 [u2 n2 r2]] := grec_vex W2.
  split=> //=; move: PG u2 n2 r2 => /=; rewrite /mx En => PG u2 n2 r2.
  by rewrite Ec in PG; apply: pgood_comp u1 n1 r1 BB u2 n2 r2 PG.
have := rinv_reduced I1; case: I1 => [[sR sU sp] WR WU [V [Vu Vd ER EU]] Hp] red.
split=> //=; try by rewrite /cm_wf /= ?sU ?sR eqxx.
exists V; rewrite EU mxc_identity mul1mx; split=> // j.
have [V1 [u1 n1 r1]] := grec_vex W1.
rewrite (empty_nzcol (nth_wf j WR)) /=; congr (~~ _); move: ER => /=; rewrite /mx En Ec => ->.
by rewrite -compM_mul (compM_nzcol u1 n1 r1) // mulmxA BB mul0mx.
Qed.

Lemma reduce_compression_spec (B1 R1 B2 : cmat) p1 : cm_wf B1 -> grec B1 R1 p1 ->
  cm_wf B2 -> nrow B2 = ncol B1 ->
  mxc (nrow B1) (ncol B1) (cols B1) *m mxc (ncol B1) (ncol B2) (cols B2) = 0 ->
  exists R p,
    reduce_compression O B2 (get_compression_inds R1) = Ok (R, p) /\ grec B2 R p.
Proof.
move=> W1 G1 W2 En BB; have [cs [E Wc Ec]] := clear_rows_spec G1 W2 En.
rewrite /reduce_compression E; cbn [obind].
have [R [p [E2 _ PG]]] := reduce_standard_pgood Wc.
rewrite E2; do 2 eexists; split; first by [].
have [V1 [u1 n1 r1]] := grec_vex W1; have [V2 [u2 n2 r2]] := grec_vex W2.
split=> //=; move: PG u2 n2 r2 => /=; rewrite /mx En => PG u2 n2 r2.
by rewrite Ec in PG; apply: pgood_comp u1 n1 r1 BB u2 n2 r2 PG.
Qed.

Lemma grec_standard (B : cmat) : cm_wf B ->
  exists R p, reduce_standard O B = Ok (R, p) /\ grec B R p.
Proof. by move=> /vrec_standard[R [p [E [G _]]]]; exists R, p. Qed.

Lemma compression_loop_tail (B1 R1 : cmat) p1 (C : seq cmat) : grec B1 R1 p1 -> chain_wf (B1 :: C) ->
  exists rs, [/\ compression_loop O (Some (get_compression_inds R1)) C = Ok rs, size rs = size C &
    forall k, (k < size C)%N -> grec (bmx C k) (nth (m0, [::]) rs k).1 (nth (m0, [::]) rs k).2].
Proof.
elim: C B1 R1 p1 => [|B2 C IH] B1 R1 p1 G1 W; first by exists [::].
have [W1 En BB W2] := chain_wf_cons W.
have WB2 : cm_wf B2 by case: W2 => _ /andP[].
have [R [p [E G]]] := reduce_compression_spec W1 G1 WB2 En BB.
have [rs [E2 s Gs]] := IH _ _ _ G W2.
exists ((R, p) :: rs); rewrite /= E /= E2 /= s; split=> // -[|k] //; exact: Gs.
Qed.

Lemma compression_loop_spec (C : seq cmat) : chain_wf C ->
  exists rs, [/\ compression_loop O None C = Ok rs, size rs = size C &
    forall k, (k < size C)%N -> grec (bmx C k) (nth (m0, [::]) rs k).1 (nth (m0, [::]) rs k).2].
Proof.
case: C => [|B C] W; first by case: W.
have WB : cm_wf B by case: W => _ /andP[].
have [R [p [E G]]] := grec_standard WB; have [rs [E2 s Gs]] := compression_loop_tail G W.
by exists ((R, p) :: rs); rewrite /= E /= E2 /= s; split=> // -[|k] //; apply: Gs.
Qed.

Lemma rcc_compression_spec (C : seq cmat) : chain_wf C ->
  exists X, [/\ rcc_compression O C = Ok X,
     rc_I X = [seq hinds C k | k <- iota 0 (size C)],
     size (rc_R X) = size C /\ size (rc_p2c X) = size C &
     forall k, (k < size C)%N ->
       grec (bmx C k) (bmx (rc_R X) k) (nth [::] (rc_p2c X) k)].
Proof.
move=> CW; rewrite /rcc_compression; have [rs [-> sr G]] := compression_loop_spec CW; cbn [obind].
have Gn k : (k < size C)%N -> grec (bmx C k) (nth m0 [seq x.1 | x <- rs] k)
          (nth [::] [seq x.2 | x <- rs] k).
  by move=> kC; rewrite !(nth_map (m0, [::])) ?sr //; apply: G.
rewrite (set_indices_spec CW) ?size_map //.
by cbn [obind]; eexists; split; [by [] | by [] | rewrite /= !size_map | exact: Gn].
Qed.

Lemma cbasis_standard (B : cmat) : cm_wf B ->
  exists R U p, [/\ reduce_standardU O B (cm_identity O (ncol B)) = Ok (R, U, p),
     grec B R p & cbasis B R U].
Proof.
move=> Wk.
have [R [U [p [-> Ir Pg]]]] := reduce_standardU_pgood Wk (cm_wf_identity F (ncol B)) erefl.
do 3 eexists; split; [by [] | by [] |].
rewrite mxc_identity /= in Ir.
case: Ir => [[sR sU sp] WR WU [V [Vu Vd ER EU]] Hp].
split=> //=; [by rewrite /cm_wf /= sU eqxx | by rewrite /cm_wf /= sR eqxx |].
exists V; rewrite EU mul1mx; split=> // j.
by rewrite (empty_nzcol (nth_wf j WR)) ER.
Qed.

Lemma compression_loopU_tail (B1 R1 : cmat) p1 (C : seq cmat) : grec B1 R1 p1 -> chain_wf (B1 :: C) ->
  exists rs, [/\ compression_loopU O (Some (get_compression_inds R1)) C = Ok rs, size rs = size C &
    forall k, (k < size C)%N -> grec (bmx C k) (nth r0 rs k).1.1 (nth r0 rs k).2 /\
       cbasis (bmx C k) (nth r0 rs k).1.1 (nth r0 rs k).1.2].
Proof.
elim: C B1 R1 p1 => [|B2 C IH] B1 R1 p1 G1 W; first by exists [::].
have [W1 En BB W2] := chain_wf_cons W.
have WB2 : cm_wf B2 by case: W2 => _ /andP[].
have [R [U [p [E G CB]]]] := reduce_compressionU_spec W1 G1 WB2 En BB.
have [rs [E2 s Gs]] := IH _ _ _ G W2.
exists ((R, U, p) :: rs); rewrite /= E /= E2 /= s; split=> // -[|k] //; exact: Gs.
Qed.

Lemma rcc_compressionU_spec (C : seq cmat) : chain_wf C ->
  exists X, [/\ rcc_compressionU O C = Ok X,
     rc_I X = [seq hinds C k | k <- iota 0 (size C)],
     [/\ size (rc_R X) = size C, size (rc_U X) = size C & size (rc_p2c X) = size C] &
     forall k, (k < size C)%N ->
       grec (bmx C k) (bmx (rc_R X) k) (nth [::] (rc_p2c X) k) /\
       cbasis (bmx C k) (bmx (rc_R X) k) (bmx (rc_U X) k)].
Proof.
move=> CW; rewrite /rcc_compressionU.
have [rs [-> sr G]] : exists rs, [/\ compression_loopU O None C = Ok rs, size rs = size C &
    forall k, (k < size C)%N -> grec (bmx C k) (nth r0 rs k).1.1 (nth r0 rs k).2 /\
       cbasis (bmx C k) (nth r0 rs k).1.1 (nth r0 rs k).1.2].
  case: C CW => [|B C] W; first by case: W.
  have WB : cm_wf B by case: W => _ /andP[].
  have [R [U [p [E G CB]]]] := cbasis_standard WB; have [rs [E2 s Gs]] := compression_loopU_tail G W.
  by exists ((R, U, p) :: rs); rewrite /= E /= E2 /= s; split=> // -[|k] //; apply: Gs.
cbn [obind].
have Gn k : (k < size C)%N -> grec (bmx C k) (nth m0 [seq x.1.1 | x <- rs] k)
          (nth [::] [seq x.2 | x <- rs] k) /\
     cbasis (bmx C k) (nth m0 [seq x.1.1 | x <- rs] k) (nth m0 [seq x.1.2 | x <- rs] k).
  by move=> kC; rewrite !(nth_map r0) ?sr //; apply: G.
rewrite (set_indices_spec CW) ?size_map //; last by move=> k /Gn[].
by cbn [obind]; eexists; split; [by [] | by [] | rewrite /= !size_map | exact: Gn].
Qed.

(** every option records the pivots and the homology indices *)
Lemma rcc_of_spec opt (C : seq cmat) : chain_wf C ->
  exists X, [/\ rcc_of O opt C = Ok X,
     rc_I X = [seq hinds C k | k <- iota 0 (size C)],
     size (rc_R X) = size C /\ size (rc_p2c X) = size C &
     forall k, (k < size C)%N -> grec (bmx C k) (bmx (rc_R X) k) (nth [::] (rc_p2c X) k)].
Proof.
move=> CW; case: opt => /=.
- have [X [E1 E2 [? ? ?] G]] := rcc_standard_spec CW; exists X; split=> // k /G[] //.
- exact: rcc_nobasis_spec.
- have [X [E1 E2 [? ?] G]] := rcc_clearing_spec CW; exists X; split=> // k /G[] //.
- have [X [E1 E2 [? ? ?] G]] := rcc_clearingU_spec CW; exists X; split=> // k /G[] //.
- exact: rcc_compression_spec.
- have [X [E1 E2 [? ? ?] G]] := rcc_compressionU_spec CW; exists X; split=> // k /G[] //.
Qed.

(** with a basis: U is upper triangular with nonzero diagonal, and column j of B U vanishes exactly
    when column j of R is stored empty *)
Lemma rcc_of_basis opt (C : seq cmat) : chain_wf C -> has_basis opt ->
  exists X, [/\ rcc_of O opt C = Ok X, size (rc_U X) = size C &
     forall k, (k < size C)%N ->
       [/\ nrow (bmx (rc_U X) k) = ncol (bmx C k), ncol (bmx (rc_U X) k) = ncol (bmx C k),
           cm_wf (bmx (rc_U X) k) &
           exists V : 'M[F]_(ncol (bmx C k)),
           [/\ upper V, diagn0 V,
               mxc (ncol (bmx C k)) (ncol (bmx C k)) (cols (bmx (rc_U X) k)) = V &
               forall j : 'I_(ncol (bmx C k)),
                 (nth [::] (cols (bmx (rc_R X) k)) j == [::]) = ~~ nzcol (mx (bmx C k) *m V) j]]].
Proof.
move=> CW hb.
have H (B R U : cmat) p : grec B R p -> ubasis B R U ->
     [/\ nrow U = ncol B, ncol U = ncol B, cm_wf U &
           exists V : 'M[F]_(ncol B),
           [/\ upper V, diagn0 V,
               mxc (ncol B) (ncol B) (cols U) = V &
               forall j : 'I_(ncol B),
                 (nth [::] (cols R) j == [::]) = ~~ nzcol (mx B *m V) j]].
  move=> [_ _ [_ Wc _ _]] [nU cU WU WR [V [Vu Vd EV RV red]]]; split=> //; exists V; split=> // j.
  by rewrite -RV -empty_nzcol //; apply: nth_wf.
case: opt hb => //= _.
- have [X [E1 E2 [? ? ?] G]] := rcc_standard_spec CW; exists X; split=> // k /G[]; exact: H.
- have [X [E1 E2 [? ? ?] G]] := rcc_clearingU_spec CW; exists X; split=> // k /G[]; exact: H.
- have [X [E1 E2 [? ? ?] G]] := rcc_compressionU_spec CW; exists X; split=> // k.
  move=> /G[_ [nU cU WU WR [V [Vu Vd EV N]]]]; split=> //; exists V; split=> //.
  exact: diag1_n0.
Qed.

End H.
