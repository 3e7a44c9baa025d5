(** Events in a suitable order describe a sequence of subcomplexes. *)
From mathcomp Require Import all_ssreflect all_algebra zify.
From Verif Require Import Outcome P_Outcome M_SparseVec M_ColMatrix S_Linalg S_Perm S_Homology S_Induced M_Zigzag S_Zigzag
  S_ZigzagFilt M_ZigzagFilt P_Perm P_SparseVec P_SparseVec2 P_Reduce P_ColMatrix P_Betti P_ZF1 P_ZF2 P_ZF3 P_ZF4.
Set Implicit Arguments.
Unset Strict Implicit.
Unset Printing Implicit Defensive.
Import GRing.Theory Order.Theory.

Lemma uniq_flat (T1 T2 : eqType) (f : T1 -> seq T2) s : uniq s -> (forall i, i \in s -> uniq (f i)) ->
  (forall i j x, i \in s -> j \in s -> x \in f i -> x \in f j -> i = j) -> uniq (flatten [seq f i | i <- s]).
Proof.
elim: s => //= a s IH /andP[na us] h1 h2; rewrite cat_uniq h1 ?mem_head //= IH //; last first.
- by move=> i j x hi hj; apply: h2; rewrite in_cons ?hi ?hj orbT.
- by move=> i hi; apply: h1; rewrite in_cons hi orbT.
rewrite andbT -all_predC; apply/allP => x /flatten_mapP[j js xj] /=; apply/negP => xa.
have e := h2 a j x (mem_head _ _) _ xa xj; by move: na; rewrite e ?js // in_cons js orbT.
Qed.

Section S.
Variable F : fieldType.
Variable disp : unit.
Variable A : orderType disp.
Variable a0 : A.
Notation iv := (A * A)%type.
Notation event := (rfv A).
Variable C : seq (cmat F).
Variable val : seq (seq (seq iv)).
Hypothesis CW : chain_wf C.
Hypothesis FO : filtration_ok a0 C val.
Hypothesis nb0 : no_bd0 C.
Notation tot := (tot val).
Notation C2 := (C2 a0 C val).
Notation vv := (vv a0 val).
Variable perms : seq (seq nat).
Hypothesis PO : perms_ok C2 perms.
Variable D : seq (cmat F).
Hypothesis RO : reordered C2 D perms.
Hypothesis DW : chain_wf D.
Definition pm k p := nth 0%N (nth [::] perms k) p.
Definition ip k c := nth 0%N (ipl (nth [::] perms k)) c.
Definition mkev k c b : event := RFV k (ip k c) c (if b then (vv k c).1 else (vv k c).2) b.
Definition evL : seq event :=
  flatten [seq flatten [seq [:: mkev k c true; mkev k c false] | c <- iota 0 (tot k)] | k <- iota 0 (size C)].

Lemma tot_lt k c : c < tot k -> k < size C.
Proof. by move=> lc; rewrite ltnNge; apply/negP => ge; rewrite (tot0 FO ge) in lc. Qed.
Lemma pk_ok k : k < size C -> is_perm (nth [::] perms k) /\ size (nth [::] perms k) = tot k.
Proof. by move=> lk; case: PO => _ /(_ k); rewrite size_mkseq -[ncol _]/(ncell C2 k) (ncell2 FO); apply. Qed.
Lemma ip_lt k c : c < tot k -> ip k c < tot k.
Proof.
move=> lc; have [P s] := pk_ok (tot_lt lc); rewrite /ip -s -size_ipl; apply: is_perm_lt; first exact: is_perm_ipl.
by rewrite size_ipl s.
Qed.
Lemma pm_lt k c : c < tot k -> pm k c < tot k.
Proof. by move=> lc; have [P s] := pk_ok (tot_lt lc); rewrite /pm -s; apply: is_perm_lt; rewrite ?s. Qed.
Lemma pm_ip k c : c < tot k -> pm k (ip k c) = c.
Proof. by move=> lc; have [P s] := pk_ok (tot_lt lc); apply: nth_ipl_nth; rewrite ?s. Qed.
Lemma ip_pm k c : c < tot k -> ip k (pm k c) = c.
Proof. by move=> lc; have [P s] := pk_ok (tot_lt lc); apply: ipl_nth; rewrite ?s. Qed.
Lemma ip_inj k c c' : c < tot k -> c' < tot k -> ip k c = ip k c' -> c = c'.
Proof. by move=> lc lc' e; rewrite -(pm_ip lc) e pm_ip. Qed.
Lemma ncellD k : ncell D k = tot k.
Proof.
case: RO => sz h; rewrite -(ncell2 FO) /ncell; case: (ltnP k (size C)) => lk.
  by have [|_ ->] := h k; rewrite ?size_mkseq.
by rewrite /bmx !nth_default ?sz ?size_mkseq.
Qed.
Lemma entryD k p q : p < tot k -> q < tot k.+1 -> entry (bmx D k.+1) p q = entry (bmx C2 k.+1) (pm k p) (pm k.+1 q).
Proof.
move=> lp lq; case: RO => sz /(_ k.+1); rewrite size_mkseq => /(_ (tot_lt lq))[_ _ h]; rewrite /entry h //.
- by rewrite bmx2 ?(tot_lt lq).
- by rewrite -[ncol _]/(ncell C2 k.+1) (ncell2 FO).
Qed.
Lemma entryD_lt k p q : entry (bmx D k.+1) p q != 0%R -> p < tot k /\ q < tot k.+1.
Proof.
move=> n0; have /andP[/eqP sc W] := chain_wf_nth k.+1 DW; have lq : q < tot k.+1.
  rewrite -ncellD /ncell -sc ltnNge; apply: contra n0 => ge; by rewrite /entry nth_default // coef_nil.
split=> //; have sz : size D = size C by case: RO; rewrite size_mkseq.
have lk : k.+1 < size D by rewrite sz; apply: tot_lt lq.
case: DW => _ _ /(_ k lk)[er _]; rewrite -ncellD /ncell -er ltnNge; apply: contra n0 => ge; apply/eqP; apply: coef_ge ge.
by have /and3P[] := nth_wf q W.
Qed.

Lemma memL e : reflect (exists k c b, c < tot k /\ e = mkev k c b) (e \in evL).
Proof.
apply: (iffP flatten_mapP) => [[k _ /flatten_mapP[c]]|[k [c [b [lc ->]]]]].
  by rewrite mem_iota add0n => /andP[_ lc]; rewrite !inE => /orP[]/eqP ->; [exists k, c, true|exists k, c, false].
exists k; first by rewrite mem_iota /=; apply: tot_lt lc.
apply/flatten_mapP; exists c; first by rewrite mem_iota.
by case: b; rewrite !inE eqxx ?orbT.
Qed.
Lemma uniqL : uniq evL.
Proof.
apply: uniq_flat; first exact: iota_uniq.
  move=> k _; apply: uniq_flat; first exact: iota_uniq.
    by move=> c _; rewrite /= inE andbT; apply/negP => /eqP[].
  by move=> c c' x _ _; rewrite !inE => /orP[]/eqP -> /orP[]/eqP[].
move=> k k' x _ _ /flatten_mapP[c _ h] /flatten_mapP[c' _]; move: h.
by rewrite !inE => /orP[]/eqP -> /orP[]/eqP[].
Qed.

Variable cmp : event -> event -> bool.
Hypothesis irr : forall e, e \in evL -> ~~ cmp e e.
Hypothesis H1 : forall k a c, a < tot k -> c < tot k.+1 -> entry (bmx C2 k.+1) a c != 0%R -> (vv k a).1 = (vv k.+1 c).1 ->
  cmp (mkev k a true) (mkev k.+1 c true).
Hypothesis H2 : forall k a c, a < tot k -> c < tot k.+1 -> entry (bmx C2 k.+1) a c != 0%R -> (vv k a).2 = (vv k.+1 c).2 ->
  cmp (mkev k.+1 c false) (mkev k a false).
Hypothesis H3 : forall a b, z_entry a -> ~~ z_entry b -> z_val a = z_val b -> cmp a b.
Hypothesis H4 : forall k c c', c < tot k -> c' < tot k -> ip k c < ip k c' -> cmp (mkev k c' false) (mkev k c false).
Hypothesis H5 : forall a b, (z_val a < z_val b)%O -> cmp a b.

Lemma H3' a b : z_entry a -> ~~ z_entry b -> (z_val a <= z_val b)%O -> cmp a b.
Proof. by move=> ea eb; rewrite le_eqVlt => /orP[/eqP e|h]; [apply: H3|apply: H5]. Qed.
Variable evs : seq event.
Hypothesis PE : perm_eq evs evL.
Hypothesis PW : pairwise (fun x y => ~~ cmp y x) evs.

Section Pre.
Variables (pre post : seq event) (e : event).
Hypothesis E : evs = pre ++ e :: post.
Lemma in_pre f : f \in evL -> cmp f e -> f \in pre.
Proof.
move=> fL cf; have fe : f \in evs by rewrite (perm_mem PE).
have eL : e \in evL by rewrite -(perm_mem PE) E mem_cat mem_head orbT.
move: fe PW; rewrite E mem_cat inE pairwise_cat /= => /or3P[//|/eqP ef|fp] /and3P[_ _ /andP[h _]].
  by move: cf; rewrite ef (negbTE (irr eL)).
by have := allP h f fp; rewrite cf.
Qed.
Lemma notin_pre f : cmp e f -> f \notin pre.
Proof.
move=> ce; apply/negP => fp; move: PW; rewrite E pairwise_cat => /andP[/allrelP h _].
by have := h f e fp (mem_head _ _); rewrite ce.
Qed.
Lemma e_notin : e \notin pre.
Proof.
have u : uniq evs by rewrite (perm_uniq PE) uniqL.
by move: u; rewrite E cat_uniq /= => /and3P[_ /norP[h _] _].
Qed.
End Pre.

Section Sub.
Variable pre : seq event.
Hypothesis sub : {subset pre <= evL}.
Lemma enteredE k c : c < tot k -> entered pre k (ip k c) = (mkev k c true \in pre).
Proof.
move=> lc; apply/hasP/idP => [[e ep /andP[en /andP[/eqP ek /eqP ei]]]|h]; last first.
  by exists (mkev k c true) => //; rewrite /at_cell /= !eqxx.
have /memL[k' [c' [b [lc' ee]]]] := sub ep; move: ek ei en ep; rewrite ee /= => ek ei eb; rewrite ek eb in ei lc' *.
by rewrite (ip_inj lc' lc ei).
Qed.
Lemma removedE k c : c < tot k -> removed pre k (ip k c) = (mkev k c false \in pre).
Proof.
move=> lc; apply/hasP/idP => [[e ep /andP[en /andP[/eqP ek /eqP ei]]]|h]; last first.
  by exists (mkev k c false) => //; rewrite /at_cell /= !eqxx.
have /memL[k' [c' [b [lc' ee]]]] := sub ep; move: ek ei en ep; rewrite ee /= => ek ei /negbTE eb; rewrite ek eb in ei lc' *.
by rewrite (ip_inj lc' lc ei).
Qed.
Lemma presentE k c : c < tot k -> present pre k (ip k c) = (mkev k c true \in pre) && (mkev k c false \notin pre).
Proof. by move=> lc; rewrite /present enteredE // removedE. Qed.
Lemma present_lt k i : present pre k i -> exists2 c, c < tot k & i = ip k c.
Proof.
move=> /andP[/hasP[e ep /andP[_ /andP[/eqP ek /eqP ei]]] _]; have /memL[k' [c' [b [lc' ee]]]] := sub ep.
by move: ek ei; rewrite ee /= => <- <-; exists c'.
Qed.
End Sub.

Lemma sub_evs pre post : evs = pre ++ post -> {subset pre <= evL}.
Proof. by move=> E x xp; rewrite -(perm_mem PE) E mem_cat xp. Qed.

Lemma faceV k a c : a < tot k -> c < tot k.+1 -> entry (bmx C2 k.+1) a c != 0%R -> inside (vv k.+1 c) (vv k a).
Proof. by move=> la lc; rewrite (entry2 CW FO) //; case: ifP => // _; rewrite eqxx. Qed.
Lemma vv_le k c : c < tot k -> ((vv k c).1 <= (vv k c).2)%O.
Proof. by move=> lc; have [i [m [li lm _ _ ->]]] := splitE FO lc; exact: (iv_le FO li lm). Qed.
Lemma mkevL k c b : c < tot k -> mkev k c b \in evL.
Proof. by move=> lc; apply/memL; exists k, c, b. Qed.

Theorem evs_ok : zigzag_ok D evs.
Proof.
move=> pre e post E; have sub := sub_evs E.
have eL : e \in evL by rewrite -(perm_mem PE) E mem_cat mem_head orbT.
have /memL[k [c [b [lc ee]]]] := eL; rewrite /event_ok ee; cbv zeta; cbn [z_dim z_ind z_entry mkev].
have sz : size D = size C by case: RO; rewrite size_mkseq.
rewrite sz ncellD ip_lt // (tot_lt lc); split=> //; rewrite ee in E.
have pre_f := in_pre E; have npre_f := notin_pre E; have enp := e_notin E.
case: b {ee} E pre_f npre_f enp => E pre_f npre_f enp.
  split; first by rewrite (enteredE sub).
  move=> k' i' ek; rewrite ek in lc enp E pre_f npre_f *; move=> n0; have [li lq] := entryD_lt n0; rewrite entryD // pm_ip // in n0.
  have la := pm_lt li; have /andP[i1 i2] := faceV la lc n0.
  rewrite -(ip_pm li) (presentE sub) //; apply/andP; split.
    apply: pre_f; first exact: mkevL.
    move: i1; rewrite le_eqVlt => /orP[/eqP e1|lt]; [exact: H1|exact: H5].
  apply: npre_f; apply: H3' => //=; exact: le_trans (vv_le lc) i2.
split.
- rewrite (presentE sub) // enp andbT; apply: pre_f; first exact: mkevL.
  by apply: H3' => //=; apply: vv_le.
- move=> j n0; have [li lq] := entryD_lt n0; rewrite entryD // pm_ip // in n0; have lc' := pm_lt lq.
  have /andP[i1 i2] := faceV lc lc' n0; rewrite -(ip_pm lq) (presentE sub) // negb_and negbK; apply/orP; right.
  apply: pre_f; first exact: mkevL.
  move: i2; rewrite le_eqVlt => /orP[/eqP e1|lt]; [exact: H2|exact: H5].
- move=> j pj; have [c' lc' ej] := present_lt sub pj; rewrite leqNgt; apply/negP => lt; rewrite ej in lt pj.
  move: pj; rewrite (presentE sub) // => /andP[_ /negP]; apply; apply: pre_f; first exact: mkevL.
  exact: H4.
Qed.

(** ** back to the original cells *)
Notation ci := (ci val).
Notation nn := (nn val).
Definition phi k p := ci k (pm k p).
Definition orig (e : event) : event := RFV (z_dim e) (ci (z_dim e) (z_cind e)) (z_cind e) (z_val e) (z_entry e).

Lemma ci_lt k c : c < tot k -> ci k c < nn k.
Proof. by move=> lc; have [i [m [li lm _ -> _]]] := splitE FO lc. Qed.
Lemma phi_lt k p : p < ncell D k -> phi k p < ncell C k.
Proof. by rewrite ncellD -(nnE FO) => lp; apply: ci_lt; apply: pm_lt. Qed.
Lemma sum_pm (f : nat -> F) k : k < size C -> (\sum_(p < tot k) f (pm k p) = \sum_(b < tot k) f b)%R.
Proof.
move=> lk; have [P s] := pk_ok lk; rewrite -(big_mkord xpredT f) -(big_mkord xpredT (fun p => f (pm k p))).
rewrite -{1}s -(big_nth 0 xpredT f); apply: perm_big; by rewrite /index_iota subn0 -s.
Qed.
Lemma Phi_mapD k : (bd1 C k *m Phi C D phi k.+1 = Phi C D phi k *m bd1 D k)%R.
Proof.
apply/matrixP => i q; rewrite !mxE.
have lq : q < tot k.+1 by rewrite -ncellD.
have [j [m [lj lm ec ej _]]] := splitE FO (pm_lt lq).
have lk := tot_lt lq.
transitivity (EC C k.+1 i j).
  have lj' : j < ncell C k.+1 by rewrite -(nnE FO).
  rewrite (bigD1 (Ordinal lj')) //= big1 => [|j' ne]; rewrite !mxE /phi ej; last first.
    by rewrite eq_sym [_ == _](negbTE ne) mulr0.
  by rewrite eqxx mulr1 addr0.
transitivity (\sum_(b < tot k) (ci k b == i)%:R * entry (bmx C2 k.+1) b (copy_no val k.+1 j m))%R.
  rewrite (sum_sel CW FO (fun b => (ci k b == i)%:R)%R lj lm).
  have li' : i < nn k by rewrite (nnE FO).
  rewrite (bigD1 (Ordinal li')) // big1 /= => [|i' ne].
    rewrite addr0; case: (eqVneq (EC C k.+1 i j) 0%R) => [->|n0]; first by rewrite mulr0.
    by have [s1 s2] := selP CW FO lj n0 lm; rewrite /P_ZF4.ci cil_copy // eqxx mul1r.
  case: (eqVneq (EC C k.+1 i' j) 0%R) => [->|n0]; first by rewrite mulr0.
  by have [s1 s2] := selP CW FO lj n0 lm; rewrite /P_ZF4.ci cil_copy //; move: ne; rewrite -val_eqE /= => /negbTE ->; rewrite mul0r.
rewrite -(sum_pm (fun b => ((ci k b == i)%:R * entry (bmx C2 k.+1) b (copy_no val k.+1 j m))%R) (ltnW lk)) -ncellD.
apply: eq_bigr => p _; rewrite !mxE /phi -ec -/(entry (bmx D k.+1) p q) entryD //; by rewrite -ncellD.
Qed.
Lemma cycS (E : seq (cmat F)) k (z : 'cV[F]_(ncell E k.+1)) : chain_wf E -> cycle z <-> (bd1 E k *m z = 0)%R.
Proof.
move=> EW; case: (ltnP k.+1 (size E)) => lk; last first.
  have e0 : ncell E k.+1 = 0 by rewrite /ncell /bmx nth_default.
  have h n (M : 'M[F]_(n, ncell E k.+1)) : (M *m z = 0)%R.
    by apply/matrixP => i j; rewrite !mxE big1 // => x; have := ltn_ord x; rewrite {2}e0.
  by split=> _; apply: h.
case: EW => _ _ /(_ k lk)[er _]; rewrite /cycle; split=> /matrixP h; apply/matrixP => i j.
  have li : i < nrow (bmx E k.+1) by rewrite er.
  have := h (Ordinal li) j; rewrite !mxE => e; rewrite -[RHS]e; by apply: eq_bigr => x _; rewrite !mxE.
have li : i < ncell E k by rewrite /ncell -er.
have := h (Ordinal li) j; rewrite !mxE => e; rewrite -[RHS]e; by apply: eq_bigr => x _; rewrite !mxE.
Qed.
Lemma cyc0 (E : seq (cmat F)) (z : 'cV[F]_(ncell E 0)) : no_bd0 E -> cycle z.
Proof. by move=> h; apply/matrixP => i j; rewrite !mxE big1 // => x _; rewrite !mxE [coef _ _](h i x) ?mul0r. Qed.
Lemma no_bd0D : no_bd0 D.
Proof.
move=> i j; rewrite ncellD => lj; have lk := tot_lt lj; have [sz h] := RO; have [|er ec h'] := h 0; first by rewrite size_mkseq.
case: (ltnP i (nrow (bmx D 0))) => li; last first.
  by have /andP[_ W] := chain_wf_nth 0 DW; rewrite /entry (coef_ge (m := nrow (bmx D 0))) //; have /and3P[] := nth_wf j W.
rewrite /entry h' -?er //; last by rewrite -[ncol _]/(ncell C2 0) (ncell2 FO).
exact: (entry20 CW FO nb0 i (pm_lt lj)).
Qed.
Lemma Phi_cycD k (z : 'cV[F]_(ncell D k)) : cycle z -> cycle (Phi C D phi k *m z)%R.
Proof.
case: k z => [|k] z; first by move=> _; exact: cyc0.
by rewrite !cycS // => h; rewrite mulmxA Phi_mapD -mulmxA h mulmx0.
Qed.

Section Time.
Variables (pre post : seq event).
Hypothesis E : evs = pre ++ post.
Let sub := sub_evs E.
Lemma down f g : f \in evL -> g \in pre -> cmp f g -> f \in pre.
Proof.
move=> fL /path.splitPr gp; case: _ / gp E => p1 p2; rewrite -catA cat_cons => E' cf.
by rewrite mem_cat (in_pre E').
Qed.
Definition here k c := (mkev k c true \in pre) && (mkev k c false \notin pre).
Lemma hereD k p : p < tot k -> present pre k p = here k (pm k p).
Proof. by move=> lp; rewrite -{1}(ip_pm lp) (presentE sub) // pm_lt. Qed.
Lemma here_face k a c : a < tot k -> c < tot k.+1 -> entry (bmx C2 k.+1) a c != 0%R -> here k.+1 c -> here k a.
Proof.
move=> la lc n0 /andP[h1 h2]; have /andP[i1 i2] := faceV la lc n0; apply/andP; split.
  apply: down h1 _; first exact: mkevL.
  move: i1; rewrite le_eqVlt => /orP[/eqP e1|lt]; [exact: H1|exact: H5].
apply: contra h2 => h; apply: down h _; first exact: mkevL.
move: i2; rewrite le_eqVlt => /orP[/eqP e1|lt]; [exact: H2|exact: H5].
Qed.
Lemma here_inj k c c' : c < tot k -> c' < tot k -> here k c -> here k c' -> ci k c = ci k c' -> c = c'.
Proof.
have W i m m' : i < nn k -> m' < size (ivs val k i) -> m < m' -> here k (copy_no val k i m) -> here k (copy_no val k i m') -> False.
  move=> li lm' lt /andP[_ h2] /andP[h1 _]; case/negP: h2; apply: down h1 _.
    by apply: mkevL; apply: copy_lt => //; apply: ltn_trans lm'.
  apply: H5; rewrite /= /P_ZF4.vv !vl_copy //; last by apply: ltn_trans lm'.
  exact: (iv_lt FO).
move=> lc lc'; have [i [m [li lm -> -> _]]] := splitE FO lc; have [i' [m' [li' lm' -> -> _]]] := splitE FO lc'.
move=> h h' ei; rewrite -ei in lm' h' *; case: (ltngtP m m') => [lt|lt|-> //]; exfalso.
- exact: (W i m m').
- exact: (W i m' m).
Qed.
Lemma aliveE k i : alive [seq orig e | e <- pre] k i <-> exists2 c, c < tot k & ci k c = i /\ here k c.
Proof.
split.
  rewrite /alive has_map => /hasP[e ep /and3P[/= en /andP[/= /eqP ek /eqP ei]]].
  have /memL[k' [c [b [lc ee]]]] := sub ep; move: ek ei en ep; rewrite ee /= => ek; rewrite ek in lc * => ei eb; rewrite eb => ep.
  rewrite has_map => /hasPn h; exists c => //; split=> //; rewrite /here ep /=; apply/negP => fp.
  by have := h _ fp; rewrite /= !eqxx.
move=> [c lc [ei /andP[h1 h2]]]; rewrite /alive has_map; apply/hasP; exists (mkev k c true) => //=.
rewrite /at_cell /= ei !eqxx /= has_map; apply/hasPn => f fp /=; apply/negP => /and3P[nf /eqP fk /eqP fc].
have /memL[k' [c' [b [lc' ee]]]] := sub fp; move: nf fk fc fp; rewrite ee /= => /negbTE -> -> -> fp.
by rewrite fp in h2.
Qed.
Lemma subcomplex k i j : entry (bmx C k.+1) i j != 0%R -> alive [seq orig e | e <- pre] k.+1 j -> alive [seq orig e | e <- pre] k i.
Proof.
move=> n0 /aliveE[c lc [ec h]]; apply/aliveE; have [j' [m [lj lm eC ec' ev]]] := splitE FO lc.
rewrite ec in ec'; rewrite -ec' in lj lm eC ev; have [s1 s2] := selP CW FO lj n0 lm; have li := face_lt CW FO lj n0.
have la := copy_lt li s1; exists (copy_no val k i (sel a0 val k j m i)) => //; split; first exact: cil_copy.
apply: (here_face la lc) h; rewrite (entry2 CW FO) // ev /P_ZF4.vv vl_copy // s2 ec /P_ZF4.ci cil_copy //.
Qed.
Lemma cyc_PhiD k (z : 'cV[F]_(ncell D k)) : chain_in (present pre) z -> cycle (Phi C D phi k *m z)%R -> cycle z.
Proof.
case: k z => [|k] z; first by move=> _ _; apply: cyc0; exact: no_bd0D.
move=> cz; rewrite !cycS // mulmxA Phi_mapD -mulmxA => h.
have cb : chain_in (present pre) (bd1 D k *m z)%R.
  apply: chain_bd cz => k' i j; rewrite ncellD => lj pj n0; have [li _] := entryD_lt n0; rewrite entryD // in n0.
  rewrite hereD // in pj; rewrite hereD //; exact: (here_face (pm_lt li) (pm_lt lj) n0).
apply: (@Phi_inj F C D phi (present pre) phi_lt _ k) => //.
- move=> k' p q; rewrite ncellD => lp lq; rewrite !hereD // => hp hq e.
  have := here_inj (pm_lt lp) (pm_lt lq) hp hq e; by move=> e2; rewrite -(ip_pm lp) e2 ip_pm.
- by move=> i; rewrite mxE eqxx.
- by rewrite h mulmx0.
Qed.
End Time.
Lemma transport k ps : zigzag_intervals D evs k ps ->
  zigzag_intervals_of C (fun t => alive (take t [seq orig e | e <- evs])) [seq orig e | e <- evs] k ps.
Proof.
apply: (@zigzag_transport F disp A C D phi).
- by rewrite size_map.
- by move=> e e' t lt; rewrite (nth_map e).
- exact: phi_lt.
- exact: Phi_mapD.
- exact: Phi_cycD.
move=> t _; have E := esym (cat_take_drop t evs); rewrite -map_take; cbv zeta; split.
- by move=> k' p; rewrite ncellD => lp; rewrite (hereD E) // => h; apply/(aliveE E); exists (pm k' p) => //; apply: pm_lt.
- move=> k' p q; rewrite ncellD => lp lq; rewrite !(hereD E) // => hp hq e.
  have := here_inj E (pm_lt lp) (pm_lt lq) hp hq e; by move=> e2; rewrite -(ip_pm lp) e2 ip_pm.
- move=> k' i _ /(aliveE E)[c lc [ec h]]; exists (ip k' c); rewrite ncellD ip_lt // (hereD E) ?ip_lt // /phi pm_ip //.
- move=> k' i j; rewrite ncellD => lj pj n0; have [li _] := entryD_lt n0; rewrite entryD // in n0.
  rewrite (hereD E) // in pj; rewrite (hereD E) //; exact: (here_face E (pm_lt li) (pm_lt lj) n0).
- exact: (cyc_PhiD E).
Qed.
Lemma ordered : time_ordered a0 val [seq orig e | e <- evs].
Proof.
split; last first.
  rewrite pairwise_map; apply: sub_pairwise PW => x y nc /=; case: ltgtP => //= h.
    by rewrite (H5 h) in nc.
  by apply/implyP => ey; apply: contraR nc => ex; apply: H3.
apply: (perm_trans (perm_map orig PE)); apply: uniq_perm.
- rewrite map_inj_in_uniq ?uniqL // => x y /memL[k [c [b [lc ->]]]] /memL[k' [c' [b' [lc' ->]]]] [-> _ -> _ ->] //.
- apply: uniq_flat; [exact: iota_uniq| |].
    move=> k _; apply: uniq_flat; [exact: iota_uniq| |].
      move=> i; rewrite mem_iota /= add0n => li; apply: uniq_flat; [exact: iota_uniq| |].
        by move=> m _; rewrite /= inE andbT; apply/negP => /eqP[].
      move=> m m' x; rewrite !mem_iota !add0n /= => lm lm'; rewrite !inE => h h'.
      have e : copy_no val k i m = copy_no val k i m' by case/orP: h h' => /eqP -> /orP[]/eqP[].
      by have [] := copy_inj li li lm lm' e.
    by move=> i i' x _ _ /flatten_mapP[m _ h] /flatten_mapP[m' _]; move: h; rewrite !inE => /orP[]/eqP -> /orP[]/eqP[].
  move=> k k' x _ _ /flatten_mapP[i _ /flatten_mapP[m _ h]] /flatten_mapP[i' _ /flatten_mapP[m' _]]; move: h.
  by rewrite !inE => /orP[]/eqP -> /orP[]/eqP[].
- move=> x; apply/mapP/flatten_mapP.
    move=> [e /memL[k [c [b [lc ->]]]] ->]; have [i [m [li lm ec ei ev]]] := splitE FO lc.
    exists k; first by rewrite mem_iota (szv FO); apply: (tot_lt lc).
    apply/flatten_mapP; exists i; first by rewrite mem_iota.
    apply/flatten_mapP; exists m; first by rewrite mem_iota.
    by rewrite /orig /= ei ev ec !inE; case: b; rewrite eqxx ?orbT.
  move=> [k _ /flatten_mapP[i li /flatten_mapP[m lm]]]; rewrite !mem_iota !add0n /= in li lm; rewrite !inE => h.
  have lc := copy_lt li lm; case/orP: h => /eqP ->.
    by exists (mkev k (copy_no val k i m) true); [exact: mkevL|rewrite /orig /= /P_ZF4.ci cil_copy // /P_ZF4.vv vl_copy].
  by exists (mkev k (copy_no val k i m) false); [exact: mkevL|rewrite /orig /= /P_ZF4.ci cil_copy // /P_ZF4.vv vl_copy].
Qed.
Lemma reports_orig vmax k p z : p.1 < size evs -> (if p.2 is Some e then e < size evs else true) ->
  reports vmax evs k p z -> reports vmax [seq orig e | e <- evs] k p z.
Proof.
move=> l1 l2 h e0; have := h e0; cbv zeta; rewrite (nth_map e0) //; case: (p.2) l2 => // e l2.
by rewrite (nth_map e0).
Qed.
End S.
