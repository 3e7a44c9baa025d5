(** PLEU, UELP, PUEL and the commutation relations. *)
From mathcomp Require Import all_ssreflect all_fingroup all_algebra zify.
From Verif Require Import Outcome P_Outcome RingTac M_SparseVec M_Perm M_ColMatrix S_Linalg P_SparseVec
  P_SparseVec2 P_Reduce P_Homology P_ColMatrix M_Fact S_Fact P_Fact1 P_Fact2 P_Den P_Fact3.
Set Implicit Arguments.
Unset Strict Implicit.
Unset Printing Implicit Defensive.
Import GRing.Theory.
Local Open Scope ring_scope.

Section S.
Variable F : fieldType.
Notation O := (ops_of F).
Notation svec := (svec F).
Notation cmat := (cmat F).

Lemma PLEU_ok m n (A : cmat) (M : 'M[F]_(m, n)) : den A M -> exists2 f, PLEU O A = Ok f & is_PLEU M f.
Proof.
move=> dA; rewrite /PLEU; have [At -> dAt] := den_transpose dA; cbn [obind].
have [f -> [L [E [U [P [[dL dE dU dP] eM [uL uU] pP sE]]]]]] := LEUP_ok dAt; cbn [obind].
have [E' -> dE'] := den_transpose dE; have [P' -> dP'] := den_transpose dP; cbn [obind].
have [U' -> dU'] := den_transpose dL; have [L' -> dL'] := den_transpose dU; cbn [obind].
eexists; first by []; exists P^T, U^T, E^T, L^T; split=> //.
- by rewrite -[M]trmxK eM !trmx_mul !mulmxA.
- by split; [apply/ulower_tr|apply/uupper_tr].
- exact: permmx_tr.
- exact: EU_tr.
Qed.

Lemma UELP_ok m n (A : cmat) (M : 'M[F]_(m, n)) : den A M -> exists2 f, UELP O A = Ok f & is_UELP M f.
Proof.
move=> dA; rewrite /UELP; have [At -> dAt] := den_J_conj dA; cbn [obind].
have [f -> [L [E [U [P [[dL dE dU dP] eM [uL uU] pP sE]]]]]] := LEUP_ok dAt; cbn [obind].
have [E' -> dE'] := den_J_conj dE; have [P' -> dP'] := den_J_conj dP; cbn [obind].
have [U' -> dU'] := den_J_conj dL; have [L' -> dL'] := den_J_conj dU; cbn [obind].
eexists; first by []; exists (revmx L), (revmx E), (revmx U), (revmx P); split=> //.
- by rewrite -[M]revmxK eM !revmxM.
- by split; [apply: ulower_rev|apply: uupper_rev].
- exact: permmx_rev.
- exact: EUhat_rev.
Qed.

Lemma PUEL_ok m n (A : cmat) (M : 'M[F]_(m, n)) : den A M -> exists2 f, PUEL O A = Ok f & is_PUEL M f.
Proof.
move=> dA; rewrite /PUEL; have [At -> dAt] := den_J_conj dA; cbn [obind].
have [Att -> dAtt] := den_transpose dAt; cbn [obind]; cbv zeta.
have [f -> [L [E [U [P [[dL dE dU dP] eM [uL uU] pP sE]]]]]] := LEUP_ok dAtt; cbn [obind].
have [E1 -> dE1] := den_transpose dE; cbn [obind]; have [E2 -> dE2] := den_J_conj dE1; cbn [obind].
have [P1 -> dP1] := den_transpose dP; cbn [obind]; have [P2 -> dP2] := den_J_conj dP1; cbn [obind].
have [U1 -> dU1] := den_transpose dU; cbn [obind]; have [U2 -> dU2] := den_J_conj dU1; cbn [obind].
have [L1 -> dL1] := den_transpose dL; cbn [obind]; have [L2 -> dL2] := den_J_conj dL1; cbn [obind].
eexists; first by []; exists (revmx P^T), (revmx U^T), (revmx E^T), (revmx L^T); split=> //.
- by rewrite -[M]revmxK -[revmx M]trmxK eM !trmx_mul !revmxM !mulmxA.
- by split; [apply: ulower_rev; apply/uupper_tr|apply: uupper_rev; apply/ulower_tr].
- by apply: permmx_rev; apply: permmx_tr.
- by apply: ELhat_rev; apply: EU_tr.
Qed.

(** the structure of a matrix of shape EL *)
Lemma EL_struct m n (A : cmat) (E : 'M[F]_(m, n)) : den A E -> shape_EL E ->
  exists pv av, let j := size pv in
   [/\ (j <= n)%N /\ size av = j, sorted ltn pv, all (fun r => (r < m)%N) pv, all (fun c => c != 0) av &
    (forall k, (k < j)%N -> nth [::] (cols A) k = [:: (nth 0%N pv k, nth 0 av k)]) /\
    (forall c, (j <= c)%N -> nth [::] (cols A) c = [::])].
Proof.
case: A => am an ac [/= /cm_wfP[/= s W] eA eA' MA] [[p1 p2] sh]; rewrite {}eA' in s; rewrite {}eA in W.
have en (r : 'I_m) (c : 'I_n) : E r c = coef (nth [::] ac c) r by rewrite -MA mxE.
have inc c q : q \in nth [::] ac c -> [/\ (c < n)%N, (q.1 < m)%N & coef (nth [::] ac c) q.1 != 0].
  move=> qin; have /and3P[S B N] := nth_wf c W; split; last 2 first.
  - exact: (allP B).
  - by rewrite (coef_neq0 q.1) ?map_f.
  by rewrite ltnNge; apply/negP => nc; move: qin; rewrite nth_default ?s.
have sing c : nth [::] ac c = [::] \/ exists q, nth [::] ac c = [:: q].
  case e: (nth [::] ac c) => [|q [|q' l]]; [by left|by right; exists q|].
  have qin : q \in nth [::] ac c by rewrite e mem_head.
  have q'in : q' \in nth [::] ac c by rewrite e inE mem_head orbT.
  have [cn qm nz] := inc _ _ qin; have [_ qm' nz'] := inc _ _ q'in.
  have := p2 (Ordinal qm) (Ordinal qm') (Ordinal cn); rewrite !en => /(_ nz nz') /(congr1 val) /= e0.
  by have /and3P[S _ _] := nth_wf c W; move: S; rewrite e sv_sorted_cons /= e0 ltnn.
pose j := find (fun c : svec => c == [::]) ac.
have jn : (j <= n)%N by rewrite -s find_size.
have lo k : (k < j)%N -> exists q, nth [::] ac k = [:: q].
  move=> kj; case: (sing k) => // e; have := before_find [::] kj; by rewrite e eqxx.
have hi c : (j <= c)%N -> nth [::] ac c = [::].
  move=> jc; case: (ltnP c n) => cn; last by rewrite nth_default ?s.
  case: (sing c) => // -[q e]; have hs : has (fun c : svec => c == [::]) ac by rewrite has_find s (leq_ltn_trans jc).
  have := nth_find [::] hs; rewrite -/j => /eqP ej.
  have cj : c != j by apply/eqP => e0; rewrite e0 ej in e.
  have lt : (j < c)%N by rewrite ltn_neqAle eq_sym cj.
  have [_ qm nz] : [/\ (c < n)%N, (q.1 < m)%N & coef (nth [::] ac c) q.1 != 0] by apply: inc; rewrite e mem_head.
  have := sh (Ordinal qm) (Ordinal (ltn_trans lt cn)) (Ordinal cn); rewrite en => /(_ nz lt) [i _].
  by rewrite en /= ej coef_nil eqxx.
pose hd k := head (0%N, 0 : F) (nth [::] ac k).
pose pv := [seq (hd k).1 | k <- iota 0 j]; pose av := [seq (hd k).2 | k <- iota 0 j].
have sp : size pv = j by rewrite size_map size_iota.
have sa : size av = j by rewrite size_map size_iota.
have np k : (k < j)%N -> nth 0%N pv k = (hd k).1 by move=> kj; rewrite (nth_map 0%N) ?size_iota // nth_iota.
have na k : (k < j)%N -> nth 0 av k = (hd k).2 by move=> kj; rewrite (nth_map 0%N) ?size_iota // nth_iota.
have hdE k : (k < j)%N -> nth [::] ac k = [:: hd k] by move=> kj; have [q e] := lo k kj; rewrite /hd e.
have hdin k : (k < j)%N -> [/\ (k < n)%N, ((hd k).1 < m)%N & coef (nth [::] ac k) (hd k).1 != 0].
  by move=> kj; apply: inc; rewrite hdE // mem_head.
exists pv, av; rewrite sp; split=> //.
- apply/(sortedP 0%N) => k; rewrite sp => kj; rewrite !np ?(ltnW kj) //.
  have [kn km nz] := hdin k.+1 kj; have [kn' km' nz'] := hdin k (ltnW kj).
  have := sh (Ordinal km) (Ordinal kn') (Ordinal kn); rewrite en => /(_ nz (ltnSn _)) [i lt nzi].
  have := p2 i (Ordinal km') (Ordinal kn') nzi; rewrite en => /(_ nz') /(congr1 val) /= e0.
  by rewrite -e0.
- apply/(all_nthP 0%N) => k; rewrite sp => kj; rewrite np //; by have [] := hdin k kj.
- apply/(all_nthP 0) => k; rewrite sa => kj; rewrite na //; have /and3P[_ _ N] := nth_wf k W.
  by apply: (allP N); rewrite hdE // mem_head.
- split=> // k kj; rewrite hdE // np // na //; by case: (hd k).
Qed.

Section Comm.
Variables (m n : nat) (pv : seq nat) (av : seq F).
Let j := size pv.
Hypothesis jn : (j <= n)%N.
Hypothesis sa : size av = j.
Hypothesis so : sorted ltn pv.
Hypothesis bm : all (fun r => (r < m)%N) pv.
Hypothesis an : all (fun c => c != 0) av.
Variable ac : seq svec.
Hypothesis sac : size ac = n.
Hypothesis Hlo : forall k, (k < j)%N -> nth [::] ac k = [:: (nth 0%N pv k, nth 0 av k)].
Hypothesis Hhi : forall c, (j <= c)%N -> nth [::] ac c = [::].

Let up : uniq pv. Proof. by apply: sorted_uniq so; [exact: ltn_trans | exact: ltnn]. Qed.
Let pvm k : (k < j)%N -> (nth 0%N pv k < m)%N.
Proof. by move=> kj; apply: (allP bm); rewrite mem_nth. Qed.

Lemma row_coeffs_ok : exists co, [/\ row_coeffs O (CMat m n ac) = Ok co, size co = m, all (fun c => c != 0) co &
  forall t, (t < j)%N -> nth 0 co (nth 0%N pv t) = nth 0 av t].
Proof.
rewrite /row_coeffs /=.
have [|k co kn [s1 a1 h1]|co e [h1 h2 h3]] := @ofold_iota_ind _
   (fun co k => do c <- oget ac k; if c is (i, v) :: _ then oset co i v else Ok co)
   (fun k co => [/\ size co = m, all (fun c => c != 0) co &
      forall t, (t < j)%N -> (t < k)%N -> nth 0 co (nth 0%N pv t) = nth 0 av t]) n (nseq m 1).
- by split=> //; [rewrite size_nseq | rewrite all_nseq oner_neq0 orbT].
- rewrite (oget_nth [::]) ?sac //; cbn [obind]; case: (ltnP k j) => kj; last first.
    rewrite Hhi //; exists co => //; split=> // t tj tk; apply: h1 => //; exact: leq_trans tj kj.
  rewrite Hlo // (oset_Ok 0) ?s1 ?pvm //; eexists; first by []; split.
  + by rewrite size_set_nth s1; apply/maxn_idPr; apply: pvm.
  + apply/(all_nthP 0) => t; rewrite size_set_nth s1 (maxn_idPr (pvm kj)) => tm; rewrite nth_set_nth /=.
    case: ifP => _; first by apply: (allP an); rewrite mem_nth ?sa.
    by apply: (allP a1); rewrite mem_nth ?s1.
  + move=> t tj; rewrite ltnS leq_eqVlt nth_set_nth /= nth_uniq //; case: eqP => [-> //|ne] /= tk; exact: h1.
by exists co; split=> // t tj; apply: h3 => //; apply: leq_trans jn.
Qed.

Let ix t := if (t < j)%N then Some (nth 0%N pv t) else None.
Let idx := [seq ix t | t <- iota 0 n].
Let idxE t : (t < n)%N -> oget idx t = Ok (ix t).
Proof. by move=> tn; rewrite (oget_nth None) ?size_map ?size_iota // (nth_map 0%N) ?size_iota // nth_iota. Qed.

Lemma idx_ok : omapm (fun k => do c <- oget ac k; Ok (pivot_ind c)) (iota 0 n) = Ok idx.
Proof.
apply: omapm_Ok_eq => k; rewrite mem_iota => /= kn; rewrite (oget_nth [::]) ?sac //; cbn [obind]; rewrite /ix.
by case: ltnP => kj; [rewrite Hlo|rewrite Hhi].
Qed.

Definition mapped (c : svec) : svec := [seq (nth 0%N pv p.1, p.2) | p <- c & (p.1 < j)%N].

Lemma commute_col_ok (c : svec) : sv_sorted c -> sv_below n c -> commute_col idx c = Ok (mapped c).
Proof.
elim: c => //= -[i v] c IH S /andP[im B]; rewrite idxE //; cbn [obind]; rewrite /ix.
rewrite /mapped /=; case: ltnP => ij; first by rewrite (IH (sv_sorted_tl S) B).
congr Ok; move: S; rewrite sv_sorted_cons => /andP[A _].
rewrite (eq_in_filter (a2 := pred0)) ?filter_pred0 // => q qin /=; apply/negbTE; rewrite -leqNgt.
by apply: leq_trans ij (ltnW _); apply: (allP A); apply: map_f.
Qed.

Lemma mapped_wf (c : svec) : sv_wf n c -> sv_wf m (mapped c).
Proof.
move=> /and3P[S B N]; apply/and3P; split.
- rewrite /sv_sorted /mapped -map_comp.
  have -> : [seq ((@fst nat F) \o (fun p => (nth 0%N pv p.1, p.2))) i | i <- c & (i.1 < j)%N] =
     [seq nth 0%N pv i | i <- [seq p.1 | p <- c & (p.1 < j)%N]] by rewrite -map_comp.
  rewrite sorted_map; have Sf : sorted ltn [seq p.1 | p <- c & (p.1 < j)%N] by apply: sv_sorted_filter.
  apply: (sub_in_sorted (P := fun i => (i < j)%N) (e := ltn)); last exact: Sf.
    by move=> a b aj bj ab; apply: (sorted_ltn_nth ltn_trans 0%N so); rewrite ?inE.
  by rewrite all_map; apply: filter_all.
- rewrite /sv_below all_map; apply/allP => p; rewrite mem_filter => /andP[pj _] /=; exact: pvm.
- by rewrite /sv_nonzero all_map; apply/allP => p; rewrite mem_filter => /andP[_ pin] /=; apply: (allP N).
Qed.

Lemma mapped_coef (c : svec) t : (t < j)%N -> coef (mapped c) (nth 0%N pv t) = coef c t.
Proof.
move=> tj; rewrite /coef big_map big_filter_cond big_mkcond [RHS]big_mkcond; apply: eq_bigr => p _ /=.
case: (ltnP p.1 j) => pj /=; first by rewrite nth_uniq.
by rewrite (gtn_eqF (leq_trans tj pj)).
Qed.
Lemma mapped_coef0 (c : svec) r : r \notin pv -> coef (mapped c) r = 0.
Proof.
move=> rp; apply: coef0_notin; apply/negP => /mapP[q /mapP[p]]; rewrite mem_filter => /andP[pj _] -> e.
by case/negP: rp; rewrite e /= mem_nth.
Qed.

Variable L : cmat.
Hypothesis sL : size (cols L) = n.
Hypothesis WL : all (sv_wf n) (cols L).

Lemma commute_loop_ok k l (Lt_ : seq svec) : (l <= j)%N -> (l + k)%N = n -> size Lt_ = m ->
  exists R, [/\ commute_loop idx L (iota l k) Lt_ = Ok R, size R = m,
    forall t, (l <= t < j)%N -> nth [::] R (nth 0%N pv t) = mapped (nth [::] (cols L) t) &
    forall r, r \notin drop l pv -> nth [::] R r = nth [::] Lt_ r].
Proof.
elim: k l Lt_ => [|k IH] l Lt_ lj lk sT.
  exists Lt_; split=> // t /andP[lt tj]; have := leq_trans tj jn; rewrite -lk addn0 ltnNge lt //.
cbn [iota commute_loop]; rewrite idxE; last by rewrite -lk -addSnnS leq_addr.
cbn [obind]; rewrite /ix; case: ltnP => lj'; last first.
  exists Lt_; split=> // t /andP[lt tj]; move: (leq_ltn_trans lt tj); rewrite ltnNge lj' //.
have ln : (l < n)%N by apply: leq_trans jn.
rewrite (oget_nth [::]) ?sL //; cbn [obind].
have /and3P[S B N] := nth_wf l WL; rewrite commute_col_ok //; cbn [obind].
rewrite (oset_Ok [::]) ?sT ?pvm //; cbn [obind].
have [||R [e s h1 h2]] := IH l.+1 (set_nth [::] Lt_ (nth 0%N pv l) (mapped (nth [::] (cols L) l))) lj'; first by rewrite addSnnS.
  by rewrite size_set_nth sT; apply/maxn_idPr; apply: pvm.
have ed : drop l pv = nth 0%N pv l :: drop l.+1 pv by apply: drop_nth.
exists R; split=> //.
- move=> t /andP[]; rewrite leq_eqVlt => /orP[/eqP <- tj|lt tj]; last by apply: h1; rewrite lt.
  rewrite h2 ?nth_setE ?eqxx //; have := drop_uniq l up; by rewrite ed /= => /andP[].
- move=> r; rewrite ed inE => /norP[ne rd]; by rewrite h2 // nth_setE (negPf ne).
Qed.

End Comm.

Lemma sv_scale_by_ok m (co : seq F) (c : svec) : size co = m -> all (fun x => x != 0) co -> sv_wf m c ->
  exists c', [/\ sv_scale_by O co c = Ok c', sv_wf m c' & forall r, coef c' r = coef c r * nth 0 co r].
Proof.
move=> s nz /and3P[S B N]; pose g (p : nat * F) := (p.1, p.2 * nth 0 co p.1); exists (map g c).
split.
- apply: omapm_Ok_eq => -[i v] qin /=; rewrite (oget_nth 0) // s; exact: (allP B _ qin).
- apply/and3P; split.
  + by rewrite /sv_sorted -map_comp; have -> : map (fst \o g) c = map fst c by apply: eq_map => -[].
  + by rewrite /sv_below all_map.
  + rewrite /sv_nonzero all_map; apply/allP => p pin /=; rewrite mulf_neq0 //; first exact: (allP N).
    by apply: (allP nz); rewrite mem_nth // s; apply: (allP B).
- move=> r; rewrite /coef big_map mulr_suml; apply: eq_bigr => p /= /eqP <- //.
Qed.

Lemma row_scale_ok m n (co : seq F) cs : size co = m -> all (fun x => x != 0) co -> size cs = n -> all (sv_wf m) cs ->
  exists cs', [/\ row_scale O co (CMat m n cs) = Ok (CMat m n cs'), size cs' = n, all (sv_wf m) cs' &
     forall k r, coef (nth [::] cs' k) r = coef (nth [::] cs k) r * nth 0 co r].
Proof.
move=> sc nz s W; rewrite /row_scale /=.
have [||cs' -> [s' W' H]] := @ofold_iota_ind _ (fun cs k => do c <- oget cs k; do c' <- sv_scale_by O co c; oset cs k c')
  (fun k cs' => [/\ size cs' = n, all (sv_wf m) cs' & forall t r,
      coef (nth [::] cs' t) r = coef (nth [::] cs t) r * (if (t < k)%N then nth 0 co r else 1)]) n cs.
- by split=> // t r; rewrite ltn0 mulr1.
- move=> k cs' kn [s' W' H]; rewrite (oget_nth [::]) ?s' //; cbn [obind].
  have [c' [-> wc hc]] := sv_scale_by_ok sc nz (nth_wf k W'); cbn [obind].
  rewrite (oset_Ok [::]) ?s' //; eexists; first by []; split.
  + by rewrite size_set_nth s'; apply/maxn_idPr.
  + by apply: set_nth_wf; rewrite ?s'.
  + move=> t r; rewrite nth_setE ltnS; case: (eqVneq t k) => [->|ne]; first by rewrite hc H ltnn mulr1 leqnn.
    by rewrite H ltn_neqAle ne.
exists cs'; split=> // k r; rewrite H; case: ltnP => // nk.
by rewrite nth_default ?s // coef_nil !mul0r.
Qed.

Lemma scale_inplace_wf m (b : F) (c : svec) : b != 0 -> sv_wf m c -> sv_wf m (scale_inplace O b c).
Proof.
move=> bn /and3P[S B N]; apply/and3P; split.
- by rewrite /sv_sorted -map_comp; have -> : map (fst \o (fun p : nat * F => (p.1, p.2 * b))) c = map fst c by apply: eq_map => -[].
- by rewrite /sv_below all_map.
- by rewrite /sv_nonzero all_map; apply/allP => p pin /=; rewrite mulf_neq0 //; apply: (allP N).
Qed.
Lemma coef_scale_inplace (b : F) (c : svec) r : coef (scale_inplace O b c) r = coef c r * b.
Proof. by rewrite /coef big_map mulr_suml. Qed.

Lemma col_inv_scale_ok m n (co : seq F) cs : size co = n -> all (fun x => x != 0) co -> size cs = n -> all (sv_wf m) cs ->
  exists cs', [/\ col_inv_scale O co (CMat m n cs) = Ok (CMat m n cs'), size cs' = n, all (sv_wf m) cs' &
     forall k r, coef (nth [::] cs' k) r = coef (nth [::] cs k) r / nth 0 co k].
Proof.
move=> sc nz s W; rewrite /col_inv_scale /=.
have nzk k : (k < n)%N -> nth 0 co k != 0 by move=> kn; apply: (allP nz); rewrite mem_nth ?sc.
have [||cs' -> [s' W' H]] := @ofold_iota_ind _ (fun cs k => do c <- oget cs k; do a <- oget co k; do b <- oinv O a;
                              oset cs k (scale_inplace O b c))
  (fun k cs' => [/\ size cs' = n, all (sv_wf m) cs' & forall t r,
      coef (nth [::] cs' t) r = coef (nth [::] cs t) r * (if (t < k)%N then (nth 0 co t)^-1 else 1)]) n cs.
- by split=> // t r; rewrite ltn0 mulr1.
- move=> k cs' kn [s' W' H]; rewrite (oget_nth [::]) ?s' //; cbn [obind]; rewrite (oget_nth 0) ?sc //; cbn [obind].
  rewrite /oinv /odiv is0E (negPf (nzk _ kn)); cbn [obind].
  rewrite (oset_Ok [::]) ?s' //; eexists; first by []; split.
  + by rewrite size_set_nth s'; apply/maxn_idPr.
  + apply: set_nth_wf => //; first by rewrite s'.
     apply: scale_inplace_wf; last exact: nth_wf.
    by rewrite /= mul1r invr_eq0 nzk.
  + move=> t r; rewrite nth_setE ltnS; case: (eqVneq t k) => [->|ne]; last by rewrite H ltn_neqAle ne.
    rewrite coef_scale_inplace H ltnn mulr1 leqnn.
    by rewrite /= mul1r.
exists cs'; split=> // k r; rewrite H; case: ltnP => // nk.
by rewrite nth_default ?s // coef_nil !mul0r.
Qed.

Lemma coef1 r (a : F) i : coef [:: (r, a)] i = if r == i then a else 0.
Proof. by rewrite /coef big_cons big_nil addr0. Qed.

Lemma EL_L_commute_ok m n (AE AL : cmat) (E : 'M[F]_(m, n)) (L : 'M[F]_n) :
  den AE E -> den AL L -> shape_EL E -> lower L ->
  exists AR R, [/\ EL_L_commute O AE AL = Ok AR, den AR (R : 'M_m), lower R,
    (diagn0 L -> diagn0 R) /\ (diag1 L -> diag1 R) & R *m E = E *m L].
Proof.
move=> dE dL sh lo; have [pv [av [[jn sa] so bm an [Hlo Hhi]]]] := EL_struct dE sh.
case: AE dE Hlo Hhi => am_ an_ ac [/= /cm_wfP[/= sac Wac] e1 e2 ME] Hlo Hhi; rewrite {}e2 in sac *; rewrite {}e1 in Wac *.
case: AL dL => lm_ ln_ lc [/= /cm_wfP[/= sl Wl] e1' e2' ML]; rewrite {}e2' in sl *; rewrite {}e1' in Wl *.
set j := size pv in jn sa Hlo Hhi.
have up : uniq pv by apply: sorted_uniq so; [exact: ltn_trans | exact: ltnn].
have pvm k : (k < j)%N -> (nth 0%N pv k < m)%N by move=> kj; apply: (allP bm); rewrite mem_nth.
have [co [eco sco nzc hco]] := row_coeffs_ok jn sa so bm an sac Hlo Hhi.
have W1 := cm_wf_identity F m; have s1 : size (cols (cm_identity O m)) = m by rewrite size_map size_iota.
have [R0 [eR sR h1 h2]] := @commute_loop_ok m n pv jn so bm (CMat n n lc) sl Wl n 0%N (cols (cm_identity O m))
   (leq0n _) (add0n n) s1.
have idc r k : (k < m)%N -> coef (nth [::] (cols (cm_identity O m)) k) r = (r == k)%:R.
  by move=> km; rewrite (nth_map 0%N) ?size_iota // nth_iota // coef_unit eq_sym.
have WR0 : all (sv_wf m) R0.
  apply/(all_nthP [::]) => r; rewrite sR => rm; case: (boolP (r \in pv)) => rp.
    rewrite -(nth_index 0%N rp) h1; last by rewrite index_mem.
    by apply: (@mapped_wf m n pv so bm); apply: nth_wf.
  rewrite h2 ?drop0 //; apply: nth_wf; by case/cm_wfP: W1.
have [R1 [e1 sR1 WR1 c1]] := row_scale_ok sco nzc sR WR0.
have [R2 [e2 sR2 WR2 c2]] := col_inv_scale_ok sco nzc sR1 WR1.
have cRp t u : (t < j)%N -> (u < j)%N -> coef (nth [::] R0 (nth 0%N pv t)) (nth 0%N pv u) = coef (nth [::] lc t) u.
  by move=> tj uj; rewrite h1 // mapped_coef.
have cR0 t r : (t < j)%N -> r \notin pv -> coef (nth [::] R0 (nth 0%N pv t)) r = 0.
  by move=> tj rp; rewrite h1 // mapped_coef0.
have cRn r k : (k < m)%N -> k \notin pv -> coef (nth [::] R0 k) r = (r == k)%:R.
  by move=> km kp; rewrite h2 ?drop0 // idc.
have pvP k : k \in pv -> exists2 t, (t < j)%N & k = nth 0%N pv t.
  by move=> kp; exists (index k pv); rewrite ?index_mem ?nth_index.
have conz r : (r < m)%N -> nth 0 co r != 0 by move=> rm; apply: (allP nzc); rewrite mem_nth ?sco.
have Lc t u : (t < n)%N -> (u < n)%N -> (u < t)%N -> coef (nth [::] lc t) u = 0.
  by move=> tn un ut; have := lo (Ordinal un) (Ordinal tn) ut; rewrite -ML mxE.
have pvlt u t : (u < j)%N -> (t < j)%N -> (nth 0%N pv u < nth 0%N pv t)%N = (u < t)%N.
  move=> uj tj; apply/idP/idP => lt; last by apply: (sorted_ltn_nth ltn_trans 0%N so); rewrite ?inE.
  rewrite ltnNge leq_eqVlt; apply/negP => /orP[/eqP e|lt']; first by rewrite e ltnn in lt.
  have := sorted_ltn_nth ltn_trans 0%N so; move/(_ t u tj uj lt') => lt2.
  by have := ltn_trans lt lt2; rewrite ltnn.
have dg (k : 'I_m) : mxc m m R2 k k = 1 \/ exists t : 'I_n, mxc m m R2 k k = L t t.
  rewrite mxE c2 c1 mulfK ?conz //; case: (boolP (val k \in pv)) => [/pvP[t tj e]|kp].
    by right; exists (Ordinal (leq_trans tj jn)); rewrite e cRp // -ML mxE.
  by left; rewrite cRn // eqxx.
exists (CMat m m R2), (mxc m m R2); split.
- rewrite /EL_L_commute eco; cbn [obind]; rewrite (idx_ok sac Hlo Hhi); cbn [obind].
  by rewrite eR; cbn [obind]; rewrite e1.
- exact: den_mk.
- move=> r k rk; rewrite mxE c2 c1; case: (boolP (val k \in pv)) => [/pvP[t tj ek]|kp]; last first.
    by rewrite cRn // (ltn_eqF rk) !mul0r.
  rewrite {1}ek; case: (boolP (val r \in pv)) => [/pvP[u uj er]|rp]; last by rewrite cR0 // !mul0r.
  rewrite {1}er cRp // Lc ?mul0r // ?(leq_trans tj jn) ?(leq_trans uj jn) //; by rewrite -pvlt // -er -ek.
- split=> H k; case: (dg k) => [->|[t ->]]; rewrite ?oner_neq0 //; exact: H.
- apply/matrixP => r t; rewrite !mxE; case: (ltnP t j) => tj; last first.
    rewrite !big1 // => k _; rewrite -ME -?ML !mxE; last by rewrite Hhi // coef_nil mulr0.
    case: (ltnP k j) => kj; last by rewrite Hhi // coef_nil mul0r.
    by rewrite [coef (nth [::] lc _) _]Lc ?mulr0 //; apply: leq_trans tj.
  rewrite (bigD1 (Ordinal (pvm _ tj))) //= [X in _ + X]big1 ?addr0; last first.
    move=> k kn; rewrite -ME !mxE Hlo // coef1; case: eqP => e; rewrite ?mulr0 //.
    by case/eqP: kn; apply: val_inj; rewrite /= e.
  rewrite -ME !mxE Hlo // coef1 eqxx c2 c1 /= hco // mulfVK; last first.
    by apply: (allP an); rewrite mem_nth ?sa.
  case: (boolP (val r \in pv)) => [/pvP[u uj er]|rp]; last first.
    rewrite cR0 // mul0r big1 // => k _; rewrite !mxE; case: (ltnP k j) => kj; last by rewrite Hhi // coef_nil mul0r.
    rewrite Hlo // coef1; case: eqP => e; rewrite ?mul0r //; by case/negP: rp; rewrite /= -e mem_nth.
  rewrite er cRp // hco // (bigD1 (Ordinal (leq_trans uj jn))) //= big1 ?addr0.
    by rewrite -ML !mxE /= er Hlo // coef1 eqxx mulrC.
  move=> k kn; rewrite !mxE; case: (ltnP k j) => kj; last by rewrite Hhi // coef_nil mul0r.
  rewrite Hlo // coef1 er nth_uniq //; case: eqP => e; rewrite ?mul0r //.
  by case/eqP: kn; apply: val_inj; rewrite /= e.
Qed.

End S.
