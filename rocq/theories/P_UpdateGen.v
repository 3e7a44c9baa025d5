(** update_basis_general: the single-dimension steps. *)
From mathcomp Require Import all_ssreflect all_fingroup all_algebra zify.
From Verif Require Import Outcome P_Outcome RingTac M_SparseVec M_Perm M_ColMatrix M_Reduce M_Homology M_UpdateGen
  S_Linalg S_Homology S_UpdateGen P_SparseVec P_Pairing P_Reduce S_Perm P_Perm P_PermMx P_Homology P_Betti P_Update P_Insert P_Util.
Set Implicit Arguments.
Unset Strict Implicit.
Unset Printing Implicit Defensive.
Import GRing.Theory.
Local Open Scope ring_scope.

Section H.
Variable F : fieldType.
Notation O := (ops_of F).
Notation svec := (svec F).
Notation cmat := (cmat F).
Notation p2c_t := (seq (option nat)).
Notation m0 := (CMat 0 0 [::]).

(** steps 2.1 and 2.2 *)
Lemma general_upperE m n (A : 'M[F]_(m, n)) (U R : cmat) : cm_wf U -> cm_wf R ->
  nrow U = n -> ncol U = n -> nrow R = m -> ncol R = n ->
  mxc n n (cols U) \in unitmx -> mxc m n (cols R) = A *m mxc n n (cols U) ->
  exists Uc Rc, [/\ general_upper O U R = Ok (CMat n n Uc, CMat m n Rc), cm_wf (CMat n n Uc), cm_wf (CMat m n Rc),
    mxc m n Rc = A *m mxc n n Uc & upper (mxc n n Uc) /\ diagn0 (mxc n n Uc)].
Proof.
move=> WU WR nU cU nR cR un ER.
rewrite /general_upper.
have En : ncol U = ncol R by rewrite cU cR.
have [U1 [R1 [p1 [-> I1]]]] := reduce_standardU_rinv WU WR En.
cbn [obind]; rewrite nU cU nR cR in I1 *.
have red1 := rinv_reduced I1.
case: I1 => [[sU1 sR1 sp1]] WU1 WR1 [V1 [u1 d1 EU1 ER1]] Hp1.
have un1 : mxc n n U1 \in unitmx.
  by rewrite EU1 unitmx_mul un /= upper_unit // ; apply: diag1_n0.
have low1 := reduced_unit_low red1 un1.
pose st1 := (CMat n n U1, CMat m n R1, p1).
have [||[[U2 R2] p2] E2 S2] := ofold_iota_ind (P := fun j (st : cmat * cmat * p2c_t) =>
    sinv A j st.1.1 st.1.2 st.2) (n := n) (a := st1) (g := @sort_step F).
- have HL i : (i < n)%N -> exists k, [/\ (k < n)%N, nth None p1 i = Some k &
                      last_ind (nth [::] U1 k) = Some i].
    move=> li; have [k Lk] := low1 (Ordinal li); exists k.
    have LL : last_ind (nth [::] U1 k) = Some (i : nat).
      by apply/(last_ind_low (Ordinal li) (j := k)) => //; apply: nth_wf.
    by split=> //; apply/Hp1.
  split=> //=.
  + by split=> //; rewrite /cm_wf /= sU1 eqxx.
  + by split=> //; rewrite /cm_wf /= sR1 eqxx.
  + by rewrite ER1 ER -mulmxA EU1.
  + split=> // k kn.
    have nz : nzcol (mxc n n U1) (Ordinal kn).
      apply: contraT => /nzcolN Z.
      have : mxc n n U1 *m delta_mx (Ordinal kn) (0 : 'I_1) = 0.
        by rewrite -colE; apply/colP => i; rewrite mxE Z mxE.
      move/(congr1 (mulmx (invmx (mxc n n U1)))).
      rewrite mulKmx // mulmx0 => /matrixP/(_ (Ordinal kn) 0); rewrite !mxE !eqxx /= => /eqP.
      by rewrite oner_eq0.
    move/nzcolP: nz => [i Li]; exists i.
    have LL : last_ind (nth [::] U1 k) = Some (i : nat).
      by apply/(last_ind_low i (j := Ordinal kn)) => //; apply: nth_wf.
    by split=> //; apply/Hp1.
- by move=> j [[U' R'] p'] jn S; apply: sort_stepE.
rewrite E2; cbn [obind]; case: S2 => /= [[nU2 cU2 WU2] [nR2 cR2 WR2] ER2 [sp2 Hi2 Hk2] Hj2].
exists (cols U2), (cols R2).
have e1 : CMat n n (cols U2) = U2 by rewrite -{1}nU2 -cU2; case: (U2).
have e2 : CMat m n (cols R2) = R2 by rewrite -nR2 -cR2; case: (R2).
rewrite e1 e2; split=> //.
have low2 (j : 'I_n) : is_low (mxc n n (cols U2)) j j.
  apply/last_ind_low; first by have /andP[_ +] := WU2; rewrite nU2; apply: nth_wf.
  by have [k [_ +]] := Hi2 j (ltn_ord j); rewrite Hj2 // => -[<-].
by split=> [i j ji|j]; case: (low2 j) => // _ ->.
Qed.

(** steps 2.3 and 2.4 *)
Lemma general_eraseE m n (del delp : seq nat) (Uc Rc : seq svec) : size Uc = n -> size Rc = n -> (size del <= n)%N ->
  general_erase del delp (CMat n n Uc) (CMat m n Rc) =
  Ok (CMat (n - size del) (n - size del) (take (n - size del) Uc), CMat (m - size delp) (n - size del) (take (n - size del) Rc)).
Proof.
move=> sU sR ld; rewrite /general_erase.
have [||[U R] -> [/= -> ->]] := ofold_iota_ind (P := fun d (st : cmat * cmat) =>
    st.1 = CMat (n - d) (n - d) (take (n - d) Uc) /\ st.2 = CMat m (n - d) (take (n - d) Rc)) (n := size del) (a := (CMat n n Uc, CMat m n Rc))
  (g := fun (st : cmat * cmat) (_ : nat) => do U1 <- erase_last_column st.1; do R1 <- erase_last_column st.2; Ok (erase_row_unsafe U1, R1)).
- by rewrite subn0 /=; split; congr CMat; rewrite -?sU ?take_size // sU -sR take_size.
- move=> d [U R] ld' [/= -> ->]; rewrite /erase_last_column /=.
  have L : (n - d = (n - d.+1).+1)%N by move: ld ld'; clear; lia.
  have [su sr] : size (take (n - d) Uc) = (n - d.+1).+1 /\ size (take (n - d) Rc) = (n - d.+1).+1.
    by rewrite !size_take sU sR -L; case: ltnP => //; move: L; clear; lia.
  case eU: (take (n - d) Uc) su => [//|u us] su; case eR: (take (n - d) Rc) sr => [//|r rs] sr; cbn [obind].
  eexists; first by []; rewrite /erase_row_unsafe su sr -eU -eR /= !take_take L // subn1.
  by [].
cbn [obind] => /=; congr (Ok (_, _)).
elim: (size delp) => [|e IH]; first by rewrite /= subn0.
rewrite iterS IH /erase_row_unsafe /=; congr CMat; lia.
Qed.

(** splitting a sum over the new cells into kept cells and added cells *)
Lemma big_up (add : seq nat) n (f : nat -> F) : subset_list add (n + size add) ->
  \sum_(x < n + size add) f x = \sum_(h < n) f (up add h) + \sum_(a <- add) f a.
Proof.
move=> S; have [so al] := S.
rewrite -(big_mkord xpredT f) -(big_mkord xpredT (fun h => f (up add h))) /index_iota !subn0.
rewrite -(big_map (up add) xpredT f) -big_cat; apply: perm_big; apply: uniq_perm; first exact: iota_uniq.
  rewrite cat_uniq (map_inj_uniq (@up_inj add)) iota_uniq (sorted_uniq ltn_trans ltnn so) andbT /=.
  by apply/hasPn => x xa; apply/negP => /mapP [h _ e]; have := up_notin h so; rewrite -e xa.
move=> x; rewrite mem_iota add0n mem_cat /=; apply/idP/orP.
  move=> lx; have [xa|[i li ->]] := up_cover S lx; [by right | left].
  by apply/mapP; exists i => //; rewrite mem_iota.
case=> [/mapP [h]|xa]; last exact: (allP al x xa).
by rewrite mem_iota add0n => lh ->; apply: up_lt.
Qed.

Lemma ones_wf (b : seq nat) m : subset_list b m -> sv_wf m [seq (x, 1 : F) | x <- b].
Proof.
move=> [so al]; apply/and3P; split.
- by rewrite /sv_sorted -map_comp map_id.
- by rewrite /sv_below all_map.
- by rewrite /sv_nonzero all_map; apply/allP => x _ /=; rewrite oner_eq0.
Qed.

Lemma coef_ones (b : seq nat) i : uniq b -> coef [seq (x, 1 : F) | x <- b] i = (i \in b)%:R.
Proof.
elim: b => [|a b IH]; first by rewrite coef_nil.
rewrite cons_uniq => /andP [na ub]; rewrite map_cons coef_cons IH // inE /= eq_sym.
by case: eqP => [->|_]; rewrite ?(negbTE na) ?addr0 ?add0r.
Qed.

(** a matrix without nonzero entry has only empty columns *)
Lemma wf_zero_cols (R : cmat) : cm_wf R -> (forall i j, entry R i j = 0) -> cols R = nseq (ncol R) [::].
Proof.
move=> /andP [/eqP s W] Z; apply: (@eq_from_nth _ [::]); first by rewrite size_nseq.
move=> j lj; rewrite nth_nseq -s lj.
have /and3P [so b nz] := allP W _ (mem_nth [::] lj).
case e : (nth [::] (cols R) j) so nz => [//|[i x] v] so /andP [/= nx _].
have := Z i j; rewrite /entry e coef_cons /= eqxx coef0_notin ?addr0; first by move=> x0; rewrite x0 eqxx in nx.
by move: so; rewrite /sv_sorted /= => /(order_path_min ltn_trans) /allP h; apply/negP => /h; rewrite ltnn.
Qed.

(** steps 2.6 and 2.7 in positive dimension *)
Lemma general_addE (add : seq nat) (bd : seq (seq nat)) m n (Uc Rc : seq svec) :
  cm_wf (CMat n n Uc) -> cm_wf (CMat m n Rc) -> upper (mxc n n Uc) -> diagn0 (mxc n n Uc) ->
  subset_list add (n + size add) -> size bd = size add -> (forall j, (j < size bd)%N -> subset_list (nth [::] bd j) m) ->
  let N := (n + size add)%N in
  exists Uc' Rc', [/\ general_add O true add bd (CMat n n Uc) (CMat m n Rc) = Ok (CMat N N Uc', CMat m N Rc'),
    cm_wf (CMat N N Uc') /\ cm_wf (CMat m N Rc'), upper (mxc N N Uc') /\ diagn0 (mxc N N Uc'),
    (forall j, (j < n)%N -> nth [::] Uc' (up add j) = shift_col add (nth [::] Uc j) /\ nth [::] Rc' (up add j) = nth [::] Rc j) &
    (forall j, (j < size add)%N -> nth [::] Uc' (nth 0%N add j) = sv_unit O (nth 0%N add j) /\
        nth [::] Rc' (nth 0%N add j) = [seq (x, 1 : F) | x <- nth [::] bd j])].
Proof.
move=> WU WR u d S sbd Hbd N; have [so al] := S; rewrite /general_add.
have /andP [/eqP /= sU aU] := WU; have /andP [/eqP /= sR aR] := WR.
have [-> /= WU1] := cm_insert_rowsE so WU; cbn [obind].
rewrite (omapm_Ok_eq (g := fun i => [seq (x, f1 O) | x <- nth [::] bd i])); last first.
  by move=> i; rewrite mem_iota add0n => /= li; rewrite (oget_nth [::]) ?sbd.
cbn [obind]; set Rn := map _ _.
have sRn : size add = size Rn by rewrite size_map size_iota.
have [Rc' [-> sR' R1 R2]] := @insert_columnsE _ add Rn (CMat m n Rc) sR sRn S; cbn [obind].
set Un := map (sv_unit O) add; have sUn : size add = size Un by rewrite size_map.
have sU1 : size (map (shift_col add) Uc) = n by rewrite size_map.
have [Uc' [-> sU' U1 U2]] := @insert_columnsE _ add Un (CMat (n + size add) n (map (shift_col add) Uc)) sU1 sUn S; cbn [obind].
exists Uc', Rc'.
have h1 j : (j < n)%N -> nth [::] Uc' (up add j) = shift_col add (nth [::] Uc j) /\ nth [::] Rc' (up add j) = nth [::] Rc j.
  by move=> lj; rewrite U1 //= R1 // (nth_map [::]) ?sU.
have h2 j : (j < size add)%N -> nth [::] Uc' (nth 0%N add j) = sv_unit O (nth 0%N add j) /\
        nth [::] Rc' (nth 0%N add j) = [seq (x, 1 : F) | x <- nth [::] bd j].
  by move=> lj; rewrite U2 // R2 // /Un /Rn (nth_map 0%N) // (nth_map 0%N) ?size_iota // nth_iota.
have cover x : (x < N)%N -> (exists2 j, (j < size add)%N & x = nth 0%N add j) \/ (exists2 j, (j < n)%N & x = up add j).
  move=> lx; have [xa|h] := up_cover S lx; [left|by right].
  by exists (index x add); rewrite ?index_mem // nth_index.
split=> //.
- split.
    rewrite /cm_wf /= sU' eqxx /=; apply/(all_nthP [::]) => x; rewrite sU' => lx.
    have [[j lj ->]|[j lj ->]] := cover x lx; last first.
      by have [-> _] := h1 j lj; apply: shift_wf; apply: nth_wf.
    have [-> _] := h2 j lj; rewrite /sv_wf /sv_sorted /sv_below /sv_nonzero /= oner_eq0 !andbT.
    by apply: (allP al); apply: mem_nth.
  rewrite /cm_wf /= sR' eqxx /=; apply/(all_nthP [::]) => x; rewrite sR' => lx.
  have [[j lj ->]|[j lj ->]] := cover x lx; last by have [_ ->] := h1 j lj; apply: nth_wf.
  by have [_ ->] := h2 j lj; apply: ones_wf; apply: Hbd; rewrite sbd.
- split=> [x y|y]; rewrite mxE.
    move=> yx; have [[j lj ey]|[j lj ey]] := cover y (ltn_ord y); rewrite ey.
      by have [-> _] := h2 j lj; rewrite coef_unit; case: eqP => // e; move: yx; rewrite ey e ltnn.
    have [-> _] := h1 j lj; have [xa|[i li ex]] := up_cover S (ltn_ord x); first by rewrite coef_shift_in.
    rewrite ex coef_shift; have ji : (j < i)%N.
      rewrite ltnNge; apply/negP; rewrite leq_eqVlt => /orP [/eqP e|/(up_mono add)]; first by move: yx; rewrite ex ey e ltnn.
      by rewrite -ex -ey; move: yx; clear; lia.
    by have := u (Ordinal li) (Ordinal lj) ji; rewrite mxE.
  have [[j lj ey]|[j lj ey]] := cover y (ltn_ord y); rewrite ey.
    by have [-> _] := h2 j lj; rewrite coef_unit eqxx oner_eq0.
  by have [-> _] := h1 j lj; rewrite coef_shift; have := d (Ordinal lj); rewrite mxE.
Qed.

(** reduction of a matrix with empty columns *)
Lemma reduce_empty m n (U : cmat) : ncol U = n ->
  reduce_standardU O (CMat m n (nseq n [::])) U = Ok (CMat m n (nseq n [::]), U, nseq m None).
Proof.
move=> cU; rewrite /reduce_standardU /= cU eqxx /=.
have [||st -> ->] := ofold_iota_ind (P := fun j st => st = (nseq n ([::] : svec), cols U, nseq m (None : option nat))) (n := n)
    (a := (nseq n ([::] : svec), cols U, nseq m (None : option nat)))
    (g := fun (st : seq svec * seq svec * p2c_t) j => red_colU O m.+2 st.1.1 st.1.2 st.2 j).
- by [].
- move=> j st lj ->; eexists; last by [].
  by rewrite /= (oget_nth [::]) ?size_nseq // nth_nseq if_same.
by cbn [obind]; case: (U) cU => a b c /= ->.
Qed.

(** one positive dimension: [a] is the boundary with deleted cells last and kept cells in the new order *)
Lemma step_pos m n (a : nat -> nat -> F) (U R B' : cmat) (del delp addp add : seq nat) (bd : seq (seq nat)) :
  cm_wf U -> cm_wf R -> nrow U = n -> ncol U = n -> nrow R = m -> ncol R = n ->
  mxc n n (cols U) \in unitmx -> mxc m n (cols R) = (\matrix_(i, j) a i j) *m mxc n n (cols U) ->
  cm_wf B' -> (size del <= n)%N -> (size delp <= m)%N ->
  (n - size del + size add)%N = ncol B' -> (m - size delp + size addp)%N = nrow B' ->
  subset_list add (ncol B') -> subset_list addp (nrow B') ->
  (forall i j, (i < m - size delp)%N -> (j < n - size del)%N -> entry B' (up addp i) (up add j) = a i j) ->
  (forall x j, x \in addp -> (j < n - size del)%N -> entry B' x (up add j) = 0) ->
  (forall i j, (m - size delp <= i < m)%N -> (j < n - size del)%N -> a i j = 0) ->
  size bd = size add ->
  (forall j, (j < size bd)%N -> subset_list (nth [::] bd j) (nrow B') /\
     forall i, entry B' i (nth 0%N add j) = (i \in nth [::] bd j)%:R) ->
  exists U1 R1 U2 R2 R3 U4 R4 R5 U5 p5,
    [/\ general_upper O U R = Ok (U1, R1), general_erase del delp U1 R1 = Ok (U2, R2),
        cm_insert_rows true addp R2 = Ok R3 /\ general_add O true add bd U2 R3 = Ok (U4, R4),
        reduce_standardU O R4 U4 = Ok (R5, U5, p5) & urec B' R5 U5 p5].
Proof.
move=> WU WR nU cU nR cR un ER WB ld ldp En Em Sadd Saddp hA hx h0 sbd Hbd.
have [Uc [Rc [EU WUc WRc ERc [u d]]]] := general_upperE WU WR nU cU nR cR un ER.
have /andP [/eqP /= sU aU] := WUc; have /andP [/eqP /= sR aR] := WRc.
have EE := @general_eraseE m n del delp Uc Rc sU sR ld.
move: En Em; set n' := (n - size del)%N in EE hA hx h0 *; set m' := (m - size delp)%N in EE hA h0 * => En Em.
have ln : (n' <= n)%N by rewrite /n'; clear; lia.
have lm : (m' <= m)%N by rewrite /m'; clear; lia.
have Sadd' : subset_list add (n' + size add) by rewrite En.
have [soa _] := Sadd; have [sop alp] := Saddp.
have cU' j i : (j < n')%N -> (n' <= i)%N -> coef (nth [::] Uc j) i = 0.
  move=> lj li; have [ii|ii] := ltnP i n.
    have jn : (j < n)%N by exact: leq_trans lj ln.
    have := u (Ordinal ii) (Ordinal jn); rewrite mxE; apply; exact: leq_trans lj li.
  by apply: (coef_ge (m := n)) => //; have /and3P [] := nth_wf j aU.
have eR i j : (i < m)%N -> (j < n')%N -> coef (nth [::] Rc j) i = \sum_(h < n') a i h * coef (nth [::] Uc j) h.
  move=> li lj; have jn : (j < n)%N by exact: leq_trans lj ln.
  have /matrixP /(_ (Ordinal li) (Ordinal jn)) := ERc; rewrite !mxE => -> /=.
  rewrite (eq_bigr (fun h : 'I_n => a i h * coef (nth [::] Uc j) h)); last by move=> h _; rewrite !mxE.
  rewrite (big_ord_widen n (fun h => a i h * coef (nth [::] Uc j) h) ln) big_mkcond [RHS]big_mkcond /=.
  rewrite [RHS]big_mkcond; apply: eq_bigr => h _; case: ifP => // /negbT; rewrite -leqNgt => hn.
  by rewrite cU' ?mulr0.
have wU2 : cm_wf (CMat n' n' (take n' Uc)).
  rewrite /cm_wf /= size_take sU; have -> : (if (n' < n)%N then n' else n) = n' by move: ln; clear; case: (ltnP n' n); lia.
  rewrite eqxx /=; apply/(all_nthP [::]) => j; rewrite size_take sU => lj0.
  have lj : (j < n')%N by move: lj0 ln; clear; case: (ltnP n' n); lia.
  rewrite nth_take //; have /and3P [so b nz] := nth_wf j aU; apply/and3P; split=> //.
  apply/allP => p pi /=; rewrite ltnNge; apply/negP => np; have := cU' j p.1 lj np.
  by rewrite (coef_in so pi) => e; move: (allP nz p pi); rewrite e eqxx.
have wR2 : cm_wf (CMat m' n' (take n' Rc)).
  rewrite /cm_wf /= size_take sR; have -> : (if (n' < n)%N then n' else n) = n' by move: ln; clear; case: (ltnP n' n); lia.
  rewrite eqxx /=; apply/(all_nthP [::]) => j; rewrite size_take sR => lj0.
  have lj : (j < n')%N by move: lj0 ln; clear; case: (ltnP n' n); lia.
  rewrite nth_take //; have /and3P [so b nz] := nth_wf j aR; apply/and3P; split=> //.
  apply/allP => p pi /=; rewrite ltnNge; apply/negP => np.
  have lp : (p.1 < m)%N by exact: (allP b p pi).
  have : coef (nth [::] Rc j) p.1 = 0.
    by rewrite eR // big1 // => h _; rewrite h0 ?mul0r // np lp.
  by rewrite (coef_in so pi) => e; move: (allP nz p pi); rewrite e eqxx.
have u' : upper (mxc n' n' (take n' Uc)).
  move=> i j ji; rewrite mxE nth_take //; have jn : (j < n)%N by exact: leq_trans (ltn_ord j) ln.
  have in' : (i < n)%N by exact: leq_trans (ltn_ord i) ln.
  by have := u (Ordinal in') (Ordinal jn) ji; rewrite mxE.
have d' : diagn0 (mxc n' n' (take n' Uc)).
  move=> j; rewrite mxE nth_take //; have jn : (j < n)%N by exact: leq_trans (ltn_ord j) ln.
  by have := d (Ordinal jn); rewrite mxE.
have [EI WI] := cm_insert_rowsE sop wR2; rewrite /= in EI WI.
rewrite -Em in Hbd Saddp.
have Hbd1 j : (j < size bd)%N -> subset_list (nth [::] bd j) (m' + size addp) by move=> /Hbd [].
have [Uc' [Rc' [EA [WU' WR'] [u4 d4] K1 K2]]] := general_addE wU2 WI u' d' Sadd' sbd Hbd1.
have [R5 [U5 [p5 [E5 I5 PG5]]]] := reduce_standardU_pgood WR' WU' erefl.
exists (CMat n n Uc), (CMat m n Rc), (CMat n' n' (take n' Uc)), (CMat m' n' (take n' Rc)); do 6 eexists.
split; [exact: EU|exact: EE|split; [exact: EI|exact: EA]|exact: E5|].
rewrite /= in I5 PG5 *.
set N := (n' + size add)%N in I5 PG5 u4 d4 WU' WR' EA E5 K1 K2 *; set M := (m' + size addp)%N in I5 PG5 WR' EA E5 *.
have key : mxc M N Rc' = mxc M N (cols B') *m mxc N N Uc'.
  apply/matrixP => i x; rewrite !mxE.
  rewrite (eq_bigr (fun h : 'I_N => entry B' i h * coef (nth [::] Uc' x) h)); last by move=> h _; rewrite !mxE.
  rewrite (big_up (fun h => entry B' i h * coef (nth [::] Uc' x) h) Sadd').
  have [xa|[j lj ex]] := up_cover Sadd' (ltn_ord x).
    have lx : (index (x : nat) add < size add)%N by rewrite index_mem.
    have ex : nth 0%N add (index (x : nat) add) = x by rewrite nth_index.
    have [k1 k2] := K2 _ lx; rewrite ex in k1 k2; rewrite k1 k2.
    rewrite big1 ?add0r; last first.
      move=> h _; rewrite coef_unit; case: eqP => [e|_]; last by rewrite mulr0.
      by have := up_notin h soa; rewrite -e xa.
    rewrite (bigD1_seq (x : nat)) //=; last exact: (sorted_uniq ltn_trans ltnn soa).
    rewrite coef_unit eqxx mulr1 big1 ?addr0; last first.
      by move=> y /negbTE ne; rewrite coef_unit eq_sym ne mulr0.
    have lb : (index (x : nat) add < size bd)%N by rewrite sbd.
    have [[sob _] e] := Hbd _ lb; rewrite ex in e; rewrite e coef_ones //.
    exact: (sorted_uniq ltn_trans ltnn sob).
  have [k1 k2] := K1 j lj; rewrite ex k1 k2.
  rewrite [X in _ + X]big1_seq ?addr0; last by move=> y /andP [_ ya]; rewrite coef_shift_in ?mulr0.
  rewrite (nth_map [::]) ?nth_take //; last by rewrite size_take sR; move: ln lj; clear; case: (ltnP n' n); lia.
  have [ia|[i' li' ei]] := up_cover (n := m') Saddp (ltn_ord i).
    by rewrite coef_shift_in // big1 // => h _; rewrite hx ?mul0r.
  rewrite ei coef_shift eR //; last exact: leq_trans li' lm.
  by apply: eq_bigr => h _; rewrite coef_shift hA.
have red5 := rinv_reduced I5.
case: I5 => [[sR5 sU5 sp5]] WR5 WU5 [V5 [u5 d5 ER5 EU5]] Hp5.
rewrite key in PG5 ER5.
have eB : mx B' = castmx (Em, En) (mxc M N (cols B')) by apply/matrixP => i j; rewrite castmxE !mxE.
rewrite /urec /grec /ubasis /mx -Em -En /=.
split.
  by split=> //=; exact: pgood_mul_upper u4 d4 PG5.
split=> //=; try by rewrite /cm_wf /= ?sU5 ?sR5 eqxx.
exists (mxc N N Uc' *m V5); split=> //.
- exact: upper_mul.
- by apply: diagn0_mul => //; apply: diag1_n0.
- by rewrite ER5 mulmxA.
Qed.

Lemma general_add0E W add n m (Uc Rc : seq svec) : general_add0 O W add (CMat n n Uc) (CMat m n Rc) =
  (CMat (n + size add) (n + size add) (Uc ++ [seq sv_unit O ((n + W - 1 + i) %% W) | i <- iota 0 (size add)]),
   CMat m (n + size add) (Rc ++ nseq (size add) [::])).
Proof.
rewrite /general_add0 /=; elim: (size add) => [|k IH]; first by rewrite /= !addn0 !cats0.
rewrite -[in iota 0 k.+1](addn1 k) iotaD foldl_cat {}IH /append_column /=.
rewrite map_cat addnS !rcons_cat -(cats1 (map _ _)); congr (_, CMat _ _ _).
by congr (_ ++ _); elim: k => //= k <-.
Qed.

Lemma grec_zero (B : cmat) : (forall i j, entry B i j = 0) -> grec B (CMat (nrow B) (ncol B) (nseq (ncol B) [::])) (nseq (nrow B) None).
Proof.
move=> Z; have Z' : mx B = 0 by apply/matrixP => i j; rewrite mxE [LHS](Z i j) mxE.
have np i j : is_pivot (mx B) i j = false.
  have L p q : lowerleft (mx B) p q = 0 by apply/matrixP => x y; rewrite Z' !mxE if_same.
  by rewrite /is_pivot /rll !L mxrank0.
split=> //; split; rewrite /= ?size_nseq //.
- by apply/allP => v; rewrite mem_nseq => /andP [_ /eqP ->].
- split; first by rewrite size_nseq.
  by move=> i li j; rewrite nth_nseq li np andbF.
- move=> j lj; rewrite nth_nseq lj eqxx; apply/esym/negP => /existsP [i].
  by rewrite np.
Qed.

(** dimension 0 *)
Lemma step_zero W n m (U R B' : cmat) (del add : seq nat) :
  cm_wf U -> cm_wf R -> nrow U = n -> ncol U = n -> nrow R = m -> ncol R = n ->
  mxc n n (cols U) \in unitmx -> (forall i j, entry R i j = 0) ->
  (size del <= n)%N -> (n - size del + size add)%N = ncol B' -> m = nrow B' -> (forall i j, entry B' i j = 0) ->
  exists U1 R1 U2 R2 U4 R4,
    [/\ general_upper O U R = Ok (U1, R1), general_erase del [::] U1 R1 = Ok (U2, R2),
        general_add0 O W add U2 R2 = (U4, R4), reduce_standardU O R4 U4 = Ok (R4, U4, nseq m None) &
        [/\ grec B' R4 (nseq m None), (add = [::] -> urec B' R4 U4 (nseq m None)) &
            (add <> [::] -> (ncol B' < W)%N -> [/\ nrow U4 = ncol B', ncol U4 = ncol B' & forall j, entry U4 (ncol B').-1 j = 0])]].
Proof.
move=> WU WR nU cU nR cR un Z ld En Em Z'.
have ER : mxc m n (cols R) = (0 : 'M_(m, n)) *m mxc n n (cols U).
  by rewrite mul0mx; apply/matrixP => i j; rewrite !mxE; exact: Z.
have [Uc [Rc [EU WUc WRc ERc [u d]]]] := general_upperE WU WR nU cU nR cR un ER.
have /andP [/eqP /= sU aU] := WUc; have /andP [/eqP /= sR aR] := WRc.
have EE := @general_eraseE m n del [::] Uc Rc sU sR ld.
have eRc : Rc = nseq n [::].
  apply: (wf_zero_cols WRc) => i j; rewrite /entry /=.
  have [li|li] := ltnP i m; last by apply: coef_ge li => //; have /and3P [] := nth_wf j aR.
  have [lj|lj] := ltnP j n; last by rewrite nth_default ?sR // coef_nil.
  by have /matrixP /(_ (Ordinal li) (Ordinal lj)) := ERc; rewrite mul0mx !mxE.
move: EE; rewrite subn0 => EE.
move: En; set n' := (n - size del)%N in EE * => En.
have ln : (n' <= n)%N by rewrite /n'; clear; lia.
have eR2 : take n' Rc = nseq n' [::].
  have tn p q : (q <= p)%N -> take q (nseq p ([::] : svec)) = nseq q [::].
    by elim: q p => [|q IH] [|p] // lq; rewrite /= IH.
  by rewrite eRc tn.
exists (CMat n n Uc), (CMat m n Rc), (CMat n' n' (take n' Uc)), (CMat m n' (take n' Rc)).
have EA := general_add0E W add n' m (take n' Uc) (take n' Rc).
move: EA; set U4 := (X in (X, _)); set R4 := (X in (_, X)) => EA.
have eR4 : R4 = CMat m (n' + size add) (nseq (n' + size add) [::]).
  have cn p q : nseq p ([::] : svec) ++ nseq q [::] = nseq (p + q) [::] by elim: p => //= p ->.
  by rewrite /R4 eR2 cn.
exists U4, R4; split=> //; first by rewrite eR4 reduce_empty.
have G : grec B' R4 (nseq m None) by rewrite eR4 En Em; exact: grec_zero.
split=> //.
  move=> a0; split=> //; rewrite /ubasis /mx -En a0 addn0.
  have w4 : cm_wf U4.
    rewrite /U4 a0 /= addn0 cats0 /cm_wf /= size_take sU; have -> : (if (n' < n)%N then n' else n) = n' by move: ln; clear; case: (ltnP n' n); lia.
    rewrite eqxx /=; apply/(all_nthP [::]) => j; rewrite size_take sU => lj0.
    have lj : (j < n')%N by move: lj0 ln; clear; case: (ltnP n' n); lia.
    rewrite nth_take //; have /and3P [so b nz] := nth_wf j aU; apply/and3P; split=> //.
    apply/allP => p pi /=; rewrite ltnNge; apply/negP => np.
    have lp : (p.1 < n)%N by exact: (allP b p pi).
    have jn : (j < n)%N by exact: leq_trans lj ln.
    have := u (Ordinal lp) (Ordinal jn) (leq_trans lj np); rewrite mxE /=.
    by rewrite (coef_in so pi) => e; move: (allP nz p pi); rewrite e eqxx.
  have eU4 : U4 = CMat n' n' (take n' Uc) by rewrite /U4 a0 /= addn0 cats0.
  have cR4 := congr1 (@cols F) eR4; rewrite /= in cR4.
  rewrite {1 2}eU4 /=; split=> //.
    rewrite eR4 /cm_wf /= size_nseq eqxx /=; apply/allP => v; by rewrite mem_nseq => /andP [_ /eqP ->].
  exists (mxc n' n' (take n' Uc)); split.
  - move=> i j ji; rewrite mxE nth_take //; have jn : (j < n)%N by exact: leq_trans (ltn_ord j) ln.
    have in' : (i < n)%N by exact: leq_trans (ltn_ord i) ln.
    by have := u (Ordinal in') (Ordinal jn) ji; rewrite mxE.
  - move=> j; rewrite mxE nth_take //; have jn : (j < n)%N by exact: leq_trans (ltn_ord j) ln.
    by have := d (Ordinal jn); rewrite mxE.
  - by rewrite a0 cats0.
  - apply/matrixP => i j; rewrite !mxE cR4 nth_nseq if_same coef_nil big1 // => h _; rewrite !mxE.
    have -> : coef (nth [::] (cols B') h) i = 0 by exact: Z'.
    by rewrite mul0r.
  - by move=> i j j' [+ _]; rewrite mxE cR4 nth_nseq if_same coef_nil eqxx.
move=> an LW; split; [by rewrite -En|by rewrite -En|].
have a1 : (0 < size add)%N by case: (add) an.
move=> j; rewrite /entry /U4 /= nth_cat size_take sU; have -> : (if (n' < n)%N then n' else n) = n' by move: ln; clear; case: (ltnP n' n); lia.
have [lj|lj] := ltnP j n'.
  have jn : (j < n)%N by exact: leq_trans lj ln.
  have N1 : (n' <= (ncol B').-1)%N by rewrite -En; move: a1; clear; lia.
  rewrite nth_take //; have [li|li] := ltnP (ncol B').-1 n; last by apply: coef_ge li => //; have /and3P [] := nth_wf j aU.
  by have := u (Ordinal li) (Ordinal jn) (leq_trans lj N1); rewrite mxE.
have [lj2|lj2] := ltnP (j - n') (size add); last by rewrite nth_default ?size_map ?size_iota // coef_nil.
rewrite (nth_map 0%N) ?size_iota // nth_iota // add0n coef_unit; case: eqP => // e; exfalso.
move: e; rewrite -En in LW *; move: LW lj2 a1; set q := (j - n')%N; set sa := size add; clear => LW lj2 a1.
have [h|h] := posnP (n' + q).
  have -> : (n' + W - 1 + q = W.-1)%N by move: h LW; lia.
  by rewrite modn_small; [move: h LW lj2; lia | move: LW; lia].
have -> : (n' + W - 1 + q = W + (n' + q).-1)%N by move: h; lia.
rewrite modnDl modn_small; move: h LW lj2; lia.
Qed.

End H.
