(** CU_inplace, LQU, UQL and inv. *)
From mathcomp Require Import all_ssreflect all_fingroup all_algebra zify.
From Verif Require Import Outcome P_Outcome RingTac M_SparseVec M_Perm M_ColMatrix S_Linalg P_SparseVec
  P_SparseVec2 P_Reduce P_Homology P_Pairing P_Betti P_Solve P_ColMatrix M_Fact S_Fact P_Fact1 P_Fact2 P_Den P_Fact3 P_Fact4 P_Fact5.
Set Implicit Arguments.
Unset Strict Implicit.
Unset Printing Implicit Defensive.
Import GRing.Theory.
Local Open Scope ring_scope.

Section S.
Variable F : fieldType.
Notation O := (ops_of F).
Notation svec := (svec F).
Notation cmat := (cmat F).

Lemma upper_scop n (j : 'I_n) (a : F) : upper (colop j j a).
Proof.
move=> i l il; rewrite !mxE; have -> : (i == l) = false by rewrite -val_eqE gtn_eqF.
case: (altP (i =P j)) => [Ei|_] /=; last by rewrite mulr0 addr0.
case: (altP (l =P j)) => [El|_] /=; last by rewrite mulr0 addr0.
by subst; rewrite ltnn in il.
Qed.
Lemma diagn0_scop n (j : 'I_n) (a : F) : 1 + a != 0 -> diagn0 (colop j j a).
Proof.
move=> an i; rewrite !mxE eqxx; case: (altP (i =P j)) => [_|_] /=; last by rewrite mulr0 addr0 oner_neq0.
by rewrite mulr1.
Qed.
Lemma mxc_scop m n (cs : seq svec) (j : 'I_n) (a : F) : size cs = n ->
  mxc m n (set_nth [::] cs j (scale_inplace O a (nth [::] cs j))) = mxc m n cs *m colop j j (a - 1).
Proof.
move=> sz; rewrite -mxc_colop //; apply/matrixP => i l; rewrite !mxE !nth_set_nth /=; case: eqP => // _.
by rewrite coef_scale_inplace coef_axpy mulrBl mul1r mulrC addrC subrK.
Qed.

(** row i is the first nonzero of c, with value 1 *)
Definition first1 (c : svec) (i : nat) : Prop := coef c i = 1 /\ forall r, (r < i)%N -> coef c r = 0.

Section CU1.
Variables (m n mu : nat) (A : 'M[F]_(m, n)) (U0 : 'M[F]_(mu, n)).

Definition cuinv (j : nat) (C U : seq svec) (p : seq (option nat)) : Prop :=
  [/\ [/\ size C = n, size U = n & size p = m], all (sv_wf m) C, all (sv_wf mu) U,
      (exists V, [/\ upper V, diagn0 V, mxc m n C = A *m V & mxc mu n U = U0 *m V]) &
      (forall i k, nth None p i = Some k -> (k < j)%N /\ first1 (nth [::] C k) i) /\
      (forall l, (l < j)%N -> (forall r, coef (nth [::] C l) r = 0) \/ exists i, nth None p i = Some l)].

Definition cuinv1 (j : nat) (C U : seq svec) (p : seq (option nat)) (b : nat) (fd : bool) : Prop :=
  [/\ [/\ size C = n, size U = n & size p = m], all (sv_wf m) C, all (sv_wf mu) U,
      (exists V, [/\ upper V, diagn0 V, mxc m n C = A *m V & mxc mu n U = U0 *m V]) &
      [/\ (j < n)%N, (forall i k, nth None p i = Some k -> [/\ (k <= j)%N, first1 (nth [::] C k) i & k = j -> fd /\ (i < b)%N]),
      (forall l, (l < j)%N -> (forall r, coef (nth [::] C l) r = 0) \/ exists i, nth None p i = Some l) &
      if fd then exists2 i, (i < b)%N & nth None p i = Some j else forall r, (r < b)%N -> coef (nth [::] C j) r = 0]].

Lemma cu1_step j C U p : (j < n)%N -> cuinv j C U p ->
  exists C' U' p', cu_col O m.+1 C U p j 0 false = Ok (C', U', p') /\ cuinv j.+1 C' U' p'.
Proof.
move=> jn [[s1 s2 s3] W1 W2 HV [Hp Hl]].
have H0 : cuinv1 j C U p 0 false.
  split=> //; split=> // i k /Hp [kj f]; split=> //; first exact: ltnW.
  by move=> e; rewrite e ltnn in kj.
have [||||C' [U' [p' [b [fd [-> H' z]]]]]] := @cu_rule F m n j (cuinv1 j) _ _ _ _ m.+1 C U p 0 false H0 (ltnSn _).
- move=> {C U p s1 s2 s3 W1 W2 HV Hp Hl H0} C U p b fd [[s1 s2 s3] W1 W2 HV [_ Hp Hl _]]; split=> //; first exact: nth_wf.
  by split=> // i k /Hp[kj _ _]; apply: leq_ltn_trans jn.
- move=> {C U p s1 s2 s3 W1 W2 HV Hp Hl H0} C U p b fd i v k [[s1 s2 s3] W1 W2 [V [V1 V2 V3 V4]] [_ Hp Hl Hf]] /andP[bi im] z cv vn pi /=.
  have [kj [k1 k2] kfd] := Hp _ _ pi.
  have {}kj : (k < j)%N.
    rewrite ltn_neqAle kj andbT; apply/eqP => /kfd[_ ib]; by move: (leq_ltn_trans bi ib); rewrite ltnn.
  have kn := ltn_trans kj jn; split; first by rewrite nth_set_nth /= eqxx coef_axpy cv k1 mulr1 subrr.
  have keep r : (r < i)%N -> coef (axpy O (- v) (nth [::] C k) (nth [::] C j)) r = coef (nth [::] C j) r.
    by move=> ri; rewrite coef_axpy k2 // mulr0 addr0.
  split.
  + by rewrite !size_set_nth s1 s2 s3 (maxn_idPr jn).
  + by apply: set_nth_wf; rewrite ?s1 //; apply: sv_wf_axpy; apply: nth_wf.
  + by apply: set_nth_wf; rewrite ?s2 //; apply: sv_wf_axpy; apply: nth_wf.
  + exists (V *m colop (Ordinal kn) (Ordinal jn) (- v)); split.
    * by apply: upper_mul => //; apply: upper_colop.
    * by apply: diagn0_mul => //; [apply: upper_colop|apply: diag1_n0; apply: diag1_colop].
    * by rewrite mulmxA -V3 -(mxc_colop m (Ordinal kn) (Ordinal jn)).
    * by rewrite mulmxA -V4 -(mxc_colop mu (Ordinal kn) (Ordinal jn)).
  split=> //.
  + move=> i' k' pi'; have [kj' [f1 f2] kfd'] := Hp _ _ pi'; split=> //; last first.
      by move=> /kfd'[-> ib]; split=> //; apply: leq_trans ib (leq_trans bi _).
    rewrite nth_set_nth /=; case: eqP => e //; have [fdt ib] := kfd' e; subst k'.
    have ii : (i' < i)%N by apply: leq_trans ib bi.
    split; first by rewrite keep.
    by move=> r ri; rewrite keep ?f2 //; apply: ltn_trans ii.
  + by move=> l lj; case: (Hl l lj) => [z0|]; [left|by right]; move=> r; rewrite nth_set_nth /= (ltn_eqF lj).
  + case: fd Hf Hp kfd => [[i' ib e] _ _|zb _ _].
      by exists i' => //; apply: leq_trans ib (leq_trans bi _).
    move=> r; rewrite ltnS nth_set_nth /= eqxx leq_eqVlt => /orP[/eqP ->|ri].
      by rewrite coef_axpy cv k1 mulr1 subrr.
    by rewrite keep //; case: (ltnP r b) => rb; [apply: zb|apply: z; rewrite rb].
- move=> {C U p s1 s2 s3 W1 W2 HV Hp Hl H0} C U p b i v [[s1 s2 s3] W1 W2 [V [V1 V2 V3 V4]] [_ Hp Hl Hf]] /andP[bi im] z cv vn pi.
  have zi r : (r < i)%N -> coef (nth [::] C j) r = 0.
    by move=> ri; case: (ltnP r b) => rb; [apply: Hf|apply: z; rewrite rb].
  have vin : v^-1 != 0 by rewrite invr_eq0.
  split.
  + by rewrite !size_set_nth s1 s2 s3 (maxn_idPr jn) (maxn_idPr im).
  + by apply: set_nth_wf; rewrite ?s1 //; apply: scale_inplace_wf => //; apply: nth_wf.
  + by apply: set_nth_wf; rewrite ?s2 //; apply: scale_inplace_wf => //; apply: nth_wf.
  + exists (V *m colop (Ordinal jn) (Ordinal jn) (v^-1 - 1)); split.
    * by apply: upper_mul => //; apply: upper_scop.
    * by apply: diagn0_mul => //; [apply: upper_scop|apply: diagn0_scop; rewrite addrC subrK].
    * by rewrite mulmxA -V3 -(mxc_scop m (Ordinal jn)).
    * by rewrite mulmxA -V4 -(mxc_scop mu (Ordinal jn)).
  split=> //.
  + move=> i' k'; rewrite nth_set_nth /=; case: eqP => [-> [<-]|ne pi'].
      split=> //; rewrite nth_set_nth /= eqxx; split; first by rewrite coef_scale_inplace cv mulfV.
      by move=> r ri; rewrite coef_scale_inplace zi // mul0r.
    have [kj' [f1 f2] kfd'] := Hp _ _ pi'.
    have kne : (k' == j) = false by apply/negbTE/eqP => /kfd'[].
    by split=> //; [rewrite nth_set_nth /= kne|move/eqP; rewrite kne].
  + move=> l lj; rewrite nth_set_nth /= (ltn_eqF lj); case: (Hl l lj) => [|[i' e]]; [by left|right; exists i'].
    by rewrite nth_set_nth /=; case: eqP => // e'; rewrite e' pi in e.
  + by exists i => //; rewrite nth_set_nth /= eqxx.
- move=> {C U p s1 s2 s3 W1 W2 HV Hp Hl H0} C U p b i v [[s1 s2 s3] W1 W2 HV [_ Hp Hl [i0 ib e0]]] /andP[bi im] z cv vn pi.
  split=> //; split=> //; last by exists i0 => //; apply: leq_trans ib (leq_trans bi _).
  move=> i' k' /Hp[? ? h]; split=> // /h[_ ?]; split=> //; by apply: leq_trans (leq_trans bi (leqnSn _)).
exists C', U', p'; split=> //; case: H' => [[s1' s2' s3'] W1' W2' HV' [_ Hp' Hl' Hf']]; split=> //.
split; first by move=> i k /Hp'[].
move=> l; rewrite ltnS leq_eqVlt => /orP[/eqP ->|]; last exact: Hl'.
case: fd Hf' Hp' => [[i _ e] _|zb _]; first by right; exists i.
by left=> r; case: (ltnP r b) => rb; [apply: zb|apply: z].
Qed.

Lemma cu1_ok (C U : cmat) : den C A -> den U U0 -> exists C' U' p' V,
  [/\ CU_inplace O C U = Ok (CMat m n C', CMat mu n U'), all (sv_wf m) C' /\ all (sv_wf mu) U', size C' = n /\ size U' = n,
     [/\ upper V, diagn0 V, mxc m n C' = A *m V & mxc mu n U' = U0 *m V] &
     forall l, (l < n)%N -> (forall r, coef (nth [::] C' l) r = 0) \/
        exists i, [/\ (i < m)%N, first1 (nth [::] C' l) i & nth None p' i = Some l]].
Proof.
case: C => am_ an_ ac [/= /cm_wfP[/= sac Wac] e1 e2 MA]; case: U => bm_ bn_ bc [/= /cm_wfP[/= sbc Wbc] f1 f2 MU].
subst am_ bm_; rewrite e2 in sac; rewrite f2 in sbc; subst an_ bn_.
rewrite /CU_inplace /=.
have H0 : cuinv 0 ac bc (nseq m None).
  split=> //; first by rewrite size_nseq.
  - by exists 1%:M; rewrite !mulmx1; split=> //; [exact: upper1|exact/diag1_n0/diag11].
  - by split=> // i k; rewrite nth_nseq if_same.
have [|k [[C U] p] kn H|[[C U] p] -> H] := @ofold_iota_ind _
  (fun s j => let: (C1, U1, p) := s in cu_col O m.+1 C1 U1 p j 0 false)
  (fun k s => let: (C1, U1, p) := s in cuinv k C1 U1 p) n (ac, bc, nseq m None).
- exact: H0.
- by have [C' [U' [p' [-> H']]]] := cu1_step kn H; exists (C', U', p').
cbn [obind]; case: H => [[s1 s2 s3] W1 W2 [V HV] [Hp Hl]]; exists C, U, p, V; split=> // l ln.
case: (Hl l ln) => [|[i e]]; [by left|right; exists i]; have [_ f] := Hp _ _ e; split=> //.
rewrite ltnNge; apply/negP => mi; by move: e; rewrite nth_default ?s3.
Qed.
End CU1.

(** the second pass: every row r of the input has a first nonzero column pi r, with entry 1, and pi is injective *)
Section CU2.
Variables (m n : nat) (A : seq svec) (pi : nat -> option nat).
Hypothesis sA : size A = n.
Hypothesis WA : all (sv_wf m) A.
Hypothesis Hpi : forall r i, pi r = Some i -> [/\ (i < n)%N, coef (nth [::] A i) r = 1 & forall l, (l < i)%N -> coef (nth [::] A l) r = 0].
Hypothesis Hno : forall r i, pi r = None -> coef (nth [::] A i) r = 0.
Hypothesis Hin : forall r r' i, pi r = Some i -> pi r' = Some i -> r = r'.

Definition cu2inv (j : nat) (C U : seq svec) (p : seq (option nat)) : Prop :=
  [/\ [/\ size C = n, size U = n & size p = m], all (sv_wf m) C,
    forall l r, (l < j)%N -> coef (nth [::] C l) r = (pi r == Some l)%:R,
    forall l, (j <= l)%N -> nth [::] C l = nth [::] A l &
    forall r, (r < m)%N -> nth None p r = if pi r is Some l then (if (l < j)%N then Some l else None) else None].

Definition cu2inv1 (j : nat) (C U : seq svec) (p : seq (option nat)) (b : nat) (fd : bool) : Prop :=
  [/\ [/\ size C = n, size U = n & size p = m] /\ (j < n)%N, all (sv_wf m) C /\ (fd <-> exists2 r, (r < b)%N & pi r = Some j),
    (forall l r, (l < j)%N -> coef (nth [::] C l) r = (pi r == Some l)%:R) /\
    (forall l, (j < l)%N -> nth [::] C l = nth [::] A l),
    forall r, coef (nth [::] C j) r = if (r < b)%N then (pi r == Some j)%:R else coef (nth [::] A j) r &
    forall r, (r < m)%N -> nth None p r =
      if pi r is Some l then (if (l < j)%N || ((l == j) && (r < b)%N) then Some l else None) else None].

Lemma pi_m r i : pi r = Some i -> (r < m)%N.
Proof.
move=> /Hpi[_ c1 _]; rewrite ltnNge; apply/negP => mr; have /and3P[_ B _] := nth_wf i WA.
move: c1; rewrite coef0_notin; first by move/eqP; rewrite eq_sym oner_eq0.
by apply/negP => /mapP[q /(allP B) /= qm e]; move: mr; rewrite e leqNgt qm.
Qed.

Lemma cu2_step j C U p C' U' p' : (j < n)%N -> cu2inv j C U p -> cu_col O m.+1 C U p j 0 false = Ok (C', U', p') ->
  cu2inv j.+1 C' U' p'.
Proof.
move=> jn [[s1 s2 s3] W1 HC HA Hp].
have H0 : cu2inv1 j C U p 0 false.
  split=> //; first by split=> //; split=> // -[].
  - by split=> // l /ltnW; apply: HA.
  - by move=> r; rewrite ltn0 HA.
  - by move=> r rm; rewrite Hp //; case: (pi r) => // l; rewrite andbF orbF.
have mid C0 U0 p0 b fd i : cu2inv1 j C0 U0 p0 b fd -> (b <= i)%N -> 
    (forall r, (b <= r < i)%N -> coef (nth [::] C0 j) r = 0) -> forall r, (b <= r < i)%N -> coef (nth [::] A j) r = 0 /\ (pi r == Some j) = false.
  move=> [_ _ _ hc _] bi z r /andP[br ri]; have := z r; rewrite br ri hc ltnNge br /= => /(_ isT) c0; split=> //.
  by apply/negbTE/eqP => /Hpi[_]; rewrite c0 => /eqP; rewrite eq_sym oner_eq0.
have [||||C1 [U1 [p1 [b [fd [-> H' z]]]]]] := @cu_rule F m n j (cu2inv1 j) _ _ _ _ m.+1 C U p 0 false H0 (ltnSn _).
- move=> {C U p s1 s2 s3 W1 HC HA Hp H0} C U p b fd [[[t1 t2 t3] _] [tW _] _ _ Hp']; split=> //; first exact: nth_wf.
  split=> // i k e; have im : (i < m)%N by rewrite ltnNge; apply/negP => mi; move: e; rewrite nth_default ?t3.
  by move: e; rewrite Hp' //; case ei: (pi i) => [l|//]; case: ifP => // _ [<-]; have [] := Hpi ei.
- move=> {C U p s1 s2 s3 W1 HC HA Hp H0} C U p b fd i v k H /andP[bi im] z cv vn pik /=; have M := mid _ _ _ _ _ i H bi z.
  case: H => [[[t1 t2 t3] _] [tW tf] [h1 h2] hc hp].
  move: pik; rewrite hp //; case ei: (pi i) => [l|//]; rewrite (ltnNge i) bi /= andbF orbF.
  case: ltnP => // lj [?]; subst l.
  have ck r : coef (axpy O (- v) (nth [::] C k) (nth [::] C j)) r = coef (nth [::] C j) r - (r == i)%:R * v.
    rewrite coef_axpy (h1 k) //; case: (eqVneq r i) => [er|ne]; first by rewrite er ei eqxx mulr1 mul1r.
    by case: eqP => [/Hin/(_ ei) e|_]; [rewrite e eqxx in ne|rewrite mulr0 mul0r subr0 addr0].
  have pij : (pi i == Some j) = false by rewrite ei; apply/negbTE/eqP => -[e]; rewrite e ltnn in lj.
  split; first by rewrite nth_set_nth /= eqxx ck eqxx cv mul1r subrr.
  split.
  + by rewrite !size_set_nth t1 t2 t3 (maxn_idPr jn).
  + split; first by apply: set_nth_wf; rewrite ?t1 //; apply: sv_wf_axpy; apply: nth_wf.
    split=> [/tf[r rb e]|[r]]; first by exists r => //; apply: leq_trans rb (leq_trans bi _).
    move=> ri e; apply/tf; exists r => //; rewrite ltnNge; apply/negP => br.
    move: ri; rewrite ltnS leq_eqVlt => /orP[/eqP er|ri]; first by move: pij; rewrite -er e eqxx.
    by have [|_] := M r; rewrite ?br // e eqxx.
  + split=> l; [move=> r lj'|move=> jl]; rewrite nth_set_nth /=; first by rewrite (ltn_eqF lj') h1.
    by rewrite (gtn_eqF jl) h2.
  + move=> r; rewrite nth_set_nth /= eqxx ck hc ltnS; case: (ltngtP r i) => ri.
    * rewrite mul0r subr0; case: (ltnP r b) => // br; have [|-> ->] := M r; by rewrite ?br.
    * by rewrite mul0r subr0 ltnNge (ltnW (leq_ltn_trans bi ri)).
    * by rewrite ri ltnNge bi /= pij mul1r -cv hc ltnNge bi subrr.
  + move=> r rm; rewrite hp //; case er: (pi r) => [l|//]; case: ltnP => //= jl; case: (eqVneq l j) => //= e; subst l.
    rewrite ltnS; case: (ltnP r b) => rb; first by rewrite (ltnW (leq_trans rb bi)).
    case: leqP => // ri; move: ri; rewrite leq_eqVlt => /orP[/eqP e|ri]; first by move: pij; rewrite -e er eqxx.
    by have [|_] := M r; rewrite ?rb // er eqxx.
- move=> {C U p s1 s2 s3 W1 HC HA Hp H0} C U p b i v H /andP[bi im] z cv vn pik /=; have M := mid _ _ _ _ _ i H bi z.
  case: H => [[[t1 t2 t3] _] [tW tf] [h1 h2] hc hp].
  have ai : coef (nth [::] A j) i = v by move: cv; rewrite hc ltnNge bi.
  have ei : pi i = Some j.
    move: pik; rewrite hp //; case ei: (pi i) => [l|]; last by move: vn; rewrite -ai Hno // eqxx.
    case: (ltngtP l j) => //= lj _; last by rewrite lj.
    by have [_ _ /(_ j lj)] := Hpi ei; rewrite ai => e; rewrite e eqxx in vn.
  have v1 : v = 1 by have [_ <- _] := Hpi ei; rewrite ai.
  rewrite v1 invr1; split.
  + by rewrite !size_set_nth t1 t2 t3 (maxn_idPr jn) (maxn_idPr im).
  + split; first by apply: set_nth_wf; rewrite ?t1 //; apply: scale_inplace_wf; [rewrite oner_neq0|apply: nth_wf].
    by split=> // _; exists i.
  + split=> l; [move=> r lj'|move=> jl]; rewrite nth_set_nth /=; first by rewrite (ltn_eqF lj') h1.
    by rewrite (gtn_eqF jl) h2.
  + move=> r; rewrite nth_set_nth /= eqxx coef_scale_inplace mulr1 hc ltnS; case: (ltngtP r i) => ri.
    * case: (ltnP r b) => // br; have [|-> ->] := M r; by rewrite ?br.
    * by rewrite ltnNge (ltnW (leq_ltn_trans bi ri)).
    * by rewrite ri ltnNge bi /= ei eqxx ai.
  + move=> r rm; rewrite nth_set_nth /= ltnS; case: (eqVneq r i) => [->|ne]; first by rewrite ei ltnn eqxx leqnn.
    rewrite hp //; case er: (pi r) => [l|//]; case: ltnP => //= jl; case: (eqVneq l j) => //= e; subst l.
    by case/eqP: ne; apply: Hin er ei.
- move=> {C U p s1 s2 s3 W1 HC HA Hp H0} C U p b i v H /andP[bi im] z cv vn pik /=; exfalso.
  case: H => [[[t1 t2 t3] _] [tW [tf _]] [h1 h2] hc hp].
  have ai : coef (nth [::] A j) i = v by move: cv; rewrite hc ltnNge bi.
  have ei : pi i = Some j.
    move: pik; rewrite hp //; case ei: (pi i) => [l|]; last by move: vn; rewrite -ai Hno // eqxx.
    case: (ltngtP l j) => //= lj _; last by rewrite lj.
    by have [_ _ /(_ j lj)] := Hpi ei; rewrite ai => e; rewrite e eqxx in vn.
  have [//|r rb er] := tf _; have e := Hin er ei; by move: rb; rewrite e ltnNge bi.
case=> <- <- <-; case: H' => [[t123 _] [tW tf] [h1 h2] hc hp]; split=> //.
- move=> l r; rewrite ltnS leq_eqVlt => /orP[/eqP ->|]; last exact: h1.
  case: (ltnP r b) => rb; first by rewrite hc rb.
  rewrite z //; case: eqP => // er; have := z r rb; rewrite hc ltnNge rb /=.
  by have [_ -> _] := Hpi er.
- move=> r rm; rewrite hp //; case er: (pi r) => [l|//]; rewrite ltnS; case: (ltngtP l j) => //= e; subst l.
  case: (ltnP r b) => // rb; have := z r rb; rewrite hc ltnNge rb /=.
  by have [_ -> _] := Hpi er; move/eqP; rewrite oner_eq0.
Qed.

Lemma cu2_ok (U : cmat) C' U' : ncol U = n -> size (cols U) = n ->
  CU_inplace O (CMat m n A) U = Ok (C', U') ->
  forall l r, (l < n)%N -> coef (nth [::] (cols C') l) r = (pi r == Some l)%:R.
Proof.
move=> nU sU; rewrite /CU_inplace /=.
have H0 : cu2inv 0 A (cols U) (nseq m None).
  split=> //; first by rewrite size_nseq.
  by move=> r rm; rewrite nth_nseq rm; case: (pi r).
pose g s j := let: (C1, U1, p) := s in cu_col O m.+1 C1 U1 p j 0 false.
have K k : forall s, (k <= n)%N -> ofold g (A, cols U, nseq m None) (iota 0 k) = Ok s -> let: (C1, U1, p) := s in cu2inv k C1 U1 p.
  elim: k => [|k IH] s kn; first by case=> <-.
  rewrite -addn1 iotaD ofold_cat; case e: (ofold _ _ _) => [[[C1 U1] p]|||] //; cbn [obind].
  rewrite [iota _ 1]/=; cbn [ofold]; rewrite /g add0n; have := IH _ (ltnW kn) e => H.
  case ec: (cu_col _ _ _ _ _ _ _ _) => [[[C2 U2] p2]|||] // -[<-]; rewrite addn1; exact: cu2_step kn H ec.
case e: (ofold _ _ _) => [[[C1 U1] p]|||] //; cbn [obind] => -[<- _] l r ln /=.
by have := K n _ (leqnn n) e; case=> _ _ h _ _; apply: h.
Qed.
End CU2.

Lemma upper_inv n (U : 'M[F]_n) : upper U -> diagn0 U -> upper (invmx U) /\ diagn0 (invmx U).
Proof.
move=> u d; have uU := upper_unit u d; have e := mulmxV uU.
have H k : forall i j : 'I_n, (n - i <= k)%N -> (j < i)%N -> invmx U i j = 0.
  elim: k => [|k IH] i j; first by move=> h; have := ltn_ord i; rewrite -subn_gt0 lt0n -leqn0 h.
  move=> hk ji; have := congr1 (fun X : 'M_n => X i j) e; rewrite !mxE -val_eqE (gtn_eqF ji) (bigD1 i) //= big1 ?addr0.
    by move/eqP; rewrite mulf_eq0 (negPf (d i)) => /eqP.
  move=> l li; case: (ltngtP l i) => li'; first by rewrite u ?mul0r.
    rewrite (IH l j) ?mulr0 //; last exact: ltn_trans li'.
    by rewrite -ltnS; apply: leq_trans hk; apply: ltn_sub2l li'.
  by move: li; rewrite -val_eqE /= li' eqxx.
have ui : upper (invmx U) by move=> i j; apply: (H n) (leq_subr _ _).
split=> // i; have := congr1 (fun X : 'M_n => X i i) e; rewrite diag_mul // mxE eqxx => h.
by apply/eqP => h0; move: h; rewrite h0 mulr0 => /eqP; rewrite eq_sym oner_eq0.
Qed.

Lemma first1_pivot m (c : svec) i : sv_wf m c -> first1 c i -> pivot_ind c = Some i.
Proof.
case: c => [_ [/eqP]|[k v] c /and3P[S B N] [c1 c0]]; first by rewrite coef_nil eq_sym oner_eq0.
congr Some; case: (ltngtP k i) => // ki.
  have := c0 k ki; rewrite (coef_in S (p := (k, v))) ?mem_head // => /= v0.
  by move: N => /andP[]; rewrite /= v0 eqxx.
move: c1; rewrite coef0_notin; first by move/eqP; rewrite eq_sym oner_eq0.
rewrite inE negb_or /= ltn_eqF //=; move: S; rewrite sv_sorted_cons => /andP[A _].
by apply/negP => /(allP A) ki'; have := ltn_trans ki ki'; rewrite ltnn.
Qed.

Lemma LQU_ok m n (A : cmat) (M : 'M[F]_(m, n)) : den A M -> exists2 f, LQU O A = Ok f & is_LQU M f.
Proof.
move=> dA; have [_ eA1 eA2 _] := dA; rewrite /LQU eA1 eA2.
have [C [U [p [V [-> [WC WU] [sC sU] [uV dV eC eU] piv]]]]] := cu1_ok dA (den_identity F n); cbn [obind].
rewrite mul1mx in eU; have dU : den (CMat n n U) V by rewrite -eU; apply: den_mk.
have [U1 -> dU1] := den_u_inv dU uV dV; cbn [obind].
have dC : den (CMat m n C) (M *m V) by rewrite -eC; apply: den_mk.
have [Ct -> dCt] := den_transpose dC; cbn [obind].
have [Q [L [q [W [eQL [WQ WL] [sQ sL] [uW dW eQ eL] _]]]]] := cu1_ok dCt (den_identity F m).
rewrite eQL; cbn [obind]; rewrite mul1mx in eL.
have dL : den (CMat m m L) W by rewrite -eL; apply: den_mk.
have dQ : den (CMat n m Q) ((M *m V)^T *m W) by rewrite -eQ; apply: den_mk.
have [L1 -> dL1] := den_u_inv dL uW dW; cbn [obind].
have [E -> dE] := den_transpose dQ; cbn [obind].
have [L2 -> dL2] := den_transpose dL1; cbn [obind].
have [[uVi dVi] [uWi dWi]] := (upper_inv uV dV, upper_inv uW dW).
case: Ct dCt eQL => cm_ cn_ cc [/= /cm_wfP[/= scc Wcc] e1 e2 Mcc] eQL; rewrite {}e2 in scc eQL *; rewrite {}e1 in Wcc eQL *.
have cE l i : (i < m)%N -> coef (nth [::] cc i) l = coef (nth [::] C l) i.
  move=> im; case: (ltnP l n) => ln.
    have := congr1 (fun X : 'M_(n, m) => X (Ordinal ln) (Ordinal im)) Mcc; rewrite -eC !mxE //=.
  rewrite [in RHS]nth_default ?sC // coef_nil; apply: coef0_notin; apply/negP => /mapP[r rin e].
  by have /and3P[_ /allP /(_ _ rin) /= h _] := nth_wf i Wcc; move: ln; rewrite e leqNgt h.
pose pi l := pivot_ind (nth [::] C l).
have piP l i : pi l = Some i -> [/\ (i < m)%N, (l < n)%N, first1 (nth [::] C l) i & nth None p i = Some l].
  move=> e; have ln : (l < n)%N by rewrite ltnNge; apply/negP => nl; move: e; rewrite /pi nth_default ?sC.
  have [z|[i' [im f g]]] := piv l ln; last by move: e; rewrite /pi (first1_pivot (nth_wf l WC) f) => -[<-].
  exfalso; move: e z (nth_wf l WC); rewrite /pi; case: (nth [::] C l) => [//|[k v] c] _ z /and3P[S _ N].
  by move: N => /andP[/= vn _]; move: (z k); rewrite (coef_in S (p := (k, v))) ?mem_head // => /eqP; apply/negP.
have hQ : forall l r, (l < m)%N -> coef (nth [::] Q l) r = (pi r == Some l)%:R.
  apply: (@cu2_ok n m cc pi scc Wcc _ _ _ (cm_identity O m) (CMat n m Q) (CMat m m L)) => //.
  - move=> l i /piP[im ln [f1 f2] _]; split=> //; first by rewrite cE.
    by move=> i' ii; rewrite cE ?f2 //; apply: ltn_trans im.
  - move=> l i; rewrite /pi; case: (ltnP i m) => im; last by rewrite [nth [::] cc _]nth_default ?scc // coef_nil.
    by rewrite cE //; case: (nth [::] C l) => [|[a b] c] // _; rewrite coef_nil.
  - by move=> l l' i /piP[_ _ _ e] /piP[_ _ _]; rewrite e => -[].
  - by rewrite size_map size_iota.
have eE (i : 'I_m) (k : 'I_n) : ((M *m V)^T *m W)^T i k = (pi k == Some (val i))%:R by rewrite mxE -eQ mxE hQ.
have eN (i : 'I_m) (k : 'I_n) : ((M *m V)^T *m W)^T i k != 0 -> pi k = Some (val i).
  by rewrite eE; case: (pi k =P Some (val i)) => //= _; rewrite eqxx.
eexists; first by []; exists (invmx W)^T, ((M *m V)^T *m W)^T, (invmx V); split=> //.
- rewrite trmx_mul trmxK !mulmxA -trmx_mul mulmxV ?upper_unit // trmx1 mul1mx -mulmxA mulmxV ?upper_unit // mulmx1 //.
- by split; split=> //; [apply/lower_tr|apply: diagn0_tr].
- split=> [i k k'|i i' k] /eN h /eN h'.
    have [_ _ _ e] := piP _ _ h; have [_ _ _] := piP _ _ h'; rewrite e => -[ekk]; exact: val_inj.
  by move: h'; rewrite h => -[e]; apply: val_inj.
- by move=> i k /eN h; rewrite eE h eqxx.
Qed.

Lemma UQL_ok m n (A : cmat) (M : 'M[F]_(m, n)) : den A M -> exists2 f, UQL O A = Ok f & is_UQL M f.
Proof.
move=> dA; rewrite /UQL; have [At -> dAt] := den_J_conj dA; cbn [obind].
have [f -> [L [E [U [[dL dE dU] eM [[lL nL] [uU nU]] pE E1]]]]] := LQU_ok dAt; cbn [obind].
have [E' -> dE'] := den_J_conj dE; have [U' -> dU'] := den_J_conj dU; cbn [obind].
have [L' -> dL'] := den_J_conj dL; cbn [obind].
eexists; first by []; exists (revmx L), (revmx E), (revmx U); split=> //.
- by rewrite -[M]revmxK eM !revmxM.
- by split; split; [apply: lower_rev|apply: diagn0_rev|apply: upper_rev|apply: diagn0_rev].
- exact: pivotmx_rev.
- by move=> i j; rewrite !mxE; apply: E1.
Qed.

Lemma pivot01_unit n (E : 'M[F]_n) : pivotmx E -> (forall i j, E i j != 0 -> E i j = 1) -> E \in unitmx -> E^T = invmx E.
Proof.
move=> [p1 p2] e1 uE; have H : E^T *m E = 1%:M.
  apply/matrixP => i j; rewrite !mxE; case: (eqVneq i j) => [<-|ne].
    have [k nz|z] := pickP (fun k => E k i != 0).
      rewrite (bigD1 k) //= big1 ?addr0; first by rewrite mxE e1 // mulr1.
      move=> l lk; rewrite mxE; case: (eqVneq (E l i) 0) => [->|nz']; rewrite ?mul0r //.
      by case/eqP: lk; apply: p2 nz' nz.
    exfalso; have := congr1 (fun X : 'M_n => X i i) (mulVmx uE); rewrite !mxE eqxx big1; first by move/eqP; rewrite eq_sym oner_eq0.
    by move=> k _; have /negbFE/eqP -> := z k; rewrite mulr0.
  rewrite big1 // => k _; rewrite mxE; case: (eqVneq (E k i) 0) => [->|nz]; rewrite ?mul0r //.
  case: (eqVneq (E k j) 0) => [->|nz']; rewrite ?mulr0 //; by case/eqP: ne; apply: p1 nz nz'.
by rewrite -[LHS]mulmx1 -(mulmxV uE) mulmxA H mul1mx.
Qed.

Lemma fact_inv_ok n (A : cmat) (M : 'M[F]_n) : den A M -> M \in unitmx ->
  exists2 B, fact_inv O A = Ok B & den B (invmx M).
Proof.
move=> dA uM; rewrite /fact_inv.
have [f -> [L [E [U [[dL dE dU] eM [[lL nL] [uU nU]] pE E1]]]]] := LQU_ok dA; cbn [obind].
have [U1 -> dU1] := den_u_inv dU uU nU; have [E' -> dE'] := den_transpose dE; cbn [obind].
have [X -> dX] := den_gemm dU1 dE'; have [L1 -> dL1] := den_l_inv dL lL nL; cbn [obind].
have [B -> dB] := den_gemm dX dL1; exists B => //.
have uL : L \in unitmx by rewrite -unitmx_tr; apply: upper_unit; [exact/upper_tr|exact: diagn0_tr].
have uU' := upper_unit uU nU.
have uE : E \in unitmx.
  have e : E = invmx L *m M *m invmx U by rewrite eM !mulmxA mulVmx // mul1mx -mulmxA mulmxV // mulmx1.
  by rewrite e !unitmx_mul !unitmx_inv uL uM uU'.
move: dB; rewrite (pivot01_unit pE E1 uE) => dB.
have e : M *m (invmx U *m invmx E *m invmx L) = 1%:M.
  by rewrite eM -!mulmxA (mulmxA U) mulmxV // mul1mx (mulmxA E) mulmxV // mul1mx mulmxV.
suff <- : invmx U *m invmx E *m invmx L = invmx M by [].
by rewrite -[LHS]mul1mx -(mulVmx uM) -mulmxA e mulmx1.
Qed.

End S.
