(** Correctness of the standard reduction. *)
From mathcomp Require Import all_ssreflect all_algebra zify.
From Verif Require Import Outcome P_Outcome RingTac M_SparseVec M_Perm M_ColMatrix M_Reduce
  S_Linalg P_SparseVec P_Pairing.
From Coq Require Import Ring Field.
Set Implicit Arguments.
Unset Strict Implicit.
Unset Printing Implicit Defensive.
Import GRing.Theory.
Local Open Scope ring_scope.

Section R.
Variable F : fieldType.
Notation O := (ops_of F).
Add Field Ff : (F_field_theory F).
Notation svec := (svec F).
Implicit Types (c d : svec).

(** last index of a sparse vector *)
Lemma sorted_last_ge (p : nat * F) (v : svec) : sv_sorted (p :: v) ->
  all (fun q : nat * F => (q.1 <= (last p v).1)%N) (p :: v).
Proof.
elim: v p => [|q v IH] p; first by rewrite /= leqnn.
rewrite sv_sorted_cons => /andP[Hp /IH H] /=.
rewrite -[X in _ && X]/(all _ (q :: v)) H andbT.
move: Hp => /= /andP[pq _]; move: H => /= /andP[qe _]; lia.
Qed.

Lemma last_ind_spec c i : sv_sorted c -> sv_nonzero c ->
  last_ind c = Some i <-> coef c i != 0 /\ (forall i', (i < i')%N -> coef c i' = 0).
Proof.
case: c => [|p v] S N.
  by split=> //; rewrite coef_nil eqxx => -[].
have A := sorted_last_ge S.
have memlast : last p v \in p :: v by apply: mem_last.
have key i' : ((last p v).1 < i')%N -> coef (p :: v) i' = 0.
  move=> lt; apply: coef0_notin; apply/negP => /mapP[q Hq Eq].
  by have := allP A _ Hq; rewrite -Eq; lia.
split=> [[<-]|[H K]].
  by split=> //; rewrite (coef_in S memlast); apply: (allP N).
congr Some; rewrite -/(last_ind (p :: v)).
have Hi : i \in [seq q.1 | q <- p :: v] by apply: coef_neq0_in.
have le : (i <= (last p v).1)%N by move/mapP: Hi => [q Hq ->]; apply: (allP A).
case: (ltngtP i (last p v).1) le => // lt _.
by have := K _ lt; rewrite (coef_in S memlast) => E; move: (allP N _ memlast); rewrite E eqxx.
Qed.

Lemma lastnz_spec m c : sv_wf m c -> c <> [::] ->
  exists i v, [/\ lastnz c = Ok (i, v), last_ind c = Some i, (i < m)%N, coef c i = v & v != 0].
Proof.
case: c => [//|p v] /and3P[S B N] _.
have memlast : last p v \in p :: v by apply: mem_last.
exists (last p v).1, (last p v).2; split=> //.
- by rewrite /lastnz -surjective_pairing.
- exact: (allP B).
- exact: coef_in.
- exact: (allP N).
Qed.

Lemma last_ind_lt m c i : sv_wf m c -> last_ind c = Some i -> (i < m)%N.
Proof.
move=> W; case: c W => [//|p v] W; have [//|k [w [_ -> lt _ _]]] := lastnz_spec W.
by move=> [<-].
Qed.

Lemma last_ind_None c : last_ind c = None -> c = [::]. Proof. by case: c. Qed.

(** eliminating the last entry strictly lowers the last index *)
Lemma elim_last m c d i : sv_wf m c -> sv_wf m d ->
  last_ind c = Some i -> last_ind d = Some i ->
  forall i', last_ind (axpy O (- (coef c i / coef d i)) d c) = Some i' -> (i' < i)%N.
Proof.
move=> Wc Wd Lc Ld i'.
have /and3P[Sc Bc Nc] := Wc; have /and3P[Sd Bd Nd] := Wd.
have /and3P[Se Be Ne] := sv_wf_axpy (- (coef c i / coef d i)) Wc Wd.
move/(last_ind_spec i Sc Nc): Lc => [c1 c2]; move/(last_ind_spec i Sd Nd): Ld => [d1 d2].
move/(last_ind_spec i' Se Ne) => [+ _]; rewrite coef_axpy.
case: (ltngtP i' i) => [//|lt|->]; first by rewrite (c2 i') // (d2 i') // mulr0 addr0 eqxx.
suff -> : coef c i + - (coef c i / coef d i) * coef d i = 0 by rewrite eqxx.
ffield F.
Qed.

(** elementary column operation *)
Definition colop n (k j : 'I_n) (a : F) : 'M[F]_n := 1%:M + a *: delta_mx k j.

Lemma upper_colop n (k j : 'I_n) a : (k < j)%N -> upper (colop k j a).
Proof.
move=> lt i l il; rewrite !mxE.
have -> : (i == l) = false by rewrite -val_eqE gtn_eqF.
case: (altP (i =P k)) => [Ei|_] /=; last by rewrite mulr0 addr0.
case: (altP (l =P j)) => [El|_] /=; last by rewrite mulr0 addr0.
by subst; lia.
Qed.
Lemma diag1_colop n (k j : 'I_n) a : (k < j)%N -> diag1 (colop k j a).
Proof.
move=> lt i; rewrite !mxE eqxx; case: (altP (i =P k)) => [->|_] /=; last by rewrite mulr0 addr0.
by have -> : (k == j) = false; [rewrite -val_eqE /= ltn_eqF | rewrite /= mulr0 addr0].
Qed.
Lemma upper1 n : upper (1%:M : 'M[F]_n).
Proof. by move=> i j lt; rewrite mxE -val_eqE gtn_eqF. Qed.
Lemma diag11 n : diag1 (1%:M : 'M[F]_n). Proof. by move=> i; rewrite mxE eqxx. Qed.
Lemma upper_mul n (A B : 'M[F]_n) : upper A -> upper B -> upper (A *m B).
Proof.
move=> UA UB i j lt; rewrite mxE big1 // => k _.
case: (ltnP k i) => ki; first by rewrite UA ?mul0r.
by rewrite (UB k j) ?mulr0 //; lia.
Qed.
Lemma diag_mul n (A B : 'M[F]_n) i : upper A -> upper B -> (A *m B) i i = A i i * B i i.
Proof.
move=> UA UB; rewrite mxE (bigD1 i) //= big1 ?addr0 // => k ne.
case: (ltngtP k i) => ki; first by rewrite UA ?mul0r.
  by rewrite (UB k i) ?mulr0.
by move: ne; rewrite -val_eqE /= ki eqxx.
Qed.
Lemma diag1_mul n (A B : 'M[F]_n) : upper A -> upper B -> diag1 A -> diag1 B -> diag1 (A *m B).
Proof. by move=> UA UB DA DB i; rewrite diag_mul // DA DB mulr1. Qed.
Lemma diag1_n0 n (A : 'M[F]_n) : diag1 A -> diagn0 A.
Proof. by move=> D i; rewrite D oner_neq0. Qed.

Lemma mxc_colop m n (cs : seq svec) (k j : 'I_n) a : size cs = n ->
  mxc m n (set_nth [::] cs j (axpy O a (nth [::] cs k) (nth [::] cs j))) =
  mxc m n cs *m colop k j a.
Proof.
move=> sz; apply/matrixP => i l; rewrite mxE nth_set_nth /= /colop mulmxDr mulmx1.
rewrite -scalemxAr; rewrite !mxE (bigD1 k) //= big1 ?addr0; last first.
  by move=> k' ne; rewrite !mxE (negbTE ne) mulr0.
rewrite !mxE eqxx /= val_eqE; case: eqP => [->|_] /=; last by rewrite !mulr0 addr0.
by rewrite coef_axpy mulr1.
Qed.

(** last nonzero of a column vs the pivot predicate of the denoted matrix *)
Lemma last_ind_low m n (cs : seq svec) (i : 'I_m) (j : 'I_n) :
  sv_wf m (nth [::] cs j) ->
  (last_ind (nth [::] cs j) = Some (i : nat)) <-> is_low (mxc m n cs) i j.
Proof.
move=> /and3P[S B N]; rewrite last_ind_spec // /is_low mxE; split=> -[H K]; split=> //.
  by move=> i' lt; rewrite mxE K.
move=> i' lt; case: (ltnP i' m) => im; last by rewrite (coef_ge B).
by have := K (Ordinal im) lt; rewrite mxE.
Qed.

Lemma nth_wf m (cs : seq svec) j : all (sv_wf m) cs -> sv_wf m (nth [::] cs j).
Proof.
move=> W; case: (ltnP j (size cs)) => lt; first exact: (all_nthP _ W).
by rewrite nth_default.
Qed.

Lemma set_nth_wf m (cs : seq svec) j c : (j < size cs)%N ->
  all (sv_wf m) cs -> sv_wf m c -> all (sv_wf m) (set_nth [::] cs j c).
Proof.
move=> lt W Wc; apply/(all_nthP [::]) => i; rewrite size_set_nth (maxn_idPr lt) => li.
by rewrite nth_set_nth /=; case: eqP => // _; apply: nth_wf.
Qed.

(** invariant of the outer loop: columns < j processed *)
Definition rinv m n mu (M0 : 'M[F]_(m, n)) (U0 : 'M[F]_(mu, n)) (j : nat)
  (R U : seq svec) (p : seq (option nat)) : Prop :=
  [/\ [/\ size R = n, size U = n & size p = m],
      all (sv_wf m) R, all (sv_wf mu) U,
      exists V : 'M[F]_n,
        [/\ upper V, diag1 V, mxc m n R = M0 *m V & mxc mu n U = U0 *m V] &
      forall i k, (i < m)%N ->
        nth None p i = Some k <-> (k < j)%N /\ last_ind (nth [::] R k) = Some i].

Lemma red_colU_spec m n mu (M0 : 'M[F]_(m, n)) (U0 : 'M[F]_(mu, n)) fuel j R U p :
  (j < n)%N -> rinv M0 U0 j R U p ->
  (if last_ind (nth [::] R j) is Some i then (i.+2 <= fuel)%N else (0 < fuel)%N) ->
  exists R' U' p', red_colU O fuel R U p j = Ok (R', U', p') /\ rinv M0 U0 j.+1 R' U' p'.
Proof.
move=> jn; elim: fuel R U p => [|fuel IH] R U p I Hf.
  by move: Hf; case: (last_ind _).
have [[sR sU sp] WR WU [V [Vu Vd RV UV]] Hp] := I.
have jR : (j < size R)%N by rewrite sR.
have jU : (j < size U)%N by rewrite sU.
have Wc : sv_wf m (nth [::] R j) by apply: nth_wf.
rewrite /= (oget_nth [::] jR) /=.
case: (altP (nth [::] R j =P [::])) => [E|/eqP ne].
  rewrite E; exists R, U, p; split=> //; split=> //; first by exists V.
  move=> i k im; rewrite Hp //; split=> [[lt ->]|[lt L]]; first by split=> //; lia.
  split=> //; move: lt; rewrite ltnS leq_eqVlt => /orP[/eqP Ek|//].
  by move: L; rewrite Ek E.
have [i [v [Ln Li im cv vn]]] := lastnz_spec Wc ne.
have -> X Y : (if nth [::] R j is [::] then X else Y) = Y :> outcome (seq svec * seq svec * seq (option nat)).
  by case: (nth [::] R j) ne.
rewrite Ln /= (oget_nth None) ?sp //=.
case Ep: (nth None p i) => [k|]; last first.
  rewrite (oset_Ok None) ?sp //=; exists R, U, (set_nth None p i (Some j)).
  split=> //; split=> //.
  - by split=> //; rewrite size_set_nth sp; apply/maxn_idPr.
  - by exists V.
  move=> i' k' im'; rewrite nth_set_nth /=; case: eqP => [->|nei].
    split=> [[<-]|[lt L]]; first by split.
    congr Some; move: lt; rewrite ltnS leq_eqVlt => /orP[/eqP //|lt].
    by have : nth None p i = Some k' by [apply/Hp]; rewrite Ep.
  rewrite Hp //; split=> [[lt ->]|[lt L]]; first by split=> //; lia.
  split=> //; move: lt; rewrite ltnS leq_eqVlt => /orP[/eqP Ek|//].
  by move: L; rewrite Ek Li => -[/esym].
have [kj Lk] := (Hp i k im).1 Ep.
have kR : (k < size R)%N by lia.
have kU : (k < size U)%N by lia.
have Wk : sv_wf m (nth [::] R k) by apply: nth_wf.
have nek : nth [::] R k <> [::] by move=> E; move: Lk; rewrite E.
have [i2 [w [Ln2 Li2 _ cw wn]]] := lastnz_spec Wk nek.
have Ei : i2 = i by move: Li2; rewrite Lk => -[].
subst i2; rewrite (oget_nth [::] kR) /= Ln2 /= /odiv is0E (negbTE wn) /=.
rewrite (oset_Ok [::]) //= (oget_nth [::] jU) (oget_nth [::] kU) /= (oset_Ok [::]) //=.
have kn : (k < n)%N by lia.
pose kO := Ordinal kn; pose jO := Ordinal jn.
apply: IH.
  split.
  - by rewrite !size_set_nth sR sU sp; split=> //; apply/maxn_idPr.
  - by apply: set_nth_wf => //; apply: sv_wf_axpy => //.
  - by apply: set_nth_wf => //; apply: sv_wf_axpy; apply: nth_wf.
  - exists (V *m colop kO jO (- (v / w))); split.
    + by apply: upper_mul => //; apply: upper_colop.
    + by apply: diag1_mul => //; [apply: upper_colop | apply: diag1_colop].
    + by rewrite mulmxA -RV -(mxc_colop m kO jO).
    + by rewrite mulmxA -UV -(mxc_colop mu kO jO).
  - move=> i' k' im'; rewrite Hp //; split=> -[lt]; rewrite nth_set_nth /= ltn_eqF //.
rewrite nth_set_nth /= eqxx.
case L': (last_ind _) => [i'|]; last by move: Hf; rewrite Li; lia.
have := elim_last Wc Wk Li Lk; rewrite cv cw => /(_ _ L').
by move: Hf; rewrite Li; lia.
Qed.

Lemma reduce_standardU_rinv (M U : cmat F) : cm_wf M -> cm_wf U -> ncol M = ncol U ->
  exists R U' p,
    reduce_standardU O M U = Ok (CMat (nrow M) (ncol M) R, CMat (nrow U) (ncol U) U', p) /\
    rinv (mxc (nrow M) (ncol M) (cols M)) (mxc (nrow U) (ncol M) (cols U)) (ncol M) R U' p.
Proof.
move=> /andP[/eqP sM WM] /andP[/eqP sU WU] En.
set M0 := mxc _ _ (cols M); set U0 := mxc _ _ (cols U).
rewrite /reduce_standardU.
have -> : (ncol M != ncol U) = false by rewrite En eqxx.
have [||st E I] := @ofold_iota_ind (seq svec * seq svec * seq (option nat))
  (fun st j => red_colU O (nrow M).+2 st.1.1 st.1.2 st.2 j)
  (fun j st => rinv M0 U0 j st.1.1 st.1.2 st.2) (ncol M)
  (cols M, cols U, nseq (nrow M) None).
- split=> //=; first by rewrite size_nseq; split=> //; rewrite sU En.
    by exists 1%:M; rewrite !mulmx1; split=> //; [apply: upper1 | apply: diag11].
  by move=> i k im; rewrite nth_nseq; case: ifP => _; split=> // -[].
- move=> j [[R U'] p] jn I /=.
  have [R2 [U2 [p2 [E2 I2]]]] : exists R' U2 p', red_colU O (nrow M).+2 R U' p j = Ok (R', U2, p')
     /\ rinv M0 U0 j.+1 R' U2 p'.
    apply: red_colU_spec => //.
    case L: (last_ind _) => [i|] //.
    have [_ WR _ _ _] := I; have := last_ind_lt (nth_wf j WR) L; lia.
  by exists (R2, U2, p2).
- by rewrite E; case: st I {E} => [[R U'] p] I /=; exists R, U', p.
Qed.

End R.
