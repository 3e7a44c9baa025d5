(** LEUP: the factorization. *)
From mathcomp Require Import all_ssreflect all_fingroup all_algebra zify.
From Verif Require Import Outcome P_Outcome RingTac M_SparseVec M_Perm M_ColMatrix S_Linalg P_SparseVec
  P_SparseVec2 P_Reduce P_Homology P_ColMatrix M_Fact S_Fact P_Fact1 P_Fact2 P_Den.
Set Implicit Arguments.
Unset Strict Implicit.
Unset Printing Implicit Defensive.
Import GRing.Theory.
Local Open Scope ring_scope.

Section S.
Variable F : fieldType.
Notation O := (ops_of F).
Notation svec := (svec F).
Notation cmat := (cmat F).
Notation ent cs c r := (coef (nth [::] cs c) r).

(** the rank one update behind one elimination step *)
Lemma leup_alg m n (L L' : 'M[F]_m) (X X' : 'M[F]_(m, n)) (i : 'I_m) (a : F) (w : 'cV[F]_m) :
  (forall r t : 'I_m, (i <= t)%N -> L r t = (r == t)%:R) -> (forall r : 'I_m, (r <= i)%N -> w r 0 = 0) ->
  X' = X - a^-1 *: (w *m row i X) -> L' = L + a^-1 *: (w *m delta_mx 0 i) -> L' *m X' = L *m X.
Proof.
move=> hL hw -> ->; rewrite mulmxBr !mulmxDl.
have Lw : L *m w = w.
  apply/colP => r; rewrite mxE (bigD1 r) //=.
  case: (leqP r i) => ri.
    rewrite (hw r ri) mulr0 add0r big1 // => t tr; case: (leqP t i) => ti; first by rewrite hw ?mulr0.
    by rewrite hL ?(ltnW ti) // eq_sym (negPf tr) mul0r.
  rewrite hL ?(ltnW ri) // eqxx mul1r big1 ?addr0 // => t tr.
  case: (leqP t i) => ti; first by rewrite hw ?mulr0.
  by rewrite hL ?(ltnW ti) // eq_sym (negPf tr) mul0r.
have dw : (delta_mx 0 i : 'rV[F]_m) *m w = 0.
  by rewrite -rowE; apply/rowP => z; rewrite !mxE (ord1 z) hw.
rewrite -!scalemxAl -!scalemxAr -!mulmxA [L *m (w *m _)]mulmxA Lw.
rewrite [delta_mx 0 i *m (w *m _)]mulmxA dw mul0mx mulmx0 !scaler0 addr0 -rowE.
by rewrite addrK.
Qed.

Section LEUP.
Variables (m n : nat) (M : 'M[F]_(m, n)).

Definition inv0 (i : nat) (E U L P : seq svec) (pv : seq nat) (co : seq F) (j : nat) : Prop :=
  [/\ [/\ size E = n, size U = n, size L = m & size P = n],
      [/\ all (sv_wf m) E, all (sv_wf n) U, all (sv_wf m) L & all (sv_wf n) P],
      [/\ (j <= n)%N, size pv = j, size co = j, sorted ltn pv & all (fun r => (r < i)%N) pv /\ all (fun c => c != 0) co],
      [/\ forall k, (k < j)%N -> nth [::] E k = [:: (nth 0%N pv k, (nth 0 co k)^-1)],
          forall c r, (j <= c < n)%N -> (r < i)%N -> ent E c r != 0 -> r \in pv,
          forall t r, (i <= t < m)%N -> ent L t r = (r == t)%:R,
          forall c r, (j <= c < n)%N -> ent U c r = (r == c)%:R &
          ulower (mxc m m L) /\ uupper (mxc n n U)] &
      is_permmx (mxc n n P) /\
      M *m mxc n n P = mxc m m L *m (mxc m n E *m mxc n n U)].
Definition inv (i : nat) (s : lstate F) : Prop :=
  let: LState E U L P pv co p j := s in
  inv0 i E U L P pv co j /\ forall r, (i <= r)%N -> exact_at p r (isp0 n j E i r).

(** the product E U, column by column *)
Lemma EU_hi (E U : seq svec) (r : 'I_m) (c : 'I_n) : (forall s : 'I_n, ent U c s = (s == c)%:R) ->
  (mxc m n E *m mxc n n U) r c = ent E c r.
Proof.
move=> h; rewrite mxE (bigD1 c) //= !mxE h eqxx mulr1 big1 ?addr0 // => s sc.
by rewrite !mxE h (negPf sc) mulr0.
Qed.

Lemma swap_cols_mx k (A B : seq svec) (j1 j2 : 'I_n) :
  (forall c, nth [::] B c = nth [::] A (if c == j1 :> nat then j2 : nat else if c == j2 :> nat then j1 : nat else c)) ->
  mxc k n B = mxc k n A *m perm_mx (tperm j1 j2).
Proof.
move=> h; rewrite -[tperm j1 j2]invgK -col_permE tpermV; apply/matrixP => r c; rewrite !mxE h.
congr (coef (nth _ _ _) _); rewrite permE /=.
by rewrite -!(inj_eq val_inj) /=; case: eqP => // _; case: eqP.
Qed.

Lemma inv_done i s : inv i s -> (n <= sj s)%N -> inv i.+1 s.
Proof.
case: s => E U L P pv co p j [[D1 D2 [H1 H2 H3 H4 [H5 H6]] [G1 G2 G3 G4 G5] K1] K3] /= nj.
have no c : (j <= c < n)%N = false by apply/negP => /andP[a b]; move: (leq_ltn_trans (leq_trans nj a) b); rewrite ltnn.
split; first split=> //.
- by split=> //; split=> //; apply: sub_all H5 => r; apply: ltnW.
- split=> //; first by move=> c r; rewrite no.
  by move=> t r /andP[a b]; apply: G3; rewrite b ltnW.
- move=> r ir; apply: exact_ext (K3 r (ltnW ir)) => c; by rewrite /isp0 no.
Qed.

Lemma inv_skip i s : inv i s -> sp2c s i = None -> inv i.+1 s.
Proof.
case: s => E U L P pv co p j [[D1 [W1 W2 W3 W4] [H1 H2 H3 H4 [H5 H6]] [G1 G2 G3 G4 G5] K1] K3] /= e.
have := K3 i (leqnn _); rewrite /exact_at e => h.
have z c : (j <= c < n)%N -> ent E c i = 0.
  move=> cr; have := h c; rewrite /isp0 cr /= (fge_at i (nth_wf c W1)) => /negbT; rewrite negbK => /eqP //.
split; first split=> //.
- by split=> //; split=> //; apply: sub_all H5 => r; apply: ltnW.
- split=> //.
    move=> c r cr; rewrite ltnS leq_eqVlt => /orP[/eqP ->|ri]; first by rewrite z // eqxx.
    exact: G2.
  by move=> t r /andP[a b]; apply: G3; rewrite b ltnW.
- move=> r ir; apply: exact_ext (K3 r (ltnW ir)) => c; rewrite /isp0.
  by case: (boolP (j <= c < n)%N) => //= cr; rewrite (fge_S (nth_wf c W1)) // z.
Qed.

(** the swap *)
Lemma inv_swap i s j2 l : (sj s < n)%N -> inv i s -> sp2c s i = Some (j2 :: l) ->
  exists E1 P1 p2,
   [/\ (if j2 != sj s then
          do p1 <- delete_pivot (sE s) (sp2c s) (sj s) i;
          do E1 <- swap_nth (sE s) (sj s) j2;
          do p2 <- update_pivot E1 p1 j2 i;
          do P1 <- swap_nth (sP s) (sj s) j2;
          Ok (E1, P1, p2)
        else Ok (sE s, sP s, sp2c s)) = Ok (E1, P1, p2),
       after_swap n i (sj s) E1 p2 &
       inv0 i E1 (sU s) (sL s) P1 (spivs s) (scoef s) (sj s)].
Proof.
case: s => E U L P pv co p j /= jn I e.
have [I0 K3] := I; have [[S1 S2 S3 S4] [W1 W2 W3 W4] [H1 H2 H3 H4 [H5 H6]] [G1 G2 G3 G4 [G5 G6]] [K1 K2]] := I0.
case: (eqVneq j2 j) => [e2|ne] /=.
  subst j2; exists E, P, p; split=> //; first exact: (no_swap jn K3 e).
have [p1 [E1 [p2 [e1 e2 e3 [/andP[j2a j2b] s1 n1 A]]]]] := yes_swap S1 W1 jn K3 e ne.
have [||P1 [e4 s4 n4]] := @swap_nthE _ P j j2; rewrite ?S4 //.
exists E1, P1, p2; rewrite e1 /= e2 /= e3 /= e4; split=> //.
have nlt k : (k < j)%N -> nth [::] E1 k = nth [::] E k.
  move=> kj; rewrite n1 !ifF //; apply/eqP => ek; first by move: (leq_trans kj j2a); rewrite ek ltnn.
  by rewrite ek ltnn in kj.
have ran c : (j <= c < n)%N -> (j <= (if c == j then j2 else if c == j2 then j else c) < n)%N.
  by move=> cr; case: ifP => _; rewrite ?j2a ?j2b //; case: ifP => //; rewrite leqnn jn.
have perm (Y Z : seq svec) k : size Y = n -> all (sv_wf k) Y -> size Z = n ->
   (forall c, nth [::] Z c = nth [::] Y (if c == j then j2 else if c == j2 then j else c)) -> all (sv_wf k) Z.
  by move=> sA WA sB h; apply/(all_nthP [::]) => c cs; rewrite h; apply: nth_wf.
split=> //.
- by rewrite s4.
- split=> //; first exact: perm W1 s1 n1.
  by apply: perm W4 _ n4; rewrite ?s4.
- split=> //.
    by move=> k kj; rewrite nlt // G1.
  by move=> c r cr ri; rewrite n1; apply: G2 => //; apply: ran.
pose jo := Ordinal jn; pose j2o := Ordinal j2b.
have mP := @swap_cols_mx n P P1 jo j2o n4; have mE := @swap_cols_mx m E E1 jo j2o n1.
split.
  by case: K1 => sg eP; rewrite mP eP -perm_mxM; exists (sg * tperm jo j2o)%g.
rewrite mP mulmxA K2 -mulmxA; congr (_ *m _).
rewrite -[tperm jo j2o]invgK -col_permE tpermV; apply/matrixP => r c; rewrite mxE.
case: (leqP j c) => jc.
  rewrite !EU_hi; last 2 first.
  - by move=> s; rewrite G4 ?jc ?ltn_ord.
  - move=> s; rewrite G4 //; case: tpermP => _; rewrite /= ?j2a ?j2b ?leqnn ?jn //.
    by rewrite jc ltn_ord.
  rewrite n1 permE /=; congr (coef (nth _ _ _) _).
  by rewrite -!(inj_eq val_inj) /=; case: eqP => // _; case: eqP.
have -> : tperm jo j2o c = c.
  by rewrite tpermD //; apply/eqP => /(congr1 val) /= e0; move: jc; rewrite -e0 ?ltnn // ltnNge j2a.
rewrite !mxE; apply: eq_bigr => t _; rewrite !mxE; case: (leqP j t) => jt; last by rewrite nlt.
have := G6.1 t c (leq_trans jc jt); rewrite mxE => ->; by rewrite !mulr0.
Qed.

Lemma inv_step i s : (i < m)%N -> inv i s -> exists2 s', leup_step O m n s i = Ok s' & inv i.+1 s'.
Proof.
move=> im I; rewrite /leup_step; case: (ltnP (sj s) n) => jn; last by exists s => //; apply: inv_done.
case e: (sp2c s i) => [l|]; last by exists s => //; apply: inv_skip.
case: l e => [|j2 l] e.
  case: s I jn e => E U L P pv co p j [_ K3] /= _ e; have := K3 i (leqnn _); rewrite /exact_at e; by case.
have -> : oget (j2 :: l) 0 = Ok j2 by []. cbn [obind].
have [E1 [P1 [p2 [-> A I0]]]] := inv_swap jn I e.
have [[S1 S2 S3 S4] [W1 W2 W3 W4] [H1 H2 H3 H4 [H5 H6]] [G1 G2 G3 G4 [G5 G6]] [K1 K2]] := I0.
cbn [obind]; move: (sj s) (sU s) (sL s) (spivs s) (scoef s) jn A I0 S1 S2 S3 S4 W1 W2 W3 W4 H1 H2 H3 H4 H5 H6 G1 G2 G3 G4 G5 G6 K1 K2
   => {s I e l j2} j U L pv co jn A I0 S1 S2 S3 S4 W1 W2 W3 W4 H1 H2 H3 H4 H5 H6 G1 G2 G3 G4 G5 G6 K1 K2.
have [fj [x [l [ep [ul ml]]]] A3] := A.
rewrite (oget_nth [::]) ?S2 // (oget_nth [::]) ?S1 //; cbn [obind].
set ej := nth [::] E1 j; have Wej : sv_wf m ej := nth_wf j W1.
have /and3P[Sej _ _] := Wej.
have hxj : hx pv 0 ej.
  move=> q qin k kr le; have nz : coef ej q.1 != 0.
    by rewrite (coef_neq0 q.1) ?map_f //; case/and3P: Wej.
  have qi : (q.1 < i)%N by apply: leq_ltn_trans le (allP H5 _ (mem_nth _ _)); case/andP: kr.
  have /(nthP 0%N)[k' ks ek] : q.1 \in pv by apply: (G2 j) => //; rewrite leqnn jn.
  by exists k'.
have jsn : (size pv <= n)%N by rewrite H2.
have sco : size co = size pv by rewrite H2.
have [z [ez Wz Cz]] := axpy_indsE H4 sco H6 jsn Wej (nth_wf j W2) hxj.
rewrite ez; cbn [obind]; rewrite (oset_Ok [::]) ?S2 //; cbn [obind].
rewrite (getvalE i Sej); set a := coef ej i.
have an : a != 0 by rewrite -(fge_at i Wej) fj.
rewrite /oinv /odiv is0E (negPf an); cbn [obind].
have ll c : c \in l -> (j < c < n)%N by rewrite ml => /andP[].
have lp r : (i < r)%N -> exact_at p2 r (fun c => [&& (j < c < n)%N, c \notin l & fge (nth [::] E1 c) i.+1 == Some r]).
  move=> ir; apply: exact_ext (A3 r ir) => c; rewrite ml /isp0; case: (boolP (j < c < n)%N) => //= cr.
  rewrite (fge_at i (nth_wf c W1)); case: (eqVneq (coef (nth [::] E1 c) i) 0) => [z0|nz] /=; first by rewrite (fge_S (nth_wf c W1) z0).
  have /eqP -> : fge (nth [::] E1 c) i == Some i by rewrite (fge_at i (nth_wf c W1)).
  by apply/eqP => -[e0]; move: ir; rewrite e0 ltnn.
have [E2 [p3 [ef s2 W2' C2 [N2 X2]]]] := elimE S1 W1 an jn ul ll lp.
have -> : behead (pget p2 i) = l by rewrite /pget ep.
rewrite -/a in ef; rewrite ef; cbn [obind].
rewrite (oget_nth [::]) ?S3 // (oget_nth [::]) ?s2 //; cbn [obind].
have ejE : nth [::] E2 j = ej by rewrite N2 //; apply/negP => /ll; rewrite ltnn.
rewrite ejE (oset_Ok [::]) ?S3 // (oset_Ok [::]) ?s2 //; cbn [obind].
set li := axpy_range _ _ _ _ _ _.
pose E3 := set_nth [::] E2 j [:: (i, a)]; pose U1 := set_nth [::] U j z; pose L1 := set_nth [::] L i li.
eexists; first by []; rewrite /inv -/E3 -/U1 -/L1 /= div1r.
have sE3 : size E3 = n by rewrite /E3 size_set_nth s2; apply/maxn_idPr.
have sU1 : size U1 = n by rewrite /U1 size_set_nth S2; apply/maxn_idPr.
have sL1 : size L1 = m by rewrite /L1 size_set_nth S3; apply/maxn_idPr.
have nE3 c : nth [::] E3 c = if c == j then [:: (i, a)] else nth [::] E2 c by rewrite /E3 nth_setE.
have nU1 c : nth [::] U1 c = if c == j then z else nth [::] U c by rewrite /U1 nth_setE.
have nL1 t : nth [::] L1 t = if t == i then li else nth [::] L t by rewrite /L1 nth_setE.
have Wli : sv_wf m li by apply: sv_wf_axpy_range (nth_wf i W3) Wej.
have WE3 : all (sv_wf m) E3.
  apply/(all_nthP [::]) => c _; rewrite nE3; case: ifP => _; last exact: nth_wf.
  by rewrite /sv_wf /sv_sorted /sv_below /sv_nonzero /= im an.
have WU1 : all (sv_wf n) U1 by apply/(all_nthP [::]) => c _; rewrite nU1; case: ifP => _ //; exact: nth_wf.
have WL1 : all (sv_wf m) L1 by apply/(all_nthP [::]) => c _; rewrite nL1; case: ifP => _ //; exact: nth_wf.
have pvi k : (k < j)%N -> (nth 0%N pv k < i)%N by move=> kj; apply: (allP H5); apply: mem_nth; rewrite H2.
have Cli r : (r < m)%N -> coef li r = (r == i)%:R + (if (i < r)%N then a^-1 * coef ej r else 0).
  by move=> rm; rewrite /li coef_axpy_range // rm andbT G3 ?leqnn ?im //= div1r.
have Cz' r : coef z r = (r == j)%:R + (if (r < j)%N then nth 0 co r * coef ej (nth 0%N pv r) else 0).
  by rewrite Cz G4 ?leqnn ?jn // /add_from /= H2.
have CE2 c r : (j < c < n)%N -> (r < m)%N -> ent E2 c r = ent E1 c r - (if (i < r)%N then ent E1 c i / a * coef ej r else 0).
  move=> cr rm; rewrite C2 // /elim_ent -/ej; case: ifP => // cl.
  suff -> : ent E1 c i = 0 by rewrite !mul0r if_same subr0.
  apply/eqP; move: cl; rewrite ml /isp0 cr /= (fge_at i (nth_wf c W1)) => /negbT; by rewrite negbK.
split; last first.
  move=> r ir; have : exact_at p3 r (fun c => (j < c < n)%N && (fge (nth [::] E2 c) i.+1 == Some r)) := X2 r ir.
  have -> : exact_at (pset p3 i None) r (isp0 n j.+1 E3 i.+1 r) = exact_at p3 r (isp0 n j.+1 E3 i.+1 r).
    by rewrite /exact_at /pset; case: eqP => // e0; move: ir; rewrite e0 ltnn.
  apply: exact_ext => c; rewrite /isp0 nE3; case: (eqVneq c j) => [->|//]; by rewrite ltnn.
have jpv : size (rcons pv i) = j.+1 by rewrite size_rcons H2.
have npv k : (k < j)%N -> nth 0%N (rcons pv i) k = nth 0%N pv k by move=> kj; rewrite nth_rcons H2 kj.
have npj : nth 0%N (rcons pv i) j = i by rewrite nth_rcons H2 ltnn eqxx.
split=> //.
- split=> //; rewrite ?size_rcons ?H3 //.
    rewrite -cats1 sorted_pairwise; last exact: ltn_trans.
    rewrite pairwise_cat /= andbT -sorted_pairwise; last exact: ltn_trans.
    by rewrite H4 andbT; apply/allrelP => x0 y0 xin; rewrite inE => /eqP ->; apply: (allP H5).
  rewrite !all_rcons ltnSn invr_eq0 an /=; split=> //; by apply: sub_all H5 => r; apply: ltnW.
- split.
  + move=> k; rewrite ltnS leq_eqVlt => /orP[/eqP ->|kj].
      by rewrite nE3 eqxx npj nth_rcons H3 ltnn eqxx invrK.
    rewrite nE3 (ltn_eqF kj) N2; last by apply/negP => /ll; rewrite ltnNge (ltnW kj).
    by rewrite G1 // npv // nth_rcons H3 kj.
  + move=> c r /andP[cj cn] ri; rewrite nE3 ifF; last by apply/eqP => e0; rewrite e0 ltnn in cj.
    rewrite mem_rcons inE; case: (eqVneq r i) => //= ne.
    have ri' : (r < i)%N by rewrite ltn_neqAle ne.
    rewrite CE2 ?cj ?(ltn_trans ri') // ltnNge (ltnW ri') /= subr0 => nz.
    by apply: (G2 c) => //; rewrite cn ltnW.
  + move=> t r /andP[it tm]; rewrite nL1 ifF; last by apply/eqP => e0; rewrite e0 ltnn in it.
    by apply: G3; rewrite tm ltnW.
  + move=> c r /andP[cj cn]; rewrite nU1 ifF; last by apply/eqP => e0; rewrite e0 ltnn in cj.
    by apply: G4; rewrite cn ltnW.
  + split; split.
    * move=> r t rt; rewrite mxE nL1; case: eqP => [e0|_]; last by have := G5.1 r t rt; rewrite mxE.
      by rewrite Cli // -e0 (ltn_eqF rt) ltnNge (ltnW rt) /= addr0.
    * move=> r; rewrite mxE nL1; case: eqP => [e0|_]; last by have := G5.2 r; rewrite mxE.
      by rewrite Cli // -e0 eqxx ltnn addr0.
    * move=> r t rt; rewrite mxE nU1; case: eqP => [e0|_]; last by have := G6.1 r t rt; rewrite mxE.
      by rewrite Cz' -e0 (gtn_eqF rt) ltnNge (ltnW rt) /= addr0.
    * move=> r; rewrite mxE nU1; case: eqP => [e0|_]; last by have := G6.2 r; rewrite mxE.
      by rewrite Cz' -e0 eqxx ltnn addr0.
split=> //; rewrite K2; symmetry.
pose io := Ordinal im; pose w := \col_(r < m) (if (i < r)%N then coef ej r else 0).
apply: (@leup_alg m n _ _ _ _ io a w).
- by move=> r t it; rewrite mxE G3 // it ltn_ord.
- by move=> r ri; rewrite mxE ltnNge ri.
- have Xi (c : 'I_n) : (c < j)%N -> (mxc m n E1 *m mxc n n U) io c = 0.
    move=> cj; rewrite mxE big1 // => t _; rewrite !mxE; case: (leqP j t) => tj.
      by have := G6.1 t c (leq_trans cj tj); rewrite mxE => ->; rewrite mulr0.
    rewrite G1 // coef_cons coef_nil /= ifN ?addr0 ?mul0r //.
    by apply/eqP => e0; have := pvi t tj; rewrite e0 ltnn.
  have Xhi (r : 'I_m) (c : 'I_n) : (j <= c)%N -> (mxc m n E1 *m mxc n n U) r c = ent E1 c r.
    by move=> jc; apply: EU_hi => t; rewrite G4 ?jc ?ltn_ord.
  apply/matrixP => r c; rewrite [RHS]mxE [X in _ = _ + X]mxE [X in _ = _ - X]mxE [X in _ = _ - _ * X]mxE big_ord1 [w r 0]mxE [row io _ _ _]mxE.
  case: (ltngtP c j) => cj.
  + rewrite Xi // !mulr0 subr0 !mxE; apply: eq_bigr => t _; rewrite !mxE nU1 (ltn_eqF cj).
    case: (leqP j t) => tj; first by have := G6.1 t c (leq_trans cj tj); rewrite mxE => ->; rewrite !mulr0.
    by rewrite nE3 (ltn_eqF tj) N2 //; apply/negP => /ll; rewrite ltnNge (ltnW tj).
  + rewrite !Xhi ?(ltnW cj) // EU_hi; last first.
      by move=> t; rewrite nU1 (gtn_eqF cj) G4 // (ltnW cj) ltn_ord.
    rewrite nE3 (gtn_eqF cj) CE2 ?cj ?ltn_ord //; congr (_ - _).
    by case: ifP => _; rewrite ?mul0r ?mulr0 //= mulrA mulrC mulrA mulrAC [a^-1 * _]mulrC mulrC.
  + rewrite !Xhi ?cj // -/ej -/a [LHS]mxE (bigD1 c) //= !mxE nE3 nU1 cj eqxx Cz' eqxx ltnn addr0 mulr1.
    have term (t : 'I_n) : t != c -> mxc m n E3 r t * mxc n n U1 t c =
        if (t < j)%N && (nth 0%N pv t == r) then coef ej r else 0.
      move=> tc; rewrite !mxE nE3 nU1 cj eqxx; have tj : (t == j :> nat) = false.
        by rewrite -cj; apply/negP => /eqP/val_inj/eqP; rewrite (negPf tc).
      rewrite tj Cz' tj add0r; case: ltnP => ltj /=; last by rewrite mulr0.
      rewrite N2; last by apply/negP => /ll; rewrite ltnNge (ltnW ltj).
      rewrite G1 // coef_cons coef_nil addr0 /=; case: eqP => [e0|_]; last by rewrite mul0r.
      by rewrite -e0 mulrA mulVf ?mul1r //; apply: (allP H6); rewrite mem_nth ?H3.
    rewrite (eq_bigr _ term) coef_cons coef_nil addr0 /=.
    have -> : coef ej r - a^-1 * ((if (i < r)%N then coef ej r else 0) * a) = if (r <= i)%N then coef ej r else 0.
      rewrite [(r <= i)%N]leqNgt; case: (i < r)%N => /=; last by rewrite mul0r mulr0 subr0.
      by rewrite mulrCA mulVf // mulr1 subrr.
    case: (boolP ((r : nat) \in pv)) => rp.
      have ri : (r < i)%N by apply: (allP H5).
      rewrite (gtn_eqF ri) add0r (ltnW ri); have := rp => /(nthP 0%N)[k kp ek]; rewrite H2 in kp.
      have ko : (k < n)%N by apply: ltn_trans jn.
      rewrite (bigD1 (Ordinal ko)) /=; last by apply/eqP => /(congr1 val) /= e0; rewrite -cj -e0 ltnn in kp.
      rewrite kp ek eqxx /= big1 ?addr0 // => t /andP[_ tk]; rewrite ifN //; apply/negP => /andP[tj /eqP e0].
      case/eqP: tk; apply: val_inj => /=; apply/eqP.
      have up : uniq pv by apply: sorted_uniq H4; [exact: ltn_trans | exact: ltnn].
      by rewrite -(nth_uniq 0%N _ _ up) ?H2 // e0 ek.
    rewrite big1; last first.
      move=> t _; rewrite ifN //; apply/negP => /andP[tj /eqP e0]; case/negP: rp; by rewrite -e0 mem_nth ?H2.
    rewrite addr0; case: (ltngtP r i) => [lt|lt|e0].
    - by apply/esym/eqP; apply: contraNT rp => nz; apply: (G2 j) => //; rewrite leqnn.
    - by [].
    - by rewrite e0.
- apply/matrixP => r t; rewrite !mxE big_ord1 !mxE nL1 eqxx /=.
  have -> : (t == io) = (t == i :> nat) by [].
  case: (eqVneq (t : nat) i) => [e0|ne].
    rewrite Cli // e0 G3 ?leqnn ?im //; congr (_ + _); by case: ifP => _; rewrite ?mulr1 ?mul0r ?mulr0.
  by rewrite mulr0 mulr0 addr0.
Qed.



(** the remaining columns *)
Lemma rest_ok (E U L P : seq svec) pv co j k : inv0 m E U L P pv co j -> (j + k <= n)%N ->
  exists E' U', [/\ ofold (leup_rest O co pv) (E, U) (iota j k) = Ok (E', U'),
    size E' = n /\ size U' = n, all (sv_wf m) E' /\ all (sv_wf n) U',
    (forall c, nth [::] E' c = if (j <= c < j + k)%N then [::] else nth [::] E c) /\
    (forall c, (j + k <= c)%N -> nth [::] U' c = nth [::] U c) &
    uupper (mxc n n U') /\ mxc m n E' *m mxc n n U' = mxc m n E *m mxc n n U].
Proof.
move=> I; have [[S1 S2 S3 S4] [W1 W2 W3 W4] [H1 H2 H3 H4 [H5 H6]] [G1 G2 G3 G4 [G5 G6]] [K1 K2]] := I.
elim: k => [|k IH] le.
  exists E, U; split=> //; split=> // c; rewrite addn0.
  by case: ifP => // /andP[a b]; move: (leq_ltn_trans a b); rewrite ltnn.
have [|E' [U' [Ef [s1 s2] [w1 w2] [n1 n2] [u1 X1]]]] := IH; first by rewrite ltnW // -addnS.
rewrite -addn1 iotaD ofold_cat Ef; cbn [obind]; rewrite [iota _ 1]/=; cbn [ofold].
set c := (j + k)%N; have cn : (c < n)%N by rewrite /c -addnS.
have jc : (j <= c)%N by rewrite leq_addr.
rewrite /leup_rest (oget_nth [::]) ?s2 // (oget_nth [::]) ?s1 //; cbn [obind].
have e1 : nth [::] E' c = nth [::] E c by rewrite n1 ltnn andbF.
have e2 : nth [::] U' c = nth [::] U c by rewrite n2.
rewrite e1 e2; set ec := nth [::] E c; have Wec : sv_wf m ec := nth_wf c W1.
have nzp r : coef ec r != 0 -> r \in pv.
  move=> nz; apply: (G2 c) => //; first by rewrite jc.
  by rewrite ltnNge; apply/negP => mr; rewrite (coef_ge _ mr) ?eqxx // in nz; case/and3P: Wec.
have hxc : hx pv 0 ec.
  move=> q qin k0 _ _; have nz : coef ec q.1 != 0.
    by rewrite (coef_neq0 q.1) ?map_f //; case/and3P: Wec.
  by have /(nthP 0%N)[k' ks ek] := nzp _ nz; exists k'.
have jsn : (size pv <= n)%N by rewrite H2.
have sco : size co = size pv by rewrite H2.
have [z [ez Wz Cz]] := axpy_indsE H4 sco H6 jsn Wec (nth_wf c W2) hxc.
rewrite ez; cbn [obind]; rewrite (oset_Ok [::]) ?s2 // (oset_Ok [::]) ?s1 //; cbn [obind].
pose E2 := set_nth [::] E' c [::]; pose U2 := set_nth [::] U' c z.
exists E2, U2.
have nE2 c' : nth [::] E2 c' = if c' == c then [::] else nth [::] E' c' by rewrite /E2 nth_setE.
have nU2 c' : nth [::] U2 c' = if c' == c then z else nth [::] U' c' by rewrite /U2 nth_setE.
have Cz' r : coef z r = (r == c)%:R + (if (r < j)%N then nth 0 co r * coef ec (nth 0%N pv r) else 0).
  by rewrite Cz G4 ?jc // /add_from /= H2.
split=> //.
- by rewrite /E2 /U2 !size_set_nth s1 s2; split; apply/maxn_idPr.
- split; apply/(all_nthP [::]) => t _; rewrite ?nE2 ?nU2; case: ifP => _ //; exact: nth_wf.
- split=> c'.
    rewrite nE2 n1 addn1 addnS ltnS -/c; case: (ltngtP c' c) => [lt|lt|->] //; by rewrite jc.
  by rewrite addn1 addnS => lt; rewrite nU2 (gtn_eqF lt) n2 // ltnW.
have u2 : uupper (mxc n n U2).
  split; [move=> r t rt|move=> r]; rewrite mxE nU2; (case: eqP => [e0|_]; last by [have := u1.1 r t rt; rewrite mxE|have := u1.2 r; rewrite mxE]).
    rewrite Cz' -e0 (gtn_eqF rt) ltnNge.
    by rewrite (leq_trans jc) ?addr0 //= -e0 ltnW.
  by rewrite Cz' -e0 eqxx ltnNge e0 jc addr0.
split=> //; rewrite -X1; apply/matrixP => r c'; rewrite !mxE.
case: (eqVneq (c' : nat) c) => [ec'|nc].
  have term (t : 'I_n) : mxc m n E2 r t * mxc n n U2 t c' =
        if (t < j)%N && (nth 0%N pv t == r) then coef ec r else 0.
    rewrite !mxE nE2 nU2 ec' eqxx; case: (eqVneq (t : nat) c) => [->|tc].
      by rewrite coef_nil mul0r ltnNge jc.
    rewrite Cz' (negPf tc) add0r; case: ltnP => tj /=; last by rewrite mulr0.
    rewrite n1 ifN; last by rewrite negb_and -ltnNge tj.
    rewrite G1 // coef_cons coef_nil addr0 /=; case: eqP => [e0|_]; last by rewrite mul0r.
    by rewrite -e0 mulrA mulVf ?mul1r //; apply: (allP H6); rewrite mem_nth ?H3.
  rewrite (eq_bigr _ (fun t _ => term t)).
  have -> : \sum_(t < n) mxc m n E' r t * mxc n n U' t c' = coef ec r.
    have := @EU_hi E' U' r c'; rewrite mxE => ->; first by rewrite ec' e1.
    by move=> t; rewrite ec' e2 G4 ?jc // -ec'.
  case: (boolP ((r : nat) \in pv)) => rp.
    have := rp => /(nthP 0%N)[k0 kp ek]; rewrite H2 in kp.
    have ko : (k0 < n)%N by apply: leq_trans kp _.
    rewrite (bigD1 (Ordinal ko)) //= kp ek eqxx /= big1 ?addr0 // => t tk; rewrite ifN //; apply/negP => /andP[tj /eqP e0].
    case/eqP: tk; apply: val_inj => /=; apply/eqP.
    have up : uniq pv by apply: sorted_uniq H4; [exact: ltn_trans | exact: ltnn].
    by rewrite -(nth_uniq 0%N _ _ up) ?H2 // e0 ek.
  rewrite big1; last first.
    move=> t _; rewrite ifN //; apply/negP => /andP[tj /eqP e0]; case/negP: rp; by rewrite -e0 mem_nth ?H2.
  by apply/esym/eqP; apply: contraNT rp; apply: nzp.
apply: eq_bigr => t _; rewrite !mxE nE2 nU2 (negPf nc); case: (eqVneq (t : nat) c) => [tc|//].
suff -> : ent U' c' t = 0 by rewrite !mulr0.
case: (ltngtP c' c) nc => // lt _.
  by have := u1.1 t c'; rewrite mxE => -> //; rewrite tc.
by rewrite n2 ?(ltnW lt) // G4 ?ltn_ord ?(leq_trans jc (ltnW lt)) // tc (ltn_eqF lt).
Qed.

Lemma fact_shape (E : seq svec) pv co j : (j <= n)%N -> size pv = j -> size co = j -> sorted ltn pv ->
  all (fun r => (r < m)%N) pv -> all (fun c => c != 0) co ->
  (forall k, (k < j)%N -> nth [::] E k = [:: (nth 0%N pv k, (nth 0 co k)^-1)]) ->
  (forall c, (j <= c < n)%N -> nth [::] E c = [::]) -> shape_EL (mxc m n E).
Proof.
move=> jn H2 H3 H4 H5 H6 G1 G2.
have nz (r : 'I_m) (c : 'I_n) : mxc m n E r c != 0 -> (c < j)%N /\ (r : nat) = nth 0%N pv c.
  rewrite mxE; case: (leqP j c) => jc; first by rewrite G2 ?jc ?ltn_ord // coef_nil eqxx.
  by rewrite G1 // coef_cons coef_nil addr0 /=; case: (eqVneq (nth 0%N pv c) r) => [->|_]; rewrite ?eqxx.
have up : uniq pv by apply: sorted_uniq H4; [exact: ltn_trans | exact: ltnn].
split; first split.
- move=> i j1 j2 /nz[a1 b1] /nz[a2 b2]; apply: val_inj; apply/eqP.
  rewrite -(nth_uniq 0%N _ _ up) ?H2 //; apply/eqP; exact: etrans (esym b1) b2.
- by move=> i i' j1 /nz[_ b1] /nz[_ b2]; apply: val_inj; exact: etrans b1 (esym b2).
move=> i' j1 j2 /nz[a2 b2] lt; have a1 := ltn_trans lt a2.
have rm : (nth 0%N pv j1 < m)%N by apply: (allP H5); rewrite mem_nth ?H2.
exists (Ordinal rm); rewrite /= ?b2.
  by apply: (sorted_ltn_nth ltn_trans 0%N H4); rewrite ?inE ?H2.
rewrite mxE G1 // coef_cons coef_nil addr0 /= eqxx invr_eq0.
by apply: (allP H6); rewrite mem_nth ?H3.
Qed.

End LEUP.

Lemma LEUP_ok m n (A : cmat) (M : 'M[F]_(m, n)) : den A M ->
  exists2 f, LEUP O A = Ok f & is_LEUP M f.
Proof.
case: A => am an ac [/= /cm_wfP[/= s W] eA eA' MA]; rewrite {}eA' in s *; rewrite {}eA in W *.
have [p ep Hp] := get_pivotsE m s.
have [Lw Ln Lc Le] := den_identity F m; have [Uw Un Uc Ue] := den_identity F n.
have [Ls LW] := cm_wfP Lw; have [Us UW] := cm_wfP Uw.
have eI k t r : (t < k)%N -> coef (nth [::] (cols (cm_identity O k)) t) r = (r == t)%:R.
  by move=> tk; rewrite /= (nth_map 0%N) ?size_iota // nth_iota // coef_unit eq_sym.
have I1 k : ulower (1%:M : 'M[F]_k) /\ uupper (1%:M : 'M[F]_k).
  by split; split; [move=> i j lt|move=> i|move=> i j lt|move=> i]; rewrite mxE ?eqxx // -(inj_eq val_inj) ?(ltn_eqF lt) // (gtn_eqF lt).
have Im : inv M 0 (LState ac (cols (cm_identity O n)) (cols (cm_identity O m)) (cols (cm_identity O n)) [::] [::] p 0).
  split; last by move=> r _; apply: Hp.
  split=> //; first split=> //.
    by move=> t r /andP[_ tm]; apply: eI.
    by move=> t r tm; apply: eI.
    by rewrite Le Ue; have [] := I1 m; have [] := I1 n.
  rewrite Le Ue MA mul1mx !mulmx1; split=> //; exists 1%g; by rewrite perm_mx1.
have [s' es Is] := ofold_iota_ind Im (fun i s im I => inv_step im I).
rewrite /LEUP /LEUP_inplace; cbn [fE fU fL fP nrow ncol cols]; rewrite ep; cbn [obind].
rewrite es; cbn [obind].
case: s' es Is => E U L P pv co p' j es [I0 _]; cbn [sE sU sL sP spivs scoef sj].
have [[S1 S2 S3 S4] [W1 W2 W3 W4] [H1 H2 H3 H4 [H5 H6]] [G1 G2 G3 G4 [G5 G6]] [K1 K2]] := I0.
have [|E' [U' [-> [s1 s2] [w1 w2] [n1 n2] [u1 X1]]]] := rest_ok (k := n - j) I0; first by rewrite subnKC.
have [Pt eP dP] := den_transpose (den_mk S4 W4).
cbn [obind]; rewrite eP; cbn [obind]; eexists; first by [].
exists (mxc m m L), (mxc m n E'), (mxc n n U'), (mxc n n P)^T; split=> //; first split; try exact: den_mk.
- by [].
- rewrite -!mulmxA [mxc m n E' *m _]mulmxA X1 [mxc m m L *m _]mulmxA -K2 -mulmxA (permmx_mul_tr K1).1 mulmx1 //.
- exact: permmx_tr.
- apply: (@fact_shape m n E' pv co j) => //.
    by move=> k kj; rewrite n1 leqNgt kj G1.
  by move=> c cr; rewrite n1 subnKC // cr.
Qed.

End S.
