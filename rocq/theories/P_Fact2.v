(** LEUP: pivot bookkeeping. *)
From mathcomp Require Import all_ssreflect all_fingroup all_algebra zify.
From Verif Require Import Outcome P_Outcome RingTac M_SparseVec M_Perm M_ColMatrix S_Linalg P_SparseVec
  P_SparseVec2 P_Reduce P_ColMatrix M_Fact P_Fact1.
Set Implicit Arguments.
Unset Strict Implicit.
Unset Printing Implicit Defensive.
Import GRing.Theory.
Local Open Scope ring_scope.

Section S.
Variable F : fieldType.
Notation O := (ops_of F).
Notation svec := (svec F).

Definition fge (c : svec) (i : nat) : option nat := if (split_lb c i).2 is (r, _) :: _ then Some r else None.
Notation ent cs c r := (coef (nth [::] cs c) r).

Lemma fgeP m (c : svec) i : sv_wf m c ->
  match fge c i with
  | Some r => [/\ (i <= r)%N, (r < m)%N, coef c r != 0 & forall r', (i <= r' < r)%N -> coef c r' = 0]
  | None => forall r, (i <= r)%N -> coef c r = 0
  end.
Proof.
move=> /and3P[S B N]; rewrite /fge (split_lb_sorted i S) /=.
have mem p : (p \in [seq p <- c | (i <= p.1)%N]) = (i <= p.1)%N && (p \in c) by rewrite mem_filter.
have S2 : sv_sorted [seq p <- c | (i <= p.1)%N] by apply: sv_sorted_filter.
have cf r : (i <= r)%N -> coef [seq p <- c | (i <= p.1)%N] r = coef c r.
  by move=> ir; rewrite (coef_filter (fun k => (i <= k)%N)) ir.
case E: [seq p <- c | (i <= p.1)%N] => [|[r v] l].
  by move=> r ir; rewrite -cf // E coef_nil.
have: (r, v) \in c /\ (i <= r)%N by have := mem (r, v); rewrite E mem_head => /esym/andP[].
move=> [rin ir]; split=> //; first exact: (allP B _ rin).
- have -> : coef c r = v by have := coef_in S rin.
  exact: (allP N _ rin).
- move=> r' /andP[ir' r'r]; rewrite -cf // E; apply: sorted_hd r'r; by rewrite -E.
Qed.

Lemma fge_Some m (c : svec) i r : sv_wf m c -> (i <= r)%N -> coef c r != 0 ->
  (forall r', (i <= r' < r)%N -> coef c r' = 0) -> fge c i = Some r.
Proof.
move=> W ir nz H; have := fgeP i W; case: (fge c i) => [r'|h]; last by rewrite h ?eqxx in nz.
move=> [i1 _ n1 h]; case: (ltngtP r' r) => [lt|lt|->] //.
  by rewrite H ?eqxx ?i1 // in n1.
by rewrite h ?eqxx ?ir // in nz.
Qed.
Lemma fge_None m (c : svec) i : sv_wf m c -> (forall r, (i <= r)%N -> coef c r = 0) -> fge c i = None.
Proof. by move=> W h; have := fgeP i W; case: (fge c i) => // r [ir _]; rewrite h ?eqxx. Qed.
Lemma fge_at m (c : svec) i : sv_wf m c -> (fge c i == Some i) = (coef c i != 0).
Proof.
move=> W; apply/eqP/idP => [E|nz]; first by have := fgeP i W; rewrite E => -[].
by apply: (fge_Some W) => // r'; case/andP => a b; have := leq_ltn_trans a b; rewrite ltnn.
Qed.
Lemma fge_S m (c : svec) i : sv_wf m c -> coef c i = 0 -> fge c i = fge c i.+1.
Proof.
move=> W z; have := fgeP i.+1 W; case E: (fge c i.+1) => [r|]; last first.
  by move=> h; apply: (fge_None W) => r; rewrite leq_eqVlt => /orP[/eqP <-|/h].
move=> [ir _ nz h]; apply: (fge_Some W) => //; first exact: ltnW.
by move=> r' /andP[]; rewrite leq_eqVlt => /orP[/eqP <- //|a b]; apply: h; rewrite a.
Qed.

(** the list stored at key r holds exactly the columns c satisfying P *)
Definition exact_at (p : pmap) (r : nat) (P : nat -> bool) : Prop :=
  match p r with
  | Some l => [/\ uniq l, l != [::] & forall c, (c \in l) = P c]
  | None => forall c, P c = false
  end.

Lemma exact_ext p r P Q : P =1 Q -> exact_at p r P -> exact_at p r Q.
Proof.
by move=> e; rewrite /exact_at; case: (p r) => [l [u n h]|h]; [split=> // c; rewrite -e|move=> c; rewrite -e].
Qed.

(** adding a column *)
Lemma exact_add p r (P : nat -> bool) j : exact_at p r P -> P j = false ->
  exact_at (pset p r (Some (rcons (pget p r) j))) r (fun c => (c == j) || P c).
Proof.
rewrite /exact_at /pset eqxx /pget; case: (p r) => [l [u n h]|h] Pj /=.
  split; first by rewrite rcons_uniq h Pj.
    by case: l {u n h}.
  by move=> c; rewrite mem_rcons inE h.
by split=> // c; rewrite mem_seq1 h orbF.
Qed.

(** key r with update_pivot on column j *)
Lemma update_pivotE (E : seq svec) p j i : (j < size E)%N ->
  exists2 p', update_pivot E p j i = Ok p' & forall r (P : nat -> bool), exact_at p r P -> P j = false ->
    exact_at p' r (fun c => P c || (c == j) && (fge (nth [::] E j) i == Some r)).
Proof.
move=> js; rewrite /update_pivot (oget_nth [::]) //=; eexists; first by [].
move=> r P H Pj; rewrite /fge; case: (split_lb _ _).2 => [|[r0 v] l].
  by apply: exact_ext H => c; rewrite andbF orbF.
case: (eqVneq r0 r) => [->|ne].
  by apply: exact_ext (exact_add H Pj) => c; rewrite eqxx andbT orbC.
rewrite /exact_at /pset eq_sym (negPf ne); apply: exact_ext H => c.
by rewrite (inj_eq (@Some_inj _)) (negPf ne) andbF orbF.
Qed.

Lemma get_pivotsE m n (A : seq svec) : size A = n ->
  exists2 p, get_pivots (CMat m n A) = Ok p &
    forall r, exact_at p r (fun c => (c < n)%N && (fge (nth [::] A c) 0 == Some r)).
Proof.
move=> s; rewrite /get_pivots /=.
apply: (ofold_iota_ind (P := fun k p => forall r, exact_at p r (fun c => (c < k)%N && (fge (nth [::] A c) 0 == Some r)))).
  by move=> r c; rewrite ltn0.
move=> j p jn H; have [|p' E H'] := @update_pivotE A p j 0; first by rewrite s.
exists p' => // r; apply: exact_ext (H' r _ (H r) _); last by rewrite ltnn.
by move=> c; rewrite ltnS; case: (ltngtP c j) => [lt|lt|->] /=; rewrite ?orbF ?andbF ?orFb.

Qed.

(** the swap of column j with column j2 = p2c[i][0] *)
Lemma swap_nthE (cs : seq svec) j k : (j < size cs)%N -> (k < size cs)%N ->
  exists cs', [/\ swap_nth cs j k = Ok cs', size cs' = size cs &
    forall c, nth [::] cs' c = nth [::] cs (if c == j then k else if c == k then j else c)].
Proof.
move=> js ks; rewrite /swap_nth (oget_nth [::]) //= (oget_nth [::]) //= (oset_Ok [::]) //= (oset_Ok [::]) /=; last first.
  by rewrite size_set_nth; apply: leq_trans ks (leq_maxr _ _).
eexists; split; first by [].
  by rewrite !size_set_nth (maxn_idPr js) (maxn_idPr ks).
move=> c; rewrite !nth_set_nth /= nth_set_nth /=; case: (eqVneq c k) => [->|_]; last by case: ifP.
by case: eqP => [->|].
Qed.

Lemma mrem (x y : nat) (s : seq nat) : uniq s -> (x \in rem y s) = (x != y) && (x \in s).
Proof. by move=> u; rewrite mem_rem_uniq // !inE. Qed.

Definition isp0 (n lo : nat) (E : seq svec) (i r : nat) (c : nat) := (lo <= c < n)%N && (fge (nth [::] E c) i == Some r).

Section Step.
Variables (m n i j : nat) (E : seq svec).
Hypothesis sE : size E = n.
Hypothesis WE : all (sv_wf m) E.


Notation isp := (isp0 n).
Definition after_swap (E1 : seq svec) (p : pmap) :=
  [/\ fge (nth [::] E1 j) i = Some i,
      exists x l, p i = Some (x :: l) /\ uniq l /\ forall c, (c \in l) = isp j.+1 E1 i i c &
      forall r, (i < r)%N -> exact_at p r (isp j.+1 E1 i r)].

Lemma no_swap p l : (j < n)%N -> (forall r, (i <= r)%N -> exact_at p r (isp j E i r)) -> p i = Some (j :: l) ->
  after_swap E p.
Proof.
move=> jn H e; have := H i (leqnn _); rewrite /exact_at e => -[/andP[jl u] _ h].
have fj : fge (nth [::] E j) i = Some i by apply/eqP; move: (h j); rewrite mem_head => /esym/andP[].
split=> //.
  exists j, l; split=> //; split=> // c.
  case: (eqVneq c j) => [->|ne]; first by rewrite /isp0 ltnn (negPf jl).
  by have := h c; rewrite inE (negPf ne) /= => ->; rewrite /isp0 [(j <= c)%N]leq_eqVlt eq_sym (negPf ne).
move=> r ir; apply: exact_ext (H r (ltnW ir)) => c; rewrite /isp0.
case: (eqVneq c j) => [->|ne]; last by rewrite [(j <= c)%N]leq_eqVlt eq_sym (negPf ne).
rewrite fj ltnn /= (inj_eq (@Some_inj _)); case: eqP => [e0|]; last by rewrite andbF.
by move: ir; rewrite e0 ltnn.
Qed.

Lemma yes_swap p j2 l : (j < n)%N -> (forall r, (i <= r)%N -> exact_at p r (isp j E i r)) ->
  p i = Some (j2 :: l) -> j2 != j ->
  exists p1 E1 p2, [/\ delete_pivot E p j i = Ok p1, swap_nth E j j2 = Ok E1, update_pivot E1 p1 j2 i = Ok p2 &
    [/\ (j <= j2 < n)%N, size E1 = n, forall c, nth [::] E1 c = nth [::] E (if c == j then j2 else if c == j2 then j else c) &
    after_swap E1 p2]].
Proof.
move=> jn H e ne; have := H i (leqnn _); rewrite /exact_at e => -[/andP[jl u] _ h].
have /andP[/andP[jj2 j2n] /eqP f2] : isp j E i i j2 by rewrite -h mem_head.
have [||E1 [eE1 sE1 nE1]] := @swap_nthE E j j2; rewrite ?sE //; rewrite sE in sE1.
rewrite /delete_pivot /update_pivot (oget_nth [::]) ?sE //= .
have Ej2 : nth [::] E1 j2 = nth [::] E j by rewrite nE1 (negPf ne) eqxx.
have Ej : nth [::] E1 j = nth [::] E j2 by rewrite nE1 eqxx.
have Eo c : c != j -> c != j2 -> nth [::] E1 c = nth [::] E c by move=> a b; rewrite nE1 (negPf a) (negPf b).
have Wj := nth_wf j WE.
have oth c : c != j -> (j <= c < n)%N = (j.+1 <= c < n)%N by move=> a; rewrite [(j <= c)%N]leq_eqVlt eq_sym (negPf a).
have f2r r : isp j E i r j2 = (r == i).
  by rewrite /isp0 jj2 j2n f2 /= (inj_eq (@Some_inj _)) eq_sym.
have fjr r : isp j E i r j = (fge (nth [::] E j) i == Some r) by rewrite /isp0 leqnn jn.
have tgt r c : isp j.+1 E1 i r c = (c == j2) && (fge (nth [::] E j) i == Some r) || [&& c != j, c != j2 & isp j E i r c].
  rewrite /isp0; case: (eqVneq c j2) => [->|c2]; first by rewrite -oth // jj2 j2n Ej2 andbF orbF.
  by case: (eqVneq c j) => [->|cj] /=; [rewrite ltnn | rewrite -oth // Eo].
have ml c : (c \in l) = (c != j2) && isp j E i i c.
  by rewrite -h inE; case: (eqVneq c j2) => [->|_] //=; rewrite (negPf jl).
have fin : fge (nth [::] E1 j) i = Some i by rewrite Ej.
case Esp: (split_lb (nth [::] E j) i).2 => [|[r0 v0] rest].
  have fj : fge (nth [::] E j) i = None by rewrite /fge Esp.
  rewrite fj in fjr tgt.
  exists p, E1, p; rewrite (oget_nth [::]) ?sE1 //= Ej2 Esp; split=> //; split=> //; first by rewrite jj2.
  have cj r c : isp j E i r c -> c != j by move=> a; apply/eqP => b; rewrite b fjr in a.
  split=> //.
    exists j2, l; split=> //; split=> // c; rewrite tgt ml andbF /=.
    by case: (boolP (isp j E i i c)) => [a|]; rewrite ?andbF // (cj _ _ a).
  move=> r ir; apply: exact_ext (H r (ltnW ir)) => c; rewrite tgt andbF /=.
  case: (boolP (isp j E i r c)) => [a|]; rewrite ?andbF // (cj _ _ a) /= andbT.
  by case: (eqVneq c j2) a => [->|//]; rewrite f2r => /eqP e0; move: ir; rewrite e0 ltnn.
have fj : fge (nth [::] E j) i = Some r0 by rewrite /fge Esp.
have ir0 : (i <= r0)%N by have := fgeP i Wj; rewrite fj => -[].
rewrite fj in fjr tgt.
set l0 := rcons (rem j (pget p r0)) j2.
pose p1 := pset p r0 (Some (rem j (pget p r0))).
pose p2 := pset p1 r0 (Some (rcons (pget p1 r0) j2)).
have ep r : p2 r = pset p r0 (Some l0) r.
  by rewrite /p2 /p1 /pset /pget eqxx /=; case: eqP.
exists p1, E1, p2.
rewrite (oget_nth [::]) ?sE1 //= Ej2 Esp; split=> //.
split=> //; first by rewrite jj2.
suff [s1 s2] : (exists x l', pset p r0 (Some l0) i = Some (x :: l') /\ uniq l' /\ forall c, (c \in l') = isp j.+1 E1 i i c) /\
   forall r, (i < r)%N -> exact_at (pset p r0 (Some l0)) r (isp j.+1 E1 i r).
  by split=> //; [rewrite ep|move=> r ir; rewrite /exact_at ep; apply: s2].
split.
  rewrite /pset; case: (eqVneq i r0) => [er|nr].
    exists j2, (rcons (rem j l) j2); rewrite /l0 -er /pget e /= (negPf ne); split=> //.
    split; first by rewrite rcons_uniq rem_uniq // andbT mrem // (negPf jl) andbF.
    move=> c; rewrite mem_rcons inE mrem // ml tgt -er eqxx andbT.
    by case: (c == j2); rewrite ?andbF.
  exists j2, l; split=> //; split=> // c; rewrite tgt ml (inj_eq (@Some_inj _)) [r0 == _]eq_sym (negPf nr) andbF /=.
  case: (eqVneq c j) => [->|//]; by rewrite fjr (inj_eq (@Some_inj _)) [r0 == _]eq_sym (negPf nr) andbF.
move=> r ir; have Hr := H r (ltnW ir).
have j2r : isp j E i r j2 = false by rewrite f2r; apply/eqP => e0; move: ir; rewrite e0 ltnn.
case: (eqVneq r r0) => [er|nr]; last first.
  have Hr' : exact_at (pset p r0 (Some l0)) r (isp j E i r) by move: Hr; rewrite /exact_at /pset (negPf nr).
  apply: exact_ext Hr' => c; rewrite tgt (inj_eq (@Some_inj _)) [r0 == _]eq_sym (negPf nr) andbF /=.
  case: (eqVneq c j) => [->|cj] /=; first by rewrite fjr (inj_eq (@Some_inj _)) [r0 == _]eq_sym (negPf nr).
  by case: (eqVneq c j2) => [->|].
subst r; move: Hr; rewrite /exact_at /pset eqxx /l0 /pget; case: (p r0) => [l1 [u1 n1 h1]|h1]; last first.
  by have := h1 j; rewrite fjr eqxx.
split=> /=; first by rewrite rcons_uniq rem_uniq // andbT mrem // h1 j2r andbF.
  by case: (rem j l1).
move=> c; rewrite mem_rcons inE mrem // h1 tgt eqxx andbT.
by case: (eqVneq c j2).
Qed.

(** one elimination: column jj loses its entry... and its pivot moves past row i *)
Definition elim_ent (E : seq svec) (a : F) r c : F :=
  ent E c r - (if (i < r)%N then ent E c i / a * ent E j r else 0).

Lemma elimE (a : F) (l : seq nat) (p : pmap) : a != 0 -> (j < n)%N -> uniq l ->
  (forall c, c \in l -> (j < c < n)%N) ->
  (forall r, (i < r)%N -> exact_at p r (fun c => [&& (j < c < n)%N, c \notin l & fge (nth [::] E c) i.+1 == Some r])) ->
  exists E2 p2, [/\ ofold (leup_elim O m i j a) (E, p) l = Ok (E2, p2), size E2 = n, all (sv_wf m) E2,
    forall c r, (r < m)%N -> ent E2 c r = if c \in l then elim_ent E a r c else ent E c r &
    (forall c, c \notin l -> nth [::] E2 c = nth [::] E c) /\
    forall r, (i < r)%N -> exact_at p2 r (fun c => (j < c < n)%N && (fge (nth [::] E2 c) i.+1 == Some r))].
Proof.
move=> an jn; elim: l E sE WE p => [|jj l IH] E0 sE0 WE0 p u H Hp.
  exists E0, p; split=> //; split=> // r ir; exact: Hp.
move: u; rewrite cons_uniq => /andP[jjl u]; have /andP[jjj jjn] := H jj (mem_head _ _); cbn [ofold].
pose ax := axpy_range O (- (getval O (nth [::] E0 jj) i / a)) (nth [::] E0 j) i.+1 m (nth [::] E0 jj).
have Wjj := nth_wf jj WE0; have Wj := nth_wf j WE0.
have Wax : sv_wf m ax by apply: sv_wf_axpy_range.
have /and3P[Sjj _ _] := Wjj; have /and3P[Sj _ _] := Wj.
have Cax r : (r < m)%N -> coef ax r = elim_ent E0 a r jj.
  move=> rm; rewrite /ax coef_axpy_range // getvalE // rm andbT /elim_ent; congr (_ + _).
  by case: ifP => _; rewrite ?oppr0 //= mulNr.
pose E1 := set_nth [::] E0 jj ax.
have sE1 : size E1 = n by rewrite /E1 size_set_nth sE0; apply/maxn_idPr.
have nE1 c : nth [::] E1 c = if c == jj then ax else nth [::] E0 c by rewrite /E1 nth_setE.
have WE1 : all (sv_wf m) E1.
  by apply/(all_nthP [::]) => c; rewrite sE1 => cn; rewrite nE1; case: ifP => // _; apply: nth_wf.
have [|p1 Ep1 H1] := @update_pivotE E1 p jj i.+1; first by rewrite sE1.
have st : leup_elim O m i j a (E0, p) jj = Ok (E1, p1).
  rewrite /leup_elim (oget_nth [::]) ?sE0 //= (oget_nth [::]) ?sE0 //= /odiv is0E (negPf an) /=.
  by rewrite (oset_Ok [::]) ?sE0 //= -/ax -/E1 Ep1.
have [|r ir|E2 [p2 [Ef s2 W2 C2 [N2 X2]]]] := IH E1 sE1 WE1 p1 u.
- by move=> c cl; apply: H; rewrite inE cl orbT.
- apply: exact_ext (H1 r _ (Hp r ir) _); last by rewrite mem_head andbF.
  move=> c; rewrite inE nE1; case: (eqVneq c jj) => [->|ne] /=.
    by rewrite nE1 eqxx jjj jjn jjl.
  by rewrite orbF nE1 (negPf ne).
exists E2, p2; rewrite st; cbn [obind]; split=> //.
- move=> c r rm; rewrite C2 // inE nE1 /elim_ent !nE1; case: (eqVneq c jj) => [->|ne] /=.
    by rewrite (negPf jjl) Cax // /elim_ent.
  by have -> : (j == jj) = false by apply/eqP => e0; rewrite e0 ltnn in jjj.
- split=> // c; rewrite inE => /norP[ne cl]; by rewrite N2 // nE1 (negPf ne).
Qed.



End Step.
End S.
