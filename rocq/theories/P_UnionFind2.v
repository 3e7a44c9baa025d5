(** The two union-find loops. *)
From mathcomp Require Import all_ssreflect zify.
From Verif Require Import Outcome M_SparseVec M_Perm M_ColMatrix M_Reduce M_Homology M_Persist M_UnionFind S_UnionFind P_Outcome P_UnionFind.
Set Implicit Arguments.
Unset Strict Implicit.
Unset Printing Implicit Defensive.

Section Loop.
Variables (V : Type) (T : Type) (n : nat) (inf : V) (birth : nat -> V) (v1 : seq V).
Variables (Fl : Type) (fl : V -> Fl) (ltf : Fl -> Fl -> bool) (vle : nat -> nat -> Prop).
Hypothesis vle_refl : forall a, vle a a.
Hypothesis vle_trans : forall a b c, vle a b -> vle b c -> vle a c.
Hypothesis vleT : forall a b, a < n -> b < n -> ltf (fl (birth a)) (fl (birth b)) -> vle a b.
Hypothesis vleF : forall a b, a < n -> b < n -> ~~ ltf (fl (birth a)) (fl (birth b)) -> vle b a.
Variable d0 : nat * T.
Let dval k := nth inf v1 k.

Definition edge (c : svec T) : nat * nat := ((nth d0 c 0).1, (nth d0 c 1).1).

Variable cs : seq (svec T).
Hypothesis cs2 : all (fun c => 1 < size c) cs.
Let E := map edge cs.
Hypothesis Ein : forall a b, (a, b) \in E -> a < n /\ b < n.
Hypothesis v1s : size cs <= size v1.

Lemma uf_loop_ok c k nf p pairs : drop k cs = c -> k <= size cs -> ufinv n inf birth dval vle E k nf p pairs ->
  exists2 st, uf_loop fl ltf n v1 c k nf (p, pairs) = Ok st & ufdone n inf birth dval vle E st.2.
Proof.
elim: c k nf p pairs => [|c0 c IH] k nf p pairs dk lk inv.
  exists (p, pairs) => //; have ek : k = size E.
    by rewrite size_map; apply/eqP; rewrite eqn_leq lk -subn_eq0 -size_drop dk.
  by rewrite ek in inv; exact: ufinv_end inv.
have lk' : k < size cs by rewrite -subn_gt0 -size_drop dk.
have c0E : nth [::] cs k = c0 by rewrite -[k]addn0 -nth_drop dk.
have dk' : drop k.+1 cs = c by rewrite -add1n -drop_drop dk /= drop0.
have s0 : 1 < size c0 by rewrite -c0E; have /all_nthP := cs2; exact.
have lE : k < size E by rewrite size_map.
have eE : nth (0, 0) E k = ((nth d0 c0 0).1, (nth d0 c0 1).1) by rewrite (nth_map [::]) // c0E.
cbn [uf_loop]; rewrite !(oget_nth d0) // 1?ltnW //; cbn [obind]; cbv zeta.
have [p1 [p2 [r [[E1 E2 inv']|[ri [rj [E1 E2 ne H]]]]]]] := ufinv_same vle_trans Ein lE eE inv.
  rewrite [(p, pairs).1]/= E1; cbn [obind]; rewrite [(p1, r).1]/= E2; cbn [obind]; rewrite eqxx.
  exact: IH dk' lk' inv'.
rewrite [(p, pairs).1]/= E1; cbn [obind]; rewrite [(p1, ri).1]/= E2; cbn [obind fst snd]; rewrite (negbTE ne).
have [rho [h [D [[F ep] _ _ _ _]]]] := inv.
have lkv : k < size v1 by exact: leq_trans lk' v1s.
have sp : size pairs = n by rewrite ep size_mkseq.
(* the end of the step, whichever way it goes *)
have fin live dead child : (live, dead, child) = (ri, rj, (nth d0 c0 1).1) \/ (live, dead, child) = (rj, ri, (nth d0 c0 0).1) ->
  vle live dead -> exists2 st, (do st' <- uf_merge (p2, pairs) live dead child k (nth inf v1 k);
     (if nf.+2 == n then Ok st' else uf_loop fl ltf n v1 c k.+1 nf.+1 st')) = Ok st & ufdone n inf birth dval vle E st.2.
  move=> or vl; have [p3 [pairs' [-> _ _ _ inv']]] := H live dead child k or vl erefl; cbn [obind].
  case: eqP => [en|_]; last exact: IH dk' lk' inv'.
  by exists (p3, pairs') => //; apply: (ufinv_break Ein _ inv').
have [lri lrj bi bj] : [/\ ri < n, rj < n, nth (upair inf birth dval (fun _ => None) 0) pairs ri = PPair 0 ri None (birth ri) inf
    & nth (upair inf birth dval (fun _ => None) 0) pairs rj = PPair 0 rj None (birth rj) inf].
  have [[lr lrj]] : (ri < n /\ rj < n) /\ True.
    have [li lj] : (nth d0 c0 0).1 < n /\ (nth d0 c0 1).1 < n by apply: Ein; rewrite -eE mem_nth.
    move: E1 E2; have [rho' [h' [D' [[F' ep'] [nr hb] _ _ _]]]] := inv.
    have hn x : x < n -> h' x <= n by move=> lx; apply: leq_trans (hb x lx) _; rewrite -nr leq_addr.
    have [q1 e1 F1] := find_parent_ok F' li (hn _ li); have [q2 e2 F2] := find_parent_ok F1 lj (hn _ lj).
    rewrite e1 => -[<- <-]; rewrite e2 => -[_ <-]; have [_ f2 _ _ _] := F'.
    by split=> //; split; [have [] := f2 _ li|have [] := f2 _ lj].
  move=> _; case lt: (ltf (fl (birth ri)) (fl (birth rj))).
    by have [p3 [pairs' [_ [a b] c1 c2 _]]] := H ri rj _ k (or_introl erefl) (vleT lr lrj lt) erefl.
  by have [p3 [pairs' [_ [a b] c1 c2 _]]] := H rj ri _ k (or_intror erefl) (vleF lr lrj (negbT lt)) erefl.
rewrite !(oget_nth (upair inf birth dval (fun _ => None) 0)) ?sp // bi bj; cbn [obind pp_birth].
rewrite (oget_nth inf) //; cbn [obind]; case: ifP => lt.
  by apply: fin; [left|exact: vleT].
by apply: fin; [right|apply: vleF => //; rewrite lt].
Qed.
End Loop.

(** ** Indices of pairs *)
Lemma k_choose_2E k : k_choose_2 k = 'C(k, 2).
Proof. by rewrite /k_choose_2 bin2 divn2. Qed.


Lemma bin2S k : 'C(k.+1, 2) = 'C(k, 2) + k.
Proof. by rewrite binS bin1 addnC. Qed.

Lemma bin2_sq k : (2 * k).+1 ^ 2 = 1 + 8 * 'C(k.+1, 2).
Proof. elim: k => [|k IH]; first by []. by rewrite bin2S mulnDr addnA -IH -!mulnn; lia. Qed.

Lemma kc2_cond k targ : 0 < k -> (1 + 8 * targ <= (2 * k - 1) ^ 2) = (targ <= 'C(k, 2)).
Proof.
case: k => // k _; have -> : 2 * k.+1 - 1 = (2 * k).+1 by lia.
by rewrite bin2_sq leq_add2l leq_pmul2l.
Qed.

Lemma leq_bin2 a b : a <= b -> 'C(a, 2) <= 'C(b, 2).
Proof. by move=> h; exact: leq_bin2l. Qed.

Lemma kc2_search_ok fuel k targ : 0 < k -> targ <= 'C(k + fuel, 2) -> (1 < k -> 'C(k.-1, 2) < targ) ->
  let u := kc2_search fuel k targ in [/\ 0 < u, targ <= 'C(u, 2) & 1 < u -> 'C(u.-1, 2) < targ].
Proof.
elim: fuel k => [|f IH] k k0 H1 H2 /=; first by rewrite addn0 in H1.
rewrite kc2_cond //; case: (leqP targ 'C(k, 2)) => H3; [by split|apply: IH => //].
by rewrite addSnnS.
Qed.

Lemma k_choose_2_inv_ok targ : let u := k_choose_2_inv targ in
  [/\ 0 < u, targ <= 'C(u, 2) & 1 < u -> 'C(u.-1, 2) < targ].
Proof.
apply: kc2_search_ok => //; rewrite add1n bin2S; exact: leq_trans (leqnSn _) (leq_addl _ _).
Qed.

Lemma binom_to_inds_ok N i j : i < j -> j < N ->
  let k := 'C(N, 2) - 'C(N - i, 2) + (j - i.+1) in k < 'C(N, 2) /\ binom_to_inds k N = (i, j).
Proof.
move=> ij jN k; have [m em] : exists m, N - i = m.+2 by exists (N - i).-2; lia.
have c1 : 'C(N - i, 2) <= 'C(N, 2) by apply: leq_bin2; exact: leq_subr.
have c2 : 'C(m.+2, 2) = 'C(m.+1, 2) + m.+1 := bin2S _.
have lk : k < 'C(N, 2) by rewrite /k; move: c1 c2 em ij jN; clear; move=> c1 c2 em; rewrite em in c1 *; move: c1 c2; lia.
split=> //; rewrite /binom_to_inds !k_choose_2E; set targ := 'C(N, 2) - k.
have tE : targ = 'C(N - i, 2) - (j - i.+1) by rewrite /targ /k; move: c1 lk; rewrite /k; clear; lia.
have [u0 u1 u2] := k_choose_2_inv_ok targ; set u := k_choose_2_inv targ in u0 u1 u2 *.
have ub : u = N - i.
  have le : u <= m.+2.
    rewrite leqNgt; apply/negP => lt; have /u2 : 1 < u by apply: leq_trans lt.
    rewrite ltnNge => /negP; apply; rewrite tE em; apply: leq_trans (leq_subr _ _) _.
    by apply: leq_bin2; rewrite -ltnS prednK.
  have ge : m.+1 < u.
    rewrite ltnNge; apply/negP => lt; have := leq_trans u1 (leq_bin2 lt).
    by rewrite tE em c2; move: em ij jN; clear; lia.
  by rewrite em; apply/eqP; rewrite eqn_leq le ge.
rewrite ub; have -> : N - (N - i) = i by move: ij jN; clear; lia.
congr (_, _); rewrite /k; move: c1 lk; rewrite /k; move: ij jN; clear; lia.
Qed.

Lemma binom_to_inds_onto N k : k < 'C(N, 2) -> exists i j, [/\ i < j, j < N & k = 'C(N, 2) - 'C(N - i, 2) + (j - i.+1)].
Proof.
move=> lk; set targ := 'C(N, 2) - k; have [u0 u1 u2] := k_choose_2_inv_ok targ; set u := k_choose_2_inv targ in u0 u1 u2.
have t0 : 0 < targ by rewrite subn_gt0.
have u1' : 1 < u by case: u u0 u1 {u2} => [|[|u]] // _; rewrite bin_small // leqNgt t0.
have uN : u <= N.
  rewrite leqNgt; apply/negP => lt; have := u2 u1'; rewrite ltnNge => /negP; apply.
  by apply: leq_trans (leq_subr _ _) _; apply: leq_bin2; rewrite -ltnS prednK.
have e : 'C(u, 2) = 'C(u.-1, 2) + u.-1 by rewrite -{1}(prednK u0) bin2S.
exists (N - u), (N - u + 1 + ('C(u, 2) - targ)); split.
- by rewrite addn1 leq_addr.
- by have := u2 u1'; move: uN u1' e; clear; lia.
- rewrite subKn //; have := leq_bin2 uN; move: u1 lk; rewrite /targ; clear; lia.
Qed.

Lemma isqrt_ok x : let r := isqrt x in r * r <= x /\ x < r.+1 * r.+1.
Proof.
elim: x => [|x [IH1 IH2]] //; rewrite /isqrt -/isqrt; cbv zeta; set r := isqrt x in IH1 IH2 *.
by case: (leqP (r.+1 * r.+1) x.+1) => h; split=> //; move: h IH1 IH2; clear; nia.
Qed.

Lemma npoints N : 0 < N -> (1 + isqrt (1 + 8 * 'C(N, 2))) %/ 2 = N.
Proof.
case: N => // N _; rewrite -bin2_sq; have [r1 r2] := isqrt_ok ((2 * N).+1 ^ 2); set r := isqrt _ in r1 r2 *.
have -> : r = (2 * N).+1.
  apply/eqP; rewrite eqn_leq -ltnS; apply/andP; split.
    by rewrite -ltn_sqr -!mulnn; move: r1; rewrite -mulnn; nia.
  by rewrite -ltnS -ltn_sqr -[r.+1 ^ 2]mulnn.
by rewrite add1n -addn2 -[(2*N)+2]/(2 * N + 2) -mulnSr mulKn.
Qed.

Section RLoop.
Variables (V : Type) (n : nat) (zero inf : V) (vals : seq V) (inds : seq nat).
Hypothesis ival : all (fun e => e < size vals) inds.
Let vle (_ _ : nat) := True.
Let dval k := nth inf vals (nth 0 inds k).
Let E := [seq binom_to_inds e n | e <- inds].
Hypothesis Ein : forall a b, (a, b) \in E -> a < n /\ b < n.

Lemma ruf_loop_ok c k nf rank p pairs : drop k inds = c -> k <= size inds -> size rank = n ->
  ufinv n inf (fun _ => zero) dval vle E k nf p pairs ->
  exists2 st, ruf_loop n vals c k nf rank (p, pairs) = Ok st & ufdone n inf (fun _ => zero) dval vle E st.2.
Proof.
elim: c k nf rank p pairs => [|c0 c IH] k nf rank p pairs dk lk sr inv.
  exists (p, pairs) => //; have ek : k = size E.
    by rewrite size_map; apply/eqP; rewrite eqn_leq lk -subn_eq0 -size_drop dk.
  by rewrite ek in inv; exact: ufinv_end inv.
have lk' : k < size inds by rewrite -subn_gt0 -size_drop dk.
have c0E : nth 0 inds k = c0 by rewrite -[k]addn0 -nth_drop dk.
have dk' : drop k.+1 inds = c by rewrite -add1n -drop_drop dk /= drop0.
have lE : k < size E by rewrite size_map.
have eE : nth (0, 0) E k = ((binom_to_inds c0 n).1, (binom_to_inds c0 n).2).
  by rewrite (nth_map 0) // c0E; case: (binom_to_inds _ _).
have lv : c0 < size vals by rewrite -c0E; have /all_nthP := ival; exact.
cbn [ruf_loop]; cbv zeta.
have [p1 [p2 [r [[E1 E2 inv']|[ri [rj [E1 E2 ne H]]]]]]] := ufinv_same (fun _ _ _ _ _ => I) Ein lE eE inv.
  rewrite [(p, pairs).1]/= E1; cbn [obind]; rewrite [(p1, r).1]/= E2; cbn [obind]; rewrite eqxx.
  exact: IH dk' lk' sr inv'.
rewrite [(p, pairs).1]/= E1; cbn [obind]; rewrite [(p1, ri).1]/= E2; cbn [obind fst snd]; rewrite (negbTE ne).
have [p3 [pairs' [_ [lri lrj] _ _ _]]] := H ri rj _ k (or_introl erefl) I erefl.
rewrite !(oget_nth 0) ?sr //; cbn [obind]; rewrite (oget_nth inf) //; cbn [obind].
have dv : dval k = nth inf vals c0 by rewrite /dval c0E.
case: ifP => lt.
  have {p3 pairs'} [p3 [pairs' [+ _ _ _ inv']]] := H ri rj _ k (or_introl erefl) I erefl.
  rewrite dv => ->; cbn [obind fst snd]; case: eqP => [en|_]; last exact: IH dk' lk' sr inv'.
  by exists (p3, pairs') => //; apply: (ufinv_break Ein _ inv').
have {p3 pairs'} [p3 [pairs' [+ _ _ _ inv']]] := H rj ri _ k (or_intror erefl) I erefl.
rewrite dv => ->; cbn [obind].
have [rank' -> sr'] : exists2 rank', (if nth 0 rank ri == nth 0 rank rj then oset rank rj (nth 0 rank rj).+1 else Ok rank) = Ok rank' & size rank' = n.
  case: ifP => _; last by exists rank.
  by rewrite (oset_Ok 0) ?sr //; eexists; first reflexivity; rewrite size_set_nth sr; apply/maxn_idPr.
cbn [obind fst snd]; case: eqP => [en|_]; last exact: IH dk' lk' sr' inv'.
by exists (p3, pairs') => //; apply: (ufinv_break Ein _ inv').
Qed.
End RLoop.
