(** Zigzag barcodes: reduce_column in one dimension. *)
From mathcomp Require Import all_ssreflect all_algebra zify.
From Verif Require Import Outcome P_Outcome RingTac M_SparseVec M_Perm M_ColMatrix M_Reduce M_Homology M_Induced M_Zigzag
  S_Linalg S_Perm S_Homology S_Induced P_SparseVec P_SparseVec2 P_Pairing P_Reduce P_ColMatrix P_Solve P_Homology P_Betti P_Rep P_Induced P_Zig3.
Set Implicit Arguments.
Unset Strict Implicit.
Unset Printing Implicit Defensive.
Import GRing.Theory.
Local Open Scope ring_scope.

Section S.
Variable F : fieldType.
Notation O := (ops_of F).
Notation svec := (svec F).
Notation cmat := (cmat F).

Lemma set_nthE (T : Type) (x0 : T) (s : seq T) i y j : (i < size s)%N -> nth x0 (set_nth x0 s i y) j = if j == i then y else nth x0 s j.
Proof. by move=> _; rewrite nth_set_nth. Qed.
Lemma size_set (T : Type) (x0 : T) (s : seq T) i y : (i < size s)%N -> size (set_nth x0 s i y) = size s.
Proof. by move=> h; rewrite size_set_nth; apply/maxn_idPr. Qed.
Lemma all_set (m : nat) (M : seq svec) i y : (i < size M)%N -> all (sv_wf m) M -> sv_wf m y -> all (sv_wf m) (set_nth [::] M i y).
Proof.
move=> h a w; apply/(all_nthP [::]) => j; rewrite size_set // => lj; rewrite nth_set_nth /=; case: eqP => // _.
exact: (all_nthP [::] a).
Qed.

Variables (m n : nat) (Bd : 'M[F]_(m, n)).

(** the present columns of R, U and pivot_to_col; column ex (if any) is not recorded in pivot_to_col *)
Definition zdim (P : pred nat) (ex : option nat) (M U : seq svec) (p : seq (option nat)) : Prop :=
  [/\ size M = n /\ all (sv_wf m) M, ucols P n U, size p = m,
     forall j, (j < n)%N -> P j -> vec m (nth [::] M j) = Bd *m vec n (nth [::] U j) &
     forall i j, (i < m)%N -> nth None p i = Some j <->
       [/\ (j < n)%N, P j, ex != Some j & last_ind (nth [::] M j) = Some i]].

Lemma vec_axpy k a (x y : svec) : vec k (axpy O a x y) = a *: vec k x + vec k y.
Proof. by apply/colP => i; rewrite !mxE coef_axpy addrC. Qed.

Lemma ucols_axpy P (U : seq svec) j k a : ucols P n U -> (j < n)%N -> (k < j)%N -> P j -> P k ->
  ucols P n (set_nth [::] U j (axpy O a (nth [::] U k) (nth [::] U j))).
Proof.
move=> [sU WU H] jn kj Pj Pk; have ju : (j < size U)%N by rewrite sU.
have kn := ltn_trans kj jn; have [s1 d1 u1] := H j jn Pj; have [s2 d2 u2] := H k kn Pk.
split; first by rewrite size_set.
  by apply: all_set => //; apply: sv_wf_axpy; apply: nth_wf.
move=> x xn Px; rewrite nth_set_nth /=; case: (eqVneq x j) => [->|ne]; last exact: H.
split.
- move=> i; rewrite coef_axpy; case: (eqVneq (coef (nth [::] U j) i) 0) => [->|h _]; last exact: s1.
  rewrite add0r; case: (eqVneq (coef (nth [::] U k) i) 0) => [->|h _]; last exact: s2.
  by rewrite mulr0 eqxx.
- by rewrite coef_axpy (u2 j) // mulr0 addr0.
- by move=> i ji; rewrite coef_axpy u1 // u2 ?mulr0 ?addr0 // (ltn_trans kj).
Qed.

Variable P : pred nat.
Variables (ind : nat) (M0 : seq svec) (U0 : seq svec) (p0 : seq (option nat)).
Notation nz := (nth [::]).

(** what the loop has not touched *)
Definition zkeep (cur : nat) (M U : seq svec) (p : seq (option nat)) : Prop :=
  [/\ forall x, ~~ P x -> nz M x = nz M0 x /\ nz U x = nz U0 x,
      forall x, x != ind -> nz M0 x = [::] -> nz M x = [::] /\ nz U x = nz U0 x,
      forall x, P x -> x != cur -> (nz M x == [::]) = (x != ind) && (nz M0 x == [::]),
      (cur == ind) || (nz M0 cur != [::]) &
      forall i, isSome (nth None p i) = isSome (nth None p0 i)].

Lemma zz_reduceE fuel M U p j : (j < n)%N -> P j -> zdim P (Some j) M U p -> zkeep j M U p ->
  (if last_ind (nz M j) is Some i then (i.+2 <= fuel)%N else (0 < fuel)%N) ->
  exists M' U' p' j', [/\ zz_reduce O fuel M U p j = Ok (M', U', p', j'), (j' < n)%N /\ P j',
    zdim P None M' U' p' &
    (nz M' j' = [::] /\ zkeep j' M' U' p') \/
    exists i, [/\ (i < m)%N, last_ind (nz M' j') = Some i, nth None p0 i = None, nth None p' i = Some j' &
      exists2 p1, zkeep j' M' U' p1 & forall i', i' != i -> nth None p' i' = nth None p1 i']].
Proof.
elim: fuel M U p j => [|fuel IH] M U p j jn Pj Z K f0; first by case: (last_ind _) f0.
have [[sM WM] HU sp eM Hp] := Z; have [sU WU Hu] := HU.
cbn [zz_reduce]; rewrite (@oget_nth svec [::]) ?sM //; cbn [obind].
have Wj := nth_wf j WM.
case ec : (nz M j) => [|a c].
  exists M, U, p, j; split=> //; last by left.
  split=> // i x im; rewrite Hp //; split=> [[? ? _ ?]|[x1 x2 _ x4]] //; split=> //.
  by apply/eqP => -[e]; rewrite -e ec in x4.
have ne : nz M j <> [::] by rewrite ec.
have [i [v [El Li im cv vn]]] := lastnz_spec Wj ne; rewrite -ec El; cbn [obind].
rewrite (oget_nth None) ?sp //; cbn [obind].
case ep : (nth None p i) => [k0|]; last first.
  rewrite (oset_Ok None) ?sp //; cbn [obind].
  exists M, U, (set_nth None p i (Some j)), j; split=> //.
    split; rewrite ?size_set ?sp // => i' x im'; rewrite nth_set_nth /=; case: (eqVneq i' i) => [->|ni].
      split=> [[<-]|[x1 x2 _ x4]]; first by split.
      congr Some; apply/eqP/negPn/negP => nj.
      have := (Hp i x im).2; rewrite ep => H; have : None = Some x by apply: H; split=> //; apply/eqP => -[e]; rewrite e eqxx in nj.
      by [].
    rewrite Hp //; split=> [[? ? _ ?]|[x1 x2 _ x4]] //; split=> //.
    by apply/eqP => -[e]; rewrite -e Li in x4; case: x4 => e'; rewrite e' eqxx in ni.
  right; exists i; split=> //.
  - by have [_ _ _ _ h] := K; have := h i; rewrite ep; case: (nth None p0 i).
  - by rewrite nth_set_nth /= eqxx.
  - by exists p => // i' ni; rewrite nth_set_nth /= (negPf ni).
have [kn Pk kj Lk] := (Hp i k0 im).1 ep.
have nkj : k0 != j by apply: contra kj => /eqP ->.
(* after the choice: cur (the right one) and k (the left one) *)
set swap := (j < k0)%N.
have [p1 ep1 [sp1 Hp1]] : exists2 p1, (if swap then oset p i (Some j) else Ok p) = Ok p1 & size p1 = m /\
   forall i', nth None p1 i' = if swap && (i' == i) then Some j else nth None p i'.
  case: swap; last by exists p => //; split.
  by rewrite (oset_Ok None) ?sp //; eexists; first by []; split=> [|i']; rewrite ?size_set ?sp // nth_set_nth.
rewrite ep1; cbn [obind].
set cur := if swap then k0 else j; set k := if swap then j else k0.
have curn : (cur < n)%N by rewrite /cur; case: ifP.
have klt : (k < cur)%N by rewrite /k /cur /swap; case: (ltngtP j k0) nkj => // ->; rewrite eqxx.
have Pc : P cur by rewrite /cur; case: ifP.
have Pk' : P k by rewrite /k; case: ifP.
have Lc : last_ind (nz M cur) = Some i by rewrite /cur; case: ifP.
have Lk' : last_ind (nz M k) = Some i by rewrite /k; case: ifP.
have [cj kk] : (cur == j) || (cur == k0) /\ (k == j) || (k == k0) by rewrite /cur /k; case: ifP; rewrite !eqxx ?orbT.
have kn' : (k < n)%N := ltn_trans klt curn.
have Wc := nth_wf cur WM; have Wk := nth_wf k WM.
have lz (x : svec) : sv_wf m x -> last_ind x = Some i -> exists2 w, lastnz x = Ok (i, w) & [/\ coef x i = w, w != 0 & forall r, (i < r)%N -> coef x r = 0].
  move=> Wx Lx; have nx : x <> [::] by move=> e; rewrite e in Lx.
  have [i' [w [e1 e2 _ e3 e4]]] := lastnz_spec Wx nx; have ei : i' = i by move: e2; rewrite Lx => -[].
  subst i'; exists w => //; split=> //; have /and3P[S _ N] := Wx; exact: ((last_ind_spec i S N).1 Lx).2.
have [v1 e1 [cv1 vn1 Kc]] := lz _ Wc Lc; have [w1 e2 [cw1 wn1 Kk]] := lz _ Wk Lk'.
rewrite (@oget_nth svec [::]) ?sM //; cbn [obind]; rewrite e1; cbn [obind].
rewrite (@oget_nth svec [::]) ?sM //; cbn [obind]; rewrite e2; cbn [obind].
rewrite /odiv is0E (negbTE wn1); cbn [obind].
rewrite (oset_Ok [::]) ?sM //; cbn [obind].
rewrite (@oget_nth svec [::]) ?sU //; cbn [obind]; rewrite (@oget_nth svec [::]) ?sU //; cbn [obind].
rewrite (oset_Ok [::]) ?sU //; cbn [obind fopp fdiv ops_of].
set a1 := - _; set M1 := set_nth _ _ _ _; set U1 := set_nth _ _ _ _.
have nM1 x : nz M1 x = if x == cur then axpy O a1 (nz M k) (nz M cur) else nz M x by rewrite nth_set_nth.
have nU1 x : nz U1 x = if x == cur then axpy O a1 (nz U k) (nz U cur) else nz U x by rewrite nth_set_nth.
have WM1 : all (sv_wf m) M1 by apply: all_set; rewrite ?sM //; apply: sv_wf_axpy.
have low x : last_ind (nz M1 cur) = Some x -> (x < i)%N.
  move=> Lx; have /and3P[S _ N] := nth_wf cur WM1; have [c1 _] := (last_ind_spec x S N).1 Lx.
  rewrite nM1 eqxx coef_axpy in c1; rewrite ltnNge leq_eqVlt; apply/negP => /orP[/eqP e|lt].
    by move: c1; rewrite -e cv1 cw1 /a1 mulNr divfK // subrr eqxx.
  by move: c1; rewrite Kc // Kk // mulr0 addr0 eqxx.
apply: IH => //.
- split.
  + by rewrite size_set sM.
  + exact: ucols_axpy.
  + exact: sp1.
  + move=> x xn Px; rewrite nM1 nU1; case: eqP => [_|_]; last exact: eM.
    by rewrite !vec_axpy mulmxDr -scalemxAr !eM.
  + move=> i' x im'; rewrite Hp1 nM1; case: (boolP (swap && (i' == i))) => [/andP[sw /eqP ->]|nsw].
      have ck : cur = k0 by rewrite /cur sw.
      have kk' : k = j by rewrite /k sw.
      split=> [[<-]|[x1 x2 x3 x4]].
        by split=> //; rewrite ?(inj_eq Some_inj) ck // eq_sym; case: ifP nkj => [/eqP -> |]; rewrite ?eqxx.
      move: x4; case: eqP => [e|_] x4; first by rewrite e eqxx in x3.
      congr Some; apply/eqP/negPn/negP => nx.
      have := (Hp i x im).2; rewrite ep => H; have [e] : Some k0 = Some x by apply: H; split=> //; rewrite (inj_eq Some_inj).
      by rewrite ck e eqxx in x3.
    rewrite Hp //; split=> [[x1 x2 x3 x4]|[x1 x2 x3 x4]].
      have xc : x != cur.
        apply/eqP => e; move: cj; rewrite -e => /orP[/eqP xe|/eqP xe].
          by rewrite xe eqxx in x3.
        move: x4; rewrite xe Lk => -[e']; move: nsw; rewrite e' eqxx andbT => nsw.
        by move: e; rewrite /cur (negPf nsw) xe => e; rewrite e eqxx in nkj.
      by rewrite (negPf xc); split=> //; rewrite (inj_eq Some_inj) eq_sym.
    have xc : x != cur by rewrite eq_sym -(inj_eq Some_inj).
    rewrite (negPf xc) in x4; split=> //; rewrite (inj_eq Some_inj); apply/eqP => e.
    rewrite -e in xc x4; have sw : swap by apply: contraNT xc => h; rewrite /cur (negPf h).
    by move: nsw; rewrite sw /=; move: x4; rewrite Li => -[->]; rewrite eqxx.
- have [h1 h2 h3 h4 h5] := K; split.
  + move=> x nP; rewrite nM1 nU1; case: eqP => [e|_]; last exact: h1.
    by rewrite e Pc in nP.
  + move=> x xi x0; rewrite nM1 nU1; case: eqP => [e|_]; last exact: h2.
    by have [z _] := h2 x xi x0; rewrite -e z in Lc.
  + move=> x Px xc; rewrite nM1 (negPf xc); case: (eqVneq x j) => [e|nj]; last exact: h3.
    rewrite e; have -> : (nz M j == [::]) = false by apply/eqP.
    by move: h4; case: eqP => [-> _|_ /= /negPf ->]; rewrite ?eqxx.
  + case/orP: cj => /eqP -> //; case: (eqVneq k0 ind) => [e|ni] //=; apply/eqP => z0.
    by have [z _] := h2 k0 ni z0; rewrite z in Lk.
  + move=> i'; rewrite Hp1; case: (boolP (swap && _)) => [/andP[_ /eqP ->]|_]; last exact: h5.
    by rewrite -h5 ep.
- move: f0; rewrite Li => f0; case e : (last_ind _) => [x|]; last by move: f0; clear; lia.
  by have := low x e; move: f0; clear; lia.
Qed.
End S.
