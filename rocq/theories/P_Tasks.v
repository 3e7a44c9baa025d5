(** Tasks on disjoint columns: every schedule gives the result of the sequential one. *)
From mathcomp Require Import all_ssreflect zify.
From Verif Require Import Outcome M_SparseVec M_Parallel P_Outcome.
Set Implicit Arguments.
Unset Strict Implicit.
Unset Printing Implicit Defensive.

Section T.
Variables (C R : Type) (d : C).
Notation prog := (prog C R).
Implicit Types (M : seq C) (p q : prog) (S : pred nat).

(** p only touches columns in S, and returns something in Q *)
Inductive fits : pred nat -> (R -> Prop) -> prog -> Prop :=
| fits_ret S (Q : R -> Prop) r : Q r -> fits S Q (Ret r)
| fits_err S (Q : R -> Prop) e : fits S Q (Err e)
| fits_rd (S : pred nat) (Q : R -> Prop) j k : S j -> (forall c, fits S Q (k c)) -> fits S Q (Rd j k)
| fits_wr (S : pred nat) (Q : R -> Prop) j c p : S j -> fits S Q p -> fits S Q (Wr j c p)
| fits_fork (S S1 S2 : pred nat) (Q Q1 Q2 : R -> Prop) p q k : (forall j, S1 j -> S j) -> (forall j, S2 j -> S j) -> (forall j, S1 j -> ~~ S2 j) ->
    fits S1 Q1 p -> fits S2 Q2 q -> (forall a b, Q1 a -> Q2 b -> fits S Q (k a b)) -> fits S Q (Fork p q k).

Definition agree S M M' := size M = size M' /\ forall j, S j -> nth d M j = nth d M' j.

Lemma agree_refl S M : agree S M M. Proof. by []. Qed.
Lemma agree_sym S M M' : agree S M M' -> agree S M' M.
Proof. by move=> [s H]; split=> // j Sj; rewrite H. Qed.
Lemma agree_trans S M1 M2 M3 : agree S M1 M2 -> agree S M2 M3 -> agree S M1 M3.
Proof. by move=> [s H] [s' H']; split; [rewrite s|move=> j Sj; rewrite H // H']. Qed.
Lemma agree_sub S S' M M' : (forall j, S' j -> S j) -> agree S M M' -> agree S' M M'.
Proof. by move=> sub [s H]; split=> // j /sub; exact: H. Qed.
Lemma agree_all S M M' : agree S M M' -> agree (predC S) M M' -> M = M'.
Proof.
move=> [s H] [_ H']; apply: (@eq_from_nth _ d) => // j lj; case Sj: (S j); first exact: H.
by apply: H'; rewrite /= Sj.
Qed.

(** a running program changes only what it touches, and its result depends only on what it touches *)
Lemma run_frame S Q p M M1 r n : fits S Q p -> run p M = Ok (M1, r, n) ->
  [/\ Q r, agree (predC S) M M1 &
   forall N, agree S M N -> exists2 N1, run p N = Ok (N1, r, n) & agree S M1 N1].
Proof.
move=> f; elim: f M M1 r n => {S Q p} [S Q r0 Qr|S Q e|S Q j k Sj _ IH|S Q j c p Sj _ IH|S S1 S2 Q Q1 Q2 p q k s1 s2 dj f1 IH1 f2 IH2 _ IH3] M M1 r n /=.
- by move=> [<- <- <-]; split=> // N A; exists N.
- by case: e.
- case: (ltnP j (size M)) => lj; last by rewrite /oget drop_oversize.
  rewrite (oget_nth d) //; cbn [obind]; case E: (run _ _) => [[[M' r'] n']| | |] //= -[<- <- <-].
  have [q1 a1 H] := IH _ _ _ _ _ E; split=> // N A; have [N1 E1 A1] := H N A; exists N1 => //.
  have [sz Hn] := A; rewrite (oget_nth d) -?sz //; cbn [obind]; rewrite -(Hn j Sj) E1 //.
- case: (ltnP j (size M)) => lj; last by rewrite /oset ltnNge lj.
  rewrite (oset_Ok d) //; cbn [obind]; case E: (run _ _) => [[[M' r'] n']| | |] //= -[<- <- <-].
  have [q1 a1 H] := IH _ _ _ _ E; split=> //.
    apply: agree_trans a1; split; first by rewrite size_set_nth; apply/esym/maxn_idPr.
    by move=> i /= Si; rewrite nth_setE; case: eqP => // e; rewrite e Sj in Si.
  move=> N A; have [sz Hn] := A; have lj' : j < size N by rewrite -sz.
  have [|N1 E1 A1] := H (set_nth d N j c).
    split=> [|i Si]; first by rewrite !size_set_nth sz.
    by rewrite !nth_setE; case: eqP => // _; exact: Hn.
  by exists N1 => //; rewrite (oset_Ok d) //; cbn [obind]; rewrite E1.
- case E1: (run p M) => [[[Ma a] na]| | |] //=; case E2: (run q Ma) => [[[Mb b] nb]| | |] //=.
  case E3: (run (k a b) Mb) => [[[Mc c] nc]| | |] //= -[<- <- <-].
  have [qa aa Ha] := IH1 _ _ _ _ E1; have [qb ab Hb] := IH2 _ _ _ _ E2; have [qc ac Hc] := IH3 _ _ qa qb _ _ _ _ E3.
  have c1 j : predC S j -> predC S1 j by move=> /=; apply: contra; exact: s1.
  have c2 j : predC S j -> predC S2 j by move=> /=; apply: contra; exact: s2.
  split=> //.
    apply: agree_trans ac; apply: agree_trans (agree_sub c1 aa) (agree_sub c2 ab).
  move=> N A; have [N1 F1 A1] := Ha N (agree_sub s1 A).
  have [_ ba _] := IH1 _ _ _ _ F1.
  have S2c j : S2 j -> predC S1 j by move=> h /=; apply/negP => /dj; rewrite h.
  have A2 : agree S2 Ma N1.
    by apply: agree_trans (agree_sym (agree_sub S2c aa)) _; apply: agree_trans (agree_sub s2 A) (agree_sub S2c ba).
  have [N2 F2 A2'] := Hb N1 A2; have [_ bb _] := IH2 _ _ _ _ F2.
  have A3 : agree S Mb N2.
    have [z1 x1] := A; have [z2 x2] := aa; have [z3 x3] := ab; have [z4 x4] := ba; have [z5 x5] := bb; have [z6 x6] := A2'; have [z7 x7] := A1.
    split=> // j Sj; case S2j: (S2 j); first exact: x6.
    have nS2 : predC S2 j by rewrite /= S2j.
    rewrite -(x3 j nS2) -(x5 j nS2); case S1j : (S1 j); first exact: x7.
    by have nS1 : predC S1 j by [rewrite /= S1j]; rewrite -(x2 j nS1) -(x4 j nS1) x1.
  have [N3 F3 A3'] := Hc N2 A3; exists N3 => //.
  by rewrite F1; cbn [obind]; rewrite F2; cbn [obind]; rewrite F3.
Qed.

Lemma fits_rdE S Q j k : fits S Q (Rd j k) -> S j /\ forall c, fits S Q (k c).
Proof. by move=> f; inversion f. Qed.
Lemma fits_wrE S Q j c p : fits S Q (Wr j c p) -> S j /\ fits S Q p.
Proof. by move=> f; inversion f. Qed.
Lemma fits_retE S Q r : fits S Q (Ret r) -> Q r.
Proof. by move=> f; inversion f. Qed.
Lemma fits_forkE S Q p q k : fits S Q (Fork p q k) -> exists S1 S2 Q1 Q2,
  [/\ (forall j, S1 j -> S j) /\ (forall j, S2 j -> S j), forall j, S1 j -> ~~ S2 j, fits S1 Q1 p, fits S2 Q2 q &
      forall a b, Q1 a -> Q2 b -> fits S Q (k a b)].
Proof. by move=> f; inversion f; exists S1, S2, Q1, Q2. Qed.

Lemma ogetUB M j : oget M j = UB -> size M <= j.
Proof. by case: (ltnP j (size M)) => // lj; rewrite (oget_nth d). Qed.
Lemma UBoget M j : size M <= j -> oget M j = UB.
Proof. by move=> lj; rewrite /oget drop_oversize. Qed.
Lemma osetUB M j c : oset M j c = UB -> size M <= j.
Proof. by rewrite /oset; case: (ltnP j (size M)). Qed.
Lemma UBoset M j c : size M <= j -> oset M j c = UB.
Proof. by rewrite /oset ltnNge => ->. Qed.
Lemma oset_inv M j c M' : oset M j c = Ok M' -> j < size M /\ M' = set_nth d M j c.
Proof.
case: (ltnP j (size M)) => lj; last by rewrite UBoset.
by rewrite (oset_Ok d) // => -[<-].
Qed.

(** a step touches only S, and does the same when the rest of the memory differs *)
Lemma step_frame c c' : step c c' -> forall S Q, fits S Q c.2 ->
  [/\ fits S Q c'.2, agree (predC S) c.1 c'.1 &
   forall N, agree S c.1 N -> exists N1, [/\ step (N, c.2) (N1, c'.2), agree S c'.1 N1 & agree (predC S) N N1]].
Proof.
elim=> {c c'} [M j k c E|M j k E|M j c p M' E|M j c p E|M p q k M' p' st IH|M p q k M' q' st IH|M a b k] S Q /= f.
- have [Sj H] := fits_rdE f; split=> // N [sz Hn]; exists N; split=> //; apply: step_rd.
  by have [lj ->] := oget_Ok d E; rewrite Hn // (oget_nth d) // -sz.
- split=> //; first exact: fits_err.
  by move=> N [sz Hn]; exists N; split=> //; apply: step_rd_ub; apply: UBoget; rewrite -sz; exact: ogetUB.
- have [Sj H] := fits_wrE f; have [lj ->] := oset_inv E.
  have out M0 : j < size M0 -> agree (predC S) M0 (set_nth d M0 j c).
    move=> l0; split=> [|i Si]; first by rewrite size_set_nth; apply/esym/maxn_idPr.
    by rewrite nth_setE; case: eqP => // e; move: Si; rewrite /= e Sj.
  split=> //; first exact: out.
  move=> N [sz Hn]; have ljN : j < size N by rewrite -sz.
  exists (set_nth d N j c); split; [apply: step_wr; exact: oset_Ok| |exact: out].
  by split=> [|i Si]; [rewrite !size_set_nth sz|rewrite !nth_setE; case: eqP => // _; exact: Hn].
- split=> //; first exact: fits_err.
  by move=> N [sz Hn]; exists N; split=> //; apply: step_wr_ub; apply: UBoset; rewrite -sz; exact: osetUB E.
- have [S1 [S2 [Q1 [Q2 [[s1 s2] dj f1 f2 f3]]]]] := fits_forkE f; have [g1 a1 H] := IH _ _ f1.
  have c1 j : predC S j -> predC S1 j by move=> /=; apply: contra; exact: s1.
  split; [exact: fits_fork s1 s2 dj g1 f2 f3|exact: agree_sub a1|].
  move=> N A; have [N1 [st1 A1 B1]] := H N (agree_sub s1 A); exists N1; split; [exact: step_left| |exact: agree_sub B1].
  have [z1 x1] := A; have [z2 x2] := A1; have [z3 x3] := B1; have [z4 x4] := a1.
  split=> // j Sj; case S1j: (S1 j); first exact: x2.
  by have nS : predC S1 j by [rewrite /= S1j]; rewrite -(x4 j nS) -(x3 j nS) x1.
- have [S1 [S2 [Q1 [Q2 [[s1 s2] dj f1 f2 f3]]]]] := fits_forkE f; have [g1 a1 H] := IH _ _ f2.
  have c1 j : predC S j -> predC S2 j by move=> /=; apply: contra; exact: s2.
  split; [exact: fits_fork s1 s2 dj f1 g1 f3|exact: agree_sub a1|].
  move=> N A; have [N1 [st1 A1 B1]] := H N (agree_sub s2 A); exists N1; split; [exact: step_right| |exact: agree_sub B1].
  have [z1 x1] := A; have [z2 x2] := A1; have [z3 x3] := B1; have [z4 x4] := a1.
  split=> // j Sj; case S2j: (S2 j); first exact: x2.
  by have nS : predC S2 j by [rewrite /= S2j]; rewrite -(x4 j nS) -(x3 j nS) x1.
- have [S1 [S2 [Q1 [Q2 [_ _ f1 f2 f3]]]]] := fits_forkE f.
  split=> //; first by apply: f3; [exact: fits_retE f1|exact: fits_retE f2].
  by move=> N A; exists N; split=> //; exact: step_join.
Qed.

Lemma step_forkE M p q k c : step (M, Fork p q k) c ->
  [\/ exists M' p', step (M, p) (M', p') /\ c = (M', Fork p' q k),
      exists M' q', step (M, q) (M', q') /\ c = (M', Fork p q' k) |
      exists a b, [/\ p = Ret a, q = Ret b & c = (M, k a b)]].
Proof.
move=> st; inversion st; subst.
- by constructor 1; do 2 eexists; split; first eassumption.
- by constructor 2; do 2 eexists; split; first eassumption.
- by constructor 3; do 2 eexists.
Qed.

(** whatever task moves, the sequential completion gives the same result, one step earlier *)
Lemma step_run p : forall M c', step (M, p) c' -> forall S Q M1 r n, fits S Q p -> run p M = Ok (M1, r, n) ->
  exists n', n = n'.+1 /\ run c'.2 c'.1 = Ok (M1, r, n').
Proof.
elim: p => [r0|e|j k IH|j c p IH|p IH1 q IH2 k IH3] M c' st S Q M1 r n f /=.
- by inversion st.
- by inversion st.
- inversion st; subst; match goal with H : oget _ _ = _ |- _ => rewrite H end; cbn [obind]; last by [].
  by case: (run _ _) => [[[? ?] ?]| | |] //= [<- <- <-]; eexists.
- inversion st; subst; match goal with H : oset _ _ _ = _ |- _ => rewrite H end; cbn [obind]; last by [].
  by rewrite /=; case: (run _ _) => [[[? ?] ?]| | |] //= [<- <- <-]; eexists.
have [S1 [S2 [Q1 [Q2 [[s1 s2] dj f1 f2 f3]]]]] := fits_forkE f.
case E1: (run p M) => [[[Ma a] na]| | |] //=; case E2: (run q Ma) => [[[Mb b] nb]| | |] //=.
case E3: (run (k a b) Mb) => [[[Mc c] nc]| | |] //= -[<- <- <-].
case: (step_forkE st) => [[M' [p' [st1 ->]]]|[M' [q' [st1 ->]]]|[a' [b' [ep eq ->]]]] /=.
- have [n1 [-> E1']] := IH1 _ _ st1 _ _ _ _ _ f1 E1; rewrite /= in E1'.
  by eexists; split; first reflexivity; rewrite E1'; cbn [obind]; rewrite E2; cbn [obind]; rewrite E3.
- have [qa aa Ha] := run_frame f1 E1.
  have [g2 a2 H2] := step_frame st1 f2; rewrite /= in g2 a2 H2.
  have S1c j : S1 j -> predC S2 j by move=> h /=; exact: dj.
  have S2c j : S2 j -> predC S1 j by move=> h /=; apply/negP => /dj; rewrite h.
  have [Na Ea Aa] := Ha M' (agree_sub S1c a2); have [_ ba _] := run_frame f1 Ea.
  have [N2 [st2 A2 B2]] := H2 Ma (agree_sub S2c aa).
  have eN : N2 = Na.
    have [z1 x1] := aa; have [z2 x2] := Aa; have [z3 x3] := ba; have [z4 x4] := A2; have [z5 x5] := B2.
    apply: (@agree_all S2); split; rewrite -?z5 ?z2 // => j Sj; rewrite -?(x4 j Sj) ?(x3 j (S2c j Sj)) //.
    rewrite -(x5 j Sj); case S1j: (S1 j); first exact: x2.
    have nS : predC S1 j by rewrite /= S1j.
    by rewrite -(x1 j nS) -(x3 j nS); have [_ x] := a2; exact: x.
  rewrite eN in st2; have [n1 [e1 E2']] := IH2 _ _ st2 _ _ _ _ _ f2 E2; rewrite /= in E2'.
  exists (na + n1 + nc).+1; split; first by rewrite e1 addnS.
  by rewrite Ea; cbn [obind]; rewrite E2'; cbn [obind]; rewrite E3.
- move: E1 E2; rewrite ep eq /= => -[e1 e2 e3] [e4 e5 e6]; subst; exists nc; split=> //.
Qed.

Lemma next_acc_fits S Q p : fits S Q p -> all (fun x => S x.2) (next_acc p).
Proof.
elim=> {S Q p} //= [S Q j k -> //|S Q j c p -> //|S S1 S2 Q Q1 Q2 p q k s1 s2 _ _ IH1 _ IH2 _ _].
by rewrite all_cat; apply/andP; split; [apply: sub_all IH1|apply: sub_all IH2] => x /=; [exact: s1|exact: s2].
Qed.

Lemma fits_norace S Q p : fits S Q p -> ~~ race p.
Proof.
elim=> {S Q p} //= S S1 S2 Q Q1 Q2 p q k s1 s2 dj f1 IH1 f2 IH2 _ _.
rewrite !negb_or IH1 IH2 /=; apply/hasPn => x xi; apply/hasPn => y yi; rewrite negb_and; apply/orP; left.
apply/eqP => e; have /allP /(_ x xi) h1 := next_acc_fits f1; have /allP /(_ y yi) := next_acc_fits f2.
by rewrite -e; apply/negP; exact: dj.
Qed.

(** progress *)
Lemma run_progress p M res : run p M = Ok res -> (exists r, p = Ret r) \/ exists c, step (M, p) c.
Proof.
elim: p M res => [r|e|j k IH|j c p IH|p IH1 q IH2 k _] M res /=.
- by left; exists r.
- by case: e.
- case E: (oget M j) => [c| | |] // _; by right; eexists; apply: step_rd; exact: E.
- case E: (oset M j c) => [c'| | |] // _; by right; eexists; apply: step_wr; exact: E.
- case E1: (run p M) => [[[Ma a] na]| | |] //=.
  case: (IH1 _ _ E1) => [[a' ep]|[[M' p'] st]]; last by move=> _; right; eexists; apply: step_left; exact: st.
  subst p; move: E1 => /= [E1 _ _]; subst; case E2: (run q Ma) => [[[Mb b] nb]| | |] //.
  case: (IH2 _ _ E2) => [[b' ->]|[[M' q'] st]] _; right; eexists; [exact: step_join|apply: step_right; exact: st].
Qed.

(** all executions: same length, same result, no error on the way *)
Lemma exec_run S Q p M M1 r n : fits S Q p -> run p M = Ok (M1, r, n) ->
  forall m c, exec m (M, p) c -> [/\ m <= n, fits S Q c.2 & run c.2 c.1 = Ok (M1, r, n - m)].
Proof.
move=> f E m c ex; move: (erefl (M, p)); move: {-2}(M, p) ex => c0 ex.
elim: ex => [c1 e|m' c0' c1 c2 _ IH st e]; first by subst; rewrite subn0.
have [lm fc Ec] := IH e; have [g _ _] := step_frame st fc.
case: c1 st fc Ec {IH} => Mc pc st fc Ec; have [n' [en En]] := step_run st fc Ec.
by split; [rewrite -subn_gt0 en|exact: g|rewrite En subnS en].
Qed.

Lemma run_exec S Q p M M1 r n : fits S Q p -> run p M = Ok (M1, r, n) -> exec n (M, p) (M1, Ret r).
Proof.
move=> f E; suff H m c : m <= n -> exec (n - m) (M, p) c -> run c.2 c.1 = Ok (M1, r, m) -> exec n (M, p) (M1, Ret r).
  by apply: (H n (M, p)) => //; rewrite subnn; exact: exec0.
elim: m c => [|m IH] [Mc pc] /= lm ex Ec.
  have fc := exec_run f E ex; have {fc} [_ fc _] := fc.
  case: (run_progress Ec) => [[r' er]|[c st]].
    by move: Ec ex; rewrite er /= => -[-> ->]; rewrite subn0.
  by have [n' []] := step_run st fc Ec.
have fc := exec_run f E ex; have {fc} [_ fc _] := fc.
case: (run_progress Ec) => [[r' er]|[c st]]; first by move: Ec; rewrite er.
have [n' [[en] En]] := step_run st fc Ec; subst n'.
by apply: (IH c) => //; [exact: ltnW|rewrite -[n - m]prednK ?subn_gt0 // -subnS; exact: execS st].
Qed.
End T.
