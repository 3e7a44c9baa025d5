(** Triangular solves. *)
From mathcomp Require Import all_ssreflect all_algebra zify.
From Verif Require Import Outcome P_Outcome RingTac M_SparseVec M_Perm M_ColMatrix S_Linalg P_SparseVec
  P_SparseVec2 P_Reduce P_ColMatrix P_Homology.
Set Implicit Arguments.
Unset Strict Implicit.
Unset Printing Implicit Defensive.
Import GRing.Theory.
Local Open Scope ring_scope.

Section S.
Variable F : fieldType.
Notation O := (ops_of F).
Notation svec := (svec F).
Notation cmat := (cmat F).
Notation inds v := [seq p.1 | p <- v].

Lemma inds_set_at i w (v : svec) : inds (set_at i w v) = inds v.
Proof. by rewrite -map_comp; apply: eq_map => p /=; case: eqP. Qed.

Lemma coef_set_at i w (v : svec) k : sv_sorted v -> i \in inds v ->
  coef (set_at i w v) k = if k == i then w else coef v k.
Proof.
elim: v => [|p v IH] // S; rewrite inE => Hi; have S' := sv_sorted_tl S.
have hv : all (ltn p.1) (inds v) by move: S; rewrite sv_sorted_cons => /andP[].
have nin : p.1 \notin inds v by apply/negP => /(allP hv); rewrite /= ltnn.
rewrite [set_at i w (p :: v)]/=; case: (p.1 =P i) => [E|ne].
  have -> : set_at i w v = v.
    rewrite -[RHS]map_id; apply/eq_in_map => q Hq; case: eqP => // Eq.
    by move: nin; rewrite E -Eq map_f.
  rewrite !coef_cons /= E; case: (k =P i) => [->|nk]; first by rewrite eqxx coef0_notin ?addr0 // -E.
  by rewrite eq_sym; move/eqP/negbTE: nk => ->.
have Hi' : i \in inds v by case/orP: Hi => // /eqP E; case: ne.
rewrite !coef_cons IH //; case: (k =P i) => [->|] //.
by move/eqP/negbTE: ne => ->; rewrite add0r.
Qed.

Lemma sv_wf_set_at m i w (v : svec) : sv_wf m v -> w != 0 -> sv_wf m (set_at i w v).
Proof.
move=> /and3P[S B N] wn; apply/and3P; split.
- by rewrite /sv_sorted inds_set_at.
- by apply/allP => p /mapP[q Hq ->]; have := allP B q Hq; case: (q.1 =P i) => [<-|].
- by apply/allP => p /mapP[q Hq ->]; have := allP N q Hq; case: (q.1 =P i).
Qed.

Lemma sv_wf_filter m (P : pred (nat * F)) (v : svec) : sv_wf m v -> sv_wf m [seq p <- v | P p].
Proof.
by move=> /and3P[S B N]; apply/and3P; split; [apply: sv_sorted_filter | apply: all_filter_sub | apply: all_filter_sub].
Qed.

(** the stored entries before b: none, or a last one *)
Lemma before_spec m (x : svec) b : sv_wf m x ->
  match (split_lb x b).1 with
  | [::] => forall k, (k < b)%N -> coef x k = 0
  | p :: r => let: (j, v) := last p r in
      [/\ (j < b)%N, (j < m)%N, coef x j = v, v != 0 & j \in inds x /\
          (forall k, (j < k < b)%N -> coef x k = 0)]
  end.
Proof.
move=> W; have /and3P[S B N] := W; rewrite split_lb_sorted //=.
have Wf := sv_wf_filter (fun p => (p.1 < b)%N) W; have /and3P[Sf Bf Nf] := Wf.
have Cf k := coef_filter (fun i => (i < b)%N) x k.
case E: [seq p <- x | _] => [|p r].
  by move=> k kb; have := Cf k; rewrite E coef_nil kb.
have Hl : last p r \in [seq p <- x | (p.1 < b)%N] by rewrite E mem_last.
have H : last_ind (p :: r) = Some (last p r).1 by [].
rewrite -E in H.
have := (last_ind_spec (last p r).1 Sf Nf).1 H.
case: (last p r) Hl {H} => j v; rewrite mem_filter => /andP[/= jb jx] [_ K].
split=> //.
- exact: (allP B _ jx).
- by have := coef_in S jx.
- exact: (allP N _ jx).
split; first exact: (map_f fst jx).
by move=> k /andP[jk kb]; have := K k jk; rewrite Cf kb.
Qed.

(** the stored entries from b on *)
Lemma from_spec m (x : svec) b : sv_wf m x ->
  match (split_lb x b).2 with
  | [::] => forall k, (b <= k)%N -> coef x k = 0
  | (j, v) :: r =>
      [/\ (b <= j)%N, (j < m)%N, coef x j = v, v != 0 & j \in inds x /\
          (forall k, (b <= k < j)%N -> coef x k = 0)]
  end.
Proof.
move=> W; have /and3P[S B N] := W; rewrite split_lb_sorted //=.
have Cf k := coef_filter (fun i => (b <= i)%N) x k.
have Sf := sv_sorted_filter (fun p => (b <= p.1)%N) S.
case E: [seq p <- x | _] => [|[j v] r].
  by move=> k kb; have := Cf k; rewrite E coef_nil kb.
have : (j, v) \in [seq p <- x | (b <= p.1)%N] by rewrite E mem_head.
rewrite mem_filter => /andP[/= jb jx]; split=> //.
- exact: (allP B _ jx).
- by have := coef_in S jx.
- exact: (allP N _ jx).
split; first exact: (map_f fst jx).
move=> k /andP[bk kj]; have := Cf k; rewrite bk => <-; rewrite E; apply: coef0_notin.
rewrite E sv_sorted_cons in Sf; move/andP: Sf => [h _].
rewrite /= inE negb_or; apply/andP; split; first by rewrite neq_ltn kj.
by apply/negP => /(allP h) /=; move: kj; clear; lia.
Qed.

Section U.
Variables (U : cmat) (n : nat).
Hypothesis WU : all (sv_wf n) (cols U).
Hypothesis sU : size (cols U) = n.
Hypothesis up : upper (mxc n n (cols U)).
Notation u i j := (coef (nth [::] (cols U) j) i).

Definition usol (y : nat -> F) (x : svec) : Prop :=
  forall i : 'I_n, \sum_(j < n) u i j * coef x j = y i.
Definition uinv (y : nat -> F) (b : nat) (x : svec) : Prop :=
  forall i : 'I_n, y i = \sum_(j < n) (if (b <= j)%N then u i j * coef x j else 0)
                         + (if (i < b)%N then coef x i else 0).

Lemma upc i j : (i < n)%N -> (j < n)%N -> (j < i)%N -> u i j = 0.
Proof. by move=> li lj lt; have := up (i := Ordinal li) (j := Ordinal lj) lt; rewrite mxE. Qed.

Lemma u_loop y fuel b x : sv_wf n x -> (b < fuel)%N -> uinv y b x ->
  (exists z, [/\ u_solve_loop O fuel U b x = Ok z, sv_wf n z & usol y z]) \/
  (u_solve_loop O fuel U b x = Throw /\ exists2 j, (j < n)%N & u j j = 0).
Proof.
elim: fuel b x => // fuel IH b x W bf I; rewrite [u_solve_loop _ _ _ _ _]/=.
have := before_spec b W; case: (split_lb x b).1 => [|p r].
  move=> Z; left; exists x; split=> // i; rewrite I.
  rewrite [X in _ = _ + X](_ : _ = 0) ?addr0; last by case: ifP => // /Z ->.
  by apply: eq_bigr => j _; case: leqP => // /Z ->; rewrite mulr0.
case: (last p r) => j v [jb jn Ex vn [jx K]]; rewrite (@oget_nth svec [::]) ?sU //=.
have Wj := nth_wf j WU.
have := from_spec j Wj; case: (split_lb _ j).2 => [|[i d] r'].
  by move=> Z; right; split=> //; exists j => //; apply: Z.
move=> [ji in_ Ed dn _].
have Eij : i = j.
  apply/eqP; rewrite eqn_leq ji andbT leqNgt; apply/negP => lt.
  by move: dn; rewrite -Ed upc ?eqxx.
subst i; rewrite /odiv is0E (negbTE dn) /=.
set a := v / d; have an : a != 0 by rewrite mulf_neq0 ?invr_eq0.
have /and3P[Sx _ _] := W; have /and3P[Sj _ _] := Wj.
have C1 k : coef (set_at j a x) k = if k == j then a else coef x k by rewrite coef_set_at.
have W1 : sv_wf n (set_at j a x) by apply: sv_wf_set_at.
set x2 := axpy_range O (- a) (nth [::] (cols U) j) 0 j (set_at j a x).
have W2 : sv_wf n x2 by apply: sv_wf_axpy_range.
have C2 k : coef x2 k = (if k == j then a else coef x k) - (if (k < j)%N then a * u k j else 0).
  rewrite /x2 coef_axpy_range // C1 leq0n andTb; congr (_ + _).
  by case: (k < j)%N; rewrite /= ?mulNr ?oppr0.
have I2 : uinv y j x2.
  move=> i; rewrite I.
  have H : \sum_(k < n) (if (j <= k)%N then u i k * coef x2 k else 0) =
           u i j * a + \sum_(k < n) (if (b <= k)%N then u i k * coef x k else 0).
    rewrite (bigD1 (Ordinal jn)) //= leqnn C2 eqxx ltnn subr0; congr (_ + _).
    rewrite [RHS](bigD1 (Ordinal jn)) //= leqNgt jb add0r; apply: eq_bigr => k ne.
    have nkj : (k : nat) != j by apply: contra ne => /eqP e; apply/eqP/val_inj.
    rewrite C2 (negbTE nkj); case: (leqP j k) => jk.
      rewrite subr0; case: (leqP b k) => // kb.
      by rewrite K ?mulr0 // kb ltn_neqAle eq_sym nkj jk.
    by rewrite leqNgt (ltn_trans jk jb).
  rewrite H [u i j * a + _]addrC -addrA; congr (_ + _); rewrite C2.
  case: (ltngtP i j) => ij.
  - rewrite (ltn_trans ij jb);
    by rewrite mulrC addrC subrK.
  - rewrite upc // mul0r addr0; case: ifP => // ib; by rewrite K // ij ib.
  - by rewrite addr0 ij jb Ed Ex /a mulrC divfK.
case: eqP => [j0|_]; last by apply: IH => //; move: jb bf; clear; lia.
left; exists (set_at j a x); split=> //.
have E2 : x2 = set_at j a x.
  have /and3P[Sy _ Ny] := W2; have /and3P[Sz _ Nz] := W1.
  by apply: sv_ext => // k; rewrite C1 C2 j0 ltn0 subr0.
by rewrite -E2 => i; rewrite I2 j0 /= addr0.
Qed.

Lemma u_solveE y : sv_wf n y -> ncol U = n ->
  (exists z, [/\ u_solve O U y = Ok z, sv_wf n z & mxc n n (cols U) *m vec n z = vec n y]) \/
  (u_solve O U y = Throw /\ exists2 j, (j < n)%N & u j j = 0).
Proof.
move=> Wy nU; rewrite /u_solve.
have EV z : usol (coef y) z -> mxc n n (cols U) *m vec n z = vec n y.
  by move=> H; apply/colP => i; rewrite !mxE -H; apply: eq_bigr => j _; rewrite !mxE.
have [E|] := eqVneq y [::].
  left; exists y; rewrite E; split=> //; rewrite (_ : vec n [::] = 0) ?mulmx0 //.
  by apply/colP => i; rewrite !mxE coef_nil.
case: y Wy EV => // p y Wy EV _.
have [|[z [E Wz Hz]]|H] := @u_loop (coef (p :: y)) (ncol U).+2 (ncol U).+1 (p :: y) Wy (leqnn _).
- move=> i; rewrite nU ltnS (ltnW (ltn_ord i)) big1 ?add0r // => j _.
  by rewrite ltnNge (ltnW (ltn_ord j)).
- by left; exists z; split=> //; apply: EV.
- by right.
Qed.
End U.

Section L.
Variables (L : cmat) (n : nat).
Hypothesis WL : all (sv_wf n) (cols L).
Hypothesis sL : size (cols L) = n.
Hypothesis nL : nrow L = n.
Hypothesis lo : lower (mxc n n (cols L)).
Hypothesis dn : diagn0 (mxc n n (cols L)).
Notation l i j := (coef (nth [::] (cols L) j) i).

Definition linv (y : nat -> F) (b : nat) (x : svec) : Prop :=
  forall i : 'I_n, y i = \sum_(j < n) (if (j < b)%N then l i j * coef x j else 0)
                         + (if (b <= i)%N then coef x i else 0).

Lemma loc i j : (i < n)%N -> (j < n)%N -> (i < j)%N -> l i j = 0.
Proof. by move=> li lj lt; have := lo (i := Ordinal li) (j := Ordinal lj) lt; rewrite mxE. Qed.
Lemma ldn j : (j < n)%N -> l j j != 0.
Proof. by move=> lj; have := dn (Ordinal lj); rewrite mxE. Qed.

Lemma l_loop y fuel b x : sv_wf n x -> (n < b + fuel)%N -> (b <= n)%N -> linv y b x ->
  exists z, [/\ l_solve_loop O fuel L b x = Ok z, sv_wf n z & usol L n y z].
Proof.
elim: fuel b x => [|fuel IH] b x W bf bn I; first by move: bf bn; clear; lia.
rewrite [l_solve_loop _ _ _ _ _]/=.
have := from_spec b W; case: (split_lb x b).2 => [|[j v] r].
  move=> Z; exists x; split=> // i; rewrite I.
  rewrite [X in _ = _ + X](_ : _ = 0) ?addr0; last by case: ifP => // /Z ->.
  by apply: eq_bigr => j _; case: ltnP => // /Z ->; rewrite mulr0.
move=> [bj jn Ex vn [jx K]]; rewrite (@oget_nth svec [::]) ?sL //=.
have Wj := nth_wf j WL.
have := from_spec j Wj; case: (split_lb _ j).2 => [|[i d] r'].
  by move=> Z; have := ldn jn; rewrite Z ?eqxx.
move=> [ji in_ Ed dn' [_ Kj]].
have Eij : i = j.
  apply/eqP; rewrite eqn_leq ji andbT leqNgt; apply/negP => lt.
  by have := ldn jn; rewrite Kj ?eqxx // leqnn.
subst i; rewrite /odiv is0E (negbTE dn') /=.
set a := v / d; have an : a != 0 by rewrite mulf_neq0 ?invr_eq0.
have /and3P[Sx _ _] := W; have /and3P[Sj _ _] := Wj.
have C1 k : coef (set_at j a x) k = if k == j then a else coef x k by rewrite coef_set_at.
have W1 : sv_wf n (set_at j a x) by apply: sv_wf_set_at.
set x2 := axpy_range O (- a) (nth [::] (cols L) j) j.+1 (nrow L) (set_at j a x).
have W2 : sv_wf n x2 by apply: sv_wf_axpy_range.
have C2 k : (k < n)%N -> coef x2 k = (if k == j then a else coef x k) - (if (j < k)%N then a * l k j else 0).
  by move=> kn; rewrite /x2 coef_axpy_range // C1 nL kn andbT; congr (_ + _); case: (j < k)%N; rewrite /= ?mulNr ?oppr0.
apply: IH => //; first by move: bf bj; clear; lia.
move=> i; rewrite I.
have H : \sum_(k < n) (if (k < j.+1)%N then l i k * coef x2 k else 0) =
         l i j * a + \sum_(k < n) (if (k < b)%N then l i k * coef x k else 0).
  rewrite (bigD1 (Ordinal jn)) //= ltnSn C2 // eqxx ltnn subr0; congr (_ + _).
  rewrite [RHS](bigD1 (Ordinal jn)) //= ltnNge bj add0r; apply: eq_bigr => k ne.
  have nkj : (k : nat) != j by apply: contra ne => /eqP e; apply/eqP/val_inj.
  rewrite C2 // (negbTE nkj) ltnS; case: (leqP k j) => jk.
    rewrite subr0; case: (ltnP k b) => // kb.
    by rewrite K ?mulr0 // kb ltn_neqAle nkj jk.
  by rewrite ltnNge (leq_trans bj (ltnW jk)).
rewrite H [l i j * a + _]addrC -addrA; congr (_ + _); rewrite C2 //.
case: (ltngtP i j) => ij.
- rewrite loc // mul0r addr0; case: ifP => // ib; by rewrite K // ij ib.
- rewrite (leq_trans bj (ltnW ij));
  by rewrite mulrC addrC subrK.
- by rewrite addr0 ij bj Ed Ex /a mulrC divfK.
Qed.

Lemma l_solveE y : sv_wf n y ->
  exists z, [/\ l_solve O L y = Ok z, sv_wf n z & mxc n n (cols L) *m vec n z = vec n y].
Proof.
move=> Wy; rewrite /l_solve.
have EV z : usol L n (coef y) z -> mxc n n (cols L) *m vec n z = vec n y.
  by move=> H; apply/colP => i; rewrite !mxE -H; apply: eq_bigr => j _; rewrite !mxE.
have [E|] := eqVneq y [::].
  exists y; rewrite E; split=> //; rewrite (_ : vec n [::] = 0) ?mulmx0 //.
  by apply/colP => i; rewrite !mxE coef_nil.
case: y Wy EV => // p y Wy EV _.
have [|||z [E Wz Hz]] := @l_loop (coef (p :: y)) (nrow L).+1 0 (p :: y) Wy.
- by rewrite nL add0n.
- by [].
- by move=> i; rewrite /= big1 ?add0r.
by exists z; split=> //; apply: EV.
Qed.
End L.

Lemma solve_mat (f : svec -> outcome svec) (M : cmat) (A : cmat) n : cm_wf A -> nrow A = n ->
  (forall y, sv_wf n y -> exists z, [/\ f y = Ok z, sv_wf n z & mxc n n (cols M) *m vec n z = vec n y]) ->
  exists cs, [/\ omapm f (cols A) = Ok cs, cm_wf (CMat (nrow A) (ncol A) cs) &
     mxc n n (cols M) *m mxc n (ncol A) cs = mxc n (ncol A) (cols A)].
Proof.
move=> /cm_wfP[s W] En H.
have [|rs [E sr G]] := @omapm_exists _ _ f
  (fun y z => sv_wf n z /\ mxc n n (cols M) *m vec n z = vec n y) (cols A) [::] [::].
  move=> i _; have [|z [a b c]] := H (nth [::] (cols A) i); first by rewrite -En; apply: nth_wf.
  by exists z.
exists rs; split=> //.
  rewrite /cm_wf /= sr s eqxx; apply/(all_nthP [::]) => i; rewrite sr => /G[]; by rewrite En.
apply/matrixP => i j; have js : (j < size (cols A))%N by rewrite s.
have [_ /colP/(_ i)] := G j js; rewrite !mxE => <-; by apply: eq_bigr => k _; rewrite !mxE.
Qed.
End S.
