(** Zigzag barcodes: triangular solves and preferred representatives restricted to the cells that are present. *)
From mathcomp Require Import all_ssreflect all_algebra zify.
From Verif Require Import Outcome P_Outcome RingTac M_SparseVec M_Perm M_ColMatrix M_Reduce M_Homology M_Induced
  S_Linalg S_Perm S_Homology S_Induced P_SparseVec P_SparseVec2 P_Pairing P_Reduce P_ColMatrix P_Solve P_Homology P_Betti P_Rep P_Induced.
Set Implicit Arguments.
Unset Strict Implicit.
Unset Printing Implicit Defensive.
Import GRing.Theory.
Local Open Scope ring_scope.

Section S.
Variable F : fieldType.
Notation O := (ops_of F).
Notation svec := (svec F).
Notation cmat := (cmat F).
Notation inds v := [seq p.1 | p <- v].

(** x has entries only at present indices *)
Definition supp (P : pred nat) (x : svec) : Prop := forall i, coef x i != 0 -> P i.
(** the present columns of a (partly cleared) basis matrix *)
Definition ucols (P : pred nat) (n : nat) (U : seq svec) : Prop :=
  [/\ size U = n, all (sv_wf n) U & forall j, (j < n)%N -> P j ->
     [/\ supp P (nth [::] U j), coef (nth [::] U j) j != 0 & forall i, (j < i)%N -> coef (nth [::] U j) i = 0]].

Section U.
Variables (U : cmat) (n : nat) (P : pred nat).
Hypothesis HU : ucols P n (cols U).
Hypothesis nU : ncol U = n.
Notation u i j := (coef (nth [::] (cols U) j) i).

Let WU : all (sv_wf n) (cols U). Proof. by case: HU. Qed.
Let sU : size (cols U) = n. Proof. by case: HU. Qed.

Lemma u_loopP y fuel b x : sv_wf n x -> supp P x -> (b < fuel)%N -> uinv U n y b x ->
  exists z, [/\ u_solve_loop O fuel U b x = Ok z, sv_wf n z, supp P z & usol U n y z].
Proof.
elim: fuel b x => // fuel IH b x W SP bf I; rewrite [u_solve_loop _ _ _ _ _]/=.
have := before_spec b W; case: (split_lb x b).1 => [|p r].
  move=> Z; exists x; split=> // i; rewrite I.
  rewrite [X in _ = _ + X](_ : _ = 0) ?addr0; last by case: ifP => // /Z ->.
  by apply: eq_bigr => j _; case: leqP => // /Z ->; rewrite mulr0.
case: (last p r) => j v [jb jn Ex vn [jx K]]; rewrite (@oget_nth svec [::]) ?sU //=.
have Wj := nth_wf j WU.
have Pj : P j by apply: SP; rewrite Ex.
have [_ _ /(_ j jn Pj)[sj dj upj]] := HU.
have := from_spec j Wj; case: (split_lb _ j).2 => [|[i d] r'].
  by move=> Z; move: dj; rewrite Z // eqxx.
move=> [ji in_ Ed dn _].
have Eij : i = j.
  apply/eqP; rewrite eqn_leq ji andbT leqNgt; apply/negP => lt.
  by move: dn; rewrite -Ed upj ?eqxx.
subst i; rewrite /odiv is0E (negbTE dn) /=.
set a := v / d; have an : a != 0 by rewrite mulf_neq0 ?invr_eq0.
have /and3P[Sx _ _] := W; have /and3P[Sj _ _] := Wj.
have C1 k : coef (set_at j a x) k = if k == j then a else coef x k by rewrite coef_set_at.
have W1 : sv_wf n (set_at j a x) by apply: sv_wf_set_at.
set x2 := axpy_range O (- a) (nth [::] (cols U) j) 0 j (set_at j a x).
have W2 : sv_wf n x2 by apply: sv_wf_axpy_range.
have C2 k : coef x2 k = (if k == j then a else coef x k) - (if (k < j)%N then a * u k j else 0).
  rewrite /x2 coef_axpy_range // C1 leq0n andTb; congr (_ + _).
  by case: (k < j)%N; rewrite /= ?mulNr ?oppr0.
have S2 : supp P x2.
  move=> k; rewrite C2; case: (eqVneq k j) => [->|nk] //.
  case: (eqVneq (coef x k) 0) => [->|h _]; last exact: SP.
  rewrite sub0r; case: ifP => _; last by rewrite oppr0 eqxx.
  case: (eqVneq (u k j) 0) => [->|h _]; last exact: sj.
  by rewrite mulr0 oppr0 eqxx.
have I2 : uinv U n y j x2.
  move=> i; rewrite I.
  have H : \sum_(k < n) (if (j <= k)%N then u i k * coef x2 k else 0) =
           u i j * a + \sum_(k < n) (if (b <= k)%N then u i k * coef x k else 0).
    rewrite (bigD1 (Ordinal jn)) //= leqnn C2 eqxx ltnn subr0; congr (_ + _).
    rewrite [RHS](bigD1 (Ordinal jn)) //= leqNgt jb add0r; apply: eq_bigr => k ne.
    have nkj : (k : nat) != j by apply: contra ne => /eqP e; apply/eqP/val_inj.
    rewrite C2 (negbTE nkj); case: (leqP j k) => jk.
      rewrite subr0; case: (leqP b k) => // kb.
      by rewrite K ?mulr0 // kb ltn_neqAle eq_sym nkj jk.
    by rewrite leqNgt (ltn_trans jk jb).
  rewrite H [u i j * a + _]addrC -addrA; congr (_ + _); rewrite C2.
  case: (ltngtP i j) => ij.
  - rewrite (ltn_trans ij jb);
    by rewrite mulrC addrC subrK.
  - rewrite upj // mul0r addr0; case: ifP => // ib; by rewrite K // ij ib.
  - by rewrite addr0 ij jb Ed Ex /a mulrC divfK.
case: eqP => [j0|_]; last by apply: IH => //; move: jb bf; clear; lia.
exists (set_at j a x).
have E2 : x2 = set_at j a x.
  have /and3P[Sy _ Ny] := W2; have /and3P[Sz _ Nz] := W1.
  by apply: sv_ext => // k; rewrite C1 C2 j0 ltn0 subr0.
by rewrite -E2; split=> // i; rewrite I2 j0 /= addr0.
Qed.

Lemma u_solveP y : sv_wf n y -> supp P y ->
  exists z, [/\ u_solve O U y = Ok z, sv_wf n z, supp P z & mxc n n (cols U) *m vec n z = vec n y].
Proof.
move=> Wy Sy; rewrite /u_solve.
have EV z : usol U n (coef y) z -> mxc n n (cols U) *m vec n z = vec n y.
  by move=> H; apply/colP => i; rewrite !mxE -H; apply: eq_bigr => j _; rewrite !mxE.
have [E|] := eqVneq y [::].
  exists y; rewrite E; split=> //; first by rewrite -E.
  rewrite (_ : vec n [::] = 0) ?mulmx0 //.
  by apply/colP => i; rewrite !mxE coef_nil.
case: y Wy Sy EV => // p y Wy Sy EV _.
have [|z [E Wz Sz Hz]] := @u_loopP (coef (p :: y)) (ncol U).+2 (ncol U).+1 (p :: y) Wy Sy (leqnn _).
- move=> i; rewrite nU ltnS (ltnW (ltn_ord i)) big1 ?add0r // => j _.
  by rewrite ltnNge (ltnW (ltn_ord j)).
- by exists z; split=> //; apply: EV.
Qed.

(** the product with a vector of present entries keeps its last entry *)
Lemma ucols_low z i : sv_wf n z -> supp P z -> last_ind z = Some i ->
  (i < n)%N /\ forall y, sv_wf n y -> mxc n n (cols U) *m vec n z = vec n y -> last_ind y = Some i.
Proof.
move=> Wz Sz Lz; have /and3P[S B N] := Wz; have [ci Ki] := (last_ind_spec i S N).1 Lz.
have li : (i < n)%N by case: (ltnP i n) => // h; move: ci; rewrite (coef_ge B) ?eqxx.
split=> // y Wy E; have /and3P[S' B' N'] := Wy; apply/(last_ind_spec i S' N').
have [_ _ H] := HU.
have cy r : (r < n)%N -> coef y r = \sum_(j < n) u r j * coef z j.
  by move=> lr; have /colP/(_ (Ordinal lr)) := E; rewrite !mxE => <-; apply: eq_bigr => j _; rewrite !mxE.
have Kz j : coef z j != 0 -> (j < n)%N -> (j <= i)%N /\ P j.
  move=> nz jn; split; last exact: Sz.
  by rewrite leqNgt; apply/negP => /Ki e; rewrite e eqxx in nz.
split.
  rewrite cy // (bigD1 (Ordinal li)) //= big1 ?addr0.
    by have [_ d _] := H i li (Sz _ ci); rewrite mulf_neq0.
  move=> j ne; case: (eqVneq (coef z j) 0) => [->|nz]; first by rewrite mulr0.
  have [ji Pj] := Kz _ nz (ltn_ord j); have [_ _ ->] := H j (ltn_ord j) Pj; first by rewrite mul0r.
  by rewrite ltn_neqAle ji andbT; apply: contra ne => /eqP e; apply/eqP/val_inj.
move=> r ir; case: (ltnP r n) => rn; last by rewrite (coef_ge B').
rewrite cy // big1 // => j _; case: (eqVneq (coef z j) 0) => [->|nz]; first by rewrite mulr0.
have [ji Pj] := Kz _ nz (ltn_ord j); have [_ _ ->] := H j (ltn_ord j) Pj; first by rewrite mul0r.
exact: leq_ltn_trans ji ir.
Qed.

Section Loop.
Variables (R1 : cmat) (p : seq (option nat)) (q : nat) (P1 : pred nat).
Hypothesis WR : all (sv_wf n) (cols R1).
Hypothesis sR : size (cols R1) = q.
Hypothesis nR : nrow R1 = n.
Hypothesis sp : size p = n.
Hypothesis Hp : forall j i, (j < n)%N -> nth None p j = Some i ->
  [/\ (i < q)%N, P1 i, supp P (nth [::] (cols R1) i) & last_ind (nth [::] (cols R1) i) = Some j].
Notation mU := (mxc n n (cols U)).
Notation mR := (mxc n q (cols R1)).

Lemma bd_colP j i : (j < n)%N -> nth None p j = Some i ->
  exists z w, [/\ u_solve O U (nth [::] (cols R1) i) = Ok z, sv_wf n z /\ supp P z,
     mU *m vec n z = vec n (nth [::] (cols R1) i), lastnz z = Ok (j, w) &
     [/\ coef z j = w, w != 0 & forall k, (j < k)%N -> coef z k = 0]].
Proof.
move=> jn E; have [iq P1i Si L] := Hp jn E; have Wi := nth_wf i WR.
have [z [Ez Wz Sz Mz]] := u_solveP Wi Si.
have ne : z <> [::].
  move=> E0; have Z : vec n (nth [::] (cols R1) i) = 0.
    by rewrite -Mz E0 (_ : vec n [::] = 0) ?mulmx0 //; apply/colP => x; rewrite !mxE coef_nil.
  have /and3P[S _ N] := Wi; have [c _] := (last_ind_spec j S N).1 L.
  by have /colP/(_ (Ordinal jn)) := Z; rewrite !mxE /= => e; rewrite e eqxx in c.
have [j' [w [El Li _ cw wn]]] := lastnz_spec Wz ne.
have [_ /(_ _ Wi Mz)] := ucols_low Wz Sz Li; rewrite L => -[Ej].
subst j'; exists z, w; split=> //; split=> // k lt.
by have /and3P[S _ N] := Wz; have [_ H] := (last_ind_spec j S N).1 Li; apply: H.
Qed.

Definition finvP (y0 : 'cV[F]_n) (y : svec) := exists2 w : 'cV[F]_q, forall i, w i 0 != 0 -> P1 i & mU *m vec n y = y0 + mR *m w.

Lemma fpr_loopP y0 fuel b y : sv_wf n y -> supp P y -> (b + n.+2 < fuel)%N -> finvP y0 y ->
  (forall j, (b <= j < n)%N -> nth None p j <> None -> coef y j = 0) ->
  exists y', [/\ fpr_loop O fuel U R1 p b y = Ok y', sv_wf n y', supp P y', finvP y0 y' &
    forall j, (j < n)%N -> nth None p j <> None -> coef y' j = 0].
Proof.
elim: fuel b y => // fuel IH b y W SP bf I C; rewrite [fpr_loop _ _ _ _ _ _ _]/=.
have := before_spec b W; case: (split_lb y b).1 => [|a r].
  move=> Z; exists y; split=> // j jn E; case: (ltnP j b) => jb; first exact: Z.
  by apply: C; rewrite ?jb.
case: (last a r) => j v [jb jn Ey vn [_ K]]; rewrite (oget_nth None) ?sp //=.
have Kj k : (j < k < n)%N -> nth None p k <> None -> coef y k = 0.
  move=> /andP[jk kn] E; case: (ltnP k b) => kb; first by apply: K; rewrite jk.
  by apply: C; rewrite ?kb.
case E: (nth None p j) => [i|]; last first.
  apply: IH => //; first by move: jb bf; clear; lia.
  move=> k /andP[]; rewrite leq_eqVlt => /orP[/eqP <- _|jk kn]; first by rewrite E.
  by apply: Kj; rewrite jk.
have [z [w [Ez [Wz Sz] Mz Lz [cw wn Kz]]]] := bd_colP jn E; have [iq P1i Si Li] := Hp jn E.
rewrite (@oget_nth svec [::]) ?sR //= Ez /= Lz /= /odiv is0E (negbTE wn) /=.
set c := v / w; set y2 := axpy O (- c) z y.
have W2 : sv_wf n y2 by apply: sv_wf_axpy.
have C2 k : coef y2 k = coef y k - c * coef z k by rewrite /y2 coef_axpy mulNr.
have S2 : supp P y2.
  move=> k; rewrite C2; case: (eqVneq (coef y k) 0) => [->|h _]; last exact: SP.
  case: (eqVneq (coef z k) 0) => [->|h _]; last exact: Sz.
  by rewrite mulr0 subrr eqxx.
have I2 : finvP y0 y2.
  case: I => x xP Hx; exists (x - c *: delta_mx (Ordinal iq) 0).
    move=> k; rewrite !mxE; case: (eqVneq k (Ordinal iq)) => [->|ne] //=.
    by rewrite mulr0 subr0; apply: xP.
  have -> : vec n y2 = vec n y - c *: vec n z by apply/colP => k; rewrite !mxE C2.
  rewrite mulmxBr Hx -scalemxAr Mz mulmxBr -scalemxAr -colE addrA; congr (_ - _ *: _).
  by apply/colP => k; rewrite !mxE.
have Z2 k : (j <= k < n)%N -> nth None p k <> None -> coef y2 k = 0.
  move=> /andP[jk kn] Ek; rewrite C2; move: jk; rewrite leq_eqVlt => /orP[/eqP Ejk|jk].
    by rewrite -Ejk Ey cw /c divfK // subrr.
  by rewrite Kj ?jk // Kz // mulr0 subr0.
case: eqP => [j0|_]; last by apply: IH => //; move: jb bf; clear; lia.
exists y2; have Z3 k : (k < n)%N -> nth None p k <> None -> coef y2 k = 0.
  by move=> kn; apply: Z2; rewrite j0.
split=> //; apply: (@fpr_clean F U R1 p n) => //; rewrite nR; move: jb bf; clear; lia.
Qed.
End Loop.
End U.
End S.
