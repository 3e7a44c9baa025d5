(** Zigzag barcodes: the state of the complex between two events. *)
From mathcomp Require Import all_ssreflect all_algebra zify.
From Verif Require Import Outcome P_Outcome RingTac M_SparseVec M_Perm M_ColMatrix M_Reduce M_Homology M_Induced M_Zigzag
  S_Linalg S_Perm S_Homology S_Induced S_Zigzag P_SparseVec P_SparseVec2 P_Pairing P_Reduce P_ColMatrix P_Solve P_Homology
  P_Betti P_Rep P_Induced P_Zig1 P_Zig3 P_Zig4.
Set Implicit Arguments.
Unset Strict Implicit.
Unset Printing Implicit Defensive.
Import GRing.Theory.
Local Open Scope ring_scope.

Section S.
Variable F : fieldType.
Notation O := (ops_of F).
Notation svec := (svec F).
Notation cmat := (cmat F).
Notation nz := (nth [::]).
Variables (C : seq cmat) (zd : nat).
Hypothesis CW : chain_wf C.

Notation cR X k := (cols (bmx (rc_R X) k)).
Notation cU X k := (cols (bmx (rc_U X) k)).
Notation pc X k := (nth [::] (rc_p2c X) k).
Notation Bk k := (mxc (nrow (bmx C k)) (ncell C k) (cols (bmx C k))).

(** j is a generator of H_k *)
Definition gen (P : nat -> nat -> bool) (X : rcc F) k j : Prop :=
  [/\ (j < ncell C k)%N, P k j, nz (cR X k) j = [::] & nth None (pc X k.+1) j = None].
Definition hdims (X : rcc F) k : Prop :=
  [/\ nrow (bmx (rc_R X) k) = nrow (bmx C k), ncol (bmx (rc_R X) k) = ncell C k,
      nrow (bmx (rc_U X) k) = ncell C k & ncol (bmx (rc_U X) k) = ncell C k].
Definition hinv (P : nat -> nat -> bool) (X : rcc F) : Prop :=
  [/\ [/\ size (rc_R X) = size C, size (rc_U X) = size C, size (rc_I X) = size C & size (rc_p2c X) = size C],
      forall k, (k < size C)%N -> hdims X k,
      forall k, (k < size C)%N -> zdim (Bk k) (P k) None (cR X k) (cU X k) (pc X k),
      forall k i j, (k.+1 < size C)%N -> (j < ncell C k.+1)%N -> P k.+1 j -> entry (bmx C k.+1) i j != 0 -> P k i &
      forall k, (k < zd)%N -> (k < size C)%N ->
        sorted ltn (gens X k) /\ forall j, j \in gens X k <-> gen P X k j].

Variables (P : nat -> nat -> bool) (X : rcc F).
Hypothesis HI : hinv P X.
Hypothesis nb0 : no_bd0 C.

Lemma zd_at k : (k < size C)%N -> zdim (Bk k) (P k) None (cR X k) (cU X k) (pc X k).
Proof. by case: HI => _ _ h _ _; apply: h. Qed.
Lemma zd_succ k : (k.+1 < size C)%N ->
  zdim (mxc (ncell C k) (ncell C k.+1) (cols (bmx C k.+1))) (P k.+1) None (cR X k.+1) (cU X k.+1) (pc X k.+1).
Proof. by move=> kC; rewrite -(ncell_succ CW kC); apply: zd_at. Qed.

Lemma Rsupp k j : (k.+1 < size C)%N -> (j < ncell C k.+1)%N -> P k.+1 j -> supp (P k) (nz (cR X k.+1) j).
Proof.
move=> kC jn Pj i ni; have [[sM WM] [_ _ HU] _ eM _] := zd_succ kC.
have im : (i < ncell C k)%N.
  by case: (ltnP i (ncell C k)) => // h; have /and3P[_ B _] := nth_wf j WM; move: ni; rewrite (coef_ge B h) eqxx.
have /colP/(_ (Ordinal im)) := eM j jn Pj; rewrite !mxE /= => e; rewrite e in ni.
have [su _ _] := HU j jn Pj.
case: (pickP (fun x : 'I_(ncell C k.+1) => entry (bmx C k.+1) i x * coef (nz (cU X k.+1) j) x != 0)) => [x|none].
  rewrite mulf_eq0 negb_or => /andP[e1 e2]; have [_ _ _ cl _] := HI; apply: (cl k i x) => //; exact: su.
exfalso; move: ni; rewrite big1 ?eqxx // => x _; rewrite !mxE; have := none x; rewrite /entry => /negbT; by rewrite negbK => /eqP.
Qed.

(** the columns of R that are present *)
Definition Rm k : 'M[F]_(nrow (bmx C k), ncell C k) := \matrix_(i, j) if P k j then coef (nz (cR X k) j) i else 0.
Lemma Rm_low k i j : (k < size C)%N -> is_low (Rm k) i j <-> nth None (pc X k) i = Some (j : nat).
Proof.
move=> kC; have [[sM WM] _ _ _ Hp] := zd_at kC; rewrite Hp //; have Wj := nth_wf j WM.
split=> [L|[_ Pj _ L]].
  have Pj : P k j by case: L; rewrite mxE; case: (P k j) => //; rewrite eqxx.
  split=> //; apply/vec_low => //; case: L => a b; split; first by move: a; rewrite !mxE Pj.
  by move=> i' h; move: (b i' h); rewrite !mxE Pj.
move/vec_low: L => /(_ Wj)[a b]; split; first by move: a; rewrite !mxE Pj.
by move=> i' h; move: (b i' h); rewrite !mxE Pj.
Qed.
Lemma Rm_reduced k : (k < size C)%N -> reduced (Rm k).
Proof. by move=> kC i j j' /Rm_low-/(_ kC) e /Rm_low-/(_ kC); rewrite e => -[/val_inj]. Qed.

Notation mU k := (mxc (ncell C k) (ncell C k) (cU X k)).
Lemma Rm_mul k (y : 'cV[F]_(ncell C k)) : (k < size C)%N -> chain_in P y -> Rm k *m y = bd C k *m (mU k *m y).
Proof.
move=> kC Sy; have [_ _ _ eM _] := zd_at kC.
apply/colP => i; rewrite mulmxA ![in RHS]mxE mxE; apply: eq_bigr => j _; rewrite [Rm k i j]mxE.
case: (eqVneq (y j 0) 0) => [->|n]; first by rewrite !mulr0.
rewrite Sy //; have /colP/(_ i) := eM j (ltn_ord j) (Sy _ n); rewrite [LHS]mxE => ->; congr (_ * _).
by rewrite !mxE; apply: eq_bigr => x _; rewrite !mxE.
Qed.
Lemma cyc_zero k (y : 'cV[F]_(ncell C k)) j : (k < size C)%N -> chain_in P y -> cycle (mU k *m y) -> y j 0 != 0 -> nz (cR X k) j = [::].
Proof.
move=> kC Sy Z n; have e0 : Rm k *m y = 0 by rewrite Rm_mul.
have Pj := Sy _ n; apply/eqP/negPn/negP => /eqP ne.
have [[sM WM] _ _ _ _] := zd_at kC.
have [i [w [_ L im _ _]]] := lastnz_spec (nth_wf j WM) ne.
have : nzcol (Rm k) j.
  apply/nzcolP; exists (Ordinal im); apply/Rm_low => //=.
  by have [_ _ _ _ Hp] := zd_at kC; apply/Hp.
by move/(reduced_indep (Rm_reduced kC) e0) => e; rewrite e eqxx in n.
Qed.

Lemma chain_supp k (y : svec) : supp (P k) y -> chain_in P (vec (ncell C k) y).
Proof. by move=> S i; rewrite mxE => /S. Qed.
Lemma U_chain k (y : 'cV[F]_(ncell C k)) : (k < size C)%N -> chain_in P y -> chain_in P (mU k *m y).
Proof.
move=> kC Sy i; rewrite mxE => n; have [_ [_ _ HU] _ _ _] := zd_at kC.
case: (pickP (fun x : 'I_(ncell C k) => mU k i x * y x 0 != 0)) => [x|none].
  rewrite mulf_eq0 negb_or => /andP[e1 e2]; have Px := Sy _ e2.
  have [su _ _] := HU x (ltn_ord x) Px; apply: su; by rewrite mxE in e1.
by exfalso; move: n; rewrite big1 ?eqxx // => x _; apply/eqP/negPn; rewrite none.
Qed.

(** every chain of the subcomplex is a combination of present columns of U *)
Lemma U_solve k (z : 'cV[F]_(ncell C k)) : (k < size C)%N -> chain_in P z ->
  exists y : svec, [/\ sv_wf (ncell C k) y, supp (P k) y & z = mU k *m vec (ncell C k) y].
Proof.
move=> kC Sz; have [_ HU _ _ _] := zd_at kC; have [_ D _ _ _] := HI; have [_ _ nU ncU] := D k kC.
pose f i := if insub i is Some i' then z i' 0 else 0.
have cf i : coef (sv_of f (ncell C k)) i = f i.
  case: (ltnP i (ncell C k)) => li; first by rewrite coef_sv_of.
  have /and3P[_ B _] := sv_of_wf f (ncell C k); rewrite (coef_ge B) // /f; case: insubP => // i' h; by rewrite ltnNge li in h.
have [|y [_ Wy Sy e]] := u_solveP HU ncU (sv_of_wf f (ncell C k)).
  move=> i; rewrite cf /f; case: insubP => [i' _ <- /Sz //|]; by rewrite eqxx.
by exists y; split=> //; rewrite e; apply/colP => i; rewrite mxE cf /f valK.
Qed.

Lemma find_prefE k y : (k < size C)%N -> sv_wf (ncell C k) y -> supp (P k) y -> cycle (mU k *m vec _ y) ->
  exists y', [/\ find_preferred O X y k = Ok y', sv_wf (ncell C k) y',
    homologous_in P (mU k *m vec (ncell C k) y) (mU k *m vec (ncell C k) y') &
    forall j, coef y' j != 0 -> gen P X k j].
Proof.
move=> kC Wy Sy Z; have [[sR sU sI sp] D _ _ _] := HI.
have fin y' : sv_wf (ncell C k) y' -> supp (P k) y' -> homologous_in P (mU k *m vec _ y) (mU k *m vec _ y') ->
    (forall j, (j < ncell C k)%N -> nth None (pc X k.+1) j <> None -> coef y' j = 0) -> forall j, coef y' j != 0 -> gen P X k j.
  move=> Wy' Sy' [w _ ew] H j nj; have Pj := Sy' _ nj.
  have jn : (j < ncell C k)%N.
    by case: (ltnP j (ncell C k)) => // h; have /and3P[_ B _] := Wy'; move: nj; rewrite (coef_ge B h) eqxx.
  split=> //.
    apply: (cyc_zero kC (chain_supp Sy') (j := Ordinal jn)); last by rewrite mxE.
    have {}ew : mU k *m vec (ncell C k) y' = mU k *m vec (ncell C k) y - bd1 C k *m w by rewrite -ew opprB addrC subrK.
    by rewrite /cycle ew mulmxBr Z mulmxA bd_bd1 // mul0mx subrr.
  by case e : (nth None (pc X k.+1) j) => [x|] //; move: nj; rewrite H ?eqxx // e.
rewrite /find_preferred sR; case: (eqVneq k.+1 (size C)) => [e|ne].
  exists y; split=> //; first by exists 0; [move=> i; rewrite mxE eqxx|rewrite subrr mulmx0].
  apply: fin => //; first by exists 0; [move=> i; rewrite mxE eqxx|rewrite subrr mulmx0].
  by move=> j _; rewrite [pc X k.+1]nth_default ?nth_nil // sp e.
have k1 : (k.+1 < size C)%N by rewrite ltn_neqAle ne.
rewrite (oget_nth (CMat 0 0 [::])) ?sU //; cbn [obind]; rewrite (oget_nth (CMat 0 0 [::])) ?sR //; cbn [obind].
rewrite (oget_nth [::]) ?sp //; cbn [obind]; rewrite -!/(bmx _ _).
have [_ _ nU ncU] := D k kC; have [nR ncR _ _] := D _ k1; rewrite (ncell_succ CW k1) in nR.
have [_ HU _ _ _] := zd_at kC; have [[sM WM] HU1 sp1 eM Hp] := zd_succ k1.
have Hp' j i : (j < ncell C k)%N -> nth None (pc X k.+1) j = Some i ->
   [/\ (i < ncell C k.+1)%N, P k.+1 i, supp (P k) (nz (cR X k.+1) i) & last_ind (nz (cR X k.+1) i) = Some j].
  by move=> jn /(Hp _ _ jn)[i1 i2 _ i4]; split=> //; apply: Rsupp.
have [|||y' [-> Wy' Sy' [w wP ew] C']] := @fpr_loopP F _ _ _ HU ncU _ _ _ (P k.+1) WM sM nR sp1 Hp' (mU k *m vec _ y)
    (2 * (nrow (bmx (rc_R X) k.+1)).+2).+1 (nrow (bmx (rc_R X) k.+1)).+1 y Wy Sy.
- by rewrite nR; clear; lia.
- by exists 0; [move=> i; rewrite mxE eqxx|rewrite mulmx0 addr0].
- by move=> j; rewrite nR => /andP[a b]; exfalso; move: a b; clear; lia.
have hom : homologous_in P (mU k *m vec (ncell C k) y) (mU k *m vec (ncell C k) y').
  exists (- (mU k.+1 *m w)); first by move=> i; rewrite mxE oppr_eq0; apply: U_chain.
  rewrite ew opprD addrA subrr sub0r mulmxN; congr (- _); rewrite mulmxA.
  apply/colP => i; rewrite ![in LHS]mxE [RHS]mxE; apply: eq_bigr => j _; rewrite [mxc _ _ _ i j]mxE.
  case: (eqVneq (w j 0) 0) => [->|n]; first by rewrite !mulr0.
  have /colP/(_ i) := eM j (ltn_ord j) (wP _ n); rewrite [LHS]mxE => ->; congr (_ * _).
  by rewrite !mxE; apply: eq_bigr => x _; rewrite !mxE.
by exists y'; split=> //; apply: fin.
Qed.

Lemma rep_sel k (y : svec) : sorted ltn (gens X k) -> (forall j, j \in gens X k -> (j < ncell C k)%N) -> sv_wf (ncell C k) y ->
  (forall j, coef y j != 0 -> j \in gens X k) ->
  mU k *m vec (ncell C k) y = repmx (ncell C k) X k *m vec (size (gens X k)) (select y (gens X k)).
Proof.
move=> so lt Wy H; have /and3P[S B N] := Wy; have [_ _ _ cs] := selectE so S.
have un : uniq (gens X k) by apply: (sorted_uniq ltn_trans ltnn).
apply/colP => i; rewrite !mxE.
rewrite [RHS](eq_bigr (fun x : 'I_(size (gens X k)) => coef (nz (cU X k) (nth 0%N (gens X k) x)) i * coef y (nth 0%N (gens X k) x))); last first.
  by move=> x _; rewrite !mxE cs.
rewrite -(big_mkord predT (fun x => coef (nz (cU X k) (nth 0%N (gens X k) x)) i * coef y (nth 0%N (gens X k) x))) /=.
rewrite -(big_nth 0%N predT (fun x => coef (nz (cU X k) x) i * coef y x)).
have -> : \sum_(j < ncell C k) mU k i j * vec (ncell C k) y j 0 = \sum_(j < ncell C k) coef (nz (cU X k) j) i * coef y j.
  by apply: eq_bigr => j _; rewrite !mxE.
rewrite -(big_mkord predT (fun x => coef (nz (cU X k) x) i * coef y x)) (bigID (fun j => j \in gens X k)) /= [X in _ + X]big1 ?addr0; last first.
  by move=> j nj; case: (eqVneq (coef y j) 0) => [->|n]; rewrite ?mulr0 //; rewrite (H _ n) in nj.
rewrite -big_filter; apply: perm_big; apply: uniq_perm => // [|j]; first by rewrite filter_uniq // iota_uniq.
by rewrite mem_filter mem_iota subn0 add0n leq0n /=; case e : (j \in _) => //=; rewrite lt.
Qed.

Lemma W_low k (j : 'I_(size (gens X k))) (i : 'I_(ncell C k)) : (k < zd)%N -> (k < size C)%N ->
  is_low (repmx (ncell C k) X k) i j <-> (i : nat) = nth 0%N (gens X k) j.
Proof.
move=> kz kC; have [_ _ _ _ /(_ k kz kC)[so G]] := HI; have /G[gn Pg _ _] := mem_nth 0%N (ltn_ord j).
have [_ [_ _ /(_ _ gn Pg)[_ d u]] _ _ _] := zd_at kC.
have L : is_low (repmx (ncell C k) X k) (Ordinal gn) j by split=> [|i' lt]; rewrite mxE //; apply: u.
by split=> [L'|e]; [rewrite (low_unique L' L)|rewrite (_ : i = Ordinal gn) //; apply: val_inj].
Qed.

Lemma W_basis k : (k < zd)%N -> (k < size C)%N -> basis_in P (repmx (ncell C k) X k).
Proof.
move=> kz kC; have [_ _ _ _ /(_ k kz kC)[so G]] := HI.
have un : uniq (gens X k) by apply: (sorted_uniq ltn_trans ltnn).
have lt j : j \in gens X k -> (j < ncell C k)%N by move/G => [].
split.
  move=> j; have /G[gn Pg z0 _] := mem_nth 0%N (ltn_ord j).
  have [_ [_ _ /(_ _ gn Pg)[su _ _]] _ eM _] := zd_at kC.
  have -> : col j (repmx (ncell C k) X k) = vec (ncell C k) (nz (cU X k) (nth 0%N (gens X k) j)) by apply/colP => i; rewrite !mxE.
  split; first exact: chain_supp.
  rewrite /cycle /bd /mx -(eM _ gn Pg) z0; by apply/colP => i; rewrite !mxE coef_nil.
move=> z [Sz Zz]; have [y [Wy Sy ez]] := U_solve kC Sz.
have [|y' [_ Wy' hom gy]] := find_prefE kC Wy Sy; first by rewrite -ez.
rewrite -ez (rep_sel so lt Wy') in hom; last by move=> j /gy/G.
exists (vec _ (select y' (gens X k))); split=> // h' [w' S' e'].
have [w S e] := hom.
have {e e'} E : repmx (ncell C k) X k *m (h' - vec _ (select y' (gens X k))) = bd1 C k *m (w - w').
  by rewrite !mulmxBr -e -e' opprB [RHS]addrC addrA subrK.
apply/eqP; rewrite -subr_eq0; apply/eqP; move: (h' - _) E => h E; set v := w - w' in E.
have Sv : chain_in P v.
  by move=> i; rewrite !mxE; case: (eqVneq (w i 0) 0) => [->|n _]; [rewrite sub0r oppr_eq0; apply: S'|apply: S].
apply/colP => j; rewrite [RHS]mxE.
have lowj : nzcol (repmx (ncell C k) X k) j.
  have /G[gn _ _ _] := mem_nth 0%N (ltn_ord j); apply/nzcolP; exists (Ordinal gn); exact/W_low.
have Wred : reduced (repmx (ncell C k) X k).
  move=> i a b /W_low-/(_ kz kC) e1 /W_low-/(_ kz kC) e2; apply: val_inj; apply/eqP.
  by rewrite -(nth_uniq 0%N (ltn_ord a) (ltn_ord b) un) -e1 -e2.
case: (ltnP k.+1 (size C)) => k1; last first.
  have E0 : repmx (ncell C k) X k *m h = 0.
    rewrite E; have b0 : bmx C k.+1 = CMat 0 0 [::] by rewrite /bmx nth_default.
    rewrite (_ : bd1 C k = 0) ?mul0mx //; apply/matrixP => a b; by rewrite !mxE b0 /= nth_nil coef_nil.
  exact: (reduced_indep Wred E0).
have [y1 [Wy1 Sy1 ev]] := U_solve k1 Sv.
have RM := Rm_mul k1 (chain_supp Sy1).
have Rr := Rm_reduced k1; have Rl := fun i j => @Rm_low k.+1 i j k1.
move: (Rm k.+1) RM Rr Rl; rewrite /bd /mx -ev; rewrite (ncell_succ CW k1) => R RM Rr Rl.
have Z : row_mx R (repmx (ncell C k) X k) *m col_mx (- vec _ y1) h = 0.
  by rewrite mul_row_col mulmxN RM E -/(bd1 C k) addNr.
have AR : reduced (row_mx R (repmx (ncell C k) X k)).
  apply: reduced_row_mx => // i a b /Rl e1 /W_low-/(_ kz kC) e2.
  by have /G[_ _ _] := mem_nth 0%N (ltn_ord b); rewrite -e2 e1.
have nzj : nzcol (row_mx R (repmx (ncell C k) X k)) (rshift _ j).
  by case/nzcolP: lowj => i L; apply/nzcolP; exists i; apply/low_row_mx; rewrite (unsplitK (inr _ j)).
by have := reduced_indep AR Z nzj; rewrite col_mxEd.
Qed.
End S.
