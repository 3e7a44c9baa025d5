(** sparsify_basis (C38). *)
From mathcomp Require Import all_ssreflect all_algebra zify.
From Verif Require Import Outcome P_Outcome RingTac M_SparseVec M_Perm M_ColMatrix M_Reduce M_Homology M_Sparsify
  S_Linalg S_Perm S_Homology P_SparseVec P_Pairing P_Reduce P_ColMatrix P_Homology P_Cycles.
From Coq Require Import Ring Field.
Set Implicit Arguments.
Unset Strict Implicit.
Unset Printing Implicit Defensive.
Import GRing.Theory.
Local Open Scope ring_scope.

Section S.
Variable F : fieldType.
Notation O := (ops_of F).
Variable lt : F -> F -> bool.
Notation svec := (svec F).
Implicit Types (c d : svec).

Lemma coeff_interE c d ct : sv_nonzero d -> exists ct', coeff_inter O lt c d ct = Ok ct'.
Proof.
elim: c d ct => [|[i1 v1] c IHc] d ct; first by eexists.
elim: d ct => [|[i2 v2] d IHd] ct; first by eexists.
move=> /andP[nz N]; rewrite -[coeff_inter _ _ _ _ _]/(if i1 == i2 then do q <- odiv O v1 v2; coeff_inter O lt c d (ct_incr lt q ct)
   else if (i1 < i2)%N then coeff_inter O lt c ((i2, v2) :: d) ct else coeff_inter O lt ((i1, v1) :: c) d ct).
case: ifP => _; first by rewrite /odiv is0E (negPf nz); cbn [obind]; apply: IHc.
by case: ifP => _; [apply: IHc; apply/andP | apply: IHd].
Qed.

Definition spinv m n (R0 : 'M[F]_(m, n)) (U0 : 'M[F]_n) (R U : seq svec) : Prop :=
  [/\ size R = n, all (sv_wf m) R, udiag n U &
    exists W : 'M[F]_n, [/\ upper W, diag1 W, mxc n n U = U0 *m W & mxc m n R = R0 *m W]].

Lemma spinv_step m n R0 U0 R U j k a : @spinv m n R0 U0 R U -> (k < j)%N -> (j < n)%N ->
  spinv R0 U0 (set_nth [::] R j (axpy O a (nth [::] R k) (nth [::] R j)))
              (set_nth [::] U j (axpy O a (nth [::] U k) (nth [::] U j))).
Proof.
move=> [sR WR UD [W [Wu Wd WU' WR']]] kj jn; have kn := ltn_trans kj jn; have [sU _ _] := UD.
split.
- by rewrite size_set_nth sR; apply/maxn_idPr.
- apply: set_nth_wf; rewrite ?sR //; apply: sv_wf_axpy; exact: nth_wf.
- exact: udiag_set.
pose ko := Ordinal kn; pose jo := Ordinal jn.
exists (W *m colop ko jo a); split.
- by apply: upper_mul => //; apply: upper_colop.
- apply: diag1_mul => //; [exact: upper_colop|exact: diag1_colop].
- by rewrite mulmxA -WU' -(@mxc_colop _ _ _ U ko jo).
- by rewrite mulmxA -WR' -(@mxc_colop _ _ _ R ko jo).
Qed.

Lemma oget_cat (A : Type) (s r : seq A) x k : k = size s -> oget (s ++ x :: r) k = Ok x.
Proof. by move=> ->; rewrite /oget drop_size_cat. Qed.

Lemma sp_colS f (R U : seq svec) j off : sp_col O lt f.+1 R U j off =
    do c <- oget U j;
    if (off < size c)%N then
      do (k, _) <- oget c (size c - off);
      do rk <- oget R k;
      if (if last_ind rk is Some l then (l < j)%N else true) then
        do uk <- oget U k;
        do rj <- oget R j;
        do ct1 <- coeff_inter O lt c uk [::];
        do ct2 <- coeff_inter O lt rj rk ct1;
        let: (a, n) := pick_coeff O ct2 in
        do (R', U') <- (if ((size uk + size rk) %/ 2 < n)%N then
                          do U' <- oset U j (axpy O (fopp O a) uk c);
                          do R' <- oset R j (axpy O (fopp O a) rk rj); Ok (R', U')
                        else Ok (R, U));
        do c' <- oget U' j;
        if (off <= size c')%N then
          do (k', _) <- oget c' (size c' - off);
          sp_col O lt f R' U' j (if k' == k then off.+1 else off)
        else UB
      else sp_col O lt f R U j off.+1
    else Ok (R, U).
Proof. by []. Qed.

Lemma sp_colE m n (R0 : 'M[F]_(m, n)) (U0 : 'M[F]_n) fuel R U j A S :
  spinv R0 U0 R U -> (j < n)%N ->
  nth [::] U j = A ++ S -> S != [::] -> all (fun p : nat * F => (p.1 < fuel)%N) A ->
  (exists R' U', sp_col O lt fuel.+1 R U j (size S).+1 = Ok (R', U') /\ spinv R0 U0 R' U') \/
  sp_col O lt fuel.+1 R U j (size S).+1 = UB.
Proof.
elim: fuel R U A S => [|fuel IH] R U A S SI jn E SN Af; have [sR WR UD _] := SI; have [s W L] := UD;
  have jU : (j < size U)%N by rewrite s.
  have A0 : A = [::] by case: A Af {E} => [//|p A] /andP[].
  left; exists R, U; rewrite [sp_col _ _ _ _ _ _ _]/= (oget_nth [::]) //; cbn [obind].
  by rewrite E A0 /= ltnNge leqnSn.
have jR : (j < size R)%N by rewrite sR.
rewrite sp_colS (oget_nth [::]) //; cbn [obind]; rewrite E size_cat.
case: (leqP (size A) 1) => [sA|].
  have -> : ((size S).+1 < size A + size S)%N = false by move: sA; clear; lia.
  by left; exists R, U.
case/lastP: A E Af => [//|A [k v]] E Af; rewrite size_rcons => sA.
have -> : ((size S).+1 < (size A).+1 + size S)%N by move: sA; clear; lia.
have -> : ((size A).+1 + size S - (size S).+1 = size A)%N by clear; lia.
rewrite cat_rcons oget_cat //; cbn [obind].
have Wj := nth_wf j W; have /and3P[Sj _ Nj] := Wj.
have [_ _ zj] := udiag_nz UD jn.
have kj : (k < j)%N.
  have kin : (k, v) \in nth [::] U j by rewrite E cat_rcons mem_cat mem_head orbT.
  have le : (k <= j)%N.
    rewrite leqNgt; apply/negP => jk; have := coef_in Sj kin; rewrite /= zj // => v0.
    by have := allP Nj _ kin; rewrite /= -v0 eqxx.
  rewrite ltn_neqAle le andbT; apply/eqP => e.
  have := Sj; rewrite E cat_rcons sv_sorted_cat sv_sorted_cons => /and3P[_ /andP[kS _] _].
  case: S SN E kS {IH sA} => [//|q S] _ E /andP[/= kq _].
  have qin : q \in nth [::] U j by rewrite E mem_cat mem_head orbT.
  have := coef_in Sj qin; rewrite zj -?e // => v0.
  by have := allP Nj _ qin; rewrite -v0 eqxx.
have kn := ltn_trans kj jn.
have AltK : all (fun p : nat * F => (p.1 < k)%N) A.
  apply/allP => p pA; move: (Sj); rewrite E cat_rcons sv_sorted_cat => /and3P[_ _ /allP/(_ p pA)] /= /andP[pk _].
  exact: pk.
have kf : (k < fuel.+1)%N by have := Af; rewrite all_rcons => /andP[].
have Afuel B : all (fun p : nat * F => (p.1 < k)%N) B -> all (fun p : nat * F => (p.1 < fuel)%N) B.
  by apply: sub_all => p /= pk; move: pk kf; clear; lia.
have keep : (exists R' U', sp_col O lt fuel.+1 R U j (size S).+2 = Ok (R', U') /\ spinv R0 U0 R' U') \/
  sp_col O lt fuel.+1 R U j (size S).+2 = UB.
  by apply: (IH R U A ((k, v) :: S) SI jn) => //; [rewrite E cat_rcons|apply: Afuel].
rewrite (oget_nth [::]) ?sR //; cbn [obind].
case: ifP => // _.
rewrite (oget_nth [::]) ?s //; cbn [obind]; rewrite (oget_nth [::]) //; cbn [obind].
have /and3P[_ _ NUk] := nth_wf k W; have /and3P[_ _ NRk] := nth_wf k WR.
have [ct1 ->] := coeff_interE (A ++ (k, v) :: S) [::] NUk; cbn [obind].
have [ct2 ->] := coeff_interE (nth [::] R j) ct1 NRk; cbn [obind].
case: (pick_coeff _ _) => a cnt; case: ifP => _; last first.
  cbn [obind]; rewrite (oget_nth [::]) //; cbn [obind]; rewrite E cat_rcons size_cat /=.
  have -> : ((size S).+1 <= size A + (size S).+1)%N by exact: leq_addl.
  by rewrite addnK oget_cat //; cbn [obind]; rewrite eqxx; exact: keep.
rewrite -cat_rcons -E (oset_Ok [::]) //; cbn [obind]; rewrite (oset_Ok [::]) //; cbn [obind].
set b := fopp O a; set U1 := set_nth _ _ _ _; set R1 := set_nth _ _ _ _.
have SI1 : spinv R0 U0 R1 U1 := spinv_step b SI kj jn.
have E' : nth [::] U j = A ++ (k, v) :: S by rewrite E cat_rcons.
have [_ _ zk] := udiag_nz UD kn.
have [A' [EA lA]] := axpy_zip b Wj (nth_wf k W) E' zk.
have [sR1 WR1 [sU1 _ _] _] := SI1.
rewrite (oget_nth [::]) ?sU1 //; cbn [obind].
have E1 : nth [::] U1 j = A' ++ (if v + b * coef (nth [::] U k) k == 0 then [::] else
    [:: (k, v + b * coef (nth [::] U k) k)]) ++ S by rewrite nth_set_nth /= eqxx.
move: E1; set v1 := v + _; case: (v1 =P 0) => _ E1.
  rewrite E1 cat0s size_cat; case/lastP: A' lA E1 {EA} => [|A' [k' v']] lA E1.
    by rewrite add0n ltnn; right.
  rewrite size_rcons; have -> : ((size S).+1 <= (size A').+1 + size S)%N by clear; lia.
  have -> : ((size A').+1 + size S - (size S).+1 = size A')%N by clear; lia.
  rewrite cat_rcons oget_cat //; cbn [obind].
  have -> : (k' == k) = false.
    by apply/negbTE; move: lA; rewrite all_rcons => /andP[/= lt' _]; rewrite neq_ltn lt'.
  by apply: (IH R1 U1 (rcons A' (k', v')) S SI1 jn) => //; apply: Afuel.
rewrite E1 size_cat size_cat /= add1n.
have -> : ((size S).+1 <= size A' + (size S).+1)%N by exact: leq_addl.
rewrite addnK oget_cat //; cbn [obind]; rewrite eqxx.
by apply: (IH R1 U1 A' ((k, v1) :: S) SI1 jn) => //; apply: Afuel.
Qed.

Lemma sparsify_basisE (m n : nat) (Rc Uc : seq svec) : size Rc = n -> all (sv_wf m) Rc -> udiag n Uc ->
  (exists R' U', sparsify_basis O lt (CMat m n Rc) (CMat n n Uc) = Ok (CMat m n R', CMat n n U') /\
     spinv (mxc m n Rc) (mxc n n Uc) R' U') \/
  sparsify_basis O lt (CMat m n Rc) (CMat n n Uc) = UB.
Proof.
move=> sR WR UD; rewrite /sparsify_basis; cbn [nrow ncol cols]; rewrite eqxx; cbn [negb].
suff H k : (k <= n)%N -> (exists R' U', ofold (fun st j => sp_col O lt n.+2 st.1 st.2 j 2) (Rc, Uc) (iota 0 k) = Ok (R', U') /\
     spinv (mxc m n Rc) (mxc n n Uc) R' U') \/
   ofold (fun st j => sp_col O lt n.+2 st.1 st.2 j 2) (Rc, Uc) (iota 0 k) = UB.
  by case: (H n (leqnn n)) => [[R' [U' [-> SI]]]|->]; [left; exists R', U'|right].
elim: k => [|k IH] kn.
  left; exists Rc, Uc; split=> //; split=> //; exists 1%:M; rewrite !mulmx1; split=> //; [exact: upper1|exact: diag11].
rewrite -[k.+1]addn1 iotaD add0n [iota k 1]/= ofold_cat; case: (IH (ltnW kn)) => [[R' [U' [-> SI]]]|->]; last by right.
cbn [obind ofold fst snd]; have [sR' WR' UD' _] := SI; have [sV AV LV] := UD'; have Lj := LV k kn.
case Ec: (nth [::] U' k) Lj => [//|p c] [Lj].
have Ec' : nth [::] U' k = belast p c ++ [:: last p c] by rewrite Ec lastI cats1.
have Af : all (fun p : nat * F => (p.1 < n.+1)%N) (belast p c).
  have /and3P[_ Bj _] := nth_wf k AV; move: Bj; rewrite Ec' /sv_below all_cat => /andP[Bj _].
  by apply: sub_all Bj => q /=; clear; lia.
have := @sp_colE m n _ _ n.+1 R' U' k _ _ SI kn Ec' isT Af; rewrite [size [:: _]]/= => -[[R2 [U2 [-> SI2]]]|->]; last by right.
by left; exists R2, U2.
Qed.
End S.
