(** Reordering the basis of a chain complex. *)
From mathcomp Require Import all_ssreflect all_algebra zify.
From Verif Require Import Outcome P_Outcome RingTac M_SparseVec M_Perm M_ColMatrix M_Reduce M_Homology
  S_Linalg P_SparseVec P_Pairing P_Reduce S_Perm P_Perm P_PermMx S_Homology P_Homology P_Betti.
Set Implicit Arguments.
Unset Strict Implicit.
Unset Printing Implicit Defensive.
Import GRing.Theory.
Local Open Scope ring_scope.

Section H.
Variable F : fieldType.
Notation O := (ops_of F).
Notation svec := (svec F).
Notation cmat := (cmat F).
Implicit Types p q : seq nat.

(** reading off entries *)
Definition ent (A : cmat) i j : F := coef (nth [::] (cols A) j) i.

Definition col_spec (f : cmat -> outcome cmat) n q := forall A, cm_wf A -> ncol A = n ->
  exists A', [/\ f A = Ok A', cm_wf A', nrow A' = nrow A, ncol A' = ncol A &
    forall i j, (i < nrow A)%N -> (j < n)%N -> ent A' i j = ent A i (nth 0%N q j)].
Definition row_spec (f : cmat -> outcome cmat) n q := forall A, cm_wf A -> nrow A = n ->
  exists A', [/\ f A = Ok A', cm_wf A', nrow A' = nrow A, ncol A' = ncol A &
    forall i j, (i < n)%N -> (j < ncol A)%N -> ent A' i j = ent A (nth 0%N q i) j].

Lemma ipermute_cols_spec n q : is_perm q -> size q = n -> col_spec (ipermute_cols q) n q.
Proof.
move=> P s A W En; have [|cs [E W' M]] := ipermute_colsE P _ W; first by rewrite En.
exists (CMat (nrow A) (ncol A) cs); split=> // i j im jn.
rewrite -En in jn; have sq : size q = ncol A by rewrite En.
have := congr1 (fun B : 'M_(_, _) => B (Ordinal im) (Ordinal jn)) M.
by rewrite /= (permmx_col P sq) !mxE.
Qed.
Lemma permute_cols_spec n q : is_perm q -> size q = n -> col_spec (permute_cols q) n (ipl q).
Proof.
move=> P s A W En; have [|cs [E W' M]] := permute_colsE P _ W; first by rewrite En.
exists (CMat (nrow A) (ncol A) cs); split=> // i j im jn.
rewrite -En in jn; have sq : size q = ncol A by rewrite En.
have := congr1 (fun B : 'M_(_, _) => B (Ordinal im) (Ordinal jn)) M.
have P' := is_perm_ipl P; have sq' : size (ipl q) = ncol A by rewrite size_ipl.
by rewrite /= -(permmx_ipl F P sq) (permmx_col P' sq') !mxE.
Qed.
Lemma permute_rows_spec n q : is_perm q -> size q = n -> row_spec (permute_rows q) n (ipl q).
Proof.
move=> P s A W En; have [|cs [E W' M]] := permute_rowsE P _ W; first by rewrite En.
exists (CMat (nrow A) (ncol A) cs); split=> // i j im jn.
rewrite -En in im; have sq : size q = nrow A by rewrite En.
have := congr1 (fun B : 'M_(_, _) => B (Ordinal im) (Ordinal jn)) M.
have [k Ek] := pord_bij P sq (Ordinal im).
rewrite /= -[in RHS]Ek permmx_row !mxE /= /ent /= => ->; congr (coef _ _).
by rewrite -[i]/(nat_of_ord (Ordinal im)) -Ek /= ipl_nth // sq.
Qed.
Lemma ipl_ipl p : is_perm p -> ipl (ipl p) = p.
Proof.
move=> P; have P' := is_perm_ipl P.
apply: (@eq_from_nth _ 0%N); first by rewrite !size_ipl.
move=> i; rewrite !size_ipl => li; rewrite nth_ipl ?size_ipl //.
apply: (is_perm_inj P'); rewrite ?size_ipl ?is_perm_lt //.
  by rewrite -(size_ipl p) is_perm_index ?size_ipl.
by rewrite ipl_nth // is_perm_nth_index ?size_ipl.
Qed.
Lemma inv_permute_rows_spec n q : is_perm q -> size q = n ->
  row_spec (fun A => do ip <- inv_perm q; permute_rows ip A) n q.
Proof.
move=> P s; rewrite (inv_permE P) /= -{2}(ipl_ipl P); apply: permute_rows_spec; rewrite ?size_ipl //.
exact: is_perm_ipl.
Qed.

(** the common shape of the two loops *)
Section Loop.
Variables (frow fcol : nat -> cmat -> outcome cmat) (qs : seq (seq nat)) (C : seq cmat).
Notation n k := (ncol (bmx C k)).
Notation q k := (nth [::] qs k).
Hypothesis CW : chain_wf C.
Hypothesis C2 : (1 < size C)%N.
Hypothesis Hrow : forall k, (k < size C)%N -> row_spec (frow k) (n k) (q k).
Hypothesis Hcol : forall k, (k < size C)%N -> col_spec (fcol k) (n k) (q k).
Hypothesis Hq : forall k, (k < size C)%N -> is_perm (q k) /\ size (q k) = n k.

Definition step1 k (D : seq cmat) : outcome (seq cmat) :=
  if k == 0%N then do B1 <- oget D 1; do B1' <- frow k B1; oset D 1 B1'
  else if k == (size D - 1)%N then do Bk <- oget D k; do Bk' <- fcol k Bk; oset D k Bk'
  else do Bk <- oget D k; do Bk' <- fcol k Bk; do D' <- oset D k Bk';
       do B1 <- oget D' k.+1; do B1' <- frow k B1; oset D' k.+1 B1'.

Definition ci l k j := if ((0 < k) && (k < l))%N then nth 0%N (q k) j else j.
Definition ri l k i := if ((0 < k) && (k.-1 < l))%N then nth 0%N (q k.-1) i else i.
Definition linv l (D : seq cmat) : Prop :=
  size D = size C /\ forall k, (k < size C)%N ->
    [/\ cm_wf (bmx D k), nrow (bmx D k) = nrow (bmx C k), ncol (bmx D k) = n k &
        forall i j, (i < nrow (bmx C k))%N -> (j < n k)%N ->
          ent (bmx D k) i j = ent (bmx C k) (ri l k i) (ci l k j)].

Lemma nrow_succ k : (k.+1 < size C)%N -> nrow (bmx C k.+1) = n k.
Proof. by move=> kC; have [_ _ /(_ k kC) []] := CW. Qed.

Lemma set_bmx (D : seq cmat) k B k' : bmx (set_nth (CMat 0 0 [::]) D k B) k' = if k' == k then B else bmx D k'.
Proof. exact: nth_setE. Qed.

Lemma ri_lt k l i : (k < size C)%N -> (i < nrow (bmx C k))%N -> (ri l k i < nrow (bmx C k))%N.
Proof.
rewrite /ri; case: k => [|k] //= kC; case: ifP => // _; rewrite (nrow_succ kC) => il.
by have [P s] := Hq (ltnW kC); rewrite -s; apply: is_perm_lt => //; rewrite s.
Qed.
Lemma ci_lt k l i : (k < size C)%N -> (i < n k)%N -> (ci l k i < n k)%N.
Proof.
rewrite /ci => kC; case: ifP => // _ il.
by have [P s] := Hq kC; rewrite -s; apply: is_perm_lt => //; rewrite s.
Qed.

(** after the column part of step l (l > 0) *)
Lemma step1_spec l D : (l < size C)%N -> linv l D -> exists2 D', step1 l D = Ok D' & linv l.+1 D'.
Proof.
move=> lC [sD H]; rewrite /step1.
(* the row update of dimension l+1, in a state where the columns of l are done *)
have rowpart D1 : (l.+1 < size C)%N -> size D1 = size C ->
   (forall k, (k < size C)%N ->
    [/\ cm_wf (bmx D1 k), nrow (bmx D1 k) = nrow (bmx C k), ncol (bmx D1 k) = n k &
        forall i j, (i < nrow (bmx C k))%N -> (j < n k)%N ->
          ent (bmx D1 k) i j = ent (bmx C k) (ri l k i) (ci l.+1 k j)]) ->
   exists2 D', (do B1 <- oget D1 l.+1; do B1' <- frow l B1; oset D1 l.+1 B1') = Ok D' & linv l.+1 D'.
  move=> l1 s1 H1; rewrite (oget_nth (CMat 0 0 [::])) ?s1 //= -/(bmx D1 l.+1).
  have [W En Em E] := H1 l.+1 l1.
  have [|B [-> WB EnB EmB EB]] /= := Hrow lC W; first by rewrite En nrow_succ.
  rewrite (oset_Ok (CMat 0 0 [::])) ?s1 //; eexists; first by [].
  split=> [|k kC]; first by rewrite size_set_nth s1; apply/maxn_idPr.
  rewrite set_bmx; case: eqP => [->|/eqP ne].
    split=> //; [by rewrite EnB En | by rewrite EmB Em|].
    move=> i j im jn; have im' : (i < n l)%N by rewrite -(nrow_succ l1).
    rewrite EB ?Em //.
    have [P s] := Hq lC; have il : (i < size (q l))%N by rewrite s.
    rewrite E //; last by rewrite (nrow_succ l1) -s is_perm_lt.
    by rewrite /ri /= ltnn ltnSn.
  have [W' En' Em' E'] := H1 k kC; split=> // i j im jn; rewrite E' //; congr ent.
  rewrite /ri; case: k {kC W' En' Em' E' im jn} ne => [|k] //= ne.
  have -> // : (k < l.+1)%N = (k < l)%N by move: ne; clear; lia.
case: (posnP l) => [El|l0].
  rewrite El /=; rewrite El in rowpart H; apply: rowpart => // k kC.
  have [a b c d] := H k kC; split=> // i j im jn; rewrite d //; congr ent.
  by rewrite /ci; case: k {kC a b c d im jn}.
have colpart : exists B D', [/\ oget D l = Ok (bmx D l), fcol l (bmx D l) = Ok B, oset D l B = Ok D',
   size D' = size C & (forall k, (k < size C)%N ->
    [/\ cm_wf (bmx D' k), nrow (bmx D' k) = nrow (bmx C k), ncol (bmx D' k) = n k &
        forall i j, (i < nrow (bmx C k))%N -> (j < n k)%N ->
          ent (bmx D' k) i j = ent (bmx C k) (ri l k i) (ci l.+1 k j)])].
  have [W En Em E] := H l lC; have [B [EfB WB EnB EmB EB]] := Hcol lC W Em.
  exists B, (set_nth (CMat 0 0 [::]) D l B); split.
  - by apply: oget_nth; rewrite sD.
  - by [].
  - by apply: (@oset_Ok _ (CMat 0 0 [::])); rewrite sD.
  - by rewrite size_set_nth sD; apply/maxn_idPr.
  move=> k kC; rewrite set_bmx; case: eqP => [->|/eqP ne].
    split=> //; [by rewrite EnB En | by rewrite EmB Em |].
    move=> i j im jn; rewrite EB ?En // E //.
      by rewrite /ci l0 ltnn ltnSn.
    by have := ci_lt l.+1 lC jn; rewrite /ci l0 ltnSn.
  have [W' En' Em' E'] := H k kC; split=> // i j im jn; rewrite E' //; congr ent.
  rewrite /ci; case: (0 < k)%N => //=.
  have -> // : (k < l.+1)%N = (k < l)%N by move: ne; clear; lia.
have [B [D' [-> /= -> /= E s' H']]] := colpart.
rewrite sD; case: eqP => [El|ne]; last first.
  by rewrite E /=; apply: rowpart => //; lia.
rewrite E; exists D' => //; split=> // k kC; have [a b c d] := H' k kC; split=> // i j im jn.
rewrite d //; congr ent; rewrite /ri; case: k kC {a b c d im jn} => [|k] //= kC.
have E1 : (k < l)%N by move: kC El; clear; lia.
by rewrite E1 (leqW E1).
Qed.

Lemma loop_spec : size qs = size C -> aug_const C ->
  exists D, [/\ ofold (fun D k => step1 k D) C (iota 0 (size C)) = Ok D,
     reordered C D qs & chain_wf D].
Proof.
move=> sq AC.
have [||D E [sD H]] := @ofold_iota_ind _ (fun D k => step1 k D) linv (size C) C.
- split=> // k kC; split=> //; first exact: chain_wf_nth.
  by move=> i j _ _; rewrite /ri /ci !ltn0 !andbF.
- by move=> l D lC L; apply: step1_spec.
have RO : reordered C D qs.
  split=> // k kC; have [W En Em G] := H k kC; split=> // i j im jn.
  have := G i j im jn; rewrite /ent => ->.
  rewrite /ri /ci kC andbT; case: k kC W En Em G im jn => [|k] kC W En Em G im jn /=; last by rewrite (ltnW kC).
  by apply: AC => //; have [P s] := Hq kC; rewrite -s is_perm_lt // s.
exists D; split=> //; have [C0 _ CD] := CW.
split; first by rewrite sD.
  apply/(all_nthP (CMat 0 0 [::])) => k; rewrite sD => kC; by have [] := H k kC.
move=> k; rewrite sD => kC; have kC' := ltnW kC.
have [W En Em G] := H k kC'; have [W' En' Em' G'] := H k.+1 kC.
have nk := nrow_succ kC.
split; first by rewrite En' Em.
have [_ D0] := CD k kC.
have [_ RE] := RO; have [_ _ R1] := RE k kC'; have [_ _ R2] := RE k.+1 kC.
rewrite En Em Em'; apply/matrixP => i j; rewrite [in RHS]mxE mxE.
have [P s] := Hq kC'; have [P1 s1] := Hq kC.
have li : ((if k is k'.+1 then nth 0%N (q k') i else i) < nrow (bmx C k))%N.
  case: (k) i kC' {W En Em G W' En' Em' G' nk D0 R1 R2 P s P1 s1} => [|k'] i kC' //.
  have [P s] := Hq (ltnW kC'); have li : (i < n k')%N by rewrite -(nrow_succ kC').
  by rewrite [X in (_ < X)%N](nrow_succ kC') -s is_perm_lt // s.
have lj : (nth 0%N (q k.+1) j < n k.+1)%N by rewrite -[X in (_ < X)%N]s1 is_perm_lt // s1.
have := congr1 (fun M : 'M_(_, _) => M (Ordinal li) (Ordinal lj)) D0.
rewrite [LHS]mxE [RHS]mxE => E0; apply: etrans E0.
pose h := pord P s.
have hinj : injective h.
  by move=> a b /(congr1 val) /= e; apply/val_inj; apply: (is_perm_inj P) e; rewrite s.
rewrite [RHS](reindex_inj hinj); apply: eq_bigr => a _; rewrite !mxE /= R1 // R2 ?nk //.
Qed.

End Loop.

Lemma cc_ipermute_spec (C : seq cmat) perms : chain_wf C -> (1 < size C)%N -> aug_const C ->
  perms_ok C perms ->
  exists D, [/\ cc_ipermute_basis perms C = Ok D, reordered C D perms & chain_wf D].
Proof.
move=> CW C2 AC [sp HP].
have [||D [E R W]] := @loop_spec (fun k A => do ip <- inv_perm (nth [::] perms k); permute_rows ip A)
  (fun k => ipermute_cols (nth [::] perms k)) perms C CW C2 _ _ HP sp AC.
- by move=> k /HP [P s]; apply: inv_permute_rows_spec.
- by move=> k /HP [P s]; apply: ipermute_cols_spec.
exists D; split=> //; rewrite -E /cc_ipermute_basis sp.
have : all (fun k => k < size perms)%N (iota 0 (size C)) by apply/allP => k; rewrite mem_iota sp.
move: (iota 0 (size C)) => l0; elim: l0 {1 2}C => //= k l IH D' /andP[lt a].
rewrite (oget_nth [::]) //= /step1 /cc_ipermute1.
set X := (X in obind X _ = _); set Y := (Y in _ = obind Y _).
have -> : X = Y.
  rewrite /X /Y; case: eqP => _; last case: eqP => _ //.
    by case: (oget D' 1) => //= B; case: (inv_perm _).
  case: (oget D' k) => //= B; case: (ipermute_cols _ B) => //= B'; case: (oset D' k B') => //= D1.
  by case: (oget D1 k.+1) => //= B1; case: (inv_perm _).
by case: Y => //= D1; apply: IH.
Qed.

Lemma cc_permute_spec (C : seq cmat) perms : chain_wf C -> (1 < size C)%N -> aug_const C ->
  perms_ok C perms ->
  exists D, [/\ cc_permute_basis perms C = Ok D, reordered C D [seq ipl p | p <- perms] & chain_wf D].
Proof.
move=> CW C2 AC [sp HP].
have NE k : (k < size C)%N -> nth [::] [seq ipl p | p <- perms] k = ipl (nth [::] perms k).
  by move=> kC; rewrite (nth_map [::]) ?sp.
have [||||D [E R W]] := @loop_spec (fun k => permute_rows (nth [::] perms k))
  (fun k => permute_cols (nth [::] perms k)) [seq ipl p | p <- perms] C CW C2 _ _ _ _ AC.
- by move=> k kC; have [P s] := HP k kC; rewrite NE //; apply: permute_rows_spec.
- by move=> k kC; have [P s] := HP k kC; rewrite NE //; apply: permute_cols_spec.
- by move=> k kC; have [P s] := HP k kC; rewrite NE // size_ipl; split=> //; apply: is_perm_ipl.
- by rewrite size_map.
exists D; split=> //; rewrite -E /cc_permute_basis sp.
have : all (fun k => k < size perms)%N (iota 0 (size C)) by apply/allP => k; rewrite mem_iota sp.
move: (iota 0 (size C)) => l0; elim: l0 {1 2}C => //= k l IH D' /andP[lt a].
rewrite (oget_nth [::]) //= /step1 /cc_permute1.
by case: (if _ then _ else _) => //= D1; apply: IH.
Qed.

End H.
