(** Properties C13-C17, C19: matrix reduction, Betti numbers, updates.
    Read with S_Linalg.v, S_Perm.v and S_Homology.v. *)
From mathcomp Require Import all_ssreflect all_algebra zify.
From Verif Require Import Outcome P_Outcome M_SparseVec M_Perm M_ColMatrix M_Reduce M_Homology
  S_Linalg S_Perm S_Homology P_SparseVec P_Pairing P_Reduce P_Perm P_PermMx P_Homology P_Betti P_Update P_Extra P_Chain.
Set Implicit Arguments.
Unset Strict Implicit.
Unset Printing Implicit Defensive.
Import GRing.Theory.
Local Open Scope ring_scope.

(** C13. reduce_matrix(M, U): terminates; R = M V and U' = U V for one unit upper triangular V;
    R is reduced; the pivot map is exact. *)
Theorem C13_standard_reduction (F : fieldType) (M U : cmat F) :
  cm_wf M -> cm_wf U -> ncol M = ncol U ->
  exists Rc Uc p,
    let R := CMat (nrow M) (ncol M) Rc in let U' := CMat (nrow U) (ncol M) Uc in
    [/\ reduce_standardU (ops_of F) M U = Ok (R, U', p), cm_wf R /\ cm_wf U',
        exists V, [/\ upper V, diag1 V, mx R = mx M *m V &
                      mx U' = mxc (nrow U) (ncol M) (cols U) *m V],
        reduced (mx R) &
        size p = nrow M /\
        forall (i : 'I_(nrow M)) k, nth None p i = Some k <->
           exists2 j : 'I_(ncol M), is_low (mx R) i j & (j : nat) = k].
Proof.
move=> WM WU En; have [R [U' [p [E I]]]] := reduce_standardU_rinv WM WU En.
exists R, U', p; have red := rinv_reduced I.
case: I => [[sR sU sp]] WR WU' [V [Vu Vd RV UV]] Hp; split=> //.
- by rewrite E En.
- by rewrite /cm_wf /= sR sU eqxx.
- by exists V.
split=> // i k; rewrite Hp //; split=> [[kn L]|[j L <-]].
  by exists (Ordinal kn) => //; apply/last_ind_low => //; apply: nth_wf.
by split=> //; apply/last_ind_low => //; apply: nth_wf.
Qed.

(** C13 with U the identity: R = M U' *)
Theorem C13_from_identity (F : fieldType) (M : cmat F) : cm_wf M ->
  exists Rc Uc p,
    let R := CMat (nrow M) (ncol M) Rc in let U' := CMat (ncol M) (ncol M) Uc in
    [/\ reduce_standardU (ops_of F) M (cm_identity (ops_of F) (ncol M)) = Ok (R, U', p),
        mx R = mx M *m mx U', upper (mx U'), diag1 (mx U') & reduced (mx R)].
Proof.
move=> WM; have [R [U' [p [E _ [V [Vu Vd RV UV]] red _]]]] :=
  C13_standard_reduction WM (cm_wf_identity F (ncol M)) erefl.
rewrite mxc_identity mul1mx in UV; exists R, U', p; split=> //; rewrite UV //.
Qed.

(** C13: the version without U computes the same R and pivot map *)
Theorem C13_no_basis (F : fieldType) (M U : cmat F) : cm_wf M -> cm_wf U -> ncol M = ncol U ->
  exists R U' p, reduce_standardU (ops_of F) M U = Ok (R, U', p) /\
                 reduce_standard (ops_of F) M = Ok (R, p).
Proof.
move=> WM WU En; have [R [U' [p [E I]]]] := reduce_standardU_rinv WM WU En.
by do 3 eexists; split; [exact: E | rewrite (reduce_standard_proj WM WU En) E].
Qed.

(** C13: mismatched column counts throw *)
Theorem C13_mismatch (F : fieldType) (M U : cmat F) : ncol M <> ncol U ->
  reduce_standardU (ops_of F) M U = Throw.
Proof. by move/eqP => ne; rewrite /reduce_standardU ne. Qed.

(** C14. hdim(k) = n_k - rank B_k - rank B_{k+1} for every option *)
Theorem C14_betti (F : fieldType) (opt : options) (C : seq (cmat F)) : chain_wf C ->
  exists X, rcc_of (ops_of F) opt C = Ok X /\
    forall k, (k < size C)%N ->
      exists b, hdim X k = Ok b /\ (b + brank C k + brank C k.+1 = ncol (bmx C k))%N.
Proof.
move=> CW; have [X [E EI _ _]] := rcc_of_spec opt CW; exists X; split=> // k kC.
exists (size (hinds C k)); split; last exact: hinds_count.
rewrite /hdim EI (oget_nth [::]) ?size_map ?size_iota //=.
by rewrite (nth_map 0%N) ?size_iota // nth_iota.
Qed.

(** C15. The pivots of any reduction of M are determined by ranks of submatrices of M *)
Theorem C15_pairing_unique (F : fieldType) m n (M R : 'M[F]_(m, n)) (V : 'M[F]_n) i j :
  upper V -> diagn0 V -> R = M *m V -> reduced R ->
  is_low R i j <-> is_pivot M i j.
Proof.
move=> Vu Vd E red; rewrite /is_pivot -(pairing_unique i j Vu Vd E red).
by split=> [/lowP|/lowP].
Qed.

Theorem C15_same_pivots (F : fieldType) m n (M R R' : 'M[F]_(m, n)) (V V' : 'M[F]_n) i j :
  upper V -> diagn0 V -> R = M *m V -> reduced R ->
  upper V' -> diagn0 V' -> R' = M *m V' -> reduced R' ->
  is_low R i j <-> is_low R' i j.
Proof.
move=> a b c d a' b' c' d'; rewrite (C15_pairing_unique i j a b c d).
by rewrite (C15_pairing_unique i j a' b' c' d').
Qed.

(** C15/C16. Every option returns, in every dimension, exactly the pivot map of B_k, and homology
    indices that depend on the complex alone *)
Theorem C16_options_agree (F : fieldType) (opt : options) (C : seq (cmat F)) : chain_wf C ->
  exists X, [/\ rcc_of (ops_of F) opt C = Ok X,
    size (rc_p2c X) = size C,
    (forall k, (k < size C)%N -> pivots_exact (mx (bmx C k)) (nth [::] (rc_p2c X) k)) &
    rc_I X = [seq hinds C k | k <- iota 0 (size C)]].
Proof.
move=> CW; have [X [E EI [sR sp] G]] := rcc_of_spec opt CW; exists X; split=> // k kC.
by have [_ _ []] := G k kC.
Qed.

(** C16. With a basis, clearing keeps R = B U with U invertible upper triangular and R reduced *)
Theorem C16_clearing_basis (F : fieldType) (opt : options) (C : seq (cmat F)) :
  opt = ClearingBasis \/ opt = StandardBasis -> chain_wf C ->
  exists X, rcc_of (ops_of F) opt C = Ok X /\
    forall k, (k < size C)%N -> exists Rc Uc,
      let B := bmx C k in
      let R := CMat (nrow B) (ncol B) Rc in let U := CMat (ncol B) (ncol B) Uc in
      [/\ bmx (rc_R X) k = R, bmx (rc_U X) k = U, mx R = mx B *m mx U,
          upper (mx U) /\ diagn0 (mx U) & reduced (mx R)].
Proof.
have H (B R U : cmat F) p : urec B R U p -> exists Rc Uc,
      let R' := CMat (nrow B) (ncol B) Rc in let U' := CMat (ncol B) (ncol B) Uc in
      [/\ R = R', U = U', mx R' = mx B *m mx U', upper (mx U') /\ diagn0 (mx U') & reduced (mx R')].
  case: R U => nr nc Rc [nr' nc' Uc] [[/= En Em _] [/= En' Em' _ _ [V [Vu Vd EU ER red]]]].
  by exists Rc, Uc; subst nr nc nr' nc'; split; rewrite // /mx /= EU.
move=> [->|->] CW.
  by have [X [E _ _ G]] := rcc_clearingU_spec CW; exists X; split=> // k /G /H.
by have [X [E _ _ G]] := rcc_standard_spec CW; exists X; split=> // k /G /H.
Qed.

(** C19. update_reduction2 *)
Theorem C19_update_reduction2 (F : fieldType) (B U R : cmat F) :
  cm_wf B -> cm_wf U -> cm_wf R ->
  nrow U = ncol B -> ncol U = ncol B -> nrow R = nrow B -> ncol R = ncol B ->
  mxc (ncol B) (ncol B) (cols U) \in unitmx ->
  mxc (nrow B) (ncol B) (cols R) = mx B *m mxc (ncol B) (ncol B) (cols U) ->
  exists Uc Rc p,
    let R' := CMat (nrow B) (ncol B) Rc in let U' := CMat (ncol B) (ncol B) Uc in
    [/\ update_reduction2 (ops_of F) U R = Ok (U', R', p),
        mx R' = mx B *m mx U', upper (mx U') /\ diagn0 (mx U'),
        reduced (mx R') & pivots_exact (mx B) p].
Proof.
move=> a b c d e f g h i.
have [[nr nc Uc] [[nr' nc' Rc] [p [E [[/= En Em [_ _ P _]] [/= En' Em' _ _ [V [Vu Vd EU ER red]]]]]]]] :=
  update_reduction2_spec a b c d e f g h i.
by exists Uc, Rc, p; subst; split.
Qed.

(** C19. permute_basis: from the reduction of C to the reduction of the reordered complex, with the
    same homology indices and pivots a fresh construction gives *)
Theorem C19_permute_basis (F : fieldType) (C C' : seq (cmat F)) perms (X : rcc F) :
  chain_wf C -> chain_wf C' -> (1 < size C)%N -> aug_const C ->
  perms_ok C perms -> reordered C C' perms ->
  rcc_of (ops_of F) StandardBasis C = Ok X ->
  exists Y Z, [/\ permute_basis (ops_of F) perms X = Ok Y,
     rcc_of (ops_of F) StandardBasis C' = Ok Z,
     rc_I Y = rc_I Z, rc_p2c Y = rc_p2c Z &
     forall k, (k < size C)%N -> exists Rc Uc,
      let B := bmx C' k in
      let R := CMat (nrow B) (ncol B) Rc in let U := CMat (ncol B) (ncol B) Uc in
      [/\ bmx (rc_R Y) k = R, bmx (rc_U Y) k = U, mx R = mx B *m mx U,
          upper (mx U) /\ diagn0 (mx U) & reduced (mx R)]].
Proof.
move=> CW CW' C2 AC PO RO EX; have [sC _] := RO.
have [X' [EX' _ sX GX]] := rcc_standard_spec CW.
move: EX; rewrite /= EX' => -[EX]; subst X'.
have [Y [EY IY [sRY sUY spY] GY]] := permute_basis_spec CW CW' C2 AC PO RO sX GX.
have [Z [EZ IZ [sRZ sUZ spZ] GZ]] := rcc_standard_spec CW'.
exists Y, Z; split=> //; first by rewrite IY IZ sC.
  apply: (@eq_from_nth _ [::]); rewrite spY ?spZ ?sC // => k kC.
  have [[_ _ [_ _ [s1 P1] _]] _] := GY k kC.
  have [[_ _ [_ _ [s2 P2] _]] _] := GZ k (eq_ind_r (fun x => k < x)%N kC sC).
  apply: (@eq_from_nth _ None); rewrite s1 ?s2 // => i im.
  case E1: (nth None (nth [::] (rc_p2c Y) k) i) => [j|].
    by move/(P1 i im): E1 => /(P2 i im) ->.
  case E2: (nth None (nth [::] (rc_p2c Z) k) i) => [j|] //.
  by move/(P2 i im): E2 => /(P1 i im); rewrite E1.
move=> k kC; have := GY k kC.
case: (bmx (rc_R Y) k) (bmx (rc_U Y) k) => nr nc Rc [nr' nc' Uc].
move=> [[/= En Em _] [/= En' Em' _ _ [V [Vu Vd EU ER red]]]].
by exists Rc, Uc; subst nr nc nr' nc'; split; rewrite // /mx /= EU.
Qed.

(** C17. The extra reduction is wrong for some matrices: it never looks at a column with a single
    entry.  The complex of a 2-sphere with one vertex, one edge and two faces glued along the edge: *)
Definition sphere_cw (F : fieldType) : seq (cmat F) :=
  [:: CMat 1 1 [:: [::]]; CMat 1 1 [:: [::]]; CMat 1 2 [:: [:: (0%N, 1)]; [:: (0%N, 1)]]].

Theorem C17_extra_refuted :
  chain_wf (sphere_cw F2) /\
  exists X, [/\ rcc_extra (ops_of F2) (sphere_cw F2) = Ok X,
     hdim X 1 = Ok 1%N /\ hdim X 2 = Ok 0%N &
     exists Y, [/\ rcc_of (ops_of F2) StandardNoBasis (sphere_cw F2) = Ok Y,
                   hdim Y 1 = Ok 0%N & hdim Y 2 = Ok 1%N]].
Proof.
split.
  split=> //; case=> [|[|k]] //= _; split=> //; apply/matrixP => i j; rewrite !mxE big1 // => a _; rewrite !mxE.
    by case: a => [[|a] la] //=; rewrite coef_nil mul0r.
  by case: a => [[|a] la] //=; rewrite coef_nil mul0r.
by do 2![eexists; split; [by vm_compute | by vm_compute | ]; try by vm_compute].
Qed.

(** C17. It is right, in every dimension and with the same homology indices as the other options, for
    complexes of cells whose boundary is never zero (all simplicial and cubical complexes) *)
Theorem C17_extra_cells (F : fieldType) (C : seq (cmat F)) : chain_wf C -> cells_like C ->
  exists X Y, [/\ rcc_extra (ops_of F) C = Ok X, rcc_extraU (ops_of F) C = Ok Y,
    rc_p2c X = rc_p2c Y,
    rc_I X = [seq hinds C k | k <- iota 0 (size C)] /\ rc_I Y = rc_I X &
    forall k, (k < size C)%N ->
      pivots_exact (mx (bmx C k)) (nth [::] (rc_p2c X) k) /\
      exists Rc Uc,
      let B := bmx C k in
      let R := CMat (nrow B) (ncol B) Rc in let U := CMat (ncol B) (ncol B) Uc in
      [/\ bmx (rc_R Y) k = R, bmx (rc_U Y) k = U, mx R = mx B *m mx U,
          upper (mx U) /\ diagn0 (mx U) & reduced (mx R)]].
Proof.
move=> CW CL; have NS := cells_nosingle CW CL.
have [X [EX IX [_ sX] GX]] := rcc_extra_spec CW NS.
have [Y [EY IY [_ _ sY] GY]] := rcc_extraU_spec CW NS.
exists X, Y; split=> //; last 2 first.
- by rewrite IY IX.
- move=> k kC; have [_ _ [_ _ P _]] := GX k kC; split=> //; exact: urec_open (GY k kC).
apply: (@eq_from_nth _ [::]); rewrite sX ?sY // => k kC.
have [_ _ [_ _ P _]] := GX k kC; have [[_ _ [_ _ P' _]] _] := GY k kC.
exact: pivots_exact_inj P P'.
Qed.

(** C17, for one matrix: enough that no combination of columns has exactly one nonzero entry *)
Theorem C17_extra_matrix (F : fieldType) (M U : cmat F) :
  cm_wf M -> cm_wf U -> ncol M = ncol U -> nosingle (mx M) ->
  exists Rc Uc p,
    let R := CMat (nrow M) (ncol M) Rc in let U' := CMat (nrow U) (ncol M) Uc in
    [/\ reduce_extraU (ops_of F) M U = Ok (R, U', p), reduce_extra (ops_of F) M = Ok (R, p),
        exists V, [/\ upper V, diag1 V, mx R = mx M *m V &
                      mx U' = mxc (nrow U) (ncol M) (cols U) *m V],
        reduced (mx R) & pivots_exact (mx M) p].
Proof.
move=> WM WU En NS; have [R [U' [p [E I]]]] := reduce_extraU_rinv WM WU En NS.
exists R, U', p; have red := rinv_reduced I; have [_ _ P _] := rinv_pgood I; split=> //.
- by rewrite E En.
- by rewrite (reduce_extra_proj WM WU En) E.
by case: I => _ _ _ [V [Vu Vd RV UV]] _; exists V.
Qed.

(** C19, end to end: reorder the complex (ChainComplex::ipermute_basis) and reduce it afresh, or
    permute the existing reduction: same homology indices, same pivots, and again a factorisation *)
Theorem C19_permute_vs_fresh (F : fieldType) (C : seq (cmat F)) perms :
  chain_wf C -> (1 < size C)%N -> aug_const C -> perms_ok C perms ->
  exists X C' Y Z, [/\ rcc_of (ops_of F) StandardBasis C = Ok X,
     cc_ipermute_basis perms C = Ok C' /\ reordered C C' perms,
     permute_basis (ops_of F) perms X = Ok Y,
     rcc_of (ops_of F) StandardBasis C' = Ok Z /\ rc_I Y = rc_I Z /\ rc_p2c Y = rc_p2c Z &
     forall k, (k < size C)%N -> exists Rc Uc,
      let B := bmx C' k in
      let R := CMat (nrow B) (ncol B) Rc in let U := CMat (ncol B) (ncol B) Uc in
      [/\ bmx (rc_R Y) k = R, bmx (rc_U Y) k = U, mx R = mx B *m mx U,
          upper (mx U) /\ diagn0 (mx U) & reduced (mx R)]].
Proof.
move=> CW C2 AC PO; have [X [EX _ _ _]] := rcc_of_spec StandardBasis CW.
have [C' [EC RO CW']] := cc_ipermute_spec CW C2 AC PO.
have [Y [Z [EY EZ EI EP G]]] := C19_permute_basis CW CW' C2 AC PO RO EX.
by exists X, C', Y, Z.
Qed.
