(** Properties C19 (filtration updates), C22, C32, C35: persistence.
    Read with S_Linalg.v, S_Homology.v and S_Persist.v. *)
From mathcomp Require Import all_ssreflect all_algebra zify.
From Verif Require Import Outcome P_Outcome M_SparseVec M_Perm M_ColMatrix M_Reduce M_Homology M_Persist
  S_Linalg S_Perm S_Homology S_Persist P_SparseVec P_Pairing P_Reduce P_Perm P_PermMx P_Homology P_Betti
  P_Update P_Extra P_Chain P_Sort P_Persist P_Pairs P_UpdFilt P_Bars P_Barcode Ex_Reduction.
Set Implicit Arguments.
Unset Strict Implicit.
Unset Printing Implicit Defensive.
Import GRing.Theory Order.TTheory.
Local Open Scope ring_scope.

Section P.
Variables (F : fieldType) (disp : unit) (V : orderType disp) (v0 inf : V).
Notation ltv := (fun x y : V => (x < y)%O).

(** construct the filtered complex and reduce it, as reduce(FilteredChainComplex(F), opt) does *)
Definition build opt val (C : seq (cmat F)) : outcome (rfcc F V) :=
  do X <- fcc_make ltv v0 val C; rfcc_make (ops_of F) opt X.

Lemma build_spec opt val C : chain_wf C -> (1 < size C)%N -> aug_const C -> vals_ok C val ->
  exists D RC, [/\ build opt val C = Ok (RFCC RC val (filtration_sortperm ltv v0 val)),
    reordered C D (filtration_sortperm ltv v0 val), chain_wf D, rfgood D RC &
    opt = StandardBasis \/ opt = ClearingBasis -> ugood D RC].
Proof.
move=> CW C2 AC VO; have [D [E RO DW]] := fcc_make_spec v0 CW C2 AC VO.
have [RC [E2 G _]] := rfcc_make_rfgood opt val (filtration_sortperm ltv v0 val) DW.
exists D, RC; rewrite /build E /= E2; split=> // Ho.
have [RC' [E3 G']] := rfcc_make_ugood val (filtration_sortperm ltv v0 val) Ho DW.
by move: E2; rewrite E3 => -[<-].
Qed.

(** C22. For every option, dimension and pair of thresholds s, t: the number of pairs of dimension k
    born by s and not dead by t is the rank of H_k(K_s) -> H_k(K_t), computed on the complex in its
    original order.  ([pbetti] is defined for any s and t; the map exists when s <= t.) *)
Theorem C22_persistent_betti opt val (C : seq (cmat F)) :
  chain_wf C -> (1 < size C)%N -> aug_const C -> vals_ok C val ->
  exists X, build opt val C = Ok X /\
  forall k permuted s t, (k < size C)%N -> (t < inf)%O ->
    exists2 ps, persistence_pairs inf X k permuted = Ok ps &
      count (fun p => (pp_birth p <= s)%O && (t < pp_death p)%O) ps =
      pbetti C k (fun i => (cval v0 val k i <= s)%O) (fun j => (cval v0 val k.+1 j <= t)%O).
Proof.
move=> CW C2 AC VO; have [D [RC [E RO DW G _]]] := build_spec opt CW C2 AC VO.
eexists; split; first exact: E.
by move=> k permuted s t kC tinf; apply: pairs_rank RO G kC tinf.
Qed.

(** C22. [pbet] is the dimension of the image of Z_k(K_s) in C_k / B_k(K_t) *)
Theorem C22_pbet_quotient m n q (B1 : 'M[F]_(m, n)) (B2 : 'M[F]_(n, q)) (s t : pred nat) :
  (pbet B1 B2 s t + \rank (Bsp B2 t) = \rank (Zsp B1 s + Bsp B2 t)%MS)%N.
Proof.
rewrite /pbet -[in RHS](addnK (\rank (Zsp B1 s :&: Bsp B2 t)%MS) (\rank (Zsp B1 s + Bsp B2 t)%MS)).
rewrite mxrank_sum_cap addnBAC //; exact: mxrankS (capmxSl _ _).
Qed.

(** C22. Each k-cell is exactly one of: the birth of a k-dimensional pair, the death of a
    (k-1)-dimensional pair. *)
Theorem C22_partition opt val (C : seq (cmat F)) permuted :
  chain_wf C -> (1 < size C)%N -> aug_const C -> vals_ok C val ->
  exists X, build opt val C = Ok X /\
  (mx (bmx C 0) = 0 -> exists ps, persistence_pairs inf X 0 permuted = Ok ps /\
     perm_eq [seq pp_birth_ind p | p <- ps] (iota 0 (ncol (bmx C 0)))) /\
  forall k, (k.+1 < size C)%N ->
    exists ps ps1, [/\ persistence_pairs inf X k permuted = Ok ps,
      persistence_pairs inf X k.+1 permuted = Ok ps1 &
      perm_eq ([seq pp_birth_ind p | p <- ps1] ++ pmap (@pp_death_ind V) ps)
              (iota 0 (ncol (bmx C k.+1)))].
Proof.
move=> CW C2 AC VO; have [D [RC [E RO DW G _]]] := build_spec opt CW C2 AC VO.
eexists; split; first exact: E.
have PO := fsp_ok v0 VO; have POD := perms_ok_reordered RO PO.
have [sD RE] := RO.
have nc k' := reordered_ncol k' RO.
have VOD : vals_ok D val.
  by have [a b] := VO; split; rewrite ?sD // => k'; rewrite ?sD nc; apply: b.
split=> [Z|k kC]; last first.
  have kD : (k.+1 < size D)%N by rewrite sD.
  by rewrite -nc; exact: (pairs_partition v0 inf permuted DW G POD VOD kD).
rewrite -nc; apply: (pairs_bottom inf permuted DW G POD VOD).
have C0 : (0 < size C)%N := ltnW C2; have [En Em RK] := RE 0%N C0; have [P0 z0] := PO.2 _ C0.
apply/matrixP => i j; rewrite !mxE RK //; last 2 first.
- by rewrite -En ltn_ord.
- by rewrite -Em ltn_ord.
have lj : (nth 0%N (nth [::] (filtration_sortperm ltv v0 val) 0) j < ncol (bmx C 0))%N.
  by rewrite -z0 is_perm_lt // z0 -Em.
have li : (i < nrow (bmx C 0))%N by rewrite -En.
by move/matrixP/(_ (Ordinal li) (Ordinal lj)): Z; rewrite !mxE.
Qed.

(** C22. The reported birth and death values are those of the reported cells, and infinity exactly
    for the pairs without a death; for a filtration by subcomplexes births precede deaths. *)
Theorem C22_values opt val (C : seq (cmat F)) :
  chain_wf C -> (1 < size C)%N -> aug_const C -> vals_ok C val ->
  exists X, build opt val C = Ok X /\
  forall k, (k < size C)%N -> exists ps, persistence_pairs inf X k false = Ok ps /\
    all (fun p : ppair V => [&& pp_dim p == k, (pp_birth_ind p < ncol (bmx C k))%N,
      pp_birth p == cval v0 val k (pp_birth_ind p) &
      if pp_death_ind p is Some j
      then (j < ncol (bmx C k.+1))%N && (pp_death p == cval v0 val k.+1 j)
      else pp_death p == inf]) ps /\
    (monotone v0 C val -> (forall x, (x <= inf)%O) ->
     all (fun p : ppair V => (pp_birth p <= pp_death p)%O) ps).
Proof.
move=> CW C2 AC VO; have [D [RC [E RO DW G _]]] := build_spec opt CW C2 AC VO.
eexists; split; first exact: E.
have PO := fsp_ok v0 VO; have POD := perms_ok_reordered RO PO.
have [sD _] := RO.
have nc k' := reordered_ncol k' RO.
have VOD : vals_ok D val.
  by have [a b] := VO; split; rewrite ?sD // => k'; rewrite ?sD nc; apply: b.
move=> k kC; have kD : (k < size D)%N by rewrite sD.
have EP := pairsE v0 inf false DW G POD VOD kD.
eexists; split; first exact: EP.
split; first by rewrite -!nc; exact: pairs_values DW G POD VOD kD EP.
move=> MO TI; apply: pairs_monotone CW DW G VO RO kC _ TI EP => i j; exact: MO.
Qed.

(** C22. representative(p) of a pair is a cycle that contains the birth cell and lives at its value *)
Theorem C22_representative opt val (C : seq (cmat F)) k :
  chain_wf C -> (1 < size C)%N -> aug_const C -> vals_ok C val -> has_basis opt -> (k < size C)%N ->
  exists X ps, [/\ build opt val C = Ok X, persistence_pairs inf X k false = Ok ps &
  forall p, List.In p ps -> exists w,
    [/\ representative X p false = Ok w, sv_wf (ncol (bmx C k)) w,
     mx (bmx C k) *m vec (ncol (bmx C k)) w = 0, coef w (pp_birth_ind p) != 0 &
     forall i, coef w i != 0 -> (cval v0 val k i <= pp_birth p)%O]].
Proof.
move=> CW C2 AC VO hb kC; have [D [RC [E RO DW G _]]] := build_spec opt CW C2 AC VO.
have PO := fsp_ok v0 VO; have POD := perms_ok_reordered RO PO; have [sD _] := RO.
have nc k' := reordered_ncol k' RO.
have VOD : vals_ok D val.
  by have [a b] := VO; split; rewrite ?sD // => k'; rewrite ?sD nc; apply: b.
have kD : (k < size D)%N by rewrite sD.
have EP := pairsE v0 inf false DW G POD VOD kD.
do 2 eexists; split; [exact: E | exact: EP | move=> p Hp].
move: E; rewrite /build; case E1: (fcc_make _ _ _ _) => [fc| | |] //= E2.
exact: representative_spec CW C2 AC VO hb kC _ _ E1 E2 EP Hp.
Qed.

(** C19 / C35. Any sequence of ReducedFilteredChainComplex::update_filtration calls ends with the
    homology indices, pivots and persistence pairs of a construction with the last values. *)
Theorem C19_update_filtration opt val (vals : seq (seq (seq V))) (C : seq (cmat F)) :
  opt = StandardBasis \/ opt = ClearingBasis ->
  chain_wf C -> (1 < size C)%N -> aug_const C ->
  vals_ok C val -> (forall v, v \in vals -> vals_ok C v) ->
  exists X Y Z, [/\ build opt val C = Ok X,
    ofold (fun X v => rfcc_update (ops_of F) ltv v0 v X) X vals = Ok Y,
    build opt (last val vals) C = Ok Z,
    rc_I (rf_RC Y) = rc_I (rf_RC Z) /\ rc_p2c (rf_RC Y) = rc_p2c (rf_RC Z) &
    forall k permuted, (k < size C)%N -> exists2 ps,
      persistence_pairs inf Y k permuted = Ok ps & persistence_pairs inf Z k permuted = Ok ps].
Proof.
move=> Ho CW C2 AC VO VS.
have B v : vals_ok C v -> exists2 X, build opt v C = Ok X & uinv v0 C v X.
  move=> Vv; have [D [RC [E RO DW _ /(_ Ho) G]]] := build_spec opt CW C2 AC Vv.
  by eexists; first exact: E; exists D.
have [X EX IX] := B _ VO; exists X.
have [Y EY IY] : exists2 Y, ofold (fun X v => rfcc_update (ops_of F) ltv v0 v X) X vals = Ok Y &
    uinv v0 C (last val vals) Y.
  elim: vals val X VO VS IX {EX} => [|v vals IH] w X Vw VS IX; first by exists X.
  have Vv : vals_ok C v by apply: VS; rewrite mem_head.
  have [X' E' I'] := rfcc_update_uinv CW C2 AC Vw Vv IX; rewrite /= E' /=.
  by apply: IH I' => // u Hu; apply: VS; rewrite inE Hu orbT.
have VL : vals_ok C (last val vals).
  case: vals VS {EY IY} => //= v vals VS; apply: VS; exact: mem_last.
have [Z EZ IZ] := B _ VL; exists Y, Z.
have [a b c] := uinv_pairs inf CW VL IY IZ; by split.
Qed.

(** C35. FilteredChainComplex::update_filtration is right when, in every dimension, the permutation
    from the old to the new order is an involution *)
Theorem C35_update_involution val newval (C : seq (cmat F)) :
  chain_wf C -> (1 < size C)%N -> aug_const C -> vals_ok C val -> vals_ok C newval ->
  (forall k i, (k < size C)%N -> (i < ncol (bmx C k))%N ->
     let p := sortperm ltv v0 (nth [::] val k) in let q := sortperm ltv v0 (nth [::] newval k) in
     index (nth 0%N q (index (nth 0%N q i) p)) p = i) ->
  exists X Y, [/\ fcc_make ltv v0 val C = Ok X, fcc_update ltv v0 newval X = Ok Y &
                  fcc_make ltv v0 newval C = Ok Y].
Proof.
move=> CW C2 AC VO VN I; have [D [E RO DW]] := fcc_make_spec v0 CW C2 AC VO.
have [D' [E' RO' DW']] := fcc_make_spec v0 CW C2 AC VN.
by do 2 eexists; split; [exact: E | rewrite (fcc_update_invol CW C2 AC VO VN E I); exact: E' | exact: E'].
Qed.

(** C35. In general it reorders by the inverse permutation: sorted cell j becomes the cell whose new
    position would be ... [u j] is the old position of the cell that should be at j; the code puts the
    old cell j at position [u j]. *)
Theorem C35_update_effect val newval (C : seq (cmat F)) :
  chain_wf C -> (1 < size C)%N -> aug_const C -> vals_ok C val -> vals_ok C newval ->
  exists X Y, [/\ fcc_make ltv v0 val C = Ok X, fcc_update ltv v0 newval X = Ok Y &
    forall k, (k.+1 < size C)%N ->
      let p d := sortperm ltv v0 (nth [::] val d) in let q d := sortperm ltv v0 (nth [::] newval d) in
      let u d j := index (nth 0%N (q d) j) (p d) in
      forall i j, (i < ncol (bmx C k))%N -> (j < ncol (bmx C k.+1))%N ->
        coef (nth [::] (cols (bmx (fc_C Y) k.+1)) (u k.+1 j)) (u k i) =
        coef (nth [::] (cols (bmx (fc_C X) k.+1)) j) i].
Proof.
move=> CW C2 AC VO VN; have [D [E RO DW]] := fcc_make_spec v0 CW C2 AC VO.
have [D' [E' DW' RU]] := fcc_update_spec CW C2 AC VO VN RO DW.
do 2 eexists; split; [exact: E | exact: E' | move=> k k1 p q u i j il jl /=].
have PO := fsp_ok v0 VO; have PN := fsp_ok v0 VN; have [s1 H1] := PO; have [s2 H2] := PN.
have [sU HU] := uperms_ok PO PN; have [sV _] := VO; have [sN _] := VN.
have UE d x : (d < size C)%N -> (x < ncol (bmx C d))%N ->
    nth 0%N (nth [::] (uperms (filtration_sortperm ltv v0 val) (filtration_sortperm ltv v0 newval)) d) x = u d x.
  move=> dC xl; have [P1 z1] := H1 d dC; have [P2 z2] := H2 d dC.
  rewrite (nth_map 0%N) ?size_iota ?s1 // nth_iota ?s1 // add0n uperm_nth ?z2 // nth_ipl ?z1; last first.
    by rewrite -z2 is_perm_lt ?z2.
  by rewrite /u /p /q !fsp_nth ?sV ?sN.
have [sD RE] := RO; have k1D : (k.+1 < size D)%N by rewrite sD.
have [sD' RE'] := RU; have [En Em RK] := RE' _ k1D.
have nc k' := reordered_ncol k' RO.
have ul d x : (d < size C)%N -> (x < ncol (bmx C d))%N -> (u d x < ncol (bmx C d))%N.
  by move=> dC xl; rewrite -UE //; have [PU zU] := HU d dC; rewrite -[X in (_ < X)%N]zU is_perm_lt ?zU.
have kC := ltnW k1; have [_ _ CC] := CW; have [nr _] := CC k k1.
have [nD _ _] := RE _ k1.
rewrite RK ?nD ?nr ?nc ?ul //.
rewrite !(nth_map [::]) ?sU // -!UE //.
have [PU zU] := HU _ kC; have [PU1 zU1] := HU _ k1.
by rewrite !ipl_nth ?zU ?zU1.
Qed.
End P.

(** C35. ... and that is wrong in general: for the filled triangle, moving the vertices through a
    3-cycle and swapping two edges, the matrices are not those of the new filtration, and neither are the pairs read off. *)
Definition c35_val : seq (seq nat) := [:: [:: 0; 1; 2]; [:: 10; 11; 12]; [:: 20]]%N.
Definition c35_new : seq (seq nat) := [:: [:: 1; 2; 0]; [:: 11; 10; 12]; [:: 20]]%N.
Theorem C35_update_refuted :
  let C := tri F2 in
  [/\ chain_wf C, aug_const C, vals_ok C c35_val /\ vals_ok C c35_new,
      monotone 0%N C c35_new &
      exists X Y Z px pz, [/\ fcc_make ltn 0%N c35_val C = Ok X, fcc_update ltn 0%N c35_new X = Ok Y,
         fcc_make ltn 0%N c35_new C = Ok Z,
         (do R <- rfcc_make (ops_of F2) StandardBasis Y; persistence_pairs 99%N R 0 false) = Ok px /\
         (do R <- rfcc_make (ops_of F2) StandardBasis Z; persistence_pairs 99%N R 0 false) = Ok pz &
         fc_C Y <> fc_C Z /\ ~~ barcode_equality px pz]].
Proof.
split.
- exact: tri_wf.
- exact: tri_aug.
- by split; split=> // -[|[|[|k]]].
- by case=> [|[|k]] // i j _; case: i => [|[|[|i]]] //; case: j => [|[|[|j]]].
do 5 eexists; split; [vm_compute; reflexivity | vm_compute; reflexivity | vm_compute; reflexivity
 | split; vm_compute; reflexivity | ].
by split; vm_compute.
Qed.

(** C32. barcode_equality is equality of multisets of (birth, death, dimension) *)
Theorem C32_barcode_equality (V : eqType) (ps1 ps2 : seq (ppair V)) :
  barcode_equality ps1 ps2 =
  perm_eq [seq (pp_birth p, pp_death p, pp_dim p) | p <- ps1]
          [seq (pp_birth p, pp_death p, pp_dim p) | p <- ps2].
Proof. exact: barcode_equalityE. Qed.
