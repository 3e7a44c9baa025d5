(** Property C45, induced maps of DG vector spaces: right in degree -1, wrong in degree +1; and concrete cases
    for Props_DG.v. *)
From mathcomp Require Import all_ssreflect all_algebra zify.
From Verif Require Import Outcome P_Outcome M_SparseVec M_Perm M_ColMatrix M_Reduce M_Homology M_Persist
  M_Induced M_DG S_Linalg S_Perm S_Homology S_Persist S_Induced S_DG P_SparseVec P_Pairing P_Reduce P_Perm P_PermMx P_ColMatrix P_Homology P_Betti
  P_Update P_Extra P_Chain P_Sort P_Persist P_Pairs P_UpdFilt P_DG1 P_DG2 P_DG3 P_DG4 P_DG5 P_DG6 P_DG7 P_DG8 P_DG9 P_DG10 P_DG11
  P_DG13 P_DG14 P_Induced Props_Induced Ex_Reduction Props_DG Props_Persist.
Set Implicit Arguments.
Unset Strict Implicit.
Unset Printing Implicit Defensive.
Import GRing.Theory Order.TTheory.
Local Open Scope ring_scope.

Section P.
Variable F : fieldType.
Notation O := (ops_of F).
Notation Z C := (cm_zero F (ncol (bmx C (size C).-1)) 0).
Notation ext aug C := (rcons (augment aug C) (Z C)).

Lemma ext_map m (aug : bool) (C D Fs : seq (cmat F)) : size C = m.+1 -> chain_map (augment aug C) (augment aug D) Fs ->
  chain_map (ext aug C) (ext aug D) (rcons Fs (CMat 0 0 [::])).
Proof.
move=> sC [sD sF W co cy]; rewrite !size_augment sC in sD sF W co.
have b (E : seq (cmat F)) A k : size E = m.+1 -> (k <= m)%N -> bmx (rcons E A) k = bmx E k by move=> s km; rewrite bmx_rcons s ltnS km.
have bm (E : seq (cmat F)) A : size E = m.+1 -> bmx (rcons E A) m.+1 = A by move=> s; rewrite bmx_rcons s ltnn eqxx.
have sA : size (augment aug C) = m.+1 by rewrite size_augment.
have sB : size (augment aug D) = m.+1 by rewrite size_augment.
split; rewrite ?size_rcons ?sA ?sB ?sF //.
- move=> k; move=> H; case: (ltnP k m.+1) => km.
    by rewrite /ncell !b //; apply: W.
  have -> : k = m.+1 by move: km H; clear; lia.
  by rewrite /ncell !bm.
- move=> k k1; rewrite /bd1 /fmx /ncell; case: (ltnP k.+1 m.+1) => km.
    by rewrite !b ?(ltnW km) //; apply: co.
  have -> : k = m by move: k1 km; clear; lia.
  by rewrite !(bm _ _ sA) /=; apply/matrixP => i [].
- by rewrite /cycle /bd /fmx /ncell !b.
Qed.

(** C45. In degree -1 the induced map is right in every dimension of the complex, reduced homology included:
    a matrix N with F(rep_j) homologous to the combination of representatives in column j, and the only one.
    [rd_view] only renames the stored fields. *)
Theorem C45_induced_hom opt opt' (aug : bool) (C D Fs : seq (cmat F)) :
  dg_has_basis opt -> dg_has_basis opt' -> chain_wf C -> chain_wf D ->
  (aug -> edges_cancel C) -> (aug -> edges_cancel D) ->
  chain_map (augment aug C) (augment aug D) Fs ->
  exists X Y, [/\ (do D <- dg_of O C (-1) aug; rdg_of O opt D) = Ok X,
    (do D <- dg_of O D (-1) aug; rdg_of O opt' D) = Ok Y &
    forall k, (k < size C)%N -> exists M,
      let A := augment aug C in let B := augment aug D in
      let rX := rd_view X in let rY := rd_view Y in
      let N := CMat (size (gens rY k)) (size (gens rX k)) M in
      [/\ rd_induced_map O (bmx Fs k) X Y k = Ok N, cm_wf N,
          (forall j, homologous (fmx A B Fs k *m col j (repmx (ncell A k) rX k))
                                (repmx (ncell B k) rY k *m col j (mx N))) &
          forall N', (forall j, homologous (fmx A B Fs k *m col j (repmx (ncell A k) rX k))
                                (repmx (ncell B k) rY k *m col j N')) -> N' = mx N]].
Proof.
move=> hb hb' CW DW EC ED CM; have [s0 _ _] := CW; case sC: (size C) s0 => [//|m] _.
have [eD eF _ _ _] := CM; rewrite !size_augment sC in eD eF.
have sA : size (augment aug C) = m.+1 by rewrite size_augment.
have sB : size (augment aug D) = m.+1 by rewrite size_augment.
have CX : chain_wf (ext aug C).
  have := rcons_chain (augment_chain CW EC); by rewrite sA sC augment_ncol.
have DX : chain_wf (ext aug D).
  have := rcons_chain (augment_chain DW ED); by rewrite sB eD augment_ncol.
have h1 : has_basis (opt_of opt) by case: opt hb.
have h2 : opt_of opt' = ClearingBasis \/ opt_of opt' = StandardBasis by case: opt' hb' => //; [right|left].
have [X' [Y' [EX EY HI]]] := C21_induced h1 h2 CX DX (ext_map sC CM).
have [X [BX dX [U1 R1 p1] I1 [s1 s2 s3 s4 d1]]] := hom_view hb CW sC EC EX.
have [Y [BY dY [U2 R2 p2] I2 [t1 t2 t3 t4 d2]]] := hom_view hb' DW eD ED EY.
exists X, Y; split=> // k km.
have kX : (k < size (ext aug C))%N by rewrite size_rcons sA; apply: leqW.
have [M HM] := HI k kX; exists M; move: HM; cbv zeta.
have [a1 a2 a3] := d1 k (leqW km); have [b1 b2 b3] := d2 k (leqW km).
have EI : rd_induced_map O (bmx Fs k) X Y k = induced_map O (bmx Fs k) X' Y' k.
  by apply: (rd_induced_hom (bmx Fs k) dX dY (km : (k <= m)%N) U1 (And3 U2 R2 p2) _ _ s1 t1 s2 t2 s3 t3 s4 t4 a1 a2 b1 b3); [apply: I1 | apply: I2].
have gX : gens X' k = gens (rd_view X) k by rewrite /gens /= I1.
have gY : gens Y' k = gens (rd_view Y) k by rewrite /gens /= I2.
have b (E : seq (cmat F)) A : size E = m.+1 -> bmx (rcons E A) k = bmx E k by move=> s; rewrite bmx_rcons s km.
rewrite EI [bmx (rcons Fs _) k]b ?eF //.
rewrite /repmx /homologous /fmx /bd1 /ncell.
have -> : rc_U X' = rc_U (rd_view X) by rewrite /= U1.
have -> : rc_U Y' = rc_U (rd_view Y) by rewrite /= U2.
rewrite gX gY !b //.
case: (ltnP k m) => k1.
  have bk1 (E : seq (cmat F)) A : size E = m.+1 -> bmx (rcons E A) k.+1 = bmx E k.+1 by move=> s; rewrite bmx_rcons s ltnS k1.
  by rewrite bk1.
have ek : k = m by move: km k1; clear; lia.
have -> : bmx (ext aug D) k.+1 = Z D by rewrite bmx_rcons sB ek ltnn eqxx.
by have -> : bmx (augment aug D) k.+1 = CMat 0 0 [::] by rewrite /bmx nth_default // sB ek.
Qed.
End P.

(** an isolated vertex 0 and the edge {1,2}; the hollow triangle *)
Definition iso2 : seq (cmat F2) := [:: CMat 1 3 [:: [::]; [::]; [::]]; CMat 3 1 [:: [:: (1%N, 1); (2%N, 1)]]].
Definition circ : seq (cmat F2) := [:: CMat 1 3 [:: [::]; [::]; [::]];
  CMat 3 3 [:: [:: (0%N, 1); (1%N, 1)]; [:: (0%N, 1); (2%N, 1)]; [:: (1%N, 1); (2%N, 1)]]].
(** the rotation v -> v+1 of the hollow triangle, on vertices and on edges 01, 02, 12 *)
Definition rot0 : cmat F2 := CMat 3 3 [:: [:: (1%N, 1)]; [:: (2%N, 1)]; [:: (0%N, 1)]].
Definition rot1 : cmat F2 := CMat 3 3 [:: [:: (2%N, 1)]; [:: (0%N, 1)]; [:: (1%N, 1)]].
Definition id3 : cmat F2 := CMat 3 3 [:: [:: (0%N, 1)]; [:: (1%N, 1)]; [:: (2%N, 1)]].

Ltac f2mx := apply/matrixP => -[[|[|[|?]]] ?] // [[|[|[|?]]] ?] //;
  rewrite ?mxE ?big_ord_recl ?big_ord0 ?mxE /= ?coef_cons ?coef_nil /=; apply/eqP; by vm_compute.
Lemma circ_wf : chain_wf circ.
Proof.
split=> //.
by case=> [|k] //= _; split=> //; f2mx.
Qed.

(** C45, degree +1: the rotation of the hollow triangle commutes with the coboundary and takes the reported
    generator of H^1 to a cocycle that is not a coboundary, but the induced map on H^1 is reported as 0. *)
Theorem C45_induced_coh_wrong :
  exists D X, [/\ chain_wf circ, dg_of (ops_of F2) circ 1 false = Ok (DG 1 D), rdg_of (ops_of F2) DBasis (DG 1 D) = Ok X,
    mxc 3 3 (cols (bmx D 1)) *m mx rot0 = mx rot1 *m mxc 3 3 (cols (bmx D 1)) &
    [/\ rd_hdim X 1 = Ok 1%N, nth [::] (cols (bmx (rd_U X) 2)) (nth 0%N (nth [::] (rd_I X) 2) 0) = [:: (0%N, 1)],
        (forall w, mx rot1 *m vec 3 [:: (0%N, 1)] <> mxc 3 3 (cols (bmx D 1)) *m w) &
        rd_induced_map (ops_of F2) rot1 X X 1 = Ok (CMat 1 1 [:: [::]])]].
Proof.
do 2 eexists; split; [exact: circ_wf | vm_compute; reflexivity | vm_compute; reflexivity | ..].
  f2mx.
split; [vm_compute; reflexivity | by [] | | vm_compute; reflexivity].
move=> w e; have : (const_mx 1 : 'rV[F2]_3) *m (mx rot1 *m vec 3 [:: (0%N, 1)]) = 0.
  rewrite e mulmxA (_ : const_mx 1 *m _ = 0) ?mul0mx //.
  apply/matrixP => -[[|?] ?] // -[[|[|[|?]]] ?] //;
    rewrite ?mxE ?big_ord_recl ?big_ord0 ?mxE /= ?coef_cons ?coef_nil /=; apply/eqP; by vm_compute.
move/matrixP/(_ 0 0); rewrite ?mxE ?big_ord_recl ?big_ord0 ?mxE ?big_ord_recl ?big_ord0 ?mxE /= ?coef_cons ?coef_nil /=.
by move/eqP; vm_compute.
Qed.

(** C45, degree +1: on the isolated vertex plus an edge, inducing the identity in dimension 0 reads outside
    the stored pivots. *)
Theorem C45_induced_coh_refuted :
  exists D X, [/\ dg_of (ops_of F2) iso2 1 false = Ok D, rdg_of (ops_of F2) DBasis D = Ok X,
    rd_hdim X 0 = Ok 2%N & rd_induced_map (ops_of F2) id3 X X 0 = UB].
Proof. by do 2 eexists; split; vm_compute; reflexivity. Qed.

(** the hypotheses of Props_DG.v hold of the filled triangle, augmented or not, over every field, and the values
    of c35_val and c35_new *)
Lemma C45_nonvacuous (F : fieldType) :
  [/\ chain_wf (tri F), edges_cancel (tri F), mx (bmx (tri F) 0) = 0,
      vals_ok (tri F) c35_val /\ vals_ok (tri F) c35_new &
      chain_map (augment true (tri F)) (augment true (tri F)) [seq cm_identity (ops_of F) n | n <- [:: 3; 3; 1]%N]].
Proof.
have [_ EC _] := tri_cells F.
split; [exact: tri_wf | exact: EC | | by split; split=> // -[|[|[|k]]] |].
  by apply/matrixP => i j; rewrite !mxE; case: j => -[|[|[|j]]] l //=; rewrite coef_nil.
split=> //.
- by case=> [|[|[|k]]] // _; split=> //; apply: cm_wf_identity.
- have I k : (k < 3)%N -> fmx (augment true (tri F)) (augment true (tri F))
     [seq cm_identity (ops_of F) n | n <- [:: 3; 3; 1]%N] k = 1%:M.
    by case: k => [|[|[|k]]] // _; exact: mxc_identity.
  by case=> [|[|k]] // _; rewrite !I // mulmx1 mul1mx.
- by move=> z; rewrite (_ : fmx _ _ _ 0 = 1%:M) ?mul1mx //; exact: mxc_identity.
Qed.
