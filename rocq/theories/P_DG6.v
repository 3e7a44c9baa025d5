(** DG vector spaces, part 6: the reordered complexes in the two degrees are anti-transposes. *)
From mathcomp Require Import all_ssreflect all_algebra zify.
From Verif Require Import Outcome P_Outcome M_SparseVec M_Perm M_ColMatrix M_Reduce M_Homology M_Persist
  M_Induced M_DG S_Linalg S_Perm S_Homology S_DG P_SparseVec P_Pairing P_Reduce P_Perm P_PermMx P_ColMatrix P_Homology P_Betti
  P_Update P_Chain P_Persist P_Pairs P_UpdFilt P_DG1 P_DG2 P_DG3 P_DG4 P_DG5.
Set Implicit Arguments.
Unset Strict Implicit.
Unset Printing Implicit Defensive.
Import GRing.Theory.
Local Open Scope ring_scope.

Section A.
Variable F : fieldType.
Notation O := (ops_of F).
Notation cmat := (cmat F).
Notation m0 := (CMat 0 0 [::] : cmat).
Notation p2c_t := (seq (option nat)).
Notation Z C := (cm_zero F (ncol (bmx C (size C).-1)) 0).

Lemma cm_ext_ent (A B : cmat) : cm_wf A -> cm_wf B -> nrow A = nrow B -> ncol A = ncol B ->
  (forall i j, (i < nrow A)%N -> (j < ncol A)%N -> ent A i j = ent B i j) -> A = B.
Proof.
case: A => r c cs; case: B => r' c' cs' W W' /= e1 e2 H; subst r' c'.
have -> : cs = cs'; last by [].
by apply: (cm_ext W W'); apply/matrixP => i j; rewrite !mxE; apply: H.
Qed.

Lemma reordered_chain (C E : seq cmat) qs : chain_wf C -> aug_const C -> perms_ok C qs ->
  reordered C E qs -> all (@cm_wf F) E -> chain_wf E.
Proof.
move=> CW AC PO [sE RE] WE; have [s0 _ _] := CW.
case: (ltnP 1 (size C)) => C2; last first.
  split=> //; first by rewrite sE.
  by move=> k; rewrite sE => k1; exfalso; move: k1 C2; clear; lia.
have [E0 [_ [s1 R1] W1]] := cc_ipermute_spec CW C2 AC PO.
suff -> : E = E0 by [].
apply: (@eq_from_nth _ m0); first by rewrite sE s1.
move=> k; rewrite sE => kC; rewrite !bmxE.
have [a b c] := RE k kC; have [a' b' c'] := R1 k kC.
apply: cm_ext_ent; [by apply: (all_nthP m0 WE); rewrite sE | exact: chain_wf_nth | by rewrite a a' | by rewrite b b' |].
by move=> i j; rewrite a b => im jn; rewrite /ent c // c'.
Qed.

Lemma bmx_rcons (C : seq cmat) A k : bmx (rcons C A) k = if (k < size C)%N then bmx C k else if k == size C then A else m0.
Proof. by rewrite /bmx nth_rcons. Qed.

Lemma hom_perm (aug : bool) (C : seq cmat) qs : chain_wf C -> (aug -> edges_cancel C) -> perms_ok C qs ->
  exists E, [/\ dg_ipermute qs (DG (-1) (rcons (augment aug C) (Z C))) = Ok (DG (-1) (rcons E (Z C))),
    reordered (augment aug C) E qs, chain_wf E & chain_wf (rcons E (Z C))].
Proof.
move=> CW EC [sq HQ]; have AW := augment_chain CW EC; set A := augment aug C in AW *.
have sA : size A = size C by apply: size_augment.
have cA k : ncol (bmx A k) = ncol (bmx C k) by apply: augment_ncol.
have [s0 _ _] := CW; case sC: (size C) s0 => [//|m] _.
set D := rcons A _.
have bD k : (k <= m)%N -> bmx D k = bmx A k by move=> km; rewrite bmx_rcons sA sC ltnS km.
have bDm : bmx D m.+1 = cm_zero F (ncol (bmx C m.+1.-1)) 0 by rewrite bmx_rcons sA sC ltnn eqxx.
have sD : size D = m.+2 by rewrite size_rcons sA sC.
have sq' : size qs = m.+1 by rewrite sq sC.
have [_ _ WC] := AW.
have r1 k : (k <= m)%N -> is_perm (nth [::] qs k) by move=> km; have [|] := HQ k; rewrite ?sC.
have sz k : (k <= m)%N -> size (nth [::] qs k) = ncol (bmx C k) by move=> km; have [|] := HQ k; rewrite ?sC.
have nr k : (k < m)%N -> nrow (bmx A k.+1) = ncol (bmx C k).
  by move=> km; have [|-> _] := WC k; rewrite ?sA ?sC // cA.
have [|| D' ED [sD' HD']] := @dg_ipermute_spec F m (-1) D qs (or_introl erefl) sD sq' r1.
- case=> // k /andP[_ km]; rewrite eqxx bD //; split; [exact: chain_wf_nth | by rewrite nr // sz // ltnW | by rewrite cA sz].
- move=> mz; rewrite mz in bDm sz *; rewrite bDm eqxx; split; first exact: wf_zero.
  by rewrite /= sz.
pose E := take m.+1 D'.
have sE : size E = m.+1 by rewrite size_take sD' ltnSn.
have bE k : (k <= m)%N -> bmx E k = bmx D' k by move=> km; rewrite /bmx nth_take.
have DE : D' = rcons E (cm_zero F (ncol (bmx C m.+1.-1)) 0).
  rewrite -[LHS](take_size D') sD' (take_nth m0) ?sD' //; congr rcons; rewrite bmxE.
  by have := HD' m.+1; rewrite ltnn andbF => ->.
have R0 : bmx E 0 = bmx A 0 by rewrite bE //; have := HD' 0%N; rewrite bD.
have RE : reordered A E qs.
  split; first by rewrite sE sA sC.
  move=> k; rewrite sA sC ltnS => km; case: k km => [_|k km].
    rewrite R0; split=> // i j im jn; apply: augment_const; rewrite -/A //.
    by rewrite cA -sz // is_perm_lt ?r1 // sz // -cA.
  have := HD' k.+1; rewrite ltn0Sn km eqxx bD // -bE // => -[WE n1 c1 H1]; by split=> // i j im jn; exact: H1.
have WE : all (@cm_wf F) E.
  apply/(all_nthP m0) => k; rewrite sE ltnS bmxE => km; case: k km => [_|k km].
    by rewrite R0; apply: chain_wf_nth.
  by have := HD' k.+1; rewrite ltn0Sn km -bE // => -[].
have PA : perms_ok A qs by split; [rewrite sA | move=> k; rewrite sA cA; apply: HQ].
have EW := reordered_chain AW (@augment_const _ aug C) PA RE WE.
exists E; rewrite -DE; split=> //.
have := rcons_chain EW; rewrite sE /= (reordered_ncol m RE) cA.
by rewrite DE /=.
Qed.

Lemma coh_perm (aug : bool) (C : seq cmat) qs E : chain_wf C -> (aug -> edges_cancel C) -> perms_ok C qs ->
  reordered (augment aug C) E qs -> chain_wf E ->
  exists Dc D, [/\ dg_of O C 1 aug = Ok (DG 1 Dc), dg_ipermute [seq rev p | p <- qs] (DG 1 Dc) = Ok (DG 1 D),
    size D = (size C).+1 & forall k, (k <= size C)%N -> atr (bmx (rcons E (Z C)) k) (bmx D k)].
Proof.
move=> CW EC [sq HQ] RO EW; have AW := augment_chain CW EC; set A := augment aug C in AW RO *.
have [Dc EDc [sDc HT]] := dg_of_coh aug CW; exists Dc; rewrite -/A in HT.
have sA : size A = size C by apply: size_augment.
have cA k : ncol (bmx A k) = ncol (bmx C k) by apply: augment_ncol.
have [s0 _ _] := CW; case sC: (size C) s0 HT sDc => [//|m] _ HT sDc.
have r1 k : (k <= m)%N -> is_perm (nth [::] qs k) by move=> km; have [|] := HQ k; rewrite ?sC.
have sz k : (k <= m)%N -> size (nth [::] qs k) = ncol (bmx C k) by move=> km; have [|] := HQ k; rewrite ?sC.
have [_ _ WC] := AW.
have nr k : (k < m)%N -> nrow (bmx A k.+1) = ncol (bmx C k).
  by move=> km; have [|-> _] := WC k; rewrite ?sA ?sC // cA.
pose rqs := [seq rev p | p <- qs].
have rn k : (k <= m)%N -> nth [::] rqs k = rev (nth [::] qs k).
  by move=> km; rewrite (nth_map [::]) // sq sC.
have sr : size rqs = m.+1 by rewrite size_map sq sC.
have r2 k : (k <= m)%N -> is_perm (nth [::] rqs k).
  by move=> km; rewrite rn // /is_perm size_rev perm_rev; apply: r1.
have sz2 k : (k <= m)%N -> size (nth [::] rqs k) = ncol (bmx C k) by move=> km; rewrite rn // size_rev sz.
have bD k : (k <= m)%N -> bmx (rcons A (Z C)) k = bmx A k by move=> km; rewrite bmx_rcons sA sC ltnS km.
have bDm : bmx (rcons A (Z C)) m.+1 = cm_zero F (ncol (bmx C m)) 0 by rewrite bmx_rcons sA sC ltnn eqxx.
rewrite sC /= in bD bDm.
have T k : (k <= m)%N -> is_transpose (bmx A k) (bmx Dc k) by move=> km; rewrite -bD //; apply: HT; apply: leqW.
have Tm : is_transpose (cm_zero F (ncol (bmx C m)) 0) (bmx Dc m.+1) by rewrite -bDm; apply: HT.
have [|| D ED [sD HD]] := @dg_ipermute_spec F m 1 Dc rqs (or_intror erefl) sDc sr r2.
- case=> // k /andP[_ km]; have [W n1 c1 _] := T _ km; split=> //=; first by rewrite n1 cA sz2.
  by rewrite c1 nr // sz2 // ltnW.
- move=> mz; rewrite mz in Tm; have [W n1 c1 _] := Tm; split=> //=; rewrite c1 n1 /= sz2 //.
exists D; split=> //.
move=> k km.
case: (eqVneq k m.+1) => [->|ne].
  have := HD m.+1; rewrite ltnn andbF => ->.
  rewrite bmx_rcons; have [sE _] := RO; rewrite sE sA sC ltnn eqxx.
  by have [W n1 c1 H] := Tm; split.
have {km ne} km : (k <= m)%N by move: km ne; clear; lia.
have [W n1 c1 H] := T k km.
have [sE RE] := RO; rewrite bmx_rcons sE sA sC ltnS km.
have [|e1 e2 e3] := RE k; first by rewrite sA sC.
case: k km W n1 c1 H e1 e2 e3 => [|k] km W n1 c1 H e1 e2 e3.
  have -> := HD 0%N; split=> //; rewrite ?n1 ?c1 ?e1 ?e2 // => i j im jn.
  have l1 : (nrow (bmx A 0) - i.+1 < nrow (bmx A 0))%N by move: im; clear; lia.
  have l2 : (ncol (bmx A 0) - j.+1 < ncol (bmx A 0))%N by move: jn; clear; lia.
  rewrite /ent H // e3 //.
  have {H e1 e2 e3 T n1 c1 HD HT RE} : forall i i' j j', (i < nrow (bmx A 0))%N -> (i' < nrow (bmx A 0))%N -> (j < ncol (bmx A 0))%N ->
     (j' < ncol (bmx A 0))%N -> coef (nth [::] (cols (bmx A 0)) j) i = coef (nth [::] (cols (bmx A 0)) j') i'.
    move=> i0 i' j0 j'; rewrite /A; clear; case: C => [|C0 Bs] //; case: aug => //= a b c d.
    have -> : i0 = 0%N by move: a; clear; lia.
    have -> : i' = 0%N by move: b; clear; lia.
    by rewrite !nth_nseq c d.
  apply=> //; by rewrite cA -sz // is_perm_lt ?r1 // sz // -cA.
have := HD k.+1; rewrite ltn0Sn km (_ : (1 == -1 :> int) = false) // => -[W2 n2 c2 H2].
split=> //; rewrite ?n2 ?c2 ?n1 ?c1 ?e1 ?e2 // => i j im jn.
have l1 : (nrow (bmx A k.+1) - i.+1 < nrow (bmx A k.+1))%N by move: im; clear; lia.
have l2 : (ncol (bmx A k.+1) - j.+1 < ncol (bmx A k.+1))%N by move: jn; clear; lia.
have rv l a : (l <= m)%N -> (a < ncol (bmx C l))%N ->
    nth 0%N (nth [::] rqs l) (ncol (bmx C l) - a.+1) = nth 0%N (nth [::] qs l) a.
  move=> lm al; rewrite rn // nth_rev sz //; last by move: al; clear; lia.
  by congr nth; move: al; clear; lia.
rewrite H2 ?n1 ?c1 // cA rv //; last by rewrite -cA.
rewrite nr // rv //; [|exact: ltnW | by rewrite -nr].
rewrite /ent H ?e3 //.
- by rewrite nr // -sz ?is_perm_lt ?r1 ?sz // -?nr // ltnW.
- by rewrite cA -sz // is_perm_lt ?r1 // sz // -cA.
Qed.
End A.
