(** The chain complex with one column per interval: the outer loop, and the matrix entries. *)
From mathcomp Require Import all_ssreflect all_algebra zify.
From Verif Require Import Outcome P_Outcome M_SparseVec M_ColMatrix S_Linalg S_Homology S_Induced M_Zigzag S_Zigzag
  S_ZigzagFilt M_ZigzagFilt P_SparseVec P_SparseVec2 P_Reduce P_ColMatrix P_Betti P_ZF2.
Set Implicit Arguments.
Unset Strict Implicit.
Unset Printing Implicit Defensive.
Import GRing.Theory Order.Theory.

Section S.
Variable F : fieldType.
Variable disp : unit.
Variable A : orderType disp.
Variable a0 : A.
Notation ltv := (fun x y : A => (x < y)%O).
Notation iv := (A * A)%type.
Notation svec := (svec F).
Variable C : seq (cmat F).
Variable val : seq (seq (seq iv)).
Notation ivs := (ivs val).
Notation ivn := (ivn a0 val).

Lemma ofind (v1 : seq iv) (l : seq iv) b lo :
  (forall x, x < size l -> oget v1 (lo + x) = Ok (nth (a0, a0) l x)) ->
  ofold (fun s i2 => if s is Some _ then Ok s else do w <- oget v1 i2; Ok (if ltv b w.2 then Some i2 else None))
        None (iota lo (size l)) =
  Ok (if has (fun w => ltv b w.2) l then Some (lo + find (fun w => ltv b w.2) l) else None).
Proof.
elim: l lo => //= w l IH lo H; have := H 0 isT; rewrite addn0 => -> /=; case: ifP => h /=.
  rewrite addn0; elim: (iota _ _) => //= x s; by apply.
rewrite IH; first by rewrite addSnnS.
by move=> x lx; rewrite addSnnS; apply: (H x.+1).
Qed.

Definition nn k := size (nth [::] val k).
Definition bh k i := behead (ivs k i).
Definition tot k := nn k + off (bh k) (nn k).
Definition vl k : seq iv := [seq head (a0, a0) (ivs k i) | i <- iota 0 (nn k)] ++ fl (bh k) (nn k).
Definition cil k : seq nat := iota 0 (nn k) ++ fl (fun j => nseq (size (ivs k j)).-1 j) (nn k).
Definition exl k : seq nat := [seq nn k + off (bh k) j | j <- iota 0 (nn k).+1].
Definition msel k i b := if ltv (ivn k i 0).2 b then (find (fun w : iv => ltv b w.2) (bh k i)).+1 else 0.
Definition csel k i b := copy_no val k i (msel k i b).
Definition corr k b (c : svec) : svec := if k is k1.+1 then sv_sort [seq (csel k1 p.1 b, p.2) | p <- c] else c.
Definition csl k : seq svec := cols (bmx C k) ++ fl (ccopy (nth [::] val k) (cols (bmx C k)) (corr k)) (nn k).
Definition Bl k : cmat F := CMat (if k is k1.+1 then tot k1 else nrow (bmx C 0)) (tot k) (csl k).

Lemma copy_noS k i m : copy_no val k i m.+1 = nn k + (off (bh k) i + m).
Proof.
rewrite /copy_no /nn addnA; congr (_ + _ + _); rewrite /off; congr sumn; apply: eq_map => j.
by rewrite /bh size_behead.
Qed.
Lemma size_vl k : size (vl k) = tot k.
Proof. by rewrite size_cat size_map size_iota size_fl. Qed.
Lemma vl_copy k i m : i < nn k -> m < size (ivs k i) -> nth (a0, a0) (vl k) (copy_no val k i m) = ivn k i m.
Proof.
move=> li; rewrite nth_cat size_map size_iota; case: m => [|m] lm.
  by rewrite li (nth_map 0) ?size_iota // nth_iota // -nth0.
rewrite copy_noS ltnNge leq_addr /= addKn nth_fl //; last by rewrite size_behead; move: lm; clear; lia.
by rewrite nth_behead.
Qed.
Lemma copy_lt k i m : i < nn k -> m < size (ivs k i) -> copy_no val k i m < tot k.
Proof.
move=> li; case: m => [|m] lm; first by apply: leq_trans (leq_addr _ _).
rewrite copy_noS /tot ltn_add2l; apply: leq_trans (off_le _ li); rewrite offS ltn_add2l size_behead; move: lm; clear; lia.
Qed.
Lemma copy_split k c : (forall i, i < nn k -> 0 < size (ivs k i)) -> c < tot k ->
  exists i m, [/\ i < nn k, m < size (ivs k i) & c = copy_no val k i m].
Proof.
move=> ne lt; case: (ltnP c (nn k)) => [lc|ge]; first by exists c, 0; split=> //; apply: ne.
have lt' : c - nn k < off (bh k) (nn k) by move: lt ge; rewrite /tot; clear; lia.
have [i [m [li lm e]]] := off_split lt'; exists i, m.+1; split=> //.
  by move: lm; rewrite size_behead; clear; lia.
by rewrite copy_noS -e; move: ge; clear; lia.
Qed.
Lemma copy_inj k i m i' m' : i < nn k -> i' < nn k -> m < size (ivs k i) -> m' < size (ivs k i') ->
  copy_no val k i m = copy_no val k i' m' -> i = i' /\ m = m'.
Proof.
move=> li li'; case: m m' => [|m] [|m'] lm lm' //.
- by rewrite copy_noS /= => e; move: li; rewrite e ltnNge leq_addr.
- by rewrite copy_noS /= => e; move: li'; rewrite -e ltnNge leq_addr.
rewrite !copy_noS => /addnI e; have [] := off_inj _ _ e.
- by rewrite size_behead; move: lm; clear; lia.
- by rewrite size_behead; move: lm'; clear; lia.
by move=> -> ->.
Qed.
Lemma cil_copy k i m : i < nn k -> m < size (ivs k i) -> nth 0 (cil k) (copy_no val k i m) = i.
Proof.
move=> li; rewrite nth_cat size_iota; case: m => [|m] lm; first by rewrite li nth_iota.
rewrite copy_noS ltnNge leq_addr /= addKn.
have eo : off (bh k) i = off (fun j => nseq (size (ivs k j)).-1 j) i.
  by apply: eq_off => j _; rewrite size_behead size_nseq.
have lm' : m < (size (ivs k i)).-1 by move: lm; clear; lia.
by rewrite eo nth_fl // ?size_nseq // nth_nseq lm'.
Qed.
Lemma csl_copy k i m : size (cols (bmx C k)) = nn k -> i < nn k -> m < size (ivs k i) ->
  nth [::] (csl k) (copy_no val k i m) =
  if m == 0 then nth [::] (cols (bmx C k)) i else corr k (ivn k i m).1 (nth [::] (cols (bmx C k)) i).
Proof.
move=> sc li; rewrite nth_cat sc; case: m => [|m] lm; first by rewrite li.
rewrite copy_noS ltnNge leq_addr /= addKn.
have eo : off (bh k) i = off (ccopy (nth [::] val k) (cols (bmx C k)) (corr k)) i.
  by apply: eq_off => j _; rewrite size_ccopy.
have lm' : m < (size (ivs k i)).-1 by move: lm; clear; lia.
rewrite eo nth_fl ?size_ccopy ?size_behead // /ccopy (nth_map (a0, a0)) ?size_behead //.
by rewrite nth_behead.
Qed.

Lemma correct_indE k i b : i < nn k -> 0 < size (ivs k i) ->
  (ltv (ivn k i 0).2 b -> has (fun w : iv => ltv b w.2) (bh k i)) ->
  correct_ind ltv (vl k) (exl k) b i = Ok (csel k i b).
Proof.
move=> li ne H; have ln : i < tot k by apply: leq_trans (leq_addr _ _).
rewrite /correct_ind (oget_nth (a0, a0)) ?size_vl //; cbn [obind].
rewrite (vl_copy (m := 0)) // /csel /msel; case: ifP => h //; have {}H := H h.
have lx : i.+1 < (nn k).+1 by [].
rewrite !(oget_nth 0) ?size_map ?size_iota //; cbn [obind]; last exact: ltnW.
rewrite !(nth_map 0) ?size_iota ?nth_iota //; try exact: ltnW.
rewrite !add0n offS subnDl addKn ofind; first by rewrite H copy_noS; cbn [obind]; rewrite addnA.
move=> x lx'; have lx2 : x.+1 < size (ivs k i) by move: lx'; rewrite size_behead; clear; lia.
rewrite (oget_nth (a0, a0)) ?size_vl -addnA -copy_noS ?copy_lt // vl_copy //.
by rewrite nth_behead.
Qed.

(** ** under the hypotheses *)
Hypothesis CW : chain_wf C.
Hypothesis FO : filtration_ok a0 C val.

Lemma col_wf k j : sv_wf (nrow (bmx C k)) (nth [::] (cols (bmx C k)) j).
Proof. by have /andP[_ W] := chain_wf_nth k CW; apply: nth_wf. Qed.
Lemma szv : size val = size C. Proof. by case: FO. Qed.
Lemma nnE k : nn k = ncell C k.
Proof.
case: FO => sz h _ _; case: (ltnP k (size C)) => lk; first exact: h.
by rewrite /nn nth_default ?sz // /ncell /bmx nth_default.
Qed.
Lemma nn_lt k i : i < nn k -> k < size C.
Proof. by rewrite /nn ltnNge => h; apply: contraR h; rewrite -leqNgt => h; rewrite nth_default ?szv. Qed.
Lemma iv_ne k i : i < nn k -> 0 < size (ivs k i).
Proof. by move=> li; have lk := nn_lt li; case: FO => _ _ h _; rewrite nnE in li; have [] := h k i lk li. Qed.
Lemma iv_le k i m : i < nn k -> m < size (ivs k i) -> ((ivn k i m).1 <= (ivn k i m).2)%O.
Proof. by move=> li lm; have lk := nn_lt li; case: FO => _ _ h _; rewrite nnE in li; have [_ h2 _] := h k i lk li; apply: h2. Qed.
Lemma iv_lt k i m m' : i < nn k -> m < m' -> m' < size (ivs k i) -> ((ivn k i m).2 < (ivn k i m').1)%O.
Proof.
move=> li; elim: m' => // m' IH; rewrite ltnS leq_eqVlt => lm lm'.
have h : ((ivn k i m').2 < (ivn k i m'.+1).1)%O.
  by have lk := nn_lt li; case: FO => _ _ h _; rewrite nnE in li; have [_ _] := h k i lk li; apply.
case/orP: lm => [/eqP -> //|lm]; apply: lt_trans h; apply: lt_le_trans (IH lm (ltnW lm')) _.
by apply: iv_le => //; apply: ltnW.
Qed.
Lemma inside_uniq k i m m' (w : iv) : i < nn k -> m < size (ivs k i) -> m' < size (ivs k i) -> (w.1 <= w.2)%O ->
  inside w (ivn k i m) -> inside w (ivn k i m') -> m = m'.
Proof.
have W a b : i < nn k -> b < size (ivs k i) -> (w.1 <= w.2)%O -> inside w (ivn k i a) -> inside w (ivn k i b) -> a < b -> False.
  move=> li lb le /andP[_ a2] /andP[b1 _] lt; have := iv_lt li lt lb; rewrite ltNge => /negP; apply.
  by apply: le_trans b1 (le_trans le a2).
move=> li lm lm' le i1 i2; case: (ltngtP m m') => // h; exfalso.
- exact: (W m m').
- exact: (W m' m).
Qed.
Lemma face_lt k i j : j < nn k.+1 -> entry (bmx C k.+1) i j != 0%R -> i < nn k.
Proof.
move=> lj n0; have lk := nn_lt lj; case: CW => _ W /(_ k lk)[er _]; rewrite nnE /ncell -er ltnNge; apply: contra n0 => ge.
by apply/eqP; apply: coef_ge ge; have /and3P[] := col_wf k.+1 j.
Qed.
Definition sel k j m i := if m == 0 then 0 else msel k i (ivn k.+1 j m).1.
Lemma face_iv k i j m : j < nn k.+1 -> entry (bmx C k.+1) i j != 0%R -> m < size (ivs k.+1 j) -> exists2 m', m' < size (ivs k i) &
        [/\ inside (ivn k.+1 j m) (ivn k i m'), m = 0%N -> m' = 0%N & (0 < m')%N -> ((ivn k.+1 j m).1 < (ivn k i m').2)%O].
Proof. by move=> lj n0 lm; have lk := nn_lt lj; case: FO => _ _ _ h; apply: h => //; rewrite -nnE. Qed.
Lemma msel_has k i j m : j < nn k.+1 -> entry (bmx C k.+1) i j != 0%R -> m < size (ivs k.+1 j) ->
  ((ivn k i 0).2 < (ivn k.+1 j m).1)%O -> has (fun w : iv => ltv (ivn k.+1 j m).1 w.2) (bh k i).
Proof.
move=> lj n0 lm lt; have [[|m'] lm' [/andP[i1 i2] _ h]] := face_iv lj n0 lm.
  by have := lt_le_trans lt (le_trans (iv_le lj lm) i2); rewrite ltxx.
apply/(has_nthP (a0, a0)); exists m'; first by rewrite size_behead; move: lm'; clear; lia.
by rewrite nth_behead; apply: h.
Qed.
Lemma selP k i j m : j < nn k.+1 -> entry (bmx C k.+1) i j != 0%R -> m < size (ivs k.+1 j) ->
  sel k j m i < size (ivs k i) /\ inside (ivn k.+1 j m) (ivn k i (sel k j m i)).
Proof.
move=> lj n0 lm; have li := face_lt lj n0; have [m' lm' [ins h0 h1]] := face_iv lj n0 lm; rewrite /sel.
case: eqP => [e|_]; first by rewrite -(h0 e).
suff -> : msel k i (ivn k.+1 j m).1 = m' by [].
rewrite /msel; have /andP[i1 i2] := ins; case: m' lm' h0 h1 ins i1 i2 => [|m'] lm' _ h1 _ i1 i2.
  case: ifP => // lt; by have := lt_le_trans lt (le_trans (iv_le lj lm) i2); rewrite ltxx.
rewrite (lt_le_trans (iv_lt li (ltn0Sn m') lm') i1); congr _.+1.
have hm := h1 isT; set P := fun w : iv => _; have lb : m' < size (bh k i) by rewrite size_behead; move: lm'; clear; lia.
have Pm : P (nth (a0, a0) (bh k i) m') by rewrite nth_behead.
case: (ltngtP (find P (bh k i)) m') => // lt.
  have hp : has P (bh k i) by apply/(has_nthP (a0, a0)); exists m'.
  have := nth_find (a0, a0) hp; rewrite /P nth_behead => h; have := lt_trans h _.
  have l2 : (find P (bh k i)).+1 < m'.+1 by [].
  by move=> /(_ _ (lt_le_trans (iv_lt li l2 lm') i1)); rewrite ltxx.
by have := before_find (a0, a0) lt; rewrite Pm.
Qed.

Lemma ncolsz k : size (cols (bmx C k)) = nn k.
Proof. by have /andP[/eqP -> _] := chain_wf_nth k CW; rewrite nnE. Qed.
Lemma col_face k j (p : nat * F) : p \in nth [::] (cols (bmx C k)) j -> entry (bmx C k) p.1 j != 0%R.
Proof. by move=> pc; have /and3P[a b c] := col_wf k j; rewrite /entry (coef_in a pc); apply: (allP c). Qed.
Lemma correct_colE k j m : j < nn k.+1 -> m < size (ivs k.+1 j) ->
  correct_col ltv (vl k) (exl k) (ivn k.+1 j m).1 (nth [::] (cols (bmx C k.+1)) j) =
  Ok (corr k.+1 (ivn k.+1 j m).1 (nth [::] (cols (bmx C k.+1)) j)).
Proof.
move=> lj lm; rewrite /correct_col (omapm_Ok_eq (g := fun p : nat * F => (csel k p.1 (ivn k.+1 j m).1, p.2))) //.
move=> p pc; have n0 := col_face pc; have li := face_lt lj n0.
by rewrite correct_indE //; [exact: iv_ne|exact: msel_has n0 lm].
Qed.
Definition rows k := if k is k1.+1 then tot k1 else nrow (bmx C 0).
Definition stB l k := if k < l then Bl k else CMat (if k == l then rows k else nrow (bmx C k)) (ncol (bmx C k)) (cols (bmx C k)).
Definition stX (B : Type) (f : nat -> seq B) l k := if k < l then f k else [::].
Definition st l : zcc F A := ZCC (mkseq (stB l) (size C)) (mkseq (stX vl l) (size C)) (mkseq (stX cil l) (size C)) (mkseq (stX exl l) (size C)).
Lemma size_csl k : size (csl k) = tot k.
Proof.
rewrite size_cat ncolsz size_fl (eq_off (g := bh k)) // => i _; by rewrite size_ccopy.
Qed.
Lemma zcc_dimE l : l < size C -> zcc_dim ltv a0 val (st l) l = Ok (st l.+1).
Proof.
move=> ll; rewrite /zcc_dim (oget_nth [::]) ?szv //; cbn [obind]; cbv zeta.
rewrite oget_mkseq //; cbn [obind].
have eB : stB l l = CMat (rows l) (ncol (bmx C l)) (cols (bmx C l)) by rewrite /stB ltnn eqxx.
rewrite eB; cbn [cols nrow ncol].
have -> : (if l is k1.+1 then do v1 <- oget (mkseq (stX vl l) (size C)) k1; do e1 <- oget (mkseq (stX exl l) (size C)) k1; Ok (Some (v1, e1)) else Ok None)
  = Ok (if l is k1.+1 then Some (vl k1, exl k1) else None).
  by case: l ll {eB} => // k1 lk; rewrite !oget_mkseq ?(ltnW lk) //; cbn [obind]; rewrite /stX ltnSn.
cbn [obind]; set prev := (X in zcc_cell _ X); set xv := nth [::] val l.
have e0 : ZDim (cols (bmx C l)) (nseq (size xv) (a0, a0)) (nseq (size xv) 0) (nseq (size xv).+1 0) =
   dstate a0 xv (cols (bmx C l)) (corr l) 0 by rewrite /dstate /fl /= !cats0 subn0.
rewrite e0 cells //; first last.
- move=> i w li /In_mem wi.
  have [m lm ew] : exists2 m, m.+1 < size (ivs l i) & w = ivn l i m.+1.
    have /(nthP (a0, a0))[m lm <-] := wi; exists m; last by rewrite nth_behead.
    by move: lm; rewrite size_behead ltn_predRL.
  have {}li : i < nn l by []. rewrite ew /prev; move: li lm; clear -CW FO; by case: l => // k1 li lm; rewrite correct_colE.
- exact: ncolsz.
- by move=> i li; apply: (iv_ne (k := l)).
cbn [obind]; rewrite /dstate; cbn [zd_cs zd_v zd_ci zd_ex].
rewrite -[size xv]/(nn l) !subnn !cat0s -/(csl l) -/(vl l) -/(cil l) size_csl.
have en : tot l - size (cols (bmx C l)) = off (bh l) (nn l) by rewrite ncolsz /tot addKn.
have ec : ncol (bmx C l) + (tot l - size (cols (bmx C l))) = tot l.
  by rewrite en -[ncol _]/(ncell C l) -nnE.
rewrite oset_mkseq //; cbn [obind]; rewrite ec en.
set Cn := mkseq (fun i => if i == l then _ else _) _.
have -> : (if l.+1 < size C then do B1 <- oget Cn l.+1; oset Cn l.+1 (CMat (nrow B1 + off (bh l) (nn l)) (ncol B1) (cols B1)) else Ok Cn)
   = Ok (mkseq (stB l.+1) (size C)).
  have eq1 k : k < size C -> k != l.+1 -> (if k == l then CMat (rows l) (tot l) (csl l) else stB l k) = stB l.+1 k.
    move=> lk ne; rewrite /stB [k < l.+1]ltnS (leq_eqVlt k l) (negbTE ne); case: eqP => [->|/eqP nl] //=.
  case: ifP => lS.
    rewrite oget_mkseq //; cbn [obind]; rewrite oset_mkseq //; congr Ok; apply/eq_in_map => k; rewrite mem_iota /= => lk.
    case: eqP => [->|/eqP ne]; last exact: eq1.
    rewrite (gtn_eqF (ltnSn l)) /stB ltnn eqxx ltnNge leqnSn /= (gtn_eqF (ltnSn l)).
    by case: CW => _ _ /(_ l lS)[er _]; rewrite er -[ncol (bmx C l)]/(ncell C l) -nnE.
  congr Ok; apply/eq_in_map => k; rewrite mem_iota /= => lk; apply: eq1 => //; apply/negP => /eqP e.
  by rewrite e lS in lk.
cbn [obind]; have es : (nn l).+1 - nn l = 1 by rewrite subSnn.
rewrite es -[_ ++ nseq 1 0]cats0 -catA oset_pad ?size_map ?size_iota //; cbn [obind].
rewrite !oset_mkseq //; cbn [obind]; rewrite /st.
have eX (B : Type) (f : nat -> seq B) : mkseq (fun i => if i == l then f l else stX f l i) (size C) = mkseq (stX f l.+1) (size C).
  by apply: eq_mkseq => k; rewrite /stX [k < l.+1]ltnS (leq_eqVlt k l); case: eqP => [->|].
rewrite -!eX; congr (Ok (ZCC _ _ _ _)); apply: eq_mkseq => k; case: ifP => // _.
rewrite /= cats0 /exl -addn1 iotaD map_cat cats1 size_vl /tot add0n; congr rcons.
by apply: eq_map => i; congr (_ + _); apply: eq_off => j _; rewrite size_ccopy.
Qed.
Lemma zcc_makeE : zcc_make ltv a0 C val = Ok (ZCC (mkseq Bl (size C)) (mkseq vl (size C)) (mkseq cil (size C)) (mkseq exl (size C))).
Proof.
rewrite /zcc_make; have e B : nseq (size C) ([::] : seq B) = mkseq (fun _ => [::]) (size C).
  by apply: (@eq_from_nth _ [::]); rewrite size_nseq ?size_mkseq // => i li; rewrite nth_nseq li nth_mkseq.
have e0 : C = mkseq (bmx C) (size C) by apply: (@eq_from_nth _ (CMat 0 0 [::])); rewrite ?size_mkseq // => i li; rewrite nth_mkseq.
have -> : ZCC C (nseq (size C) ([::] : seq iv)) (nseq (size C) ([::] : seq nat)) (nseq (size C) ([::] : seq nat)) = st 0.
  rewrite /st !e; congr ZCC; rewrite {1}e0; apply: eq_mkseq => k; have cmE (B : cmat F) : B = CMat (nrow B) (ncol B) (cols B) by case: B. by case: k => [|k]; exact: cmE.
have H l : l <= size C -> ofold (zcc_dim ltv a0 val) (st 0) (iota 0 l) = Ok (st l).
  elim: l => // l IH ll; rewrite -addn1 iotaD ofold_cat IH ?(ltnW ll) //; cbn [obind ofold iota]; rewrite add0n zcc_dimE //.
  by rewrite addn1.
rewrite szv H // /st; congr (Ok (ZCC _ _ _ _)); apply/eq_in_map => k; rewrite mem_iota /= => lk; by rewrite /stB /stX lk.
Qed.

End S.
