(** From a barcode form to an interval decomposition. *)
From mathcomp Require Import all_ssreflect all_fingroup all_algebra zify.
From Verif Require Import Outcome P_Outcome RingTac M_SparseVec M_Perm M_ColMatrix S_Linalg P_SparseVec
  P_SparseVec2 P_Reduce P_Homology P_Pairing P_ColMatrix M_Fact S_Fact P_Den M_Quiver S_Quiver
  P_Quiver1 P_Quiver2 P_Quiver3 P_Quiver4 P_Quiver5.
Set Implicit Arguments.
Unset Strict Implicit.
Unset Printing Implicit Defensive.
Import GRing.Theory.
Local Open Scope ring_scope.

Section S.
Variable F : fieldType.
Notation O := (ops_of F).
Notation svec := (svec F).
Notation cmat := (cmat F).
Variable d : nat -> nat.
Notation rep := (rep F d).
Variable dg : diagram F.
Notation nm := (nth (m0 F)).

Lemma isorep_lft m (q q' : rep) k : isorep m q q' -> (k < m)%N -> is_lft (q' k) = is_lft (q k).
Proof. by move=> [G _ e] km; rewrite e //; case: (q k). Qed.
Lemma isorep_dirs m (q q' : rep) : isorep m q q' -> dirs dg m q -> dirs dg m q'.
Proof. by move=> I D k km; rewrite (isorep_lft I km); apply: D. Qed.

Lemma pivqE (q : rep) s (j : 'I_(d s.+1)) : pivq q s j = Option.map val [pick i | nmx (q s) i j != 0].
Proof. by rewrite /pivq valK. Qed.

Lemma bars_ok m (q : rep) mats : (0 < m)%N -> nedge dg = m -> size mats = m -> dirs dg m q ->
  (forall k, (k < m)%N -> dene (nm mats k) (q k) /\ pivot_arrow (q k)) ->
  exists2 bars, barcode_from_barcode_form mats dg = Ok bars & exists lab, linv m (trunc d m) (pivq q) bars lab.
Proof.
move=> m0' em sm D H; rewrite /barcode_from_barcode_form D //; cbn [obind].
rewrite (oget_nth (m0 F)) ?sm //; cbn [obind].
have -> : (if is_lft (q 0%N) then nrow (nm mats 0) else ncol (nm mats 0)) = d 0%N.
  by have [+ _] := H _ m0'; case: (q 0%N) => M /= [].
set bars0 := [seq _ | i <- _]; rewrite em.
have pb k j r : pivq q k j = Some r -> (r < d k)%N.
  by rewrite /pivq; case: insub => // jj; case: pickP => //= i _ [<-].
have pin k j j' r : (k < m)%N -> (j < d k.+1)%N -> (j' < d k.+1)%N -> pivq q k j = Some r -> pivq q k j' = Some r -> j = j'.
  move=> km lj lj'; have [_ /pivot_nmx[p1 _]] := H _ km.
  rewrite (pivqE q (Ordinal lj)) (pivqE q (Ordinal lj')); case: pickP => //= i n1 [<-]; case: pickP => //= i' n2 [/val_inj e].
  by rewrite e in n2; have /(congr1 val) := p1 _ _ _ n1 n2.
suff Q n : (n <= m)%N -> exists bars p lab, [/\ ofold (bar_edge dg mats) (bars0, fun i => if (i < d 0)%N then Some i else None) (iota 0 n) = Ok (bars, p),
    linv n (trunc d n) (pivq q) bars lab & forall i, (i < d n)%N -> p i = Some (lab n i)].
  by have [bars [p [lab [-> I _]]]] := Q m (leqnn m); cbn [obind fst]; exists bars => //; exists lab.
elim: n => [|n IH] nm1.
  exists bars0, (fun i => if (i < d 0)%N then Some i else None), (fun s i => i); split=> //; last by move=> i ->.
  have sz : size bars0 = d 0%N by rewrite size_map size_iota.
  have nn b : (b < d 0)%N -> nth b0 bars0 b = Bar 0 b 0 b by move=> lb; rewrite (nth_map 0%N) ?size_iota // nth_iota.
  have t0 s i : (i < trunc d 0 s)%N -> s = 0%N /\ (i < d 0)%N by rewrite /trunc; case: s.
  split=> //.
  - by move=> s i /t0[-> li]; rewrite sz nn.
  - by move=> s b; rewrite sz => lb; rewrite nn // /bal /= leqn0 => /eqP ->; exists b.
  - by move=> b; rewrite sz => lb; rewrite nn.
have [bars [p [lab [e I hp]]]] := IH (ltnW nm1).
rewrite -addn1 iotaD add0n ofold_cat e; cbn [obind iota ofold]; rewrite addn1 /bar_edge D //; cbn [obind].
rewrite (oget_nth (m0 F)) ?sm //; cbn [obind].
have [dE pE] := H _ nm1.
have [B -> dB] : exists2 B, (if is_lft (q n) then Ok (nm mats n) else transpose (nm mats n)) = Ok B & den B (nmx (q n)).
  by case: (q n) dE => M /= dE; [exists (nm mats n)|apply: den_transpose].
cbn [obind]; have [wB nrB ncB eB] := dB.
have sc : size (cols B) = d n.+1 by case/andP: wB => /eqP -> _.
have pvE j : (j < d n.+1)%N -> pivq q n j = pivc (nth [::] (cols B) j).
  move=> lj; rewrite (pivcE (Ordinal lj) dB (pivot_nmx pE)); exact: (pivqE q (Ordinal lj)).
rewrite ncB.
have [bars' [p2 [lab' [-> I' h' o']]]] := bar_cols hp sc pvE (fun j r _ => @pb n j r) (fun j j' r => @pin n j j' r nm1) I (leqnn (d n.+1)).
cbn [obind]; exists bars', p2, lab'; split=> //.
apply: (linv_eqd _ I') => s; rewrite /dset /trunc [in RHS]leq_eqVlt ltnS; case: eqP => [->|ne]; by [].
Qed.

(** rescaling the basis vectors so that all pivots become 1 *)
Fixpoint scal (q : rep) k : 'I_(d k) -> F :=
  match k return 'I_(d k) -> F with
  | 0 => fun _ => 1
  | k'.+1 => fun j => if [pick i | nmx (q k') i j != 0] is Some i then
      (if is_lft (q k') then scal q i / nmx (q k') i j else scal q i * nmx (q k') i j) else 1
  end.
Lemma scal_nz q k (j : 'I_(d k)) : scal q j != 0.
Proof.
elim: k j => [|k IH] j /=; first exact: oner_neq0.
by case: pickP => [i ni|_]; [case: (is_lft _); rewrite ?mulf_neq0 ?invr_eq0|exact: oner_neq0].
Qed.
Definition dgm q k : 'M[F]_(d k) := diag_mx (\row_i scal q i).
Lemma dgm_unit q k : dgm q k \in unitmx.
Proof. by rewrite unitmxE det_diag unitfE; apply/prodf_neq0 => i _; rewrite mxE scal_nz. Qed.
Lemma dgm_inv q k : invmx (dgm q k) = diag_mx (\row_i (scal q i)^-1).
Proof.
apply: (can_inj (mulKmx (dgm_unit q k))); rewrite mulmxV ?dgm_unit // mulmx_diag; apply/matrixP => i j.
by rewrite !mxE mulfV ?scal_nz.
Qed.

Definition labrep (q : rep) (lab : nat -> nat -> nat) : rep := fun k =>
  match q k with
  | Lft _ => Lft (\matrix_(i, j) (lab k i == lab k.+1 j)%:R)
  | Rgt _ => Rgt (\matrix_(i, j) (lab k.+1 i == lab k j)%:R)
  end.
Lemma labrep_iso m (q : rep) bars lab : (forall k, (k < m)%N -> pivot_arrow (q k)) ->
  linv m (trunc d m) (pivq q) bars lab -> isorep m q (labrep q lab).
Proof.
move=> P [h1 h2 h3 h4 h5]; exists (fun k => dgm q k) => [k|k km]; first exact: dgm_unit.
have [p1 p2] := pivot_nmx (P _ km).
have le : forall (i : 'I_(d k)) (j : 'I_(d k.+1)), (lab k i == lab k.+1 j) = (nmx (q k) i j != 0).
  move=> i j; rewrite h5; try by rewrite /trunc ?km ?(ltnW km) ltn_ord.
  rewrite pivqE; case: pickP => [i' n' /=|/(_ i) /= -> //].
  apply/eqP/idP => [[/val_inj <-] //|n]; by rewrite (p2 _ _ _ n' n).
have val_ i (j : 'I_(d k.+1)) : nmx (q k) i j != 0 -> scal q j = if is_lft (q k) then scal q i / nmx (q k) i j else scal q i * nmx (q k) i j.
  by move=> n /=; case: pickP => [i' n'|/(_ i)]; rewrite ?n // (p2 _ _ _ n' n).
rewrite /labrep; case: (q k) (P _ km) p1 p2 le val_ => M pM p1 p2 le val_; cbn [nmx is_lft chbase] in le, val_; cbn [nmx is_lft chbase]; congr (_ _); apply/matrixP => i j.
  rewrite mxE le dgm_inv mul_diag_mx mul_mx_diag !mxE; case: (eqVneq (M i j) 0) => [->|n]; first by rewrite mulr0 mul0r.
  rewrite (_ : (~~ false)%:R = 1 :> F) // (val_ i j) //; have := scal_nz q i; move: (scal q i) (M i j) n => x c n x0; by rewrite mulrACA mulVf // mulfV // mulr1.
have n0 : (M i j != 0) = (M^T j i != 0) by rewrite mxE.
rewrite mxE eq_sym le dgm_inv mul_diag_mx mul_mx_diag !mxE; case: (eqVneq (M i j) 0) => [->|n]; first by rewrite mulr0 mul0r.
rewrite (_ : (~~ false)%:R = 1 :> F) // (val_ j i) ?mxE //; have := scal_nz q j; move: (scal q j) (M i j) n => x c n x0.
by rewrite -mulrA (mulrC c) mulVf // mulf_neq0.
Qed.

Lemma lab_col a b n (A : 'M[F]_(n, a)) (c : 'I_a -> 'I_b -> bool) j :
  col j (A *m \matrix_(i, j) (c i j)%:R) = \sum_(i < a | c i j) col i A.
Proof.
apply/colP => r; rewrite !mxE summxE [RHS]big_mkcond /=; apply: eq_bigr => i _; rewrite mxE.
by case: (c i j); rewrite ?mxE ?mulr1 ?mulr0.
Qed.
Lemma pform_intervals m hdim (q : rep) mats : (0 < m)%N -> denq m dg q -> pform m q mats ->
  exists2 ps, finish dg hdim (Ok mats) = Ok ps & interval_decomposition m hdim q ps.
Proof.
move=> m0' dq [sm [q1 i1 H]]; have D := denq_dirs dq; case: dq => s1 s2 _.
have [bars eb [lab I]] := bars_ok m0' s2 sm (isorep_dirs i1 D) H.
rewrite /finish; cbn [obind]; rewrite eb; cbn [obind]; eexists; first by [].
have [G uG eG] := isorep_trans i1 (labrep_iso (fun k km => (H k km).2) I).
case: I => h1 h2 h3 h4 h5.
have sz : size (bars_to_pairs bars hdim) = size bars by rewrite size_map.
have nn b : (b < size bars)%N -> nth (PPair 0 0 0 0 0) (bars_to_pairs bars hdim) b =
   PPair hdim (b_start_ind (nth b0 bars b)) (b_end_ind (nth b0 bars b)) (b_start (nth b0 bars b)) (b_end (nth b0 bars b)).
  by move=> lb; rewrite (nth_map b0).
have tr k : (k <= m)%N -> trunc d m k = d k by rewrite /trunc => ->.
exists G, lab; split.
- by move=> k _.
- move=> k km; rewrite -(tr k km); split.
  + by move=> i li; have [a b] := h1 _ _ li; rewrite sz nn.
  + exact: h2.
  + by move=> b; rewrite sz => lb; rewrite nn // => /(h3 _ _ lb).
- move=> k km; have l1 := isorep_lft i1 km; have := eG k km; rewrite /labrep.
  case: (q k) l1 => M; case: (q1 k) => M1 //= _ [e] j.
    have {}e : M *m G k.+1 = G k *m \matrix_(i, j) (lab k i == lab k.+1 j)%:R by rewrite e -!mulmxA mulKVmx.
    by rewrite colE mulmxA e -colE lab_col.
  have {}e : M *m G k = G k.+1 *m \matrix_(i, j) (lab k.+1 i == lab k j)%:R by rewrite e -!mulmxA mulKVmx.
  by rewrite colE mulmxA e -colE lab_col.
- move=> b; rewrite sz => lb; rewrite nn //=; have [a [x1 x2] [y1 y2]] := h4 b lb.
  have [sm' em'] : (b_start (nth b0 bars b) <= m)%N /\ (b_end (nth b0 bars b) <= m)%N by move: a; clear; lia.
  by split=> //; [rewrite -(tr _ sm')|rewrite -(tr _ em')].
Qed.

Theorem rightward_intervals m hdim (q : rep) : (0 < m)%N -> denq m dg q ->
  exists2 ps, barcode_rightward O dg hdim = Ok ps & interval_decomposition m hdim q ps.
Proof.
move=> m0' dq; have [ms e pf] := leftright_form m0' dq; rewrite /barcode_rightward e; exact: pform_intervals.
Qed.
Theorem leftward_intervals m hdim (q : rep) : (0 < m)%N -> denq m dg q ->
  exists2 ps, barcode_leftward O dg hdim = Ok ps & interval_decomposition m hdim q ps.
Proof.
move=> m0' dq; have [ms e pf] := rightleft_form m0' dq; rewrite /barcode_leftward e; exact: pform_intervals.
Qed.
End S.
