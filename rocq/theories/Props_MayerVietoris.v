(** C54: mayer_vietoris_boundary is the connecting map of the Mayer-Vietoris sequence. *)
From mathcomp Require Import all_ssreflect all_algebra zify.
From Verif Require Import Outcome M_SparseVec M_Perm M_ColMatrix M_CSC M_Simplicial M_SimplicialMap M_MayerVietoris S_Perm S_Linalg S_Homology S_Induced S_Simplicial
  P_Outcome P_SparseVec P_SparseVec2 P_Trie P_Simplicial P_ScOps P_ScBuild P_ScBoundary P_SimplicialMap P_MayerVietoris Props_Simplicial Props_ScBoundary Props_SimplicialMap.
Set Implicit Arguments.
Unset Strict Implicit.
Unset Printing Implicit Defensive.
Import GRing.Theory.

(** ** specification *)
Definition is_union (X A B : scx) : Prop := forall s, s != [::] -> contains X s <-> contains A s \/ contains B s.
Definition is_inter (Y A B : scx) : Prop := forall s, s != [::] -> contains Y s <-> contains A s /\ contains B s.
(** the k-chain v of X is a chain of the subcomplex A; a is the part of the k-chain z on the simplices of A *)
Definition on (F : fieldType) (A X : scx) k n (v : 'cV[F]_n) : Prop :=
  forall (i : 'I_n) s, cell_is X k i s -> (v i ord0 != 0)%R -> contains A s.
Definition part_on (F : fieldType) (A X : scx) k n (z a : 'cV[F]_n) : Prop :=
  forall (i : 'I_n) s, cell_is X k i s -> (contains A s -> a i ord0 = z i ord0) /\ (~ contains A s -> a i ord0 = 0%R).

(** ** get_simplices *)
Lemma chunk_one dim v s t : size s + size t = dim.+1 -> t != [::] -> chunk_loop dim s (t ++ v) = (s ++ t) :: chunk_loop dim [::] v.
Proof.
elim: t s => // x t IH s; rewrite /= addnS => e _; rewrite size_rcons; case: t IH e => [|y t] IH e.
  by rewrite addn0 in e; rewrite e eqxx cats1.
rewrite ifN; last by move: e; rewrite /=; lia.
by rewrite IH // ?cat_rcons // size_rcons addSn.
Qed.
Lemma chunk_flat dim ss : all (fun s => size s == dim.+1) ss -> chunk_loop dim [::] (flatten ss) = ss.
Proof. by elim: ss => // s ss IH /= /andP [/eqP e al]; rewrite chunk_one ?IH // -size_eq0 e. Qed.
Lemma simplices_ok cl X k : inv cl X -> k < sc_dims X -> sc_simplices X k = Ok (cl k).
Proof.
move=> [[q1 _ _] _ Wi _ _] lk; have [_ w2 [w3 _ _] _] := Wi k lk.
by rewrite /sc_simplices (oget_nth [::]) ?q1 //; cbn [obind]; rewrite w2 chunk_flat.
Qed.

(** ** the columns *)
Definition mvc (clA clY1 : seq (seq nat)) (k : nat) (s : seq nat) : svec int :=
  if s \in clA then [seq (index f.1 clY1, f.2) | f <- [seq (skip (k.+1 - i) s, ((-1) ^+ i.+1)%R) | i <- iota 0 k.+2] & f.1 \in clY1] else [::].

Lemma mv_col_ok clA A clY Y k s : inv clA A -> inv clY Y -> size s = k.+2 -> mv_col A Y k s = Ok (mvc (clA k.+1) (clY k) k s).
Proof.
move=> ivA ivY ss; have [_ _ _ _ TA] := ivA; have [_ _ _ _ TY] := ivY.
have n0 : s != [::] by rewrite -size_eq0 ss.
rewrite /mv_col (find_ok TA n0) ss [k.+2.-1]/= /mvc; cbn [obind]; case: ifP => // _.
pose st t : svec int * int := ([seq (index f.1 (clY k), f.2) | f <- [seq (skip (k.+1 - i) s, ((-1) ^+ i.+1)%R) | i <- iota 0 t] & f.1 \in clY k], ((-1) ^+ t.+1)%R).
have [||w -> ->] := @ofold_iota_ind _ (mv_face Y s k) (fun t x => x = st t) k.+2 ([::], (-1)%R) => //.
move=> t w lt ->; rewrite /mv_face; have lt' : k.+1 - t < size s by rewrite ss; lia.
have sz : size (skip (k.+1 - t) s) = k.+1 by rewrite size_skip // ss.
have nz : skip (k.+1 - t) s != [::] by rewrite -size_eq0 sz.
rewrite (find_ok TY nz) sz [k.+1.-1]/=; cbn [obind]; eexists; first by [].
have e1 : iota 0 t.+1 = rcons (iota 0 t) t by rewrite -addn1 iotaD add0n cats1.
rewrite /st e1 map_rcons filter_rcons /=; congr (_, _); last by rewrite [RHS]exprS mulN1r.
by case: ifP => _ //; rewrite map_rcons.
Qed.

Section OverField.
Variable F : fieldType.
Local Open Scope ring_scope.
Let conv (z : int) : F := z%:~R.

Lemma coef_mvc clA clY1 k s r : size s = k.+2 ->
  coef [seq (p.1, conv p.2) | p <- mvc clA clY1 k s] r =
  (s \in clA)%:R * ((-1) ^+ size s * alt (fun t => ((t \in clY1) && (index t clY1 == r))%:R) s).
Proof.
move=> ss; rewrite /mvc; case: ifP => _; last by rewrite /= coef_nil mul0r.
rewrite mul1r /coef big_map big_map big_filter_cond big_map /alt ss mulr_sumr.
rewrite -(subn0 k.+2) -/(index_iota 0 _) big_mkord subn0 (reindex_inj rev_ord_inj) /= big_mkcond /=.
apply: eq_bigr => i _; rewrite /conv rmorphX rmorphN1.
have -> : (k.+1 - (k.+2 - i.+1) = i)%N by have := ltn_ord i; lia.
case: ifP => h; rewrite ?mulr0 ?mulr1 // -exprD -signr_odd -[RHS]signr_odd; congr ((-1) ^+ nat_of_bool _).
have := ltn_ord i => li; have -> : (k.+2 - i.+1).+1 = (k.+2 - i)%N by lia.
by rewrite oddB 1?ltnW // oddD.
Qed.

(** ** matrices *)
Section Cells.
Variables clA clB clX clY : cells_t.
Variables A B X Y : scx.
Hypothesis (ivA : inv clA A) (ivB : inv clB B) (ivX : inv clX X) (ivY : inv clY Y).
Hypothesis mX : forall k s, (s \in clX k) = (s \in clA k) || (s \in clB k).
Hypothesis mY : forall k s, (s \in clY k) = (s \in clA k) && (s \in clB k).

Definition sel (S : cells_t) k : 'M[F]_(size (clX k)) := diag_mx (\row_i (nth [::] (clX k) i \in S k)%:R).
Definition Dm (cl : cells_t) k : 'M[F]_(size (cl k), size (cl k.+1)) := mxc (size (cl k)) (size (cl k.+1)) [seq bcol F (cl k) s | s <- cl k.+1].
Definition Im k : 'M[F]_(size (clX k), size (clY k)) := mxc (size (clX k)) (size (clY k)) [seq dcolF F (clX k) s | s <- clY k].
Definition Mm k : 'M[F]_(size (clY k), size (clX k.+1)) :=
  mxc (size (clY k)) (size (clX k.+1)) [seq [seq (p.1, conv p.2) | p <- mvc (clA k.+1) (clY k) k s] | s <- clX k.+1].

Lemma selmul S n k (M : 'M[F]_(_, n)) i j : (sel S k *m M) i j = (nth [::] (clX k) i \in S k)%:R * M i j.
Proof. by rewrite /sel mul_diag_mx !mxE. Qed.
Lemma mulsel S n k (M : 'M[F]_(n, _)) i j : (M *m sel S k) i j = M i j * (nth [::] (clX k) j \in S k)%:R.
Proof. by rewrite /sel mul_mx_diag !mxE. Qed.
Lemma selsel S T k : sel S k *m sel T k = diag_mx (\row_i ((nth [::] (clX k) i \in S k) && (nth [::] (clX k) i \in T k))%:R).
Proof.
apply/matrixP => i j; rewrite selmul !mxE; case: (i =P j) => [->|_]; rewrite ?mulr0n ?mulr0 //.
by rewrite !mulr1n; case: (_ \in _); case: (_ \in _); rewrite ?mulr0 ?mul0r ?mulr1.
Qed.
Lemma selC S T k : sel S k *m sel T k = sel T k *m sel S k.
Proof. by rewrite !selsel; congr diag_mx; apply/rowP => i; rewrite !mxE andbC. Qed.
Lemma selI S k : sel S k *m sel S k = sel S k.
Proof. by rewrite selsel; congr diag_mx; apply/rowP => i; rewrite !mxE andbb. Qed.
Lemma sel_cov k : sel clA k + sel clB k - sel clA k *m sel clB k = 1%:M.
Proof.
rewrite selsel -linearD -linearB; apply/matrixP => i j; rewrite !mxE.
have : nth [::] (clX k) j \in clX k by exact: mem_nth.
rewrite mX; case: (i =P j) => [->|_]; rewrite ?mulr0n // mulr1n.
by case: (_ \in _); case: (_ \in _) => //= _; rewrite ?addr0 ?add0r ?subr0 ?addrK.
Qed.
Lemma notsel k : 1%:M - sel clA k = sel clB k *m (1%:M - sel clA k).
Proof. exact: notA (sel_cov k) (selC _ _ _). Qed.

Lemma Dsel S T k : inv S T -> (forall k s, s \in S k -> s \in clX k) -> Dm clX k *m sel S k.+1 = sel S k *m Dm clX k *m sel S k.+1.
Proof.
move=> iv sub; apply/matrixP => i j; rewrite !mulsel selmul; case: (boolP (_ \in S k.+1)) => hj; last by rewrite !mulr0.
case: (boolP (_ \in S k)) => hi; rewrite ?mul1r // mul0r !mulr1 mxE (nth_map [::]) //; set s := nth _ _ j in hj *.
have [_ _ cf] := inv_Wc iv k.+1; rewrite coef_bcol /alt big1 ?mulr0 // => l _.
rewrite /delta; case: eqP => [e|]; rewrite ?mulr0 //.
have fl : skip l s \in S k by exact: cf.
by move: hi; rewrite -e nth_index ?fl //; exact: sub.
Qed.
Lemma subA k s : s \in clA k -> s \in clX k. Proof. by rewrite mX => ->. Qed.
Lemma subB k s : s \in clB k -> s \in clX k. Proof. by rewrite mX => ->; rewrite orbT. Qed.
Lemma subY k s : s \in clY k -> s \in clX k. Proof. by rewrite mY mX => /andP [->]. Qed.

Lemma ImE k i j : Im k i j = (index (nth [::] (clY k) j) (clX k) == i)%:R.
Proof. by rewrite mxE (nth_map [::]) // coef_dcol. Qed.
Lemma sum_pick n (f : 'I_n -> F) (a : nat) (la : (a < n)%N) : \sum_(l < n) (a == l)%:R * f l = f (Ordinal la).
Proof.
rewrite (bigD1 (Ordinal la)) //= eqxx mul1r big1 ?addr0 // => l hl.
by case: eqP => [e|]; rewrite ?mul0r //; case/eqP: hl; apply/val_inj.
Qed.
Lemma inY k (j : 'I_(size (clY k))) : (index (nth [::] (clY k) j) (clX k) < size (clX k))%N.
Proof. by rewrite index_mem; apply: subY; exact: mem_nth. Qed.
Lemma JI k : (Im k)^T *m Im k = 1%:M.
Proof.
apply/matrixP => i j; rewrite !mxE; under eq_bigr => l _ do rewrite mxE !ImE.
rewrite (sum_pick _ (inY i)) /=; congr (nat_of_bool _)%:R; apply/eqP/eqP => [e|->] //.
apply/val_inj/eqP; have [_ u _] := inv_Wc ivY k.
rewrite -(nth_uniq [::] (ltn_ord i) (ltn_ord j) u); apply/eqP.
have yi : nth [::] (clY k) i \in clX k by apply: subY; exact: mem_nth.
have yj : nth [::] (clY k) j \in clX k by apply: subY; exact: mem_nth.
by rewrite -(nth_index [::] yi) -(nth_index [::] yj) e.
Qed.
Lemma IJ k : Im k *m (Im k)^T = sel clA k *m sel clB k.
Proof.
rewrite selsel; apply/matrixP => i j; rewrite !mxE; under eq_bigr => l _ do rewrite [(_^T)%R _ _]mxE !ImE.
have [_ u _] := inv_Wc ivX k; have [_ uY _] := inv_Wc ivY k; rewrite -mY.
case: (boolP (_ \in clY k)) => h; last first.
  rewrite big1 ?mul0rn // => l _; case: eqP => [e|]; rewrite ?mul0r //.
  by case/negP: h; rewrite -e nth_index ?subY // mem_nth.
have lt : (index (nth [::] (clX k) i) (clY k) < size (clY k))%N by rewrite index_mem.
rewrite (bigD1 (Ordinal lt)) //= nth_index // index_uniq // eqxx mul1r big1 ?addr0 ?mulr1n.
  by congr (nat_of_bool _)%:R; apply/eqP/eqP => [|->] //; exact: val_inj.
move=> l hl; case: eqP => [e|]; rewrite ?mul0r //; case/eqP: hl; apply/val_inj => /=.
by rewrite -e nth_index ?index_uniq // subY // mem_nth.
Qed.
Lemma DI k : Dm clX k *m Im k.+1 = Im k *m Dm clY k.
Proof.
apply: (incl_commutes (b := bcol F) (fs := fun s => [seq (skip j s, (-1) ^+ size s * (-1) ^+ j) | j <- iota 0 (size s)])).
- move=> c t i; rewrite coef_bcol /alt big_map mulr_sumr -(subn0 (size t)) -/(index_iota 0 _) big_mkord subn0.
  by apply: eq_bigr => j _; rewrite mulrA.
- exact: subY.
move=> s f si /mapP [j]; rewrite mem_iota add0n => lj -> /=; have [_ _ cf] := inv_Wc ivY k.+1; exact: cf.
Qed.
Lemma DD k : Dm clX k *m Dm clX k.+1 = 0.
Proof. exact: (bmat_square F k.+1 ivX). Qed.
Lemma MmE k : Mm k = (Im k)^T *m Dm clX k *m sel clA k.+1.
Proof.
apply/matrixP => i j; rewrite mulsel mxE (nth_map [::]) //; set s := nth [::] _ j.
have si : s \in clX k.+1 by exact: mem_nth.
have ss := cl_size ivX si; rewrite coef_mvc //.
rewrite mxE; under eq_bigr => l _ do rewrite [(_^T)%R _ _]mxE ImE.
rewrite (sum_pick _ (inY i)) mxE (nth_map [::]) // -/s coef_bcol /= mulrC; congr (_ * _ * _); apply: eq_bigr => l _; congr (_ * _).
have [_ _ cf] := inv_Wc ivX k.+1; have fl := cf _ si l (ltn_ord l).
have yi : nth [::] (clY k) i \in clY k by exact: mem_nth.
have [_ uY _] := inv_Wc ivY k.
rewrite /delta; congr (nat_of_bool _)%:R; apply/andP/eqP => [[h /eqP <-]|e]; first by rewrite nth_index.
have e2 : skip l s = nth [::] (clY k) i by rewrite -(nth_index [::] fl) e nth_index // subY.
by rewrite e2 yi index_uniq.
Qed.
Lemma cyc_low k (u : 'cV[F]_(size (clY k))) (v : 'cV_(size (clX k.+1))) : Im k *m u = Dm clX k *m v ->
  mxc (nrow (bmat F clY k)) (size (clY k)) (cols (bmat F clY k)) *m u = 0.
Proof.
case: k u v => [|k] u v e.
  have -> : mxc (nrow (bmat F clY 0)) (size (clY 0%N)) (cols (bmat F clY 0)) = 0; last by rewrite mul0mx.
  by apply/matrixP => i j; rewrite !mxE /= nth_nseq; case: ifP => _; rewrite coef_nil.
rewrite [nrow _]/= [cols _]/= -/(Dm clY k) -[LHS]mul1mx -(JI k) -mulmxA (mulmxA (Im k)) -DI -mulmxA e (mulmxA (Dm _ _)) DD.
by rewrite mul0mx mulmx0.
Qed.
End Cells.

Lemma in_cl cl X k s : inv cl X -> size s = k.+1 -> contains X s <-> s \in cl k.
Proof.
move=> iv ss; have n0 : s != [::] by rewrite -size_eq0 ss.
by have := contains_iff iv n0; rewrite ss.
Qed.
Lemma cl_wrong cl X k s : inv cl X -> size s != k.+1 -> (s \in cl k) = false.
Proof. by move=> iv ne; apply/negP => /(cl_size iv) e; rewrite e eqxx in ne. Qed.
Lemma union_cl clA clB clX A B X : inv clA A -> inv clB B -> inv clX X -> is_union X A B ->
  forall k s, (s \in clX k) = (s \in clA k) || (s \in clB k).
Proof.
move=> iA iB iX u k s; case: (eqVneq (size s) k.+1) => [ss|ne]; last by rewrite (cl_wrong iX ne) (cl_wrong iA ne) (cl_wrong iB ne).
have n0 : s != [::] by rewrite -size_eq0 ss.
have := u s n0; rewrite (in_cl iX ss) (in_cl iA ss) (in_cl iB ss) => h; by apply/idP/orP => /h.
Qed.
Lemma inter_cl clA clB clY A B Y : inv clA A -> inv clB B -> inv clY Y -> is_inter Y A B ->
  forall k s, (s \in clY k) = (s \in clA k) && (s \in clB k).
Proof.
move=> iA iB iX u k s; case: (eqVneq (size s) k.+1) => [ss|ne]; last by rewrite (cl_wrong iX ne) (cl_wrong iA ne) (cl_wrong iB ne).
have n0 : s != [::] by rewrite -size_eq0 ss.
have := u s n0; rewrite (in_cl iX ss) (in_cl iA ss) (in_cl iB ss) => h; by apply/idP/andP => /h.
Qed.

Lemma onE clS S clX X k (v : 'cV[F]_(size (clX k))) : inv clS S -> inv clX X -> on S X k v <-> sel clX clS k *m v = v.
Proof.
move=> iS iX; split=> [h|h i s /(cell_is_iff k i s iX) [li es] nz].
  apply/colP => i; rewrite selmul; case: (eqVneq (v i ord0) 0) => [->|nz]; first by rewrite mulr0.
  have := h i _ (proj2 (cell_is_iff _ _ _ iX) (conj (ltn_ord i) erefl)) nz.
  by rewrite (in_cl iS (cl_size iX (mem_nth _ (ltn_ord i)))) => ->; rewrite mul1r.
have si : s \in clX k by rewrite es mem_nth.
apply/(in_cl iS (cl_size iX si)); move: h => /colP /(_ i); rewrite selmul -es.
by case: (s \in _) => //; rewrite mul0r => e; rewrite -e eqxx in nz.
Qed.
Lemma partE clS S clX X k (z a : 'cV[F]_(size (clX k))) : inv clS S -> inv clX X -> part_on S X k z a -> a = sel clX clS k *m z.
Proof.
move=> iS iX h; apply/colP => i; rewrite selmul.
have [h1 h2] := h i _ (proj2 (cell_is_iff _ _ _ iX) (conj (ltn_ord i) erefl)).
have ic := in_cl iS (cl_size iX (mem_nth [::] (ltn_ord i))).
case: (boolP (_ \in _)) => m; first by rewrite mul1r h1 //; exact/ic.
by rewrite mul0r h2 // => /ic; exact/negP.
Qed.

Lemma ncell_all cl X k : inv cl X -> ncell [seq bmat F cl k | k <- iota 0 (sc_dims X)] k = size (cl k).
Proof.
move=> iv; case: (ltnP k (sc_dims X)) => lk; first exact: ncell_chain.
by case: iv => _ _ _ Ci _; rewrite /ncell /bmx nth_default ?size_map ?size_iota // Ci.
Qed.
Lemma cols_all cl X k : inv cl X -> cols (bmx [seq bmat F cl k | k <- iota 0 (sc_dims X)] k.+1) = [seq bcol F (cl k) s | s <- cl k.+1].
Proof.
move=> iv; case: (ltnP k.+1 (sc_dims X)) => lk; first by rewrite bmx_chain.
by case: iv => _ _ _ Ci _; rewrite /bmx nth_default ?size_map ?size_iota //; rewrite (Ci k.+1 lk).
Qed.

Lemma cycle_bd1 (C : seq (cmat F)) k (z : 'cV[F]_(ncell C k.+1)) : nrow (bmx C k.+1) = ncell C k -> cycle z <-> bd1 C k *m z = 0.
Proof. by rewrite /cycle /bd /bd1 /mx => e; rewrite {}e. Qed.

Lemma cycle_iff cl n k (u : 'cV[F]_(ncell [seq bmat F cl k | k <- iota 0 n] k)) : (k < n)%N ->
  cycle u <-> mxc (nrow (bmat F cl k)) (ncell [seq bmat F cl k | k <- iota 0 n] k) (cols (bmat F cl k)) *m u = 0.
Proof. by move=> lk; move: u; rewrite /cycle /bd /mx /ncell bmx_chain. Qed.

(** ** C54 *)
Section MayerVietoris.
Variables (A B X Y : scx) (k : nat).
Hypothesis (bA : built A) (bB : built B) (bX : built X) (bY : built Y).
Hypothesis (uX : is_union X A B) (iY : is_inter Y A B).
Hypothesis (kX : (k.+1 < sc_dims X)%N) (kY : (k < sc_dims Y)%N).

(** the call returns a matrix of the right shape *)
Theorem C54_defined : exists2 M, mayer_vietoris_boundary A X Y k = Ok M &
  [/\ sc_ncell Y k = Ok (nrow M), sc_ncell X k.+1 = Ok (ncol M) & size (cols M) = ncol M].
Proof.
have [clA ivA _] := built_inv bA; have [clX ivX _] := built_inv bX; have [clY ivY _] := built_inv bY.
rewrite /mayer_vietoris_boundary (ncell_ok ivX kX) (ncell_ok ivY kY) (simplices_ok ivX kX); cbn [obind].
rewrite (omapm_Ok_eq (g := mvc (clA k.+1) (clY k) k)); last by move=> s si; apply: mv_col_ok => //; exact: cl_size ivX si.
by cbn [obind]; eexists; first by []; rewrite /= size_map.
Qed.

Variables (M : cmat int) (C D : seq (cmat F)) (Fs : seq (cmat int)).
Hypothesis EM : mayer_vietoris_boundary A X Y k = Ok M.
Hypothesis (EC : sc_chain conv X = Ok C) (ED : sc_chain conv Y = Ok D).
Hypothesis (EF : sc_inclusion Y X = Ok Fs) (dYX : (sc_dims Y <= sc_dims X)%N).
(** the matrix over F, and the inclusion of Y in X in dimension k *)
Let delta : 'M[F]_(ncell D k, ncell C k.+1) := mxc (ncell D k) (ncell C k.+1) (cols (cm_conv conv M)).
Let incl : 'M[F]_(ncell C k, ncell D k) := fmx D C (chain_of conv Fs) k.

Lemma mv_form : exists clA clB clX clY, 
  [/\ [/\ inv clA A, inv clB B, inv clX X & inv clY Y],
      (forall k s, (s \in clX k) = (s \in clA k) || (s \in clB k)) /\ (forall k s, (s \in clY k) = (s \in clA k) && (s \in clB k)),
      C = [seq bmat F clX k | k <- iota 0 (sc_dims X)] /\ D = [seq bmat F clY k | k <- iota 0 (sc_dims Y)],
      cols (cm_conv conv M) = [seq [seq (p.1, conv p.2) | p <- mvc (clA k.+1) (clY k) k s] | s <- clX k.+1] &
      cols (bmx (chain_of conv Fs) k) = [seq dcolF F (clX k) s | s <- clY k]].
Proof.
have [clA ivA _] := built_inv bA; have [clB ivB _] := built_inv bB; have [clX ivX dX] := built_inv bX; have [clY ivY dY] := built_inv bY.
exists clA, clB, clX, clY; split=> //.
- by split; [exact: union_cl ivA ivB ivX uX|exact: inter_cl ivA ivB ivY iY].
- by move: EC ED; rewrite (chain_ok F ivX dX) (chain_ok F ivY dY) => -[->] [->].
- move: EM; rewrite /mayer_vietoris_boundary (ncell_ok ivX kX) (ncell_ok ivY kY) (simplices_ok ivX kX); cbn [obind].
  rewrite (omapm_Ok_eq (g := mvc (clA k.+1) (clY k) k)); last by move=> s si; apply: mv_col_ok => //; exact: cl_size ivX si.
  by cbn [obind] => -[<-]; rewrite /= -map_comp.
have [-> _] := sc_incl_inv ivY ivX dYX EF; by rewrite nth_imat.
Qed.

(** a cycle z of X is mapped to the boundary of its part in A; that boundary lies in Y, and is a cycle of Y *)
Theorem C54_connecting (z a : 'cV[F]_(ncell C k.+1)) : cycle z -> part_on A X k.+1 z a ->
  incl *m (delta *m z) = bd1 C k *m a /\ cycle (delta *m z).
Proof.
have [clA [clB [clX [clY [[ivA ivB ivX ivY] [mX mY] [eC eD] eM eF]]]]] := mv_form.
rewrite cycle_bd1; last by rewrite eC bmx_chain // ncell_all.
have cy (u : 'cV[F]_(ncell D k)) : cycle u <-> mxc (nrow (bmat F clY k)) (ncell D k) (cols (bmat F clY k)) *m u = 0.
  by move: u; rewrite eD => u; exact: cycle_iff.
rewrite cy.
move: z a; rewrite /incl /delta /fmx /bd1 eM eF eC eD !(ncell_all _ ivX) !(ncell_all _ ivY) (cols_all _ ivX) => z a Dz /(partE ivA ivX) ->.
have cn : Im clX clY k *m (Mm clA clX clY k *m z) = Dm clX k *m (sel clX clA k.+1 *m z).
  rewrite (MmE ivX ivY mX mY) //; apply: mv_conn Dz.
  - exact: Dsel ivA (subA mX).
  - exact: Dsel ivB (subB mX).
  - exact: sel_cov.
  - exact: selC.
  - exact: selC.
  - exact: (IJ ivX ivY mX mY).
split; [exact: cn|exact: (cyc_low ivX ivY mX mY cn)].
Qed.

(** homologous cycles of X have homologous images: the map on homology is well defined *)
Theorem C54_homology (z z' : 'cV[F]_(ncell C k.+1)) : homologous z z' -> homologous (delta *m z) (delta *m z').
Proof.
have [clA [clB [clX [clY [[ivA ivB ivX ivY] [mX mY] [eC eD] eM eF]]]]] := mv_form.
rewrite /homologous; move: z z'; rewrite /delta /bd1 eM eC eD !(ncell_all _ ivX) !(ncell_all _ ivY) (cols_all _ ivX) (cols_all _ ivY) => z z' [w ew].
rewrite -mulmxBr ew; eexists; rewrite -/(Mm clA clX clY k) (MmE ivX ivY mX mY) //.
apply: (mv_kill (A0 := sel clX clA k) (B0 := sel clX clB k) (B1 := sel clX clB k.+1) (I0 := Im clX clY k) (I1 := Im clX clY k.+1) (J1 := (Im clX clY k.+1)^T)).
- exact: Dsel ivA (subA mX).
- exact: Dsel ivB (subB mX).
- exact: sel_cov.
- exact: selC.
- exact: selC.
- exact: selI.
- exact: (IJ ivX ivY mX mY).
- exact: (IJ ivX ivY mX mY).
- exact: (JI ivY mX mY).
- exact: (DI ivY mX mY).
- exact: (DD ivX).
- exact: Dsel ivA (subA mX).
- exact: Dsel ivB (subB mX).
- exact: notsel.
Qed.

(** exact at H(X): a cycle of X is mapped to a boundary of Y exactly when it is the sum of a cycle of A and a cycle of B *)
Theorem C54_exact_X (z : 'cV[F]_(ncell C k.+1)) : cycle z ->
  homologous (delta *m z) 0 <-> exists a b, [/\ z = a + b, on A X k.+1 a /\ cycle a & on B X k.+1 b /\ cycle b].
Proof.
have [clA [clB [clX [clY [[ivA ivB ivX ivY] [mX mY] [eC eD] eM eF]]]]] := mv_form.
have nr : nrow (bmx C k.+1) = ncell C k by rewrite eC bmx_chain // ncell_all.
have H : bd1 C k *m z = 0 -> (exists y, delta *m z = bd1 D k *m y) <->
    exists a b, [/\ z = a + b, on A X k.+1 a, on B X k.+1 b, bd1 C k *m a = 0 & bd1 C k *m b = 0].
  move: z; rewrite /delta /bd1 eM eC eD !(ncell_all _ ivX) !(ncell_all _ ivY) (cols_all _ ivX) (cols_all _ ivY) => z Dz.
  rewrite -/(Mm clA clX clY k) (MmE ivX ivY mX mY) // -/(Dm clX k) -/(Dm clY k).
  rewrite (mv_exactX (A0 := sel clX clA k) (B0 := sel clX clB k) (B1 := sel clX clB k.+1) (I0 := Im clX clY k) (I1 := Im clX clY k.+1) (J1 := (Im clX clY k.+1)^T)) //.
  - by split=> -[a [b [h1 h2 h3 h4 h5]]]; exists a, b; split=> //; [apply/(onE _ ivA ivX)|apply/(onE _ ivB ivX)|apply/(onE _ ivA ivX)|apply/(onE _ ivB ivX)].
  - exact: Dsel ivA (subA mX).
  - exact: Dsel ivB (subB mX).
  - exact: sel_cov.
  - exact: selC.
  - exact: selC.
  - exact: selI.
  - exact: selI.
  - exact: (IJ ivX ivY mX mY).
  - exact: (IJ ivX ivY mX mY).
  - exact: (JI ivY mX mY).
  - exact: (JI ivY mX mY).
  - exact: (DI ivY mX mY).
rewrite (cycle_bd1 _ nr) => Dz; rewrite /homologous subr0 (H Dz).
by split=> [[a [b [h1 h2 h3 h4 h5]]]|[a [b [h1 [h2 h4] [h3 h5]]]]]; exists a, b; split=> //; rewrite ?(cycle_bd1 _ nr) //; [move: h4|move: h5]; rewrite cycle_bd1.
Qed.

(** exact at H(Y): a chain of Y bounds both in A and in B exactly when it is homologous to the image of a cycle of X *)
Theorem C54_exact_Y (y : 'cV[F]_(ncell D k)) :
  (exists a b, [/\ on A X k.+1 a, on B X k.+1 b, bd1 C k *m a = incl *m y & bd1 C k *m b = incl *m y]) <->
  exists2 z : 'cV[F]_(ncell C k.+1), cycle z & homologous y (delta *m z).
Proof.
have [clA [clB [clX [clY [[ivA ivB ivX ivY] [mX mY] [eC eD] eM eF]]]]] := mv_form.
have nr : nrow (bmx C k.+1) = ncell C k by rewrite eC bmx_chain // ncell_all.
have H : (exists a b, [/\ on A X k.+1 a, on B X k.+1 b, bd1 C k *m a = incl *m y & bd1 C k *m b = incl *m y]) <->
    exists2 z, bd1 C k *m z = 0 & exists w, y - delta *m z = bd1 D k *m w.
  move: y; rewrite /incl /fmx /delta /bd1 eM eF eC eD !(ncell_all _ ivX) !(ncell_all _ ivY) (cols_all _ ivX) (cols_all _ ivY) => y.
  rewrite -/(Mm clA clX clY k) (MmE ivX ivY mX mY) // -/(Dm clX k) -/(Dm clY k) -/(Im clX clY k).
  rewrite -(mv_exactY (A0 := sel clX clA k) (B0 := sel clX clB k) (B1 := sel clX clB k.+1) (I0 := Im clX clY k) (I1 := Im clX clY k.+1) (J1 := (Im clX clY k.+1)^T)) //.
  - by split=> -[a [b [h2 h3 h4 h5]]]; exists a, b; split=> //; [apply/(onE _ ivA ivX)|apply/(onE _ ivB ivX)|apply/(onE _ ivA ivX)|apply/(onE _ ivB ivX)].
  - exact: Dsel ivA (subA mX).
  - exact: Dsel ivB (subB mX).
  - exact: sel_cov.
  - exact: selC.
  - exact: selC.
  - exact: selI.
  - exact: selI.
  - exact: (IJ ivX ivY mX mY).
  - exact: (IJ ivX ivY mX mY).
  - exact: (JI ivY mX mY).
  - exact: (JI ivY mX mY).
  - exact: (DI ivY mX mY).
by rewrite H; split=> -[z cz hz]; exists z => //; move: cz; rewrite cycle_bd1.
Qed.
End MayerVietoris.
End OverField.

(** simplicial_union and intersection of complexes of sorted simplices are as required *)
Theorem C54_union_inter A B X Y : built A -> built B -> (forall s, contains A s \/ contains B s -> sorted leq s) ->
  sc_union A B = Ok X -> sc_inter A B = Ok Y -> is_union X A B /\ is_inter Y A B.
Proof.
move=> bA bB so EX EY; split=> s n0; last exact: C23_intersection EY.
rewrite (C23_union bA bB n0 EX); split.
  by case=> -[t [ct nt] ->]; rewrite (sorted_sort leq_trans) //; [left|apply: so; left|right|apply: so; right].
by move=> h; have e := sorted_sort leq_trans (so s h); case: h => h; [left|right]; exists s; rewrite ?e.
Qed.

(** a circle as the union of two arcs *)
Definition all_sorted (X : scx) : bool :=
  all (fun k => if sc_ncell X k is Ok n then all (fun i => if sc_simplex X k i is Ok s then sorted leq s else true) (iota 0 n) else true) (iota 0 (sc_dims X)).
Lemma all_sortedP X s : built X -> all_sorted X -> contains X s -> sorted leq s.
Proof.
move=> bX al; case: (eqVneq s [::]) => [->//|n0 cs]; have [cl iv _] := built_inv bX.
have si : s \in cl (size s).-1 by apply/(contains_iff iv n0).
have li : index s (cl (size s).-1) < size (cl (size s).-1) by rewrite index_mem.
have lk : (size s).-1 < sc_dims X by rewrite ltnNge; apply/negP => h; case: iv si => _ _ _ Ci _; rewrite Ci.
move: al => /allP /(_ (size s).-1); rewrite mem_iota add0n lk (ncell_ok iv lk) => /(_ isT) /allP /(_ (index s (cl (size s).-1))).
by rewrite mem_iota add0n li (simplex_ok iv li) nth_index // => /(_ isT).
Qed.

Definition ex_add2 (s t : seq nat) : scx :=
  if sc_add_recursive (sc_new 0) s is Ok (X, _) then if sc_add_recursive X t is Ok (Y, _) then Y else X else sc_new 0.
Lemma ex_add2_built s t : built (ex_add2 s t).
Proof.
rewrite /ex_add2; case E: (sc_add_recursive _ _) => [[X r]| | |]; try exact: built_new.
have bX : built X by apply: built_add_recursive E; exact: built_new.
by case E2: (sc_add_recursive _ _) => [[Z q]| | |]; try exact: bX; exact: built_add_recursive E2.
Qed.
Definition ex_arcA : scx := ex_add2 [:: 2] [:: 0; 2].
Definition ex_arcB : scx := ex_add2 [:: 0; 1] [:: 1; 2].
Definition okx (r : outcome scx) : scx := if r is Ok X then X else sc_new 0.
Definition ex_circle : scx := okx (sc_union ex_arcA ex_arcB).
Definition ex_ends : scx := okx (sc_inter ex_arcA ex_arcB).
(** the hypotheses of C54 are met; the column of the edge 02 is not sorted: TC(inds, vals) keeps the order in which the faces are
    visited, and BATS requires sorted columns *)
Theorem C54_unsorted :
  [/\ [/\ built ex_arcA, built ex_arcB, built ex_circle & built ex_ends], is_union ex_circle ex_arcA ex_arcB /\ is_inter ex_ends ex_arcA ex_arcB,
      1 < sc_dims ex_circle /\ 0 < sc_dims ex_ends <= sc_dims ex_circle,
      exists Fs, sc_inclusion ex_ends ex_circle = Ok Fs &
      mayer_vietoris_boundary ex_arcA ex_circle ex_ends 0 = Ok (CMat 2 3 [:: [:: (1, (-1)%R); (0, 1%R)]; [::]; [::]])].
Proof.
have bA : built ex_arcA := ex_add2_built [:: 2] [:: 0; 2]; have bB : built ex_arcB := ex_add2_built [:: 0; 1] [:: 1; 2].
have EX : sc_union ex_arcA ex_arcB = Ok ex_circle by clear; vm_cast_no_check (erefl (Ok ex_circle)).
have EY : sc_inter ex_arcA ex_arcB = Ok ex_ends by clear; vm_cast_no_check (erefl (Ok ex_ends)).
have sA : all_sorted ex_arcA by clear; vm_cast_no_check (erefl true).
have sB : all_sorted ex_arcB by clear; vm_cast_no_check (erefl true).
split.
- split; [exact: bA|exact: bB|exact: built_union bA bB EX|exact: built_inter bA bB EY].
- apply: (C54_union_inter bA bB _ EX EY) => s [] c; [exact: all_sortedP bA sA c|exact: all_sortedP bB sB c].
- split; [by clear; vm_compute|by clear; vm_compute].
- by clear; eexists; vm_compute; reflexivity.
- clear; vm_compute; reflexivity.
Qed.
