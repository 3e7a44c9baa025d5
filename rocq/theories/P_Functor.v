(** Proofs about functors between diagrams. *)
From mathcomp Require Import all_ssreflect all_fingroup all_algebra zify.
From Verif Require Import Outcome P_Outcome M_SparseVec M_ColMatrix M_Reduce M_Homology M_Induced S_Linalg S_Homology S_Induced P_SparseVec
  P_Induced M_Fact S_Fact P_Den P_Reduce M_Quiver S_Quiver P_Quiver7 M_Functor S_Functor Props_Quiver.
Set Implicit Arguments.
Unset Strict Implicit.
Unset Printing Implicit Defensive.
Import GRing.Theory.
Local Open Scope ring_scope.

(** ** the parallel loops *)
Section Fill.
Variables (N : Type) (f : nat -> outcome N) (y : nat -> N) (n : nat).
Hypothesis fE : forall i, (i < n)%N -> f i = Ok (y i).
Lemma fill_gen x0 (v : seq N) ord : size v = n -> all (fun i => i < n)%N ord ->
  fill f v ord = Ok (mkseq (fun i => if i \in ord then y i else nth x0 v i) n).
Proof.
elim: ord v => [|i ord IH] v sv /=.
  by move=> _; rewrite -[in LHS](mkseq_nth x0 v) sv.
move=> /andP[li al]; rewrite /fill /= fE //=; rewrite (oset_Ok x0) ?sv //=.
have := IH (set_nth x0 v i (y i)) _ al; rewrite /fill => ->; last by rewrite size_set_nth sv; apply/maxn_idPr.
congr Ok; apply: eq_mkseq => j; rewrite in_cons nth_setE; case: ifP => _; first by rewrite orbT.
by rewrite orbF; case: eqP => [->|].
Qed.
Lemma fillE x0 ord : perm_eq ord (iota 0 n) -> fill f (nseq n x0) ord = Ok (mkseq y n).
Proof.
move=> pe; have al : all (fun i => i < n)%N ord by rewrite (perm_all _ pe); apply/allP => i; rewrite mem_iota.
rewrite (fill_gen x0) ?size_nseq //; congr Ok; rewrite /mkseq; apply/eq_in_map => i; by rewrite (perm_mem pe) => ->.
Qed.
End Fill.

Section Functor.
Variables (N E N' E' : Type) (n0 : N') (e0 : E') (dn : N) (de : E).
Lemma functorE (fn : N -> outcome N') (fe : E -> N' -> N' -> outcome E') ordn orde (D : dgm N E) (yn : nat -> N') (ye : nat -> E') :
  perm_eq ordn (iota 0 (size (d_node D))) -> perm_eq orde (iota 0 (size (d_edata D))) ->
  size (d_elist D) = size (d_edata D) ->
  (forall i, (i < size (d_node D))%N -> fn (nth dn (d_node D) i) = Ok (yn i)) ->
  (forall j, (j < size (d_edata D))%N -> let e := nth (0, 0)%N (d_elist D) j in
     [/\ (e.1 < size (d_node D))%N, (e.2 < size (d_node D))%N &
         fe (nth de (d_edata D) j) (yn e.1) (yn e.2) = Ok (ye j)]) ->
  functor n0 e0 fn fe ordn orde D = Ok (Diagram (mkseq yn (size (d_node D))) (mkseq ye (size (d_edata D))) (d_elist D)).
Proof.
move=> pn pe sz hn he; rewrite /functor (@fillE _ _ yn) //; last first.
  by move=> i li; rewrite (oget_nth dn) //=; exact: hn.
cbn [obind]; rewrite (@fillE _ _ (fun j => (ye j, nth (0, 0)%N (d_elist D) j))) //; last first.
  move=> j lj; have [h1 h2 h3] := he j lj; rewrite (oget_nth (0, 0)%N) ?sz //; cbn [obind]; rewrite (oget_nth de) //; cbn [obind].
  rewrite !(oget_nth n0) ?size_mkseq //; cbn [obind]; rewrite !nth_mkseq // h3; cbn [obind].
  by case: (nth (0, 0)%N _ _).
cbn [obind]; congr (Ok (Diagram _ _ _)); rewrite -map_comp; first exact: eq_map.
apply: (@eq_from_nth _ (0, 0)%N); rewrite size_map size_iota ?sz // => j lj.
by rewrite (nth_map 0%N) ?size_iota // nth_iota.
Qed.
End Functor.

(** ** counting intervals *)
Lemma counts_perm m ps ps' :
  all (fun p => p_birth p <= p_death p <= m)%N ps -> all (fun p => p_birth p <= p_death p <= m)%N ps' ->
  (forall s t, (s <= t)%N -> (t <= m)%N -> count (over s t) ps = count (over s t) ps') ->
  perm_eq [seq (p_birth p, p_death p) | p <- ps] [seq (p_birth p, p_death p) | p <- ps'].
Proof.
move=> R R' N.
have N' s t : (s <= t)%N -> count (over s t) ps = count (over s t) ps'.
  move=> st; case: (leqP t m) => [|mt]; first exact: N.
  have z ps0 : all (fun p => p_birth p <= p_death p <= m)%N ps0 -> count (over s t) ps0 = 0%N.
    move: mt; clear; elim: ps0 => //= p l IH mt /andP[hp /(IH mt) ->]; rewrite addn0.
    by move: mt hp; rewrite /over; clear; lia.
  by rewrite (z _ R) (z _ R').
pose ex b e (p : ppair) := (p_birth p == b) && (p_death p == e).
have E ps0 b e : (b <= e)%N -> (count (ex b e) ps0 + (if b is b'.+1 then count (over b' e) ps0 else 0) + count (over b e.+1) ps0 =
   count (over b e) ps0 + (if b is b'.+1 then count (over b' e.+1) ps0 else 0))%N.
  move=> be; elim: ps0 => [|p ps0]; first by case: b be.
  case: b be => [|b] be /=; rewrite /ex /over; move: be; clear; lia.
have cm ps0 b e : count_mem (b, e) [seq (p_birth p, p_death p) | p <- ps0] = count (ex b e) ps0.
  by rewrite count_map; apply: eq_count => p; rewrite /= /ex xpair_eqE.
apply/allP => -[b e]; rewrite mem_cat => h.
have be : (b <= e)%N.
  have R2 ps0 : all (fun p => p_birth p <= p_death p <= m)%N ps0 -> all (fun x => x.1 <= x.2)%N [seq (p_birth p, p_death p) | p <- ps0].
    by rewrite all_map; apply: sub_all => p /andP[].
  by case/orP: h => h; [exact: (allP (R2 _ R) _ h)|exact: (allP (R2 _ R') _ h)].
rewrite /= !cm; have := E ps b e be; have := E ps' b e be; rewrite !N' ?leqW //.
case: b be {h} => [|b] be; rewrite ?N' ?leqW ?(ltnW be) //; clear; lia.
Qed.

(** ** linear algebra: a basis Z of K / B (rows are vectors; Z holds its vectors as columns) *)
Section LA.
Variable F : fieldType.

Definition qbasis n r (K B : 'M[F]_n) (Z : 'M[F]_(n, r)) : Prop :=
  [/\ (B <= K)%MS, (Z^T <= K)%MS,
      forall u : 'rV_n, (u <= K)%MS -> exists h : 'rV_r, (u - h *m Z^T <= B)%MS &
      forall h : 'rV_r, (h *m Z^T <= B)%MS -> h = 0].

Section One.
Variables (n r : nat) (K B : 'M[F]_n) (Z : 'M[F]_(n, r)).
Hypothesis qb : qbasis K B Z.
Lemma qb_free : row_free Z^T.
Proof.
have [_ _ _ h] := qb; rewrite -kermx_eq0 -submx0.
apply/row_subP => i; rewrite (h (row i (kermx Z^T))) ?sub0mx //.
by rewrite -row_mul mulmx_ker row0 sub0mx.
Qed.
Lemma qb_cap p (w : 'M[F]_(p, r)) : (w *m Z^T :&: B)%MS = 0.
Proof.
have [_ _ _ h] := qb; apply/eqP; rewrite -submx0; apply/row_subP => i.
set v := row i _; have : (v <= w *m Z^T :&: B)%MS by exact: row_sub.
rewrite sub_capmx => /andP[/submxP [x e] vB].
by have := h (x *m w); rewrite -mulmxA -e => /(_ vB) xw; rewrite e mulmxA xw mul0mx sub0mx.
Qed.
Lemma qb_rank p (w : 'M[F]_(p, r)) : \rank (w *m Z^T + B)%MS = (\rank w + \rank B)%N.
Proof. by rewrite mxrank_disjoint_sum ?qb_cap // mxrankMfree // qb_free. Qed.
Lemma qb_mem p (w : 'M[F]_(p, r)) (u : 'rV_r) : (u *m Z^T <= w *m Z^T + B)%MS = (u <= w)%MS.
Proof.
apply/idP/idP => [/sub_addsmxP [[x y] /= e]|h]; last by apply: submx_trans (submxMr _ h) (addsmxSl _ _).
have [_ _ _ hh] := qb; have : (u - x *m w) = 0.
  by apply: hh; rewrite mulmxBl e -mulmxA addrAC subrr add0r submxMl.
by move/eqP; rewrite subr_eq0 => /eqP ->; exact: submxMl.
Qed.
Lemma qb_full : (K :=: 1%:M *m Z^T + B)%MS.
Proof.
have [BK ZK sp _] := qb; apply/eqmxP/andP; split; last by rewrite addsmx_sub mul1mx ZK BK.
apply/row_subP => i; have [h e] := sp _ (row_sub i K).
rewrite -[row i K](subrK (h *m Z^T)) addrC; apply: addmx_sub_adds => //.
by rewrite mul1mx submxMl.
Qed.
End One.

(** pushing spaces through a map compatible with the bases *)
Lemma push_right n r n' r' (K B : 'M[F]_n) (Z : 'M[F]_(n, r)) (K' B' : 'M[F]_n') (Z' : 'M[F]_(n', r')) (f : 'M[F]_(n', n))
   (M : 'M[F]_(r', r)) (w : 'M[F]_r) (W : 'M[F]_n) :
  qbasis K B Z -> qbasis K' B' Z' -> (B *m f^T <= B')%MS -> ((f *m Z - Z' *m M)^T <= B')%MS -> (W :=: w *m Z^T + B)%MS ->
  (W *m f^T + B' :=: <<w *m M^T>> *m Z'^T + B')%MS.
Proof.
move=> qb qb' fB fZ eW.
have e2 : w *m Z^T *m f^T = w *m M^T *m Z'^T + w *m (f *m Z - Z' *m M)^T.
  by rewrite linearB /= !trmx_mul mulmxBr !mulmxA addrC subrK.
apply/eqmxP/andP; split; rewrite addsmx_sub addsmxSr andbT.
  have : (W *m f^T <= (w *m Z^T + B)%MS *m f^T)%MS by apply: submxMr; rewrite eW.
  move/submx_trans; apply; rewrite addsmxMr addsmx_sub (submx_trans fB) ?addsmxSr // andbT e2.
  apply: addmx_sub_adds; last exact: submx_trans (submxMl _ _) fZ.
  by apply: submxMr; rewrite genmxE.
apply: submx_trans (_ : (w *m M^T *m Z'^T <= _)%MS); first by apply: submxMr; rewrite genmxE.
have -> : w *m M^T *m Z'^T = w *m Z^T *m f^T - w *m (f *m Z - Z' *m M)^T by rewrite e2 addrK.
apply: addmx_sub_adds; last by rewrite eqmx_opp; exact: submx_trans (submxMl _ _) fZ.
by apply: submxMr; rewrite eW; exact: addsmxSl.
Qed.

Lemma push_left n r n' r' (K B : 'M[F]_n) (Z : 'M[F]_(n, r)) (K' B' : 'M[F]_n') (Z' : 'M[F]_(n', r')) (f : 'M[F]_(n, n'))
   (M : 'M[F]_(r, r')) (w : 'M[F]_r) (W : 'M[F]_n) :
  qbasis K B Z -> qbasis K' B' Z' -> (B' *m f^T <= B)%MS -> ((f *m Z' - Z *m M)^T <= B)%MS -> (W :=: w *m Z^T + B)%MS ->
  (K' :&: kermx (f^T *m cokermx W) :=: kermx (M^T *m cokermx w) *m Z'^T + B')%MS.
Proof.
move=> qb qb' fB fZ eW; have [BK' ZK' sp' _] := qb'.
have key (h : 'rV_r') (b : 'rV_n') : (b <= B')%MS -> ((h *m Z'^T + b)%R *m f^T <= W)%MS = (h *m M^T <= w)%MS.
  move=> bB; rewrite eW -(qb_mem qb).
  have e : (h *m Z'^T + b) *m f^T = h *m M^T *m Z^T + (h *m (f *m Z' - Z *m M)^T + b *m f^T).
    by rewrite mulmxDl linearB /= !trmx_mul mulmxBr !mulmxA addrA [X in _ = X + _]addrC subrK.
  have sB : ((h *m (f *m Z' - Z *m M)^T + b *m f^T)%R <= w *m Z^T + B)%MS.
    apply: submx_trans (addsmxSr _ _); apply: addmx_sub; first exact: submx_trans (submxMl _ _) fZ.
    exact: submx_trans (submxMr _ bB) fB.
  apply/idP/idP => hh; last by rewrite e addmx_sub.
  have -> : h *m M^T *m Z^T = (h *m Z'^T + b) *m f^T - (h *m (f *m Z' - Z *m M)^T + b *m f^T) by rewrite e addrK.
  by rewrite addmx_sub // eqmx_opp.
apply/eqmxP/andP; split.
  apply/row_subP => i; set v := row i _; have : (v <= K' :&: kermx (f^T *m cokermx W))%MS by exact: row_sub.
  rewrite sub_capmx => /andP[vK]; rewrite sub_kermx mulmxA -submxE.
  have [h e] := sp' _ vK; rewrite -[v](subrK (h *m Z'^T)) addrC key // => hw.
  apply: addmx_sub_adds => //; apply: submxMr; by rewrite sub_kermx mulmxA -submxE.
rewrite addsmx_sub; apply/andP; split; apply/row_subP => i.
  rewrite row_mul; set h := row i _; have : (h <= kermx (M^T *m cokermx w))%MS by exact: row_sub.
  rewrite sub_kermx mulmxA -submxE => hw; rewrite sub_capmx (submx_trans (submxMl _ _) ZK') sub_kermx mulmxA -submxE.
  by rewrite -[h *m _]addr0 key ?sub0mx.
set b := row i B'; have bB : (b <= B')%MS by exact: row_sub.
rewrite sub_capmx (submx_trans bB BK') sub_kermx mulmxA -submxE.
by have := key 0 b bB; rewrite !mul0mx add0r sub0mx.
Qed.
End LA.

(** ** homology bases *)
Section HB.
Variable F : fieldType.
Notation cdgm := (dgm (seq (cmat F)) (seq (cmat F))).
Implicit Types (C : seq (cmat F)).

Lemma homologousE C k (x y : 'cV[F]_(ncell C k)) : homologous x y <-> ((x - y)^T <= boundaries C k)%MS.
Proof.
rewrite /boundaries genmxE; split=> [[w e]|/submxP [w e]]; first by rewrite e trmx_mul submxMl.
by exists w^T; apply: trmx_inj; rewrite e trmx_mul trmxK.
Qed.
Lemma cycleE C k (z : 'cV[F]_(ncell C k)) : cycle z <-> (z^T <= cycles C k)%MS.
Proof.
rewrite /cycles sub_kermx -trmx_mul /cycle; split=> [->|/eqP h]; first by rewrite trmx0.
by apply: trmx_inj; rewrite h trmx0.
Qed.

Lemma hb_qbasis C k r (Z : 'M[F]_(ncell C k, r)) : chain_wf C -> (k < size C)%N -> homology_basis Z ->
  qbasis (cycles C k) (boundaries C k) Z.
Proof.
move=> cw kC [Zc sp]; split.
- by rewrite /boundaries genmxE /cycles sub_kermx -trmx_mul bd_bd1 // trmx0.
- by apply/row_subP => i; rewrite -tr_col; apply/cycleE.
- move=> u /= uK; have [|h [hh _]] := sp u^T; first by apply/cycleE; rewrite trmxK.
  exists h^T; move/homologousE: hh; by rewrite linearB /= trmx_mul trmxK.
- move=> h hB; have [|h0 [_ un]] := sp (0 : 'cV[F]_(ncell C k)); first by rewrite /cycle mulmx0.
  have e0 : homologous (0 : 'cV[F]_(ncell C k)) (Z *m (0 : 'cV_r)) by exists 0; rewrite !mulmx0 subrr.
  have eh : homologous (0 : 'cV[F]_(ncell C k)) (Z *m h^T).
    by apply/homologousE; rewrite sub0r linearN /= trmx_mul trmxK eqmx_opp.
  by apply: trmx_inj; rewrite (un _ eh) -(un _ e0) trmx0.
Qed.

Lemma path_size m (D : cdgm) i : path_of_chains m D -> (i <= m)%N -> size (nodeC D i) = size (nodeC D 0).
Proof.
move=> [_ _ _ _ h]; elim: i => [|i IH] im //; rewrite -(IH (ltnW im)).
by case: (h i im) => -[_ [s _ _ _ _]]; rewrite s.
Qed.

Lemma map_boundaries C E Fs k : chain_map C E Fs -> (k < size C)%N ->
  (boundaries C k *m (fmx C E Fs k)^T <= boundaries E k)%MS.
Proof.
move=> cm kC; have [W' e] := map_bd1 (1%:M) cm kC; rewrite mulmx1 in e.
apply: submx_trans (_ : ((bd1 C k)^T *m (fmx C E Fs k)^T <= _)%MS); first by apply: submxMr; rewrite /boundaries genmxE.
by rewrite -trmx_mul e trmx_mul /boundaries genmxE submxMl.
Qed.

Lemma homologous_cols C k r r' (A : 'M[F]_(ncell C k, r)) (B : 'M[F]_(ncell C k, r')) (M : 'M[F]_(r', r)) :
  (forall x, homologous (col x A) (B *m col x M)) <-> ((A - B *m M)^T <= boundaries C k)%MS.
Proof.
split=> h.
  apply/row_subP => x; rewrite -tr_col; have /homologousE := h x.
  by rewrite !colE mulmxA -mulmxBl.
move=> x; apply/homologousE; rewrite !colE mulmxA -mulmxBl -colE tr_col; exact: submx_trans (row_sub _ _) h.
Qed.

Section Reach.
Variables (m k : nat) (D : cdgm) (d : nat -> nat) (Z : forall i, 'M[F]_(ncell (nodeC D i) k, d i)) (q : rep F d).
Hypothesis pth : path_of_chains m D.
Hypothesis kC : (k < size (nodeC D 0))%N.
Hypothesis hZ : forall i, (i <= m)%N -> homology_basis (Z i).
Hypothesis hq : forall j, (j < m)%N ->
  match q j with
  | Rgt M => edge_at D j == (j, j.+1) /\ ((fmx (nodeC D j) (nodeC D j.+1) (edgeF D j) k *m Z j - Z j.+1 *m M)^T <= boundaries (nodeC D j.+1) k)%MS
  | Lft M => edge_at D j != (j, j.+1) /\ ((fmx (nodeC D j.+1) (nodeC D j) (edgeF D j) k *m Z j.+1 - Z j *m M)^T <= boundaries (nodeC D j) k)%MS
  end.

Lemma node_qb i : (i <= m)%N -> qbasis (cycles (nodeC D i) k) (boundaries (nodeC D i) k) (Z i).
Proof.
move=> im; apply: hb_qbasis; [by case: pth => _ _ _ h _; exact: h|by rewrite (path_size pth)|exact: hZ].
Qed.

Lemma hpush_q j (W : 'M[F]_(ncell (nodeC D j) k)) (w : 'M[F]_(d j)) : (j < m)%N ->
  (W :=: w *m (Z j)^T + boundaries (nodeC D j) k)%MS ->
  (hpush W :=: zpush (q j) w *m (Z j.+1)^T + boundaries (nodeC D j.+1) k)%MS.
Proof.
move=> jm eW; have qb := node_qb (ltnW jm); have qb' := node_qb jm; have [_ _ _ _ h] := pth.
have s0 : (k < size (nodeC D j))%N by rewrite (path_size pth) // ltnW.
have s1 : (k < size (nodeC D j.+1))%N by rewrite (path_size pth).
have ne : ((j.+1, j) == (j, j.+1)) = false by apply/eqP => -[]; clear; lia.
move: (hq jm); rewrite /hpush; case: (q j) => M [e1 e2] /=.
  rewrite (negbTE e1); case: (h j jm) => [[e _]|[e cm]]; first by rewrite e eqxx in e1.
  exact: push_left qb qb' (map_boundaries cm s1) e2 eW.
rewrite e1; case: (h j jm) => [[e cm]|[e _]]; last by rewrite e ne in e1.
exact: push_right qb qb' (map_boundaries cm s0) e2 eW.
Qed.

Lemma hreach_q s n (W : 'M[F]_(ncell (nodeC D s) k)) (w : 'M[F]_(d s)) : (n + s <= m)%N ->
  (W :=: w *m (Z s)^T + boundaries (nodeC D s) k)%MS ->
  (hreach n W :=: zreach q n w *m (Z (n + s))^T + boundaries (nodeC D (n + s)) k)%MS.
Proof.
elim: n => [|n IH] nm eW //=; apply: hpush_q => //; apply: IH => //; exact: ltnW.
Qed.

Lemma hzrank_q s n : (n + s <= m)%N -> hzrank D k s n = zrank q s n.
Proof.
move=> nm; have sm : (s <= m)%N by apply: leq_trans nm; rewrite leq_addl.
rewrite /hzrank (hreach_q nm (qb_full (node_qb sm))).
rewrite (hreach_q (w := 0) nm); last by apply: eqmx_sym; rewrite mul0mx; exact: adds0mx.
by rewrite !(qb_rank (node_qb nm)) subnDr.
Qed.
End Reach.

(** the 0/1 representation of homology_intervals *)
Lemma hzrank_count m k (D : cdgm) ps s n : path_of_chains m D -> (k < size (nodeC D 0))%N -> homology_intervals m k D ps -> (n + s <= m)%N ->
  hzrank D k s n = count (fun p => (p_birth p <= s)%N && (n + s <= p_death p)%N) ps.
Proof.
move=> pth kC [d [Z [lab [hZ hL hA _]]]] nm.
pose q : rep F d := fun j => if edge_at D j == (j, j.+1) then Rgt (lmx F (d j.+1) (d j) (lab j.+1) (lab j))
                             else Lft (lmx F (d j) (d j.+1) (lab j) (lab j.+1)).
have sumE n' a b (B : 'M[F]_(n', a)) (l l' : nat -> nat) (x : 'I_b) :
   B *m col x (lmx F a b l l') = \sum_(y < a | l y == l' x) col y B.
  apply/colP => i; rewrite mxE summxE [RHS]big_mkcond /=; apply: eq_bigr => y _; rewrite !mxE.
  by case: eqP => _; rewrite ?mulr1 ?mulr0.
rewrite (hzrank_q (q := q) pth kC hZ) //.
  have hA' j : (j < m)%N -> match q j with
        | Lft M => forall x, M *m col x (1%:M : 'M_(d j.+1)) = \sum_(i < d j | lab j i == lab j.+1 x) col i (1%:M : 'M_(d j))
        | Rgt M => forall x, M *m col x (1%:M : 'M_(d j)) = \sum_(i < d j.+1 | lab j.+1 i == lab j x) col i (1%:M : 'M_(d j.+1))
        end.
    by move=> jm; rewrite /q; case: ifP => _ x; rewrite -sumE mul1mx [col x 1%:M]colE mul1mx -colE.
  by rewrite /zrank (rank_count (fun i _ => unitmx1 _ _) hL hA' nm) addKn.
move=> j jm; have := hA j jm; rewrite /q; case: ifP => e h; split=> //; apply/homologous_cols => x; rewrite sumE.
  by rewrite [X in homologous X _]colE -mulmxA -colE; exact: h.
by rewrite [X in homologous X _]colE -mulmxA -colE; exact: h.
Qed.
End HB.

(** ** the homology functor *)
Section HomF.
Variable F : fieldType.
Notation O := (ops_of F).
Notation cdgm := (dgm (seq (cmat F)) (seq (cmat F))).
Variables (m : nat) (D : cdgm).
Hypothesis pth : path_of_chains m D.

Definition okd (A : Type) (a0 : A) (x : outcome A) : A := if x is Ok a then a else a0.
Definition XN i : rcc F := okd (rcc0 F) (rcc_standard O (nodeC D i)).
Definition dH k i : nat := size (gens (XN i) k).
Definition IM k j : cmat F :=
  okd (CMat 0 0 [::]) (induced_map O (bmx (edgeF D j) k) (XN (edge_at D j).1) (XN (edge_at D j).2) k).
Definition ZH k i : 'M[F]_(ncell (nodeC D i) k, dH k i) := repmx (ncell (nodeC D i) k) (XN i) k.
Definition qH k : rep F (dH k) := fun j =>
  if edge_at D j == (j, j.+1) then Rgt (mxc (dH k j.+1) (dH k j) (cols (IM k j))) else Lft (mxc (dH k j) (dH k j.+1) (cols (IM k j))).

Lemma XN_ok i : (i <= m)%N -> rcc_standard O (nodeC D i) = Ok (XN i) /\ factored (nodeC D i) (XN i).
Proof.
move=> im; have [_ _ _ cw _] := pth; have [X E FX] := rcc_of_factored (or_intror erefl : StandardBasis = ClearingBasis \/ _) (cw i im).
by rewrite /XN (E : rcc_standard _ _ = _).
Qed.

Lemma edge_le j : (j < m)%N -> ((edge_at D j).1 <= m)%N /\ ((edge_at D j).2 <= m)%N.
Proof. by move=> jm; have [_ _ _ _ h] := pth; case: (h j jm) => -[-> _] /=; rewrite jm (ltnW jm). Qed.

Lemma IM_ok k j : (k < size (nodeC D 0))%N -> (j < m)%N ->
  [/\ oget (edgeF D j) k = Ok (bmx (edgeF D j) k),
      induced_map O (bmx (edgeF D j) k) (XN (edge_at D j).1) (XN (edge_at D j).2) k = Ok (IM k j) &
      dene (IM k j) (@qH k j) /\
  match qH k j with
  | Rgt M => edge_at D j == (j, j.+1) /\ ((fmx (nodeC D j) (nodeC D j.+1) (edgeF D j) k *m ZH k j - ZH k j.+1 *m M)^T <= boundaries (nodeC D j.+1) k)%MS
  | Lft M => edge_at D j != (j, j.+1) /\ ((fmx (nodeC D j.+1) (nodeC D j) (edgeF D j) k *m ZH k j.+1 - ZH k j *m M)^T <= boundaries (nodeC D j) k)%MS
  end].
Proof.
move=> kC jm; have [_ _ _ cw h] := pth.
have [_ fj] := XN_ok (ltnW jm); have [_ fj1] := XN_ok jm.
have s0 : (k < size (nodeC D j))%N by rewrite (path_size pth) // ltnW.
have s1 : (k < size (nodeC D j.+1))%N by rewrite (path_size pth).
have ne : ((j.+1, j) == (j, j.+1)) = false by apply/eqP => -[]; clear; lia.
case: (h j jm) => -[e cm].
  have [_ sF _ _ _] := cm.
  have [M /= [E W [H EH]]] := induced_mapE (cw _ (ltnW jm)) (cw _ jm) cm (factored_rep fj) fj1 s0.
  rewrite /qH /IM e eqxx /= E /=; split=> //; first by rewrite (oget_nth (CMat 0 0 [::])) ?sF.
  by split=> //; split=> //; rewrite EH trmx_mul /boundaries genmxE submxMl.
have [_ sF _ _ _] := cm.
have [M /= [E W [H EH]]] := induced_mapE (cw _ jm) (cw _ (ltnW jm)) cm (factored_rep fj1) fj s1.
rewrite /qH /IM e ne /= E /=; split=> //; first by rewrite (oget_nth (CMat 0 0 [::])) ?sF.
by split=> //; split=> //; rewrite EH trmx_mul /boundaries genmxE submxMl.
Qed.

Lemma ZH_basis k i : (k < size (nodeC D 0))%N -> (i <= m)%N -> homology_basis (ZH k i).
Proof.
move=> kC im; have [_ _ _ cw _] := pth; have [_ f] := XN_ok im; have r := factored_rep f.
have s0 : (k < size (nodeC D i))%N by rewrite (path_size pth).
split; last by move=> z; apply: reps_basis r s0 z; exact: cw.
by move=> j; rewrite /cycle colE mulmxA /ZH rep_cycle ?mul0mx //; exact: cw.
Qed.

Section Orders.
Variables (ordn orde : seq nat).
Hypothesis pn : perm_eq ordn (iota 0 m.+1).
Hypothesis pe : perm_eq orde (iota 0 m).

Lemma Hom_ok k : (k < size (nodeC D 0))%N ->
  Hom O k ordn orde D = Ok (Diagram (mkseq XN m.+1) (mkseq (IM k) m) (d_elist D)).
Proof.
move=> kC; have [s1 s2 s3 cw h] := pth; rewrite /Hom.
rewrite (@functorE _ _ _ _ _ _ [::] [::] _ _ _ _ _ XN (IM k)) ?s1 ?s2 ?s3 //.
  by move=> i im; case: (XN_ok im).
move=> j jm; have [e1 e2] := edge_le jm; have [i1 i2 _] := IM_ok kC jm; split=> //.
by rewrite -/(edgeF D j) i1; exact: i2.
Qed.

Lemma denq_Hom k : (k < size (nodeC D 0))%N ->
  denq m (quiver_of (Diagram (mkseq XN m.+1) (mkseq (IM k) m) (d_elist D))) (qH k).
Proof.
move=> kC; have [s1 s2 s3 cw h] := pth; split=> //=; first by rewrite size_mkseq.
move=> j jm; have [_ _ [dn _]] := IM_ok kC jm; rewrite nth_mkseq //; split=> //.
rewrite -/(edge_at D j) /qH; have ne : ((j.+1, j) == (j, j.+1)) = false by apply/eqP => -[]; clear; lia.
by case: (h j jm) => -[-> _]; rewrite ?eqxx ?ne.
Qed.

Lemma to_homology_intervals k ps : (k < size (nodeC D 0))%N -> interval_decomposition m k (qH k) ps -> homology_intervals m k D ps.
Proof.
move=> kC [G [lab [uG hL hA hp]]]; exists (dH k), (fun i => ZH k i *m G i), lab; split=> //; last first.
- by move=> b lb; have [] := hp b lb.
- move=> j jm; have [_ _ [_ ]] := IM_ok kC jm; move: (hA j jm).
  have uS r a (Z0 : 'M[F]_(r, a)) (G0 : 'M[F]_a) (P : pred 'I_a) : \sum_(y < a | P y) col y (Z0 *m G0) = Z0 *m (\sum_(y < a | P y) col y G0).
    by rewrite mulmx_sumr; apply: eq_bigr => y _; rewrite colE -mulmxA -colE.
  case: (qH k j) => M hM [e hB].
    rewrite (negbTE e) => x; rewrite uS -hM; apply/homologousE.
    rewrite colE -mulmxA -colE !mulmxA -mulmxBl trmx_mul; exact: submx_trans (submxMl _ _) hB.
  rewrite e => x; rewrite uS -hM; apply/homologousE.
  rewrite colE -mulmxA -colE !mulmxA -mulmxBl trmx_mul; exact: submx_trans (submxMl _ _) hB.
- move=> i im; have [c sp] := ZH_basis kC im; split.
    move=> x; rewrite colE -mulmxA -colE /cycle mulmxA.
    have -> : bd (nodeC D i) k *m ZH k i = 0; last by rewrite mul0mx.
    apply/matrixP => a b; have /colP/(_ a) := c b; rewrite !mxE => e; apply: etrans e; by apply: eq_bigr => l _; rewrite !mxE.
  move=> z cz; have [h0 [e0 un]] := sp z cz; exists (invmx (G i) *m h0); split.
    by rewrite -mulmxA mulKVmx ?uG.
  by move=> h'; rewrite -mulmxA => /un <-; rewrite mulKmx ?uG.
Qed.
End Orders.
End HomF.

(** ** all dimensions *)
Section HomAll.
Variable F : fieldType.
Notation O := (ops_of F).
Notation cdgm := (dgm (seq (cmat F)) (seq (cmat F))).
Variables (m : nat) (D : cdgm).
Hypothesis pth : path_of_chains m D.
Variables (ordn orde : seq nat).
Hypothesis pn : perm_eq ordn (iota 0 m.+1).
Hypothesis pe : perm_eq orde (iota 0 m).

Definition topK (topd : bool) : nat := if topd then size (nodeC D 0) else (size (nodeC D 0)).-1.
Lemma Hom_all_ok topd : (0 < topK topd)%N ->
  Hom_all O topd ordn orde D = Ok (Diagram (mkseq (XN D) m.+1) (mkseq (fun j => mkseq (fun k => IM D k j) (topK topd)) m) (d_elist D)).
Proof.
move=> K0; have [s1 s2 s3 cw h] := pth; rewrite /Hom_all (oget_nth [::]) ?s1 //; cbn [obind]; cbv zeta; rewrite -/(nodeC D 0).
have c0 : (0 < size (nodeC D 0))%N by have [] := cw 0%N (leq0n _).
rewrite prednK // -/(topK topd) eqn0Ngt K0 /=.
rewrite (@functorE _ _ _ _ _ _ [::] [::] _ _ _ _ _ (XN D) (fun j => mkseq (fun k => IM D k j) (topK topd))) ?s1 ?s2 ?s3 //.
  by move=> i im; case: (XN_ok pth im).
move=> j jm; have [e1 e2] := edge_le pth jm; split=> //.
apply: omapm_Ok_eq => k; rewrite mem_iota add0n => /= kK.
have kC : (k < size (nodeC D 0))%N by apply: leq_trans kK _; rewrite /topK; case: (topd) => //; exact: leq_pred.
by have [i1 i2 _] := IM_ok pth kC jm; rewrite -/(edgeF D j) i1; exact: i2.
Qed.
Lemma Hom_all_none : size (nodeC D 0) = 1%N -> Hom_all O false ordn orde D = Throw.
Proof.
have [s1 _ _ _ _] := pth; move=> c0; rewrite /Hom_all (oget_nth [::]) ?s1 //; cbn [obind]; cbv zeta.
by rewrite -/(nodeC D 0) c0.
Qed.

Lemma denqs_Hom topd (q := fun k => qH D k) : denqs m (topK topd)
   (mquiver_of (Diagram (mkseq (XN D) m.+1) (mkseq (fun j => mkseq (fun k => IM D k j) (topK topd)) m) (d_elist D))) q.
Proof.
have [s1 s2 s3 cw h] := pth; split=> //=; first by rewrite size_mkseq.
move=> j k jm; rewrite nth_mkseq // size_mkseq; split=> // kK; rewrite nth_mkseq //.
have kC : (k < size (nodeC D 0))%N by apply: leq_trans kK _; rewrite /topK; case: (topd) => //; exact: leq_pred.
have [_ _ hh] := denq_Hom pth kC; have := hh j jm; by rewrite /= nth_mkseq.
Qed.
End HomAll.
