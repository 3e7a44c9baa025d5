(** The interval decomposition is determined by the ranks of the zigzags, hence unique. *)
From mathcomp Require Import all_ssreflect all_fingroup all_algebra zify.
From Verif Require Import Outcome P_Outcome RingTac M_SparseVec M_ColMatrix S_Linalg M_Fact S_Fact M_Quiver S_Quiver P_Quiver1.
Set Implicit Arguments.
Unset Strict Implicit.
Unset Printing Implicit Defensive.
Import GRing.Theory.
Local Open Scope ring_scope.

Section S.
Variable F : fieldType.

(** the matrix whose row space is spanned by the coordinate vectors in p *)
Definition dsel n (p : pred 'I_n) : 'M[F]_n := diag_mx (\row_i (p i)%:R).
Lemma dselE n (p : pred 'I_n) i j : dsel p i j = (p i && (i == j))%:R.
Proof. by rewrite !mxE; case: (p i) => /=; case: eqVneq. Qed.
Lemma dsel_eq n (p p' : pred 'I_n) : p =1 p' -> dsel p = dsel p'.
Proof. by move=> e; congr diag_mx; apply/rowP => i; rewrite !mxE e. Qed.
Lemma rank_dsel n (p : pred 'I_n) : \rank (dsel p) = #|p|.
Proof.
have rw i : row i (dsel p) = (p i)%:R *: delta_mx 0 i.
  by apply/rowP => j; rewrite !mxE !eqxx /= (eq_sym j i); case: (p i); case: eqVneq; rewrite ?mul0r ?mul1r ?mulr1n ?mulr0n.
have e : (dsel p :=: \sum_(i | p i) <<delta_mx 0 i : 'rV[F]_n>>)%MS.
  apply/eqmxP/andP; split.
    apply/row_subP => i; rewrite rw; case pi : (p i); last by rewrite scale0r sub0mx.
    by rewrite scale1r; apply: (sumsmx_sup i) => //; rewrite genmxE.
  by apply/sumsmx_subP => i pi; rewrite genmxE; have := row_sub i (dsel p); rewrite rw pi scale1r.
have /mxdirectP /= md : mxdirect (\sum_(i | p i) <<delta_mx 0 i : 'rV[F]_n>>).
  have h : {in p &, injective (id : 'I_n -> ordinal_finType n)} by [].
  exact (@mxdirect_delta F (ordinal_finType n) p n id h).
rewrite e md -sum1_card; apply: eq_bigr => i _; by rewrite genmxE mxrank_delta.
Qed.
Lemma dselP n (p : pred 'I_n) k (Z : 'M[F]_(k, n)) : reflect (forall i j, ~~ p j -> Z i j = 0) (Z <= dsel p)%MS.
Proof.
apply: (iffP idP) => [/submxP[D ->] i j np|h].
  by rewrite mxE big1 // => l _; rewrite dselE; case: eqVneq => [->|_]; rewrite ?(negPf np) ?andbF /= mulr0.
apply/submxP; exists Z; apply/matrixP => i j; rewrite mxE (bigD1 j) //= dselE eqxx andbT big1 ?addr0; last first.
  by move=> l ne; rewrite dselE (negPf ne) andbF mulr0.
by case pj : (p j); rewrite ?mulr1 ?mulr0 // h // pj.
Qed.

(** 0/1 matrices of labels *)
Definition lmx a b (la : nat -> nat) (lb : nat -> nat) : 'M[F]_(a, b) := \matrix_(i, j) (la i == lb j)%:R.
Lemma pushR a b (la lb : nat -> nat) (p : pred 'I_a) :
  (forall i i' : 'I_a, la i = la i' -> i = i') -> (forall j j' : 'I_b, lb j = lb j' -> j = j') ->
  (dsel p *m (lmx b a lb la)^T :=: dsel [pred j : 'I_b | [exists i : 'I_a, (la i == lb j) && p i]])%MS.
Proof.
move=> ia ib; set p' := [pred j | _]; have sub : (dsel p *m (lmx b a lb la)^T <= dsel p')%MS.
  apply/dselP => i j np; rewrite mxE (bigD1 i) //= dselE eqxx andbT !mxE big1 ?addr0; last first.
    by move=> l ne; rewrite dselE eq_sym (negPf ne) andbF mul0r.
  case pi : (p i); last by rewrite mul0r.
  rewrite mul1r; case: eqP => // e; case/negP: np; apply/existsP; exists i; by rewrite pi e eqxx.
apply/eqmxP; rewrite sub /=; apply/submxP; exists (lmx b a lb la); apply/matrixP => j j'.
rewrite dselE mxE /=; case: (altP existsP) => [[i /andP[/eqP e pi]]|ne] /=.
  rewrite (bigD1 i) //= mxE e eqxx mul1r mxE (bigD1 i) //= dselE pi eqxx mul1r !mxE big1 ?addr0; last first.
    by move=> l nl; rewrite dselE eq_sym (negPf nl) andbF mul0r.
  rewrite big1 ?addr0; last first.
    move=> l nl; rewrite mxE; case: eqP => [h|_]; last by rewrite mul0r.
    by case/eqP: nl; apply: ia; rewrite -h.
  by rewrite e; congr (nat_of_bool _)%:R; apply/eqP/eqP => [->//|/ib].
rewrite big1 // => i _; rewrite mxE; case: eqP => [h|_]; last by rewrite mul0r.
rewrite mul1r mxE big1 // => l _; rewrite dselE; case: eqVneq => [<-|_]; last by rewrite andbF mul0r.
by case pi : (p i); rewrite ?mul0r // ; case/existsP: ne; exists i; rewrite h eqxx.
Qed.
Lemma pushL a b (la lb : nat -> nat) (p : pred 'I_a) : (forall j j' : 'I_b, lb j = lb j' -> j = j') ->
  forall k (Z : 'M[F]_(k, b)), (Z *m (lmx a b la lb)^T <= dsel p)%MS =
     (Z <= dsel [pred j : 'I_b | [forall i : 'I_a, (la i == lb j) ==> p i]])%MS.
Proof.
move=> ib k Z; apply/dselP/dselP => h i j np.
  move: np; rewrite /= negb_forall => /existsP[l]; rewrite negb_imply => /andP[/eqP e np].
  have := h i l np; rewrite mxE (bigD1 j) //= !mxE e eqxx mulr1 big1 ?addr0 // => j' ne; rewrite !mxE.
  by rewrite e; case: eqP => [/ib h'|_]; [rewrite h' eqxx in ne|rewrite mulr0].
rewrite mxE big1 // => l _; rewrite !mxE; case: eqP => [e|_]; last by rewrite mulr0.
by rewrite h ?mul0r //= negb_forall; apply/existsP; exists j; rewrite e eqxx np.
Qed.

Lemma push_sel a b (v : arrow F a b) (Ga : 'M[F]_a) (Gb : 'M[F]_b) (la lb : nat -> nat) (p : pred 'I_a) (W : 'M[F]_a) :
  Gb \in unitmx -> Ga \in unitmx ->
  (forall i i' : 'I_a, la i = la i' -> i = i') -> (forall j j' : 'I_b, lb j = lb j' -> j = j') ->
  match v with Lft M => M *m Gb = Ga *m lmx a b la lb | Rgt M => M *m Ga = Gb *m lmx b a lb la end ->
  (W :=: dsel p *m Ga^T)%MS ->
  (zpush v W :=: dsel [pred j : 'I_b | if is_lft v then [forall i : 'I_a, (la i == lb j) ==> p i]
     else [exists i : 'I_a, (la i == lb j) && p i]] *m Gb^T)%MS.
Proof.
move=> uB uA ia ib; case: v => M /= e eW; last first.
  apply: eqmx_trans (genmxE _) _; apply: eqmx_trans (eqmxMr _ eW) _.
  by rewrite -mulmxA -trmx_mul e trmx_mul mulmxA; apply: eqmxMr; apply: pushR.
have uBt : Gb^T \in unitmx by rewrite unitmx_tr.
have fA : row_free Ga^T by rewrite row_free_unit unitmx_tr.
have fB : row_free Gb^T by rewrite row_free_unit.
have key k (Y : 'M[F]_(k, b)) : (Y <= kermx (M^T *m cokermx W))%MS =
   (Y <= dsel [pred j : 'I_b | [forall i : 'I_a, (la i == lb j) ==> p i]] *m Gb^T)%MS.
  have eY : Y *m M^T = Y *m invmx Gb^T *m (lmx a b la lb)^T *m Ga^T.
    by rewrite -[Y in LHS](mulmxKV uBt) -(mulmxA _ Gb^T) -trmx_mul e trmx_mul mulmxA.
  rewrite sub_kermx mulmxA -submxE eW eY submxMfree // pushL // -[Y in RHS](mulmxKV uBt) submxMfree //.
by apply/eqmxP; rewrite -key submx_refl key submx_refl.
Qed.

Lemma cnt_ord n (P : pred nat) : #|[pred i : 'I_n | P i]| = count P (iota 0 n).
Proof.
by rewrite cardE /enum_mem size_filter -val_enum_ord count_map enumT; apply: eq_count => i; rewrite inE.
Qed.

Variable d : nat -> nat.
Notation rep := (rep F d).
Notation np := (nth (PPair 0 0 0 0 0)).

Section Dec.
Variables (m hdim : nat) (q : rep) (ps : seq ppair).
Variables (G : forall k, 'M[F]_(d k)) (lab : nat -> nat -> nat).
Hypothesis uG : forall k, (k <= m)%N -> G k \in unitmx.
Hypothesis hL : forall k, (k <= m)%N ->
        [/\ forall i, (i < d k)%N -> (lab k i < size ps)%N /\ alive (np ps (lab k i)) k,
            forall i i', (i < d k)%N -> (i' < d k)%N -> lab k i = lab k i' -> i = i' &
            forall b, (b < size ps)%N -> alive (np ps b) k -> exists2 i, (i < d k)%N & lab k i = b].
Hypothesis hA : forall k, (k < m)%N ->
        match q k with
        | Lft M => forall j, M *m col j (G k.+1) = \sum_(i < d k | lab k i == lab k.+1 j) col i (G k)
        | Rgt M => forall j, M *m col j (G k) = \sum_(i < d k.+1 | lab k.+1 i == lab k j) col i (G k.+1)
        end.

Definition lstep (l : bool) (k : nat) (L : pred nat) : pred nat :=
  fun b => if l then alive (np ps b) k ==> L b else alive (np ps b) k && L b.
Fixpoint liter (s : nat) (L : pred nat) n : pred nat :=
  if n is n'.+1 then lstep (is_lft (q (n' + s)%N)) (n' + s) (liter s L n') else L.

Lemma arrow_lmx k : (k < m)%N -> match q k with
   | Lft M => M *m G k.+1 = G k *m lmx (d k) (d k.+1) (lab k) (lab k.+1)
   | Rgt M => M *m G k = G k.+1 *m lmx (d k.+1) (d k) (lab k.+1) (lab k) end.
Proof.
move=> km; move: (hA km); case: (q k) => M h; apply/matrixP => i j; have := h j => /colP /(_ i); rewrite !mxE.
  rewrite summxE => e; transitivity ((M *m col j (G k.+1)) i 0).
    by rewrite mxE; apply: eq_bigr => l _; rewrite mxE.
  rewrite mxE e big_mkcond /=; apply: eq_bigr => l _; rewrite !mxE; case: eqP => _; by rewrite ?mulr1 ?mulr0.
rewrite summxE => e; transitivity ((M *m col j (G k)) i 0).
  by rewrite mxE; apply: eq_bigr => l _; rewrite mxE.
rewrite mxE e big_mkcond /=; apply: eq_bigr => l _; rewrite !mxE; case: eqP => _; by rewrite ?mulr1 ?mulr0.
Qed.

Lemma reach_sel s n L (W : 'M[F]_(d s)) : (n + s <= m)%N -> (W :=: dsel (fun i => L (lab s i)) *m (G s)^T)%MS ->
  (zreach q n W :=: dsel (fun i => liter s L n (lab (n + s) i)) *m (G (n + s))^T)%MS.
Proof.
elim: n => [|n IH] nm eW //; have nm' : (n + s < m)%N by [].
have {}IH := IH (ltnW nm') eW.
have [l1 l2 l3] := hL (ltnW nm'); have [r1 r2 r3] := hL nm'.
have := push_sel (uG nm') (uG (ltnW nm')) _ _ (arrow_lmx nm') IH.
move=> /(_ (fun i i' e => val_inj (l2 _ _ (ltn_ord i) (ltn_ord i') e)) (fun i i' e => val_inj (r2 _ _ (ltn_ord i) (ltn_ord i') e))).
move=> e; apply: eqmx_trans e _; apply: eqmxMr; rewrite (@dsel_eq _ _ (fun i => liter s L n.+1 (lab (n + s).+1 i))) //.
move=> j; rewrite /= /lstep /=; have [jb ja] := r1 _ (ltn_ord j).
case: (is_lft _).
  apply/forallP/implyP => [h al|h i]; first by have [i li ei] := l3 _ jb al; have := h (Ordinal li); rewrite /= ei eqxx.
  apply/implyP => /eqP e; rewrite e; apply: h; rewrite -e; exact: (l1 _ (ltn_ord i)).2.
apply/existsP/andP => [[i /andP[/eqP e h]]|[al h]]; first by rewrite -e; split=> //; exact: (l1 _ (ltn_ord i)).2.
by have [i li ei] := l3 _ jb al; exists (Ordinal li); rewrite /= ei eqxx.
Qed.

Definition over (s t : nat) (p : ppair) : bool := (p_birth p <= s)%N && (t <= p_death p)%N.
Lemma liter_over s n b : alive (np ps b) (n + s) ->
  liter s xpredT n b = (liter s xpred0 n b || over s (n + s) (np ps b)) /\ ~~ (liter s xpred0 n b && over s (n + s) (np ps b)).
Proof.
elim: n => [|n IH]; first by rewrite /alive /over /= => /andP[-> ->].
rewrite addSn /= /lstep => al.
have e : over s (n + s).+1 (np ps b) = alive (np ps b) (n + s) && over s (n + s) (np ps b).
  by move: al; rewrite /alive /over; clear; lia.
rewrite e; case al' : (alive _ (n + s)) => /=; last by rewrite andbF; case: (is_lft _).
by have [-> h] := IH al'; case: (is_lft _).
Qed.

Lemma rank_count s n : (n + s <= m)%N ->
  \rank (zreach q n (1%:M : 'M[F]_(d s))) = (\rank (zreach q n (0%R : 'M[F]_(d s))) + count (over s (n + s)) ps)%N.
Proof.
move=> nm; have sm : (s <= m)%N by apply: leq_trans nm; rewrite leq_addl.
have ru t : (t <= m)%N -> row_free (G t)^T by move=> tm; rewrite row_free_unit unitmx_tr uG.
have e1 : ((1%:M : 'M[F]_(d s)) :=: dsel (fun i => xpredT (lab s i)) *m (G s)^T)%MS.
  have -> : dsel (fun i : 'I_(d s) => xpredT (lab s i)) = 1%:M.
    by apply/matrixP => i j; rewrite dselE mxE.
  rewrite mul1mx; apply: eqmx_sym; apply/eqmxP; rewrite submx1 /= sub1mx row_full_unit unitmx_tr; exact: uG.
have e0 : ((0 : 'M[F]_(d s)) :=: dsel (fun i => xpred0 (lab s i)) *m (G s)^T)%MS.
  have -> : dsel (fun i : 'I_(d s) => xpred0 (lab s i)) = 0 by apply/matrixP => i j; rewrite dselE mxE.
  by rewrite mul0mx.
have E1 := reach_sel (L := xpredT) nm e1; have E0 := reach_sel (L := xpred0) nm e0; rewrite E1 E0.
rewrite !(mxrankMfree _ (ru _ nm)) !rank_dsel.
have [l1 l2 l3] := hL nm.
have cI : [pred i : 'I_(d (n + s)) | liter s xpredT n (lab (n + s) i)] =i
   [predU [pred i : 'I_(d (n + s)) | liter s xpred0 n (lab (n + s) i)] & [pred i : 'I_(d (n + s)) | over s (n + s) (np ps (lab (n + s) i))]].
  by move=> i; rewrite !inE; have [_ al] := l1 _ (ltn_ord i); have [-> _] := liter_over al.
set A := [pred i : 'I_(d (n + s)) | liter s xpred0 n (lab (n + s) i)] in cI.
set B := [pred i : 'I_(d (n + s)) | over s (n + s) (np ps (lab (n + s) i))] in cI.
have cAB : #|[predI A & B]| = 0%N.
  by apply: eq_card0 => i; rewrite !inE; have [_ al] := l1 _ (ltn_ord i); have [_ /negPf] := liter_over al.
transitivity #|[predU A & B]|; first by apply: eq_card => i; rewrite -cI.
transitivity (#|A| + #|B|)%N; first by rewrite -cardUI cAB addn0.
congr (_ + _)%N.
rewrite (cnt_ord _ (fun i => over s (n + s) (np ps (lab (n + s) i)))).
have -> : count (over s (n + s)) ps = count (fun b => over s (n + s) (np ps b)) (iota 0 (size ps)).
  by rewrite -[X in count _ X](mkseq_nth (PPair 0 0 0 0 0)) count_map.
rewrite -!size_filter; set P := fun b => over s (n + s) (np ps b).
rewrite -(size_map (lab (n + s))); apply: perm_size; apply: uniq_perm.
- rewrite map_inj_in_uniq ?filter_uniq ?iota_uniq // => i i'.
  by rewrite !mem_filter !mem_iota /= !add0n => /andP[_ li] /andP[_ li'] /l2; apply.
- by rewrite filter_uniq // iota_uniq.
move=> b; rewrite mem_filter mem_iota add0n /=; apply/mapP/andP => [[i]|[ov lb]].
  by rewrite mem_filter mem_iota add0n /= => /andP[ov li] ->; split=> //; case: (l1 _ li).
have [|i li ei] := l3 _ lb; first by move: ov; rewrite /P /over /alive; clear; lia.
by exists i => //; rewrite mem_filter mem_iota add0n /= li andbT ei.
Qed.
End Dec.

(** every interval decomposition counts the zigzag ranks *)
Theorem zrank_count m hdim (q : rep) ps s n : interval_decomposition m hdim q ps -> (n + s <= m)%N ->
  zrank q s n = count (fun p => (p_birth p <= s)%N && (n + s <= p_death p)%N) ps.
Proof.
by move=> [G [lab [uG hL hA _]]] nm; rewrite /zrank (rank_count uG hL hA nm) addKn.
Qed.

(** and is therefore unique: the intervals (with multiplicity) depend on the representation only *)
Theorem interval_unique m hdim hdim' (q : rep) ps ps' :
  interval_decomposition m hdim q ps -> interval_decomposition m hdim' q ps' ->
  perm_eq [seq (p_birth p, p_death p) | p <- ps] [seq (p_birth p, p_death p) | p <- ps'].
Proof.
move=> D D'.
have R ps0 h0 : interval_decomposition m h0 q ps0 -> all (fun p => p_birth p <= p_death p <= m)%N ps0.
  by move=> [G [lab [_ _ _ h]]]; apply/(all_nthP (PPair 0 0 0 0 0)) => b lb; have [] := h b lb.
have N s t : (s <= t)%N -> (t <= m)%N -> count (over s t) ps = count (over s t) ps'.
  move=> st tm; have := zrank_count (s := s) (n := (t - s)%N) D; have := zrank_count (s := s) (n := (t - s)%N) D'.
  by rewrite subnK // => /(_ tm) e /(_ tm); rewrite e => ->.
have N' s t : (s <= t)%N -> count (over s t) ps = count (over s t) ps'.
  move=> st; case: (leqP t m) => [|mt]; first exact: N.
  have z ps0 h0 : interval_decomposition m h0 q ps0 -> count (over s t) ps0 = 0%N.
    move=> /R; move: mt; clear; elim: ps0 => //= p l IH mt /andP[hp /(IH mt) ->]; rewrite addn0.
    by move: mt hp; rewrite /over; clear; lia.
  by rewrite (z _ _ D) (z _ _ D').
(* exact multiplicities by inclusion-exclusion *)
pose ex b e (p : ppair) := (p_birth p == b) && (p_death p == e).
have E ps0 b e : (b <= e)%N -> (count (ex b e) ps0 + (if b is b'.+1 then count (over b' e) ps0 else 0) + count (over b e.+1) ps0 =
   count (over b e) ps0 + (if b is b'.+1 then count (over b' e.+1) ps0 else 0))%N.
  move=> be; elim: ps0 => [|p ps0]; first by case: b be.
  case: b be => [|b] be /=; rewrite /ex /over; move: be; clear; lia.
have cm ps0 b e : count_mem (b, e) [seq (p_birth p, p_death p) | p <- ps0] = count (ex b e) ps0.
  by rewrite count_map; apply: eq_count => p; rewrite /= /ex xpair_eqE.
apply/allP => -[b e]; rewrite mem_cat => h.
have be : (b <= e)%N.
  have R2 ps0 h0 : interval_decomposition m h0 q ps0 -> all (fun x => x.1 <= x.2)%N [seq (p_birth p, p_death p) | p <- ps0].
    by move=> /R; rewrite all_map; apply: sub_all => p /andP[].
  by case/orP: h => h; [exact: (allP (R2 _ _ D) _ h)|exact: (allP (R2 _ _ D') _ h)].
rewrite /= !cm; have := E ps b e be; have := E ps' b e be; rewrite !N' ?leqW //.
case: b be {h} => [|b] be; rewrite ?N' ?leqW ?(ltnW be) //; clear; lia.
Qed.
End S.
