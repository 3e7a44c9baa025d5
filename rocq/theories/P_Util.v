(** Permutation and sorted-range utilities. *)
From mathcomp Require Import all_ssreflect all_algebra zify.
From Verif Require Import Outcome P_Outcome M_SparseVec M_Perm M_Sorted S_Perm S_Linalg P_SparseVec P_Perm P_Sort.
Set Implicit Arguments.
Unset Strict Implicit.
Unset Printing Implicit Defensive.

Lemma partial_permE ind n : uniq ind -> all (fun i => i < n) ind ->
  exists r, [/\ partial_perm ind n = Ok r, size r = n,
    (forall k, k < size ind -> nth None r (nth 0 ind k) = Some k) &
    forall i, i \notin ind -> nth None r i = None].
Proof.
move=> U B; rewrite /partial_perm.
have [||r E [s H1 H2]] := ofold_iota_ind (P := fun m (r : seq (option nat)) =>
   [/\ size r = n, (forall k, k < m -> nth None r (nth 0 ind k) = Some k) &
       forall i, (forall k, k < m -> nth 0 ind k != i) -> nth None r i = None])
   (n := size ind) (a := nseq n None) (g := fun ret k => do i <- oget ind k; oset ret i (Some k)).
- split=> //; first by rewrite size_nseq.
  by move=> i _; rewrite nth_nseq if_same.
- move=> k r lk [s H1 H2]; have lt : nth 0 ind k < n by apply: (allP B); apply: mem_nth.
  rewrite (oget_nth 0) //=.
  exists (set_nth None r (nth 0 ind k) (Some k)); first by rewrite (oset_Ok None) // s.
  split; first by rewrite size_set_nth s; apply/maxn_idPr.
    move=> k' lk'; rewrite nth_set_nth /=; case: (nth 0 ind k' =P nth 0 ind k) => [e|ne].
      have kk : k' < size ind by lia.
      by have /eqP := e; rewrite nth_uniq // => /eqP ->.
    apply: H1; have : k' != k by apply/eqP => e; rewrite e in ne.
    lia.
  move=> i Hi; rewrite nth_set_nth /=; case: (i =P nth 0 ind k) => [e|ne].
    by have := Hi k (ltnSn k); rewrite e eqxx.
  by apply: H2 => k' lk'; apply: Hi; lia.
exists r; split=> // i ni; apply: H2 => k lk; apply: contraNneq ni => <-; exact: mem_nth.
Qed.

Lemma find_permE v : let p := sortperm (fun a b => a < b) 0 v in
  find_perm_from_vector v = Ok (ipl p).
Proof.
move=> p; rewrite -(inv_permE (sortperm_perm (0 : Order.NatOrder.orderType) v)).
by rewrite /find_perm_from_vector /inv_perm (size_sortperm (0 : Order.NatOrder.orderType) v).
Qed.

Lemma find_perm_order v : exists p, [/\ find_perm_from_vector v = Ok p, is_perm p, size p = size v &
  forall i j, i < size v -> j < size v ->
    (nth 0 p i < nth 0 p j) = (nth 0 v i < nth 0 v j) || (nth 0 v i == nth 0 v j) && (i < j)].
Proof.
pose q := sortperm (fun a b => a < b) 0 v.
have Pq : is_perm q := sortperm_perm (0 : Order.NatOrder.orderType) v.
have sq : size q = size v := size_sortperm (0 : Order.NatOrder.orderType) v.
have LE i j : i <= j -> j < size v -> nth 0 v (nth 0 q i) <= nth 0 v (nth 0 q j).
  exact: (@sortperm_le _ Order.NatOrder.orderType 0 v).
have ST i j : i < j -> j < size v -> nth 0 v (nth 0 q i) = nth 0 v (nth 0 q j) -> nth 0 q i < nth 0 q j.
  exact: (@sortperm_stable _ Order.NatOrder.orderType 0 v).
exists (ipl q); split; [exact: find_permE | exact: is_perm_ipl | by rewrite size_ipl |].
move=> i j li lj; have K k : k < size v -> nth 0 q (nth 0 (ipl q) k) = k by move=> lk; rewrite nth_ipl_nth ?sq.
have L k : k < size v -> nth 0 (ipl q) k < size v.
  by move=> lk; have := is_perm_lt (is_perm_ipl Pq) (i := k); rewrite size_ipl sq; apply.
have Li := L i li; have Lj := L j lj.
case: (ltngtP (nth 0 (ipl q) i) (nth 0 (ipl q) j)) => c.
- have := LE _ _ (ltnW c) Lj; rewrite !K // => le; have := ST _ _ c Lj; rewrite !K // => st.
  by case: ltngtP le => //= e _; rewrite st.
- have := LE _ _ (ltnW c) Li; rewrite !K // => le; have := ST _ _ c Li; rewrite !K // => st.
  by case: ltngtP le => //= e _; rewrite ltnNge ltnW // st.
have ij : i = j by rewrite -(K i li) c K.
by rewrite ij !ltnn andbF.
Qed.

Lemma perm_end_loopE m k l : sorted ltn l -> all (fun i => m <= i < m + k) l ->
  perm_end_loop (iota m k) l = [seq i <- iota m k | i \notin l].
Proof.
elim: k m l => [|k IH] m l so B //; rewrite [iota _ _]/=.
case: l so B => [|x l] so B.
  by rewrite /= (IH m.+1 [::]).
have xm : m <= x < m + k.+1 by case/andP: B.
have so' := order_path_min ltn_trans so.
rewrite [perm_end_loop _ _]/= [RHS]/= inE.
case: (m =P x) => [e|ne] /=.
  subst x; rewrite (IH m.+1 l) ?(path_sorted so) //; last first.
    apply/allP => y yl; have := allP so' y yl; have /andP[_ /allP/(_ y yl)] := B; lia.
  apply: eq_in_filter => y; rewrite mem_iota inE => /andP[my _].
  by have -> : (y == m) = false by apply/eqP; lia.
have ml : m \notin l by apply/negP => /(allP so'); lia.
rewrite ml (IH m.+1 (x :: l)) //.
apply/allP => y yl; have /= := allP B y yl; have : y != m; last by move=> ym; rewrite addSnnS; lia.
by apply: contraNneq ml => e; rewrite e in yl; move: yl; rewrite inE => /orP[/eqP|//]; move: ne; clear; lia.
Qed.

Lemma perm_to_the_endE l n : sorted ltn l -> all (fun i => i < n) l ->
  perm_to_the_end l n = [seq i <- iota 0 n | i \notin l] ++ l /\ is_perm (perm_to_the_end l n).
Proof.
move=> so B; have E : perm_to_the_end l n = [seq i <- iota 0 n | i \notin l] ++ l.
  by rewrite /perm_to_the_end perm_end_loopE.
have U : uniq l by apply: sorted_uniq so; [exact: ltn_trans | exact: ltnn].
split=> //; rewrite E /is_perm.
have -> : [seq i <- iota 0 n | i \notin l] ++ l = [seq i <- iota 0 n | i \notin l] ++ [seq i <- iota 0 n | i \in l].
  congr (_ ++ _); apply: (irr_sorted_eq ltn_trans ltnn so); first by rewrite sorted_filter ?iota_ltn_sorted //; exact: ltn_trans.
  by move=> i; rewrite mem_filter mem_iota add0n leq0n; case il: (i \in l) => //=; rewrite (allP B).
have P : perm_eq ([seq i <- iota 0 n | i \notin l] ++ [seq i <- iota 0 n | i \in l]) (iota 0 n).
  by rewrite perm_catC; apply/permPl; apply: perm_filterC.
by rewrite (perm_size P) size_iota.
Qed.

Lemma perm_to_the_end1E i n : i < n ->
  perm_to_the_end1 i n = perm_to_the_end [:: i] n.
Proof.
move=> lt; have [-> _] := @perm_to_the_endE [:: i] n isT ltac:(by rewrite /= lt).
by rewrite /perm_to_the_end1; congr (_ ++ _); apply: eq_filter => j; rewrite inE.
Qed.

Lemma extension_permE p n : is_perm p -> size p <= n ->
  [/\ is_perm (extension_perm p n), size (extension_perm p n) = n &
    forall i, i < n -> nth 0 (extension_perm p n) i = if i < size p then nth 0 p i else i].
Proof.
move=> P le; have E : extension_perm p n = p ++ iota (size p) (n - size p).
  rewrite /extension_perm; case: p {P le} => //; by rewrite /identity_perm subn0.
have s : size (extension_perm p n) = n by rewrite E size_cat size_iota; lia.
split=> //.
  rewrite /is_perm s E; rewrite -{2}(subnKC le) iotaD add0n perm_cat2r; exact: P.
move=> i li; rewrite E nth_cat; case: ltnP => // pi; rewrite nth_iota; lia.
Qed.

(** ** sorted ranges *)
Lemma intersect_cons x a y b : intersect_sorted (x :: a) (y :: b) =
  if x < y then intersect_sorted a (y :: b) else if y < x then intersect_sorted (x :: a) b
  else x :: intersect_sorted a b.
Proof. by []. Qed.

Lemma sorted_notin x a : sorted ltn (x :: a) -> forall y, y <= x -> y \notin a.
Proof. by move=> so y le; apply/negP => /(allP (order_path_min ltn_trans so)); lia. Qed.

Lemma intersect_sortedE a b : sorted ltn a -> sorted ltn b -> intersect_sorted a b = [seq x <- a | x \in b].
Proof.
elim: a b => // x a IHa; elim=> [|y b IHb] sa sb; first by rewrite /= filter_pred0.
have sa' := path_sorted sa; have sb' := path_sorted sb.
rewrite intersect_cons [RHS]/= inE; case: (ltngtP x y) => c.
- by rewrite IHa // (negbTE (sorted_notin sb (ltnW c))).
- rewrite IHb //=.
  have H : {in a, (fun z => z \in b) =1 (fun z => z \in y :: b)}.
    move=> z za /=; rewrite inE; case: (z =P y) => // e.
    by have := allP (order_path_min ltn_trans sa) z za; rewrite e; lia.
  by rewrite (eq_in_filter H).
rewrite IHa //; congr (_ :: _); apply: eq_in_filter => z za; rewrite inE.
by case: (z =P y) => // e; have := allP (order_path_min ltn_trans sa) z za; rewrite e c ltnn.
Qed.

Lemma has_intersect_sortedE a b : has_intersect_sorted a b = (intersect_sorted a b != [::]).
Proof.
elim: a b => // x a IHa; elim=> [|y b IHb] //.
rewrite intersect_cons -[has_intersect_sorted _ _]/(if x < y then has_intersect_sorted a (y :: b)
  else if y < x then has_intersect_sorted (x :: a) b else true).
by rewrite IHa IHb; case: ltngtP.
Qed.

Lemma intersect_lt_cons m x a y b : intersect_sorted_lt m (x :: a) (y :: b) =
  if x < y then if at_or_past m a then [::] else intersect_sorted_lt m a (y :: b)
  else if y < x then if at_or_past m b then [::] else intersect_sorted_lt m (x :: a) b
  else x :: (if at_or_past m a || at_or_past m b then [::] else intersect_sorted_lt m a b).
Proof. by []. Qed.

Lemma past_filter m a (P : pred nat) : sorted ltn a -> at_or_past m a -> [seq x <- a | P x & x < m] = [::].
Proof.
case: a => // x a so; rewrite /at_or_past -leqNgt => mx.
apply/eqP; rewrite -[_ == _]negbK -has_filter; apply/hasPn => y; rewrite inE => /orP[/eqP ->|ya].
  by rewrite ltnNge mx andbF.
have := allP (order_path_min ltn_trans so) y ya => /= xy; rewrite ltnNge; have -> : m <= y by lia.
by rewrite andbF.
Qed.

Definition tl m (a b : seq nat) : seq nat :=
  if (a, b) is (x :: _, y :: _) then if (x == y) && (m <= x) then [:: x] else [::] else [::].
Lemma tl_nil m a b : ~~ at_or_past m a || ~~ at_or_past m b -> tl m a b = [::].
Proof.
case: a b => [|x a] [|y b] //=; rewrite /tl !negbK; case: (x =P y) => [->|] //=.
by rewrite orbb => h; rewrite [m <= y]leqNgt h.
Qed.
Lemma past_filterr m a b : sorted ltn b -> at_or_past m b -> [seq x <- a | x \in b & x < m] = [::].
Proof.
move=> so pb; apply/eqP; rewrite -[_ == _]negbK -has_filter; apply/hasPn => z _; apply/negP => /andP[zb zm].
have : z \in [seq x <- b | xpredT x & x < m] by rewrite mem_filter /= zm zb.
by rewrite past_filter.
Qed.

(** right unless both ranges start with the same value, at or above maxval *)
Lemma intersect_sorted_ltE m a b : sorted ltn a -> sorted ltn b ->
  intersect_sorted_lt m a b = [seq x <- a | x \in b & x < m] ++ tl m a b.
Proof.
elim: a b => // x a IHa; elim=> [|y b IHb] sa sb.
  by rewrite /= filter_pred0.
have sa' := path_sorted sa; have sb' := path_sorted sb.
have na := sorted_notin sa; have nb := sorted_notin sb.
have H : y <= x -> [seq z <- a | z \in y :: b & z < m] = [seq z <- a | z \in b & z < m].
  move=> yx; apply: eq_in_filter => z za; rewrite inE; case: (z =P y) => // e.
  by have /= := allP (order_path_min ltn_trans sa) z za; rewrite e; lia.
rewrite intersect_lt_cons.
case: (ltngtP x y) => c.
- have -> : tl m (x :: a) (y :: b) = [::] by rewrite /tl (ltn_eqF c).
  have -> : [seq z <- x :: a | z \in y :: b & z < m] = [seq z <- a | z \in y :: b & z < m].
    have xn : x \notin y :: b by rewrite in_cons (ltn_eqF c) (negbTE (nb x (ltnW c))).
    by rewrite [LHS]/= (negbTE xn).
  rewrite cats0; case: ifP => pa; first by rewrite past_filter.
  by rewrite IHa // tl_nil ?cats0 // pa.
- have -> : tl m (x :: a) (y :: b) = [::] by rewrite /tl (gtn_eqF c).
  have -> : [seq z <- x :: a | z \in y :: b & z < m] = [seq z <- x :: a | z \in b & z < m].
    by rewrite [LHS]/= (H (ltnW c)) in_cons (gtn_eqF c).
  rewrite cats0; case: ifP => pb; first by rewrite past_filterr.
  by rewrite IHb // tl_nil ?cats0 // pb orbT.
subst y; have -> : [seq z <- x :: a | z \in x :: b & z < m] =
    (if x < m then [:: x] else [::]) ++ [seq z <- a | z \in b & z < m].
  by rewrite [LHS]/= mem_head H //; case: ltnP.
rewrite {1}/tl eqxx /=; case: (ltnP x m) => xm /=.
  rewrite cats0; congr (_ :: _).
  case pa: (at_or_past m a) => /=; first by rewrite past_filter.
  case pb: (at_or_past m b); first by rewrite past_filterr.
  by rewrite IHa // tl_nil ?cats0 // pa.
have pa : at_or_past m a.
  by case: a {IHa IHb na H} sa sa' => // z a /= /andP[xz _] _; rewrite -leqNgt; lia.
by rewrite pa /= past_filter.
Qed.

Lemma has_intersect_lt_cons m x a y b : has_intersect_sorted_lt m (x :: a) (y :: b) =
  if x < y then if at_or_past m a then false else has_intersect_sorted_lt m a (y :: b)
  else if y < x then if at_or_past m b then false else has_intersect_sorted_lt m (x :: a) b
  else true.
Proof. by []. Qed.

Lemma has_intersect_sorted_ltE m a b : has_intersect_sorted_lt m a b = (intersect_sorted_lt m a b != [::]).
Proof.
elim: a b => // x a IHa; elim=> [|y b IHb] //.
by rewrite intersect_lt_cons has_intersect_lt_cons IHa IHb; case: ltngtP => // _; case: ifP.
Qed.

Lemma compl_restE k i n : n = i + k -> compl_rest k i n = iota i k.
Proof.
elim: k i => // k IH i E; rewrite [compl_rest _ _ _]/=; have -> : i < n by lia.
by rewrite IH //; lia.
Qed.

Definition maxl := foldr maxn 0.
Lemma maxl_ub l x : x \in l -> x <= maxl l.
Proof. by elim: l => //= y l IH; rewrite inE => /orP[/eqP ->|/IH]; lia. Qed.
Lemma maxl_in x l : maxl (x :: l) \in x :: l.
Proof.
elim: l x => [|y l IH] x; first by rewrite /= maxn0 mem_head.
rewrite -[maxl _]/(maxn x (maxl (y :: l))); case: (leqP x (maxl (y :: l))) => c; first by rewrite inE IH orbT.
by rewrite mem_head.
Qed.

Lemma compl_loopE fuel ind i : sorted ltn ind -> all (leq i) ind -> maxl ind < fuel + i ->
  compl_loop fuel ind i = Ok (if ind is [::] then [::] else [seq j <- iota i ((maxl ind).+1 - i) | j \notin ind],
     if ind is [::] then i else (maxl ind).+1).
Proof.
elim: fuel ind i => [|fuel IH] ind i so B fu.
  case: ind so B fu => // p l so B; rewrite add0n => fu.
  by have := leq_trans fu (allP B _ (maxl_in p l)); rewrite ltnn.
case: ind so B fu => // p l so B fu; rewrite [compl_loop _ _ _]/=.
have nl := sorted_notin so; have gt := order_path_min ltn_trans so.
have [le Bl] := andP B.
have Mi := allP B _ (maxl_in p l).
case: (p =P i) => [e|ne].
  subst p; have F1 : maxl l < fuel + i.+1 by have := fu; rewrite -[maxl (i :: l)]/(maxn i (maxl l)); clear; lia.
  rewrite (IH l i.+1 (path_sorted so) gt F1); clear F1.
  case: l so B fu nl gt le Bl Mi => [|q l] so B fu nl gt le Bl Mi.
    by rewrite /= maxn0 subSnn /= inE eqxx.
  set l' := q :: l in so B fu nl gt Bl Mi *.
  have M : maxl (i :: l') = maxl l'.
    rewrite /maxl /=; apply/maxn_idPr; apply: leq_trans (maxl_ub (mem_head _ _)).
    by apply: ltnW; apply: (allP gt); rewrite mem_head.
  rewrite M; have Mi1 : i < maxl l' by apply: (allP gt); apply: maxl_in.
  have -> : (maxl l').+1 - i = ((maxl l').+1 - i.+1).+1 by lia.
  rewrite [in RHS]/= inE eqxx /=; congr (Ok (_, _)); apply: eq_in_filter => j.
  by rewrite mem_iota => /andP[ij _]; rewrite [j \in i :: l']in_cons (gtn_eqF ij).
have B' : all (leq i.+1) (p :: l).
  apply/allP => z zl; have := allP B z zl; rewrite leq_eqVlt => /orP[/eqP e|//]; subst z.
  move: zl; rewrite inE => /orP[/eqP e|zl]; first by case: ne.
  by have := allP gt _ zl => /= pi; lia.
rewrite (IH (p :: l)) //; last by have := fu; lia.
cbn [obind]; have Mi1 := allP B' _ (maxl_in p l).
have -> : (maxl (p :: l)).+1 - i = ((maxl (p :: l)).+1 - i.+1).+1 by lia.
have ni : i \notin p :: l by apply/negP => /(allP B'); rewrite /= ltnn.
by rewrite [in RHS]/= ni.
Qed.

Lemma sorted_complementE ind n : sorted ltn ind ->
  sorted_complement ind n = Ok [seq j <- iota 0 (if ind is [::] then n else maxn n (maxl ind).+1) | j \notin ind].
Proof.
move=> so; rewrite /sorted_complement compl_loopE //; [|by apply/allP|by rewrite addn0 -/maxl; lia].
cbn [obind]; case: ind so => [|p l] so.
  by rewrite subn0 compl_restE // ; congr Ok; rewrite /= filter_predT.
congr Ok; rewrite subn0; set M := (maxl (p :: l)).+1.
have Z k : [seq j <- iota M k | j \notin p :: l] = iota M k.
  apply/all_filterP/allP => j; rewrite mem_iota => /andP[Mj _]; apply/negP => /maxl_ub.
  by rewrite leqNgt Mj.
have -> : maxn n M = M + (n - M) by rewrite maxnC maxnE.
rewrite iotaD filter_cat add0n Z; congr (_ ++ _).
case: (leqP n M) => c; first by have /eqP -> : n - M == 0 by rewrite subn_eq0.
by rewrite compl_restE // subnKC // ltnW.
Qed.

Lemma find_sorted_ltE s v : sorted leq s ->
  match s with
  | [::] => find_sorted_lt s v = Ok None
  | x :: _ => if x < v then exists k, [/\ find_sorted_lt s v = Ok (Some k), k < size s, nth 0 s k < v &
                       forall j, k < j < size s -> v <= nth 0 s j]
              else find_sorted_lt s v = UB
  end.
Proof.
case: s => // x s so; case: ifP => xv; last by rewrite /find_sorted_lt /= xv.
rewrite /find_sorted_lt; set f := find _ _.
have f0 : 0 < f by rewrite /f /= xv.
case E: f f0 => [//|k] _; have ks : k < size (x :: s) by rewrite -E /f find_size.
rewrite (oget_nth 0) //=; have kv : nth 0 (x :: s) k < v.
  have := @before_find _ 0 (fun y => ~~ (y < v)) (x :: s) k; rewrite -/f E ltnSn => /(_ isT)/negbFE //.
rewrite kv; exists k; split=> // j /andP[kj js].
have h : has (fun y => ~~ (y < v)) (x :: s) by rewrite has_find -/f E; exact: leq_ltn_trans kj js.
have := nth_find 0 h; rewrite -/f E -leqNgt => fv; apply: leq_trans fv _.
apply: (sorted_leq_nth leq_trans leqnn 0 so) => //; rewrite inE; exact: leq_ltn_trans kj js.
Qed.
