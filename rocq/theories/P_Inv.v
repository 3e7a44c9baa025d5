(** Inversions, Kendall tau, sign. *)
From mathcomp Require Import all_ssreflect all_algebra all_fingroup zify.
From Verif Require Import Outcome P_Outcome M_Perm S_Perm P_Perm.
Set Implicit Arguments.
Unset Strict Implicit.
Unset Printing Implicit Defensive.

Definition below (x : nat) (s : seq nat) : nat := count (fun y => y < x) s.
Fixpoint invl (s : seq nat) : nat := if s is x :: s' then below x s' + invl s' else 0.
Definition cross (l r : seq nat) : nat := \sum_(x <- l) below x r.

Lemma cross_cons x l r : cross (x :: l) r = below x r + cross l r.
Proof. by rewrite /cross big_cons. Qed.
Lemma cross_nil r : cross [::] r = 0. Proof. by rewrite /cross big_nil. Qed.
Lemma cross_nilr l : cross l [::] = 0.
Proof. by rewrite /cross big1. Qed.
Lemma cross_consr l y r : cross l (y :: r) = count (fun x => y < x) l + cross l r.
Proof.
elim: l => [|x l IH]; first by rewrite !cross_nil.
by rewrite !cross_cons IH /below /=; lia.
Qed.
Lemma cross_perm l l' r r' : perm_eq l l' -> perm_eq r r' -> cross l r = cross l' r'.
Proof.
move=> pl pr; rewrite /cross (perm_big _ pl); apply: eq_bigr => x _; exact: (seq.permP pr).
Qed.
Lemma invl_cat l r : invl (l ++ r) = invl l + invl r + cross l r.
Proof.
elim: l => [|x l IH] /=; first by rewrite cross_nil addn0.
by rewrite IH cross_cons /below count_cat; lia.
Qed.

Lemma inversionsE p : inversions p = invl p.
Proof.
rewrite /inversions -sum1_card.
rewrite (eq_bigl (fun ij : 'I_(size p) * 'I_(size p) => (ij.1 < ij.2) && (nth 0 p ij.2 < nth 0 p ij.1)));
  last by move=> ij; rewrite inE.
rewrite big_mkcond /= -(pair_bigA _ (fun i j : 'I_(size p) => if (i < j) && (nth 0 p j < nth 0 p i) then 1 else 0)) /=.
elim: p => [|x p IH]; first by rewrite big_ord0.
rewrite [size _]/= big_ord_recl /= -IH; congr (_ + _).
  rewrite big_ord_recl /= add0n /below -sum1_count (big_nth 0) big_mkord [RHS]big_mkcond.
  by apply: eq_bigr.
apply: eq_bigr => i _; rewrite big_ord_recl /= add0n; by apply: eq_bigr => j _; rewrite /= /bump /= !add1n ltnS.
Qed.

Lemma perm_inversionsE p : perm_inversions p = invl p.
Proof.
rewrite /perm_inversions.
suff H : forall k, k <= size p -> 
   sumn [seq sumn [seq (nth 0 p j < nth 0 p i : nat) | j <- iota i.+1 (size p - i.+1)] | i <- iota k (size p - k)]
     = invl (drop k p).
  by have := H 0 isT; rewrite subn0 drop0.
have B' m x : forall i, size p - i = m -> i <= size p ->
    sumn [seq (nth 0 p j < x : nat) | j <- iota i m] = below x (drop i p).
  elim: m => [|m IH] i E li; first by rewrite drop_oversize // ; lia.
  have lt : i < size p by lia.
  by rewrite /= (IH i.+1) ?(drop_nth 0 lt) //; lia.
have B i x : i <= size p -> sumn [seq (nth 0 p j < x : nat) | j <- iota i (size p - i)] = below x (drop i p).
  by move=> li; apply: B'.
move=> k lk; have [m E] : exists m, size p - k = m by exists (size p - k).
rewrite E; elim: m k lk E => [|m IH] k lk E; first by rewrite drop_oversize //; lia.
have lt : k < size p by lia.
by rewrite /= (IH k.+1) ?(drop_nth 0 lt) /= ?B //; lia.
Qed.

(** ** merge sort counting *)
Lemma kt_merge_cons x l y r : kt_merge (x :: l) (y :: r) =
  if x <= y then let: (s, c) := kt_merge l (y :: r) in (x :: s, c)
  else let: (s, c) := kt_merge (x :: l) r in (y :: s, size (x :: l) + c).
Proof. by []. Qed.

Lemma kt_mergeE l r : sorted leq l -> sorted leq r ->
  [/\ perm_eq (kt_merge l r).1 (l ++ r), sorted leq (kt_merge l r).1 & (kt_merge l r).2 = cross l r].
Proof.
elim: l r => [|x l IHl] r; first by move=> _ sr; rewrite /= cross_nil.
elim: r => [|y r IHr] sl sr; first by rewrite /= cats0 cross_nilr.
rewrite kt_merge_cons.
have sl' := path_sorted sl; have sr' := path_sorted sr.
case: leqP => xy.
  have [P S C] := IHl (y :: r) sl' sr; case E: (kt_merge l (y :: r)) P S C => [s c] /= P S C.
  split; first by rewrite perm_cons.
    rewrite path_sortedE ?S ?andbT; last exact: leq_trans.
    rewrite (perm_all _ P) all_cat /= xy (order_path_min leq_trans sl) /=.
    by apply/allP => z /(allP (order_path_min leq_trans sr)); apply: leq_trans.
  rewrite C cross_cons; suff -> : below x (y :: r) = 0 by [].
  apply/eqP; rewrite -leqn0 leqNgt -has_count; apply/hasPn => z; rewrite inE -leqNgt => /orP[/eqP -> //|zr].
  exact: leq_trans xy (allP (order_path_min leq_trans sr) z zr).
have [P S C] := IHr sl sr'; case E: (kt_merge (x :: l) r) P S C => [s c] /= P S C.
have yx z : z \in x :: l -> y < z.
  rewrite inE => /orP[/eqP -> //|zl]; exact: leq_trans xy (allP (order_path_min leq_trans sl) z zl).
split.
- by rewrite -cat_cons -[y :: r]cat1s perm_sym perm_catCA /= perm_cons perm_sym.
- rewrite path_sortedE ?S ?andbT; last exact: leq_trans.
  rewrite (perm_all _ P) -cat_cons all_cat; apply/andP; split; first by apply/allP => z /yx /ltnW.
  by apply/allP => z /(allP (order_path_min leq_trans sr)).
rewrite cross_consr C; congr (_ + _).
rewrite -[RHS]/(count _ (x :: l)) -[LHS]/(size (x :: l)) ; apply/esym/eqP; rewrite -all_count.
by apply/allP => z /yx.
Qed.

Lemma kt_inplaceE fuel A S D : size S < fuel ->
  exists s, [/\ kt_inplace fuel (A ++ S ++ D) (size A) (size A + size S) = Ok (A ++ s ++ D, invl S),
    perm_eq s S & sorted leq s].
Proof.
elim: fuel A S D => // fuel IH A S D fu; rewrite [kt_inplace _ _ _ _]/=.
case: leqP => fb.
  exists S; have : size S <= 1 by lia.
  by case: S {fu fb} => [|x [|y t]].
set h := (size A + size S - (size A).+1) %/ 2.
have Eh : h = (size S).-1 %/ 2 by rewrite /h; congr (_ %/ 2); lia.
have hS : h.+1 < size S by rewrite Eh; move: (leq_trunc_div (size S).-1 2) fb; clear; lia.
set S1 := take h.+1 S; set S2 := drop h.+1 S.
have ES : S = S1 ++ S2 by rewrite cat_take_drop.
have s1 : size S1 = h.+1 by rewrite size_takel //; lia.
have s2 : size S2 = size S - h.+1 by rewrite size_drop.
have [|t1 [E1 P1 O1]] := IH A S1 (S2 ++ D); first by rewrite s1; lia.
have [|t2 [E2 P2 O2]] := IH (A ++ t1) S2 D; first by rewrite s2; lia.
have st1 := perm_size P1; have st2 := perm_size P2.
rewrite -addnS -s1 {1}ES -catA E1; cbn [obind].
rewrite size_cat st1 in E2; rewrite catA.
have -> : size A + size S = size A + size S1 + size S2 by rewrite s1 s2; lia.
rewrite E2; cbn [obind]; rewrite ifT; last by rewrite !size_cat st1 st2 !addnA leq_addr.
have -> : take (size A + size S1 - size A) (drop (size A) ((A ++ t1) ++ t2 ++ D)) = t1.
  by rewrite -catA drop_size_cat // addKn take_size_cat.
have -> : take (size A + size S1 + size S2 - (size A + size S1)) (drop (size A + size S1) ((A ++ t1) ++ t2 ++ D)) = t2.
  by rewrite drop_size_cat ?size_cat ?st1 // addKn take_size_cat.
have [P3 O3 C3] := kt_mergeE O1 O2.
case E3: (kt_merge t1 t2) P3 O3 C3 => [s c] /= P3 O3 C3.
exists s; split=> //; last by rewrite (perm_trans P3) // ES perm_cat.
congr (Ok (_, _)).
  rewrite -catA take_size_cat //; congr (_ ++ _ ++ _).
  by rewrite !catA drop_size_cat // !size_cat st1 st2.
by rewrite ES invl_cat C3 (cross_perm P1 P2).
Qed.

Lemma Kendall_tauE p : Kendall_tau p = Ok (invl p).
Proof.
rewrite /Kendall_tau; have [s [E _ _]] := @kt_inplaceE (size p).+1 [::] p [::] (ltnSn _).
by move: E; rewrite /= cats0 add0n => ->.
Qed.

Lemma Kendall_tau2E p q : is_perm p -> is_perm q -> size p = size q ->
  Kendall_tau2 p q = Ok (discordant (size p) p q).
Proof.
move=> Pp Pq E; rewrite /Kendall_tau2 inv_permE //; cbn [obind].
rewrite (apply_permE 0) ?size_ipl ?E //; last first.
  by apply/allP => i; rewrite is_perm_mem // E.
cbn [obind]; rewrite drop_oversize ?size_ipl // cats0; set r := map _ _.
have [s [Er _ _]] := @kt_inplaceE (size r).+1 [::] r [::] (ltnSn _).
move: Er; rewrite /= cats0 add0n => ->; cbn [obind]; congr Ok; rewrite -inversionsE.
have sr : size r = size p by rewrite size_map.
have nr i : i < size p -> nth 0 r i = index (nth 0 p i) q.
  by move=> lt; rewrite (nth_map 0) // nth_ipl // -E is_perm_lt.
rewrite /inversions /discordant sr -E.
have fl (x : 'I_(size p)) : nth 0 p x < size p by apply: is_perm_lt.
pose g (x : 'I_(size p)) := Ordinal (fl x).
have gi : injective g.
  by move=> x y /(congr1 val) /= e; apply: val_inj; apply: (is_perm_inj Pp) e.
pose gg (ij : 'I_(size p) * 'I_(size p)) := (g ij.1, g ij.2).
have ggi : injective gg by move=> [a b] [c d] /= [/(is_perm_inj Pp (ltn_ord _) (ltn_ord _))/val_inj -> /(is_perm_inj Pp (ltn_ord _) (ltn_ord _))/val_inj ->].
set A := finset _; set B := finset _; suff <- : gg @: A = B by rewrite card_imset.
apply/setP => -[x y].
have Up := is_perm_uniq Pp.
have gK (z : 'I_(size p)) : exists2 i : 'I_(size p), g i = z & (i : nat) = index (z : nat) p.
  exists (Ordinal (is_perm_index Pp (ltn_ord z))) => //.
  by apply: val_inj; rewrite /= is_perm_nth_index.
apply/imsetP/idP.
  move=> [[i j]]; rewrite inE /= => /andP[ij inv] [-> ->]; rewrite inE /= !index_uniq // ij /=.
  by move: inv; rewrite !nr.
rewrite inE /= => /andP[xy yx]; have [i Ei ix] := gK x; have [j Ej jy] := gK y.
exists (i, j); last by rewrite /gg /= Ei Ej.
by rewrite inE /= ix jy xy /= -ix -jy !nr // ix jy !is_perm_nth_index.
Qed.

(** ** sign *)
Lemma descent s : ~~ sorted leq s -> exists l x y r, s = l ++ x :: y :: r /\ y < x.
Proof.
elim: s => // x [|y s] IH //=; rewrite negb_and -ltnNge; case: (ltnP y x) => yx.
  by move=> _; exists [::], x, y, s.
by move=> /= ns; have [l [a [b [r [-> ab]]]]] := IH ns; exists (x :: l), a, b, r.
Qed.

Lemma invl_swap l x y r : y < x -> invl (l ++ x :: y :: r) = (invl (l ++ y :: x :: r)).+1.
Proof.
move=> yx; rewrite !invl_cat (@cross_perm l l (x :: y :: r) (y :: x :: r)) //; last first.
  by rewrite -[x :: _]cat1s -[y :: r]cat1s perm_catCA.
by rewrite /= /below /= yx ltnNge (ltnW yx) /=; lia.
Qed.

Lemma invl_sorted s : sorted leq s -> invl s = 0.
Proof.
elim: s => //= x l IHl pl; rewrite IHl ?(path_sorted pl) // addn0 /below.
apply/eqP; rewrite -leqn0 leqNgt -has_count; apply/hasPn => z zl.
by rewrite -leqNgt (allP (order_path_min leq_trans pl) z zl).
Qed.

Definition plist n (s : 'S_n) : seq nat := [seq (s i : nat) | i <- enum 'I_n].
Lemma size_plist n (s : 'S_n) : size (plist s) = n. Proof. by rewrite size_map size_enum_ord. Qed.
Lemma nth_plist n (s : 'S_n) (i : 'I_n) : nth 0 (plist s) i = s i.
Proof. by rewrite (nth_map i) ?size_enum_ord // nth_ord_enum. Qed.

Lemma plist_sorted n (s : 'S_n) : sorted leq (plist s) -> s = 1%g.
Proof.
move=> so; have U : uniq (plist s) by rewrite map_inj_uniq ?enum_uniq // => a b /val_inj/perm_inj.
have E : plist s = iota 0 n.
  apply: (sorted_eq leq_trans anti_leq so (iota_sorted 0 n)).
  apply: uniq_perm => //; first exact: iota_uniq.
  have sub : {subset plist s <= iota 0 n} by move=> x /mapP[i _ ->]; rewrite mem_iota /= add0n.
  by have [] := uniq_min_size U sub; rewrite ?size_iota ?size_plist.
apply/permP => i; apply: val_inj; by rewrite /= -nth_plist E nth_iota // perm1.
Qed.

Lemma plist_sign n (s : 'S_n) : odd (invl (plist s)) = odd_perm s.
Proof.
suff H m : forall s : 'S_n, invl (plist s) = m -> odd m = odd_perm s by apply: H.
elim: m => [|m IH] {}s E.
  have so : sorted leq (plist s).
    apply/negPn/negP => /descent[l [x [y [r [Ep yx]]]]].
    by move: E; rewrite Ep invl_swap.
  by rewrite (plist_sorted so) odd_perm1.
have ns : ~~ sorted leq (plist s).
  apply/negP => so; move: E; rewrite (plist_sorted so).
  suff -> : plist (1%g : 'S_n) = iota 0 n.
    by rewrite invl_sorted // iota_sorted.
  apply: (@eq_from_nth _ 0); rewrite ?size_plist ?size_iota // => i li.
  by rewrite -[i]/(nat_of_ord (Ordinal li)) nth_plist perm1 nth_iota.
have [l [x [y [r [Ep yx]]]]] := descent ns.
have sz : size l + (size r).+2 = n by rewrite -(size_plist s) Ep size_cat.
have li : size l < n by lia.
have lj : (size l).+1 < n by lia.
pose i := Ordinal li; pose j := Ordinal lj.
have ij : i != j by apply/eqP => /(congr1 val) /=; lia.
have si : s i = x :> nat by rewrite -nth_plist Ep nth_cat /= ltnn subnn.
have sj : s j = y :> nat by rewrite -nth_plist Ep nth_cat /= ltnNge leqnSn subSnn.
have Eq : plist (tperm i j * s)%g = l ++ y :: x :: r.
  apply: (@eq_from_nth _ 0); first by rewrite size_plist size_cat.
  move=> k; rewrite size_plist => lk; rewrite -[k]/(nat_of_ord (Ordinal lk)) nth_plist permM.
  case: tpermP => [/(congr1 val) /= ->|/(congr1 val) /= ->|/eqP ki /eqP kj].
  - by rewrite sj nth_cat ltnn subnn.
  - by rewrite si nth_cat ltnNge leqnSn subSnn.
  rewrite -nth_plist Ep !nth_cat /=; case: ltnP => // lk'.
  have {}ki : k != size l by apply: contra ki => /eqP e; apply/eqP/val_inj.
  have {}kj : k != (size l).+1 by apply: contra kj => /eqP e; apply/eqP/val_inj.
  by have -> : k - size l = (k - size l - 2).+2 by lia.
have Em : invl (plist (tperm i j * s)%g) = m by rewrite Eq; move: E; rewrite Ep invl_swap // => -[].
by rewrite /= (IH _ Em) odd_permM odd_tperm ij /= negbK.
Qed.
