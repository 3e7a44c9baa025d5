(** Proofs about sort_sum_reduce and simplex_sign. *)
From mathcomp Require Import all_ssreflect all_algebra all_fingroup zify.
From Verif Require Import Outcome M_SparseVec M_Perm M_Sorted S_Perm S_Linalg P_Outcome P_SparseVec P_Perm P_Sort P_Inv.
Set Implicit Arguments.
Unset Strict Implicit.
Unset Printing Implicit Defensive.
Import GRing.Theory.
Local Open Scope ring_scope.

Lemma oget_mid (A : Type) (s r : seq A) x k : k = size s -> oget (s ++ x :: r) k = Ok x.
Proof. by move=> ->; rewrite /oget drop_size_cat. Qed.
Lemma oset_mid (A : Type) (s r : seq A) x y k : k = size s -> oset (s ++ x :: r) k y = Ok (s ++ y :: r).
Proof.
move=> ->; have lt : (size s < size (s ++ x :: r))%N by rewrite size_cat /= addnS ltnS leq_addr.
rewrite (oset_Ok y y lt) set_nthE lt take_size_cat // -[s ++ x :: r]cat_rcons drop_size_cat ?size_rcons //.
Qed.

Section SSR.
Variable F : fieldType.
Notation O := (ops_of F).
Implicit Types (v : svec F).

Fixpoint ssrf (c : nat * F) v : svec F :=
  match v with
  | [::] => if c.2 == 0 then [::] else [:: c]
  | p :: v' => if p.1 == c.1 then ssrf (c.1, c.2 + p.2) v' else (if c.2 == 0 then id else cons c) (ssrf p v')
  end.

Lemma ssr_loopE v (A J : seq nat) (A' J' : seq F) i x fill look : size A = fill -> size A' = fill ->
  size J = size J' -> look = (fill.+1 + size J)%N ->
  exists (i2 : seq nat) (v2 : seq F) f, [/\ ssr_loop O (size v) (A ++ i :: J ++ unzip1 v) (A' ++ x :: J' ++ unzip2 v) fill look = Ok (i2, v2, f),
    (f < size v2)%N,
    take (if nth 0 v2 f == 0 then f else f.+1) i2 = A ++ unzip1 (ssrf (i, x) v) &
    take (if nth 0 v2 f == 0 then f else f.+1) v2 = A' ++ unzip2 (ssrf (i, x) v)].
Proof.
elim: v A J A' J' i x fill look => [|[r y] v IH] A J A' J' i x fill look sA sA' sJ lk.
  exists (A ++ i :: J ++ [::]), (A' ++ x :: J' ++ [::]), fill.
  have N : nth 0 (A' ++ x :: J' ++ [::]) fill = x by rewrite nth_cat sA' ltnn subnn.
  split=> //; first by rewrite size_cat sA' /= addnS ltnS leq_addr.
  - rewrite N [ssrf _ _]/=; case: ifP => _; first by rewrite -sA take_size_cat // cats0.
    by rewrite -cat_rcons take_size_cat ?size_rcons ?sA // -cats1.
  - rewrite N [ssrf _ _]/=; case: ifP => _; first by rewrite -sA' take_size_cat // cats0.
    by rewrite -cat_rcons take_size_cat ?size_rcons ?sA' // -cats1.
rewrite [size _]/= [unzip1 _]/= [unzip2 _]/= -/(unzip1 v) -/(unzip2 v) [ssr_loop _ _ _ _ _ _]/=.
have e1 : A ++ i :: J ++ r :: unzip1 v = (A ++ i :: J) ++ r :: unzip1 v by rewrite -catA.
have e2 : A' ++ x :: J' ++ y :: unzip2 v = (A' ++ x :: J') ++ y :: unzip2 v by rewrite -catA.
have l1 : look = size (A ++ i :: J) by rewrite size_cat sA lk /= addnS.
have l2 : look = size (A' ++ x :: J') by rewrite size_cat sA' lk /= addnS sJ.
rewrite {1}e1 (oget_mid _ _ l1) [obind _ _]/= (oget_mid _ _ (esym sA)) [obind _ _]/=.
rewrite {1}e2 (oget_mid _ _ l2) [obind _ _]/= (oget_mid _ _ (esym sA')) [obind _ _]/=.
case: (r =P i) => [e|ne].
  subst r; rewrite (oset_mid _ _ _ (esym sA')) [obind _ _]/=.
  have [||i2 [v2 [f [E1 E2 E3 E4]]]] := IH A (rcons J i) A' (rcons J' y) i (x + y) fill look.+1 sA sA'.
  - by rewrite !size_rcons sJ.
  - by rewrite size_rcons addnS lk.
  exists i2, v2, f; split=> //; last 2 first.
  - by rewrite E3 [in RHS]/= eqxx.
  - by rewrite E4 [in RHS]/= eqxx.
  by rewrite -E1 !cat_rcons.
rewrite [ssrf _ _]/=; move/eqP/negPf: (ne) => ->.
case: ifP => x0.
  rewrite (oset_mid _ _ _ (esym sA)) [obind _ _]/= (oset_mid _ _ _ (esym sA')) [obind _ _]/=.
  have [||i2 [v2 [f [E1 E2 E3 E4]]]] := IH A (rcons J r) A' (rcons J' y) r y fill look.+1 sA sA'.
  - by rewrite !size_rcons sJ.
  - by rewrite size_rcons addnS lk.
  by exists i2, v2, f; split=> //; rewrite -E1 !cat_rcons.
have sA1 : size (rcons A i) = fill.+1 by rewrite size_rcons sA.
have sA1' : size (rcons A' x) = fill.+1 by rewrite size_rcons sA'.
case: J J' sJ lk {e1 e2 l1 l2} => [|j J] [|j' J'] // sJ lk.
  rewrite ![[::] ++ _]/= -cat_rcons (oset_mid _ _ _ (esym sA1)) [obind _ _]/=.
  rewrite -[A' ++ _]cat_rcons (oset_mid _ _ _ (esym sA1')) [obind _ _]/=.
  have [||i2 [v2 [f [E1 E2 E3 E4]]]] := IH (rcons A i) [::] (rcons A' x) [::] r y fill.+1 look.+1 sA1 sA1' => //.
    by rewrite lk !addn0.
  by exists i2, v2, f; split=> //; rewrite ?E3 ?E4 cat_rcons.
rewrite ![(_ :: _) ++ _]/= -cat_rcons (oset_mid _ _ _ (esym sA1)) [obind _ _]/=.
rewrite -[A' ++ _]cat_rcons (oset_mid _ _ _ (esym sA1')) [obind _ _]/=.
have [||i2 [v2 [f [E1 E2 E3 E4]]]] := IH (rcons A i) (rcons J r) (rcons A' x) (rcons J' y) r y fill.+1 look.+1 sA1 sA1'.
- by rewrite !size_rcons; case: sJ => ->.
- by rewrite lk size_rcons /= !addnS !addSn.
by exists i2, v2, f; split=> //; rewrite ?E3 ?E4 ?cat_rcons // -E1 !cat_rcons.
Qed.

Lemma ssrfE v c : sorted leq (c.1 :: unzip1 v) ->
  [/\ sorted ltn (unzip1 (ssrf c v)), all (leq c.1) (unzip1 (ssrf c v)), sv_nonzero (ssrf c v) &
      coef (ssrf c v) =1 coef (c :: v)].
Proof.
elim: v c => [|p v IH] [i x]; rewrite [ssrf _ _]/=.
  move=> _; case: ifP => x0; rewrite /sv_nonzero /= ?x0 ?leqnn //; split=> // k.
  by rewrite coef_cons (eqP x0) /= if_same add0r.
move=> so; have ip : (i <= p.1)%N by have /andP[] := so.
case: ifP => e.
  have [|h1 h2 h3 h4] := IH (i, x + p.2); first by move: so; rewrite /= (eqP e) => /andP[].
  split=> // k; rewrite h4 !coef_cons /= (eqP e) addrA; congr (_ + _).
  by case: ifP; rewrite ?addr0.
have so' := path_sorted so; have [h1 h2 h3 h4] := IH p so'.
have lt : (i < p.1)%N by rewrite ltn_neqAle eq_sym e.
have A : all (leq i) (unzip1 (ssrf p v)) by apply: sub_all h2 => z; apply: leq_trans.
case: ifP => x0; split=> //.
- by move=> k; rewrite h4 coef_cons [in RHS]coef_cons (eqP x0) /= if_same add0r coef_cons.
- rewrite /= path_min_sorted //; apply: sub_all h2 => z; exact: leq_trans.
- by rewrite /= leqnn.
- by rewrite /sv_nonzero /= x0.
- by move=> k; rewrite coef_cons h4 -coef_cons.
Qed.

Lemma sort_sum_reduceE (ind : seq nat) (vals : seq F) offset : size vals = size ind -> (offset < size ind)%N ->
  exists (i2 : seq nat) (v2 : seq F), [/\ sort_sum_reduce O ind vals offset = Ok (take offset ind ++ i2, take offset vals ++ v2),
    size i2 = size v2, sorted ltn i2, all (fun x => x != 0) v2 &
    coef (zip i2 v2) =1 coef (zip (drop offset ind) (drop offset vals))].
Proof.
move=> sz lt; rewrite /sort_sum_reduce.
set di := drop offset ind; set dv := drop offset vals.
set p := sortperm _ _ _.
have sd : size dv = size di by rewrite !size_drop sz.
have sp : size p = size di by rewrite /p (size_sortperm (0%N : Order.NatOrder.orderType)).
have Pp : is_perm p by exact: (sortperm_perm (0%N : Order.NatOrder.orderType)).
have B : all (fun k => k < size di)%N p by apply/allP => k; rewrite is_perm_mem // sp.
rewrite (apply_permE 0%N B) ?sp // [obind _ _]/= (apply_permE 0 (d := dv)) ?sd ?sp // [obind _ _]/=.
rewrite drop_size drop_oversize ?sd // !cats0.
set i1 := [seq _ | _ <- p]; set v1 := [seq _ | _ <- p].
have so : sorted leq i1.
  apply/(sortedP 0%N) => k; rewrite size_map => kp.
  rewrite !(nth_map 0%N) ?(ltnW kp) //.
  by apply: (@sortperm_le _ (Order.NatOrder.orderType) 0%N di); rewrite -?sp.
have Z : coef (zip i1 v1) =1 coef (zip di dv).
  apply: coef_perm; rewrite /i1 /v1 zip_map.
  have -> : zip di dv = [seq (nth 0%N di k, nth 0 dv k) | k <- iota 0 (size p)].
    apply: (@eq_from_nth _ (0%N, 0)); first by rewrite size_zip sd minnn size_map size_iota sp.
    move=> k; rewrite size_zip sd minnn => lk.
    by rewrite nth_zip // (nth_map 0%N) ?size_iota ?sp // nth_iota ?sp.
  by apply: perm_map.
have sn : size i1 = size v1 by rewrite !size_map.
have s0 : size i1 = (size ind - offset)%N by rewrite size_map sp size_drop.
case E1: i1 sn s0 so Z => [|i r] sn s0 so Z; first by move: lt; rewrite -subn_gt0 -s0.
case E2: v1 sn Z => [|x y] // [sn] Z.
have U1 : unzip1 (zip r y) = r by rewrite unzip1_zip // sn.
have U2 : unzip2 (zip r y) = y by rewrite unzip2_zip // sn.
have sto : size (take offset ind) = offset by rewrite size_takel // ltnW.
have stv : size (take offset vals) = offset by rewrite size_takel // sz ltnW.
have [i2 [v2 [f [R1 R2 R3 R4]]]] := @ssr_loopE (zip r y) (take offset ind) [::] (take offset vals) [::] i x offset offset.+1
  sto stv erefl (esym (addn0 _)).
move: R1; rewrite U1 U2 size_zip -sn minnn; have -> : size r = (size ind - offset.+1)%N by rewrite subnS -s0.
move=> -> ; rewrite [obind _ _]/= (oget_nth 0) // [obind _ _]/= R3 R4.
have [|h1 h2 h3 h4] := @ssrfE (zip r y) (i, x); first by rewrite U1.
exists (unzip1 (ssrf (i, x) (zip r y))), (unzip2 (ssrf (i, x) (zip r y))); split=> //.
- by rewrite !size_map.
- by rewrite all_map.
- by move=> k; rewrite zip_unzip h4; exact: Z.
Qed.

Lemma sort_sum_reduce_empty (ind : seq nat) (vals : seq F) offset : size vals = size ind -> offset = size ind ->
  sort_sum_reduce O ind vals offset = UB.
Proof.
move=> sz ->; rewrite /sort_sum_reduce drop_size -sz drop_size sz.
rewrite /sortperm /= !cats0.
rewrite take_size -sz take_size sz.
have -> : (size ind - (size ind).+1 = 0)%N by apply/eqP; rewrite subn_eq0.
by rewrite [obind _ _]/= /oget drop_oversize ?sz.
Qed.
End SSR.

Lemma is_degenerateE s : sorted leq s -> is_degenerate s = ~~ uniq s.
Proof.
elim: s => // x [|y s] IH // so; rewrite [is_degenerate _]/= -/(is_degenerate (y :: s)) IH ?(path_sorted so) //.
rewrite [uniq (x :: _)]/= negb_and negbK; case: (y =P x) => [->|/eqP ne]; first by rewrite in_cons eqxx.
rewrite -/(uniq (y :: s)) in_cons [x == y]eq_sym (negPf ne) orFb.
suff -> : x \in s = false by [].
apply/negbTE/negP => xs; have /andP[xy pa] : (x <= y)%N && path leq y s := so.
have := allP (order_path_min leq_trans pa) x xs; move: xy ne; clear; lia.
Qed.

Lemma inversionsn n p : size p = n -> inversions p =
  #|[set ij : 'I_n * 'I_n | (ij.1 < ij.2)%N && (nth 0 p ij.2 < nth 0 p ij.1)%N]|.
Proof. by move=> <-. Qed.

Lemma inversions_sortperm s : uniq s -> let p := sortperm (fun a b => a < b)%N 0%N s in inversions p = inversions s.
Proof.
move=> U p.
have sp : size p = size s by rewrite /p (size_sortperm (0%N : Order.NatOrder.orderType)).
have Pp : is_perm p by exact: (sortperm_perm (0%N : Order.NatOrder.orderType)).
have lt (i : 'I_(size s)) : (nth 0 p i < size s)%N by case: i => i /= li; rewrite -sp is_perm_lt // sp.
pose f (i : 'I_(size s)) := Ordinal (lt i).
have fi : injective f.
  move=> i j /(congr1 val) e; apply: val_inj.
  have li : (i < size p)%N by rewrite sp; apply: ltn_ord.
  have lj : (j < size p)%N by rewrite sp; apply: ltn_ord.
  exact: (is_perm_inj Pp li lj e).
have [g gf fg] := injF_bij fi.
have S i j : (i < j)%N -> (j < size s)%N -> (nth 0 s (nth 0 p i) < nth 0 s (nth 0 p j))%N.
  move=> ij js; have le : (nth 0 s (nth 0 p i) <= nth 0 s (nth 0 p j))%N :=
     @sortperm_le _ (Order.NatOrder.orderType) 0%N s i j (ltnW ij) js.
  rewrite ltn_neqAle le andbT.
  rewrite nth_uniq //; try by rewrite -sp; apply: is_perm_lt; rewrite ?sp //; apply: ltn_trans js.
  rewrite nth_uniq ?is_perm_uniq ?sp ?(ltn_trans ij js) //; by rewrite neq_ltn ij.
have SS (i j : 'I_(size s)) : (nth 0 s (f i) < nth 0 s (f j))%N = (i < j)%N.
  case: (ltngtP i j) => c; first exact: S.
    by apply/negbTE; rewrite -leqNgt ltnW // S.
  by rewrite /= c ltnn.
rewrite (inversionsn sp) /inversions.
pose h (ij : 'I_(size s) * 'I_(size s)) := (f ij.2, f ij.1).
have hi : injective h by move=> [a b] [c d] /= [e1 e2]; congr (_, _); apply: fi; apply: val_inj.
rewrite -(card_imset _ hi); apply: eq_card => -[a b]; rewrite !inE /=; apply/imsetP/idP.
  by move=> [[i j]]; rewrite inE /= => /andP[ij pij] [-> ->]; rewrite SS ij andbT.
move=> /andP[ab sab]; exists (g b, g a); last by rewrite /h /= !fg.
by rewrite inE /= -SS !fg sab /= -[nth 0%N p (g a)]/(f (g a) : nat) -[nth 0%N p (g b)]/(f (g b) : nat) !fg.
Qed.

Lemma simplex_signE s : exists s' g, [/\ simplex_sign s = Ok (s', g), perm_eq s' s, sorted leq s' &
  g = if uniq s then (if odd (inversions s) then Minus else Plus) else Zero].
Proof.
rewrite /simplex_sign; set p := sortperm _ _ _.
have sp : size p = size s by rewrite /p (size_sortperm (0%N : Order.NatOrder.orderType)).
have Pp : is_perm p by exact: (sortperm_perm (0%N : Order.NatOrder.orderType)).
have B : all (fun k => k < size s)%N p by apply/allP => k; rewrite is_perm_mem // sp.
rewrite (apply_permE 0%N B) ?sp // [obind _ _]/= drop_size cats0.
set s' := [seq _ | _ <- p].
have pe : perm_eq s' s.
  have -> : s = [seq nth 0%N s k | k <- iota 0 (size s)] by rewrite -[LHS](mkseq_nth 0%N).
  by apply: perm_map; rewrite -sp; exact: Pp.
have so : sorted leq s'.
  apply/(sortedP 0%N) => k; rewrite size_map => kp.
  rewrite !(nth_map 0%N) ?(ltnW kp) //.
  by apply: (@sortperm_le _ (Order.NatOrder.orderType) 0%N s); rewrite -?sp.
exists s', (if is_degenerate s' then Zero else if perm_sign_neg p then Minus else Plus); split=> //.
rewrite is_degenerateE // (perm_uniq pe); case: ifP => // [/negPf -> //|/negbFE U]; rewrite U.
have -> // : perm_sign_neg p = odd (inversions s).
by rewrite /perm_sign_neg perm_inversionsE -inversionsE /p inversions_sortperm.
Qed.
