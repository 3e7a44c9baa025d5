(** Keys of LightSimplicialComplex: positional notation in base n. *)
From mathcomp Require Import all_ssreflect all_algebra zify.
From Verif Require Import Outcome M_SparseVec M_Perm M_ColMatrix M_CSC M_Simplicial M_Light S_Light P_Outcome P_Simplicial P_ScBuild.
Set Implicit Arguments.
Unset Strict Implicit.
Unset Printing Implicit Defensive.
Import GRing.Theory.

Section Key.
Variable n : nat.
Notation ok s := (all (fun x => x < n) s).

Definition skey (s : seq nat) : nat := foldr (fun x acc => x + n * acc) 0 s.
Fixpoint digs (d key : nat) : seq nat := if d is d'.+1 then key %% n :: digs d' (key %/ n) else [::].

Lemma size_digs d key : size (digs d key) = d.
Proof. by elim: d key => //= d IH key; rewrite IH. Qed.

Lemma digs_ok d key : key < n ^ d -> ok (digs d key).
Proof.
elim: d key => //= d IH key; rewrite expnS => lt.
have n0 : 0 < n by case: n lt.
by rewrite ltn_mod n0 IH // ltn_divLR // mulnC.
Qed.

Lemma skey_digs d key : key < n ^ d -> skey (digs d key) = key.
Proof.
elim: d key => [|d IH] key /=; first by rewrite expn0 ltnS leqn0 => /eqP ->.
rewrite expnS => lt; have n0 : 0 < n by case: n lt.
by rewrite IH ?ltn_divLR // 1?[n ^ d * n]mulnC // [n * _]mulnC addnC -divn_eq.
Qed.

Lemma skey_lt s : ok s -> skey s < n ^ size s.
Proof.
elim: s => //= x s IH /andP [lx /IH lt]; rewrite expnS.
have : n * (skey s).+1 <= n * n ^ size s by rewrite leq_mul2l lt orbT.
by rewrite mulnS; apply: leq_trans; rewrite -addSn leq_add2r.
Qed.

Lemma digs_skey s : ok s -> digs (size s) (skey s) = s.
Proof.
elim: s => //= x s IH /andP [lx /IH e]; have n0 : 0 < n by apply: leq_ltn_trans lx.
by rewrite addnC mulnC modnMDl modn_small // divnMDl // divn_small // addn0 e.
Qed.

Lemma skey_inj s t : ok s -> ok t -> size s = size t -> skey s = skey t -> s = t.
Proof. by move=> os ot e k; rewrite -(digs_skey os) -(digs_skey ot) e k. Qed.

Lemma skey_cat s t : skey (s ++ t) = skey s + n ^ size s * skey t.
Proof. by elim: s => [|x s IH] /=; rewrite ?expn0 ?mul1n // IH expnS mulnDr mulnA addnA. Qed.

Lemma skey_rcons s x : skey (rcons s x) = skey s + n ^ size s * x.
Proof. by rewrite -cats1 skey_cat /= muln0 addn0. Qed.

Lemma ok_sub s t : subseq t s -> ok s -> ok t.
Proof. by move=> st /allP H; apply/allP => x /(mem_subseq st); exact: H. Qed.

Lemma index_map_skey cl s : ok s -> all (fun t => (size t == size s) && ok t) cl ->
  index (skey s) (map skey cl) = index s cl /\ (skey s \in map skey cl) = (s \in cl).
Proof.
move=> os; elim: cl => //= t cl IH /andP [/andP [/eqP sz ot] al]; have [-> e] := IH al.
have -> : (skey t == skey s) = (t == s).
  by apply/eqP/eqP => [|->//]; exact: skey_inj.
rewrite !inE e [skey s == _]eq_sym [s == _]eq_sym; split=> //.
by congr orb; apply/eqP/eqP => [|->//]; exact: skey_inj.
Qed.

Variables (W k : nat) (junk : option nat).
Hypothesis W1 : 1 < W.
Hypothesis Wn : n ^ k.+1 <= W.

Lemma pow_W i : i <= k -> n ^ i < W.
Proof.
move=> li; case: (ltnP 1 n) => n1.
  by apply: leq_trans Wn; rewrite ltn_exp2l.
case: (posnP n) => [->|n0]; first by case: i li => [|i] _; rewrite ?expn0 // exp0n //; exact: ltnW.
by have -> : n = 1 by [move: n1 n0; clear; lia]; rewrite exp1n.
Qed.

Lemma pow_le i j : 0 < n -> i <= j -> n ^ i <= n ^ j.
Proof. by move=> n0 l; rewrite leq_pexp2l. Qed.

Lemma off_ok : l_off (l_new W n k) = mkseq (expn n) k.+1.
Proof.
rewrite /l_new [l_off _]/=; apply/eq_in_map => i; rewrite mem_iota add0n => /andP [_ li].
elim: i li => [|i IH] li; first by rewrite /= /lw modn_small.
by rewrite iterS IH ?(ltnW li) // /lw -expnS modn_small // pow_W.
Qed.

Definition offs (L : lsc) := l_off L = mkseq (expn n) k.+1.

Lemma oget_off L i : offs L -> i <= k -> oget (l_off L) i = Ok (n ^ i).
Proof. by move=> -> li; rewrite (oget_nth 0) ?size_mkseq // nth_mkseq. Qed.

Lemma oget_off_out L i : offs L -> k < i -> oget (l_off L) i = UB.
Proof. by move=> -> li; rewrite /oget drop_oversize // size_mkseq. Qed.

Lemma ok_pos s x : x \in s -> ok s -> 0 < n.
Proof. by move=> xi /allP /(_ x xi); case: n. Qed.

Lemma skey_W s : ok s -> size s <= k.+1 -> skey s < W.
Proof.
case: s => [|x s] os ls; first exact: ltnW.
apply: leq_trans Wn; apply: leq_trans (skey_lt os) _.
by apply: pow_le => //; apply: (ok_pos (mem_head x s) os).
Qed.

(** simplex_key *)
Lemma key_ok L s : offs L -> ok s -> size s <= k.+1 -> l_key W L s = Ok (skey s).
Proof.
move=> ol os ls; rewrite /l_key.
have H m : m <= size s -> ofold (fun key j => do x <- oget s j; do o <- oget (l_off L) j; Ok (lw W (key + lw W (x * o)))) 0 (iota 0 m) =
  Ok (skey (take m s)).
  elim: m => [|m IH] lm; first by rewrite take0.
  rewrite -addn1 iotaD ofold_cat IH ?(ltnW lm) //; cbn [obind]; rewrite ofold_cons add0n.
  rewrite (oget_nth 0) //; cbn [obind]; rewrite (oget_off ol) //; last by rewrite -ltnS; exact: leq_trans ls.
  cbn [obind]; rewrite addn1 (take_nth 0) // skey_rcons size_takel ?(ltnW lm) //=; congr Ok.
  have om := ok_sub (take_subseq s m.+1) os; have := skey_W om.
  rewrite size_takel // (leq_trans lm ls) => /(_ isT); rewrite (take_nth 0) // skey_rcons size_takel ?(ltnW lm) // => lt.
  by rewrite /lw modnDmr mulnC modn_small.
by rewrite H // take_size.
Qed.

Lemma key_long L s : offs L -> k.+1 < size s -> l_key W L s = UB.
Proof.
move=> ol ls; rewrite /l_key.
have -> : size s = k.+1 + 1 + (size s - k.+2) by move: ls; clear; lia.
rewrite !iotaD !ofold_cat.
have H m : m <= k.+1 -> exists key, ofold (fun key j => do x <- oget s j; do o <- oget (l_off L) j; Ok (lw W (key + lw W (x * o)))) 0 (iota 0 m) = Ok key.
  elim: m => [|m IH] lm; first by exists 0.
  have [key E] := IH (ltnW lm); rewrite -addn1 iotaD ofold_cat E; cbn [obind]; rewrite ofold_cons add0n (oget_nth 0); last first.
    by apply: leq_trans lm (ltnW ls).
  by cbn [obind]; rewrite (oget_off ol) //; eexists.
have [key ->] := H _ (leqnn _); cbn [obind]; rewrite ofold_cons add0n (oget_nth 0) //; cbn [obind].
by rewrite (oget_off_out ol).
Qed.

(** key_to_simplex *)
Lemma key_simplex_ok L d key : offs L -> d <= k -> key < n ^ d.+1 -> l_key_simplex W L d key = Ok (digs d.+1 key).
Proof.
move=> ol; rewrite /l_key_simplex; have -> : digs d.+1 key = digs d.+1 key ++ [::] by rewrite cats0.
move: [::]; elim: d key => [|d IH] key acc ld lt; first by rewrite /= modn_small // -[n]expn1.
have n0 : 0 < n by case: n lt.
have p0 : 0 < n ^ d.+1 by rewrite expn_gt0 n0.
have nz : (n ^ d.+1 == 0) = false by apply/negbTE; rewrite -lt0n.
cbn [l_simplex_loop]; rewrite (oget_off ol ld); cbn [obind]; rewrite /odiv nz; cbn [obind].
have -> : lw W (key %/ n ^ d.+1 * n ^ d.+1) = key %/ n ^ d.+1 * n ^ d.+1.
  rewrite /lw modn_small //; apply: leq_ltn_trans (leq_trunc_div _ _) _; apply: leq_trans lt _; apply: leq_trans Wn.
  by rewrite leq_pexp2l.
have e : key - key %/ n ^ d.+1 * n ^ d.+1 = key %% n ^ d.+1 by rewrite {1}(divn_eq key (n ^ d.+1)) addKn.
rewrite e IH ?(ltnW ld) //; last by rewrite ltn_mod.
have H m x : x < n ^ m.+1 -> rcons (digs m (x %% n ^ m)) (x %/ n ^ m) = digs m.+1 x.
  elim: m x => [|m IHm] x lx /=; first by rewrite expn0 divn1 modn_small // -[n]expn1.
  have q : x %% n ^ m.+1 %/ n = (x %/ n) %% n ^ m.
    rewrite {1}expnS mulnC -modn_divl //.
  have q2 : x %/ n ^ m.+1 = (x %/ n) %/ n ^ m by rewrite expnS divnMA.
  rewrite q q2 IHm ?ltn_divLR // 1?mulnC -?expnS //= modn_dvdm // expnS; exact: dvdn_mulr.
have -> : key %/ n ^ d.+1 :: acc = [:: key %/ n ^ d.+1] ++ acc by [].
by rewrite catA cats1 H.
Qed.

(** the boundary iterator *)
Definition lsign j : int := ((-1) ^+ j)%R.
Definition lfaces s : seq (nat * int) := [seq (skey (skip j s), lsign j) | j <- rev (iota 0 (size s))].

Lemma iterS L i c before after : l_iter W junk L i.+1 c before after =
    do o <- oget (l_off L) i;
    do v <- odiv before o;
    do before' <- omod before o;
    do p <- l_off_pred junk L i;
    do r <- l_iter W junk L i (- c)%R before' (lw W (after + lw W (v * p)));
    Ok ((lw W (before' + after), c) :: r).
Proof. by []. Qed.

Lemma iter_ok g L s m : offs L -> ok s -> size s <= k.+1 -> junk = Some g -> m < size s ->
  l_iter W junk L m.+1 (lsign m) (skey (take m.+1 s)) (skey (drop m.+1 s) * n ^ m) =
  Ok [seq (skey (skip j s), lsign j) | j <- rev (iota 0 m.+1)].
Proof.
move=> ol os ls jk; elim: m => [|m IH] lm.
  have n0 : 0 < n by apply: (ok_pos (mem_nth 0 lm) os).
  rewrite /= (oget_off ol) //; cbn [obind]; rewrite /odiv /omod expn0 /= jk /=; congr (Ok [:: (_, _)]).
  rewrite /skip take0 cat0s modn1 add0n muln1 /lw modn_small //.
  by apply: skey_W; [exact: ok_sub (drop_subseq _ _) os|rewrite size_drop; move: ls; clear; lia].
have n0 : 0 < n by apply: (ok_pos (mem_nth 0 lm) os).
have lk : m.+1 <= k by rewrite -ltnS; exact: leq_trans ls.
have p0 i : 0 < n ^ i by rewrite expn_gt0 n0.
have -> : iota 0 m.+2 = iota 0 m.+1 ++ [:: m.+1] by rewrite -[m.+2]addn1 iotaD.
rewrite rev_cat iterS (oget_off ol lk); cbn [obind].
have nz i : (n ^ i == 0) = false by apply/negbTE; rewrite -lt0n.
have os' : ok (take m.+1 s) by exact: ok_sub (take_subseq _ _) os.
have sz : size (take m.+1 s) = m.+1 by rewrite size_takel // ltnW.
have bl : skey (take m.+1 s) < n ^ m.+1 by rewrite -{2}sz; exact: skey_lt.
have e1 : skey (take m.+2 s) = skey (take m.+1 s) + n ^ m.+1 * nth 0 s m.+1 by rewrite (take_nth 0) // skey_rcons sz.
rewrite /odiv /omod !nz; cbn [obind].
have -> : skey (take m.+2 s) %/ n ^ m.+1 = nth 0 s m.+1 by rewrite e1 addnC mulnC divnMDl // divn_small // addn0.
have -> : skey (take m.+2 s) %% n ^ m.+1 = skey (take m.+1 s) by rewrite e1 addnC mulnC modnMDl modn_small.
rewrite [l_off_pred _ _ _]/= (oget_off ol (ltnW lk)); cbn [obind].
have fW : skey (take m.+1 s) + skey (drop m.+2 s) * n ^ m.+1 = skey (skip m.+1 s).
  by rewrite /skip skey_cat sz mulnC.
have aW : skey (drop m.+2 s) * n ^ m.+1 + nth 0 s m.+1 * n ^ m = skey (drop m.+1 s) * n ^ m.
  by rewrite [drop m.+1 s](drop_nth 0) // [skey (_ :: _)]/= mulnDl addnC expnS; congr addn; rewrite mulnA [n * _]mulnC.
have lW : skey (drop m.+1 s) * n ^ m < W.
  have := skey_W os ls; rewrite -{1}(cat_take_drop m.+1 s) skey_cat sz; apply: leq_ltn_trans.
  by apply: leq_trans (leq_addl _ _); rewrite mulnC leq_mul2r pow_le ?orbT.
have -> : lw W (skey (drop m.+2 s) * n ^ m.+1 + lw W (nth 0 s m.+1 * n ^ m)) = skey (drop m.+1 s) * n ^ m.
  by rewrite /lw modnDmr aW modn_small.
have -> : (- lsign m.+1)%R = lsign m by rewrite /lsign exprS mulN1r opprK.
rewrite IH ?(ltnW lm) //; cbn [obind]; rewrite fW /lw modn_small // skey_W //.
  exact: ok_sub (skip_subseq _ _) os.
by rewrite size_skip //; move: ls; clear; lia.
Qed.

Lemma faces_ok g L s : offs L -> ok s -> s != [::] -> size s <= k.+1 -> junk = Some g ->
  l_faces W junk L (size s).-1 (skey s) = Ok (lfaces s).
Proof.
move=> ol os n0 ls jk; rewrite /l_faces /lfaces.
have ss : (size s).-1.+1 = size s by rewrite prednK // lt0n size_eq0.
have l : (size s).-1 < size s by rewrite ss.
have := iter_ok ol os ls jk l; rewrite ss take_size drop_size mul0n /lsign => <-.
by congr l_iter; rewrite -signr_odd; case: odd; rewrite ?expr1 ?expr0.
Qed.

(** strictly speaking, iterating over a boundary always reads _offset[-1] *)
Lemma faces_UB L s : offs L -> ok s -> s != [::] -> size s <= k.+1 -> junk = None ->
  l_faces W junk L (size s).-1 (skey s) = UB.
Proof.
move=> ol os n0 ls jk; rewrite /l_faces.
have np : 0 < n by case: (s) n0 os => // x s' _ /andP []; case: n.
have nz i : (n ^ i == 0) = false by apply/negbTE; rewrite -lt0n expn_gt0 np.
have H m c b a : m <= k -> l_iter W junk L m.+1 c b a = UB.
  elim: m c b a => [|m IH] c b a lm; rewrite iterS (oget_off ol lm); cbn [obind]; rewrite /odiv /omod nz; cbn [obind].
    by rewrite jk.
  by rewrite [l_off_pred _ _ _]/= (oget_off ol (ltnW lm)); cbn [obind]; rewrite IH // ltnW.
by apply: H; rewrite -ltnS prednK // lt0n size_eq0.
Qed.
End Key.
