(** C51: covers by overlapping intervals. *)
From mathcomp Require Import all_ssreflect all_algebra zify.
From Verif Require Import Outcome M_Landmark M_Cover P_Outcome Props_Landmark Props_CoverNerve.
Set Implicit Arguments.
Unset Strict Implicit.
Unset Printing Implicit Defensive.
Import Order.TTheory GRing.Theory Num.Theory.
Local Open Scope ring_scope.

Lemma qfloorP (q : rat) (z : int) : (qfloor q == z) = (z%:~R <= q) && (q < (z + 1)%:~R).
Proof.
have dp : 0 < denq q by exact: denq_gt0.
have [n0 d0] : denq q != 0 /\ (denq q)%:~R != 0 :> rat by rewrite intr_eq0 denq_neq0.
have dr : 0 < (denq q)%:~R :> rat by rewrite ltr0z.
have E : q = (numq q)%:~R / (denq q)%:~R by rewrite divq_num_den.
rewrite {2 3}E ler_pdivl_mulr // ltr_pdivr_mulr // -!intrM ler_int ltr_int /qfloor.
have := divz_eq (numq q) (denq q); have := modz_ge0 (numq q) n0; have := ltz_pmod (numq q) dp.
move: (numq q) (denq q) (_ %/ _)%Z (_ %% _)%Z dp => a b c d dp; clear -dp => h1 h2 h3.
apply/eqP/andP => [<-|[k1 k2]]; first by split; nia.
have : c < z + 1 by nia. have : z < c + 1 by nia. lia.
Qed.

Lemma ofold_ub (A : Type) (B : eqType) (f : A -> B -> outcome A) (P : A -> Prop) a (l : seq B) :
  (forall a b, P a -> b \in l -> f a b = UB \/ exists2 a', f a b = Ok a' & P a') -> (exists2 b, b \in l & forall a, f a b = UB) -> P a -> ofold f a l = UB.
Proof.
elim: l a => [|b l IH] a H [c] //= cl hc pa; case: (H a b pa (mem_head _ _)) => [->|[a' E pa']] //.
move: cl; rewrite inE => /orP[/eqP e|cl]; first by move: E; rewrite -e hc.
rewrite E /=; apply: IH => //; last by exists c.
by move=> a0 b0 p0 bl; apply: H; rewrite // inE bl orbT.
Qed.

Section I.
Variables (x : seq rat) (nsets : nat).
Notation v i := (nth 0 x i).
(** the least and the largest coordinate *)
Definition is_min m := m \in x /\ forall y, y \in x -> m <= y.
Definition is_max m := m \in x /\ forall y, y \in x -> y <= m.
Lemma rminP a l : x = a :: l -> is_min (rmin a l).
Proof.
rewrite /is_min => ->; rewrite /rmin; elim: l a => [|b l IH] a /=; first by split=> [|y]; rewrite inE // => /eqP ->.
have [h1 h2] := IH (if b < a then b else a); split.
  by move: h1; rewrite !inE; case: ifP => _ /orP[->|->]; rewrite ?orbT.
move=> y; rewrite !inE => /or3P[/eqP ->|/eqP ->|yl]; last by apply: h2; rewrite inE yl orbT.
  apply: le_trans (h2 _ (mem_head _ _)) _; by case: ltP => [/ltW|].
apply: le_trans (h2 _ (mem_head _ _)) _; by case: ltP.
Qed.
Lemma rmaxP a l : x = a :: l -> is_max (rmax a l).
Proof.
rewrite /is_max => ->; rewrite /rmax; elim: l a => [|b l IH] a /=; first by split=> [|y]; rewrite inE // => /eqP ->.
have [h1 h2] := IH (if b < a then a else b); split.
  by move: h1; rewrite !inE; case: ifP => _ /orP[->|->]; rewrite ?orbT.
move=> y; rewrite !inE => /or3P[/eqP ->|/eqP ->|yl]; last by apply: h2; rewrite inE yl orbT.
  apply: le_trans (h2 _ (mem_head _ _)); by case: ltP.
apply: le_trans (h2 _ (mem_head _ _)); by case: ltP => [/ltW|].
Qed.

(** as the standard has it, every call is undefined: the smallest point has offset -1/2, and the conversion of -1 to size_t is *)
Theorem C51_interval_undefined W : (0 < W)%N -> (0 < nsets)%N -> uniform_interval_cover W (fun _ => UB) x nsets = UB.
Proof.
move=> W0 n0; rewrite /uniform_interval_cover; case Ex: x => [//|a l]; cbv zeta; case: ifP => // /negbT w0.
have [mi _] := rminP Ex; set m := rmin a l in mi w0 *; set w := _ / nsets%:R in w0 *.
rewrite -Ex; move: w w0 => w w0; have up0 y : y = m -> assign_upper W (fun _ => UB) y m w nsets = UB.
  move=> ->; rewrite /assign_upper subrr mul0r sub0r.
  have -> : qfloor (- (1 / 2%:R)) = -1 by apply/eqP; rewrite qfloorP.
  by [].
have emp C b i : size C = nsets -> (b < nsets)%N -> exists2 C', emplace C b i = Ok C' & size C' = nsets.
  move=> sC lb; rewrite /emplace (oget_nth [::]) ?sC //=; rewrite (oset_Ok [::]) ?sC //; eexists; first reflexivity.
  by rewrite size_set_nth sC; apply/maxn_idPr.
have tsz z : to_size W (fun _ => UB) z = UB \/ exists c, to_size W (fun _ => UB) z = Ok c.
  by rewrite /to_size; case: z => k; [case: ifP; [right; eexists|left]|left].
apply: (ofold_ub (P := fun C => size C = nsets)); last by rewrite size_nseq.
- move=> C i sC; rewrite mem_iota => /andP[_ li]; rewrite (oget_nth 0) //; cbn [obind].
  rewrite /assign_lower; case: (tsz (qfloor ((v i - m) / w))) => [->|[c ->]]; [by left|]; cbn [obind].
  rewrite /assign_upper; case: (tsz (qfloor ((v i - m) / w - 1 / 2%:R))) => [->|[c' ->]]; [by left|]; cbn [obind]; right.
  case: ifP => [_|/negbFE lb]; cbn [obind].
    by case: ifP => [_|/negbT]; [exists C|rewrite negb_or !negbK => /andP[_ lb]; exact: emp].
  have [C1 -> s1] := emp C _ i sC lb; cbn [obind].
  by case: ifP => [_|/negbT]; [exists C1|rewrite negb_or !negbK => /andP[_ lb']; exact: emp].
exists (index m x); first by rewrite mem_iota index_mem.
move=> C; rewrite (oget_nth 0) ?index_mem //; cbn [obind]; rewrite nth_index // up0 //.
rewrite /assign_lower subrr mul0r; have -> : qfloor 0 = 0 by apply/eqP; rewrite qfloorP.
by rewrite [to_size _ _ _]/=; case: ifP.
Qed.

(** with a conversion that wraps around (-1 to 2^64 - 1), in exact arithmetic: point i is in set j exactly when it lies in the
    interval [min + j h, min + (j+2) h), h being the nsets-th part of the range *)
Theorem C51_interval_cover W conv lo hi : (nsets * 2 < W)%N -> conv (-1) = Ok W.-1 -> (0 < nsets)%N -> is_min lo -> is_max hi -> lo < hi ->
  let h := (hi - lo) / nsets%:R in
  exists C, [/\ uniform_interval_cover W conv x nsets = Ok C, size C = nsets, all (sorted ltn) C &
    forall i j, (i < size x)%N -> (j < nsets)%N -> (i \in nth [::] C j) = (lo + j%:R * h <= v i) && (v i < lo + (j + 2)%:R * h)].
Proof.
move=> nW cv n0 [lx lm] [hx hm] lh h.
have h0 : 0 < h by rewrite divr_gt0 ?subr_gt0 // ltr0n.
have n0' : nsets%:R != 0 :> rat by rewrite pnatr_eq0 -lt0n.
have hn : h * nsets%:R = hi - lo by rewrite /h mulfVK.
pose w := h * 2%:R; have w0 : 0 < w by rewrite mulr_gt0 ?ltr0n.
pose R i j := (lo + j%:R * h <= v i) && (v i < lo + (j + 2)%:R * h).
rewrite /uniform_interval_cover; case Ex: x => [|a l]; first by move: lx; rewrite Ex.
have -> : rmin a l = lo by have [r1 r2] := rminP Ex; apply/le_anti; rewrite r2 ?lm.
have -> : rmax a l = hi by have [r1 r2] := rmaxP Ex; apply/le_anti; rewrite r2 ?hm.
cbv zeta; have -> : (hi - lo) * 2%:R / nsets%:R = w by rewrite /w /h mulrAC.
rewrite (gt_eqF w0) -Ex.
have q0 i : (i < size x)%N -> 0 <= (v i - lo) / w by move=> li; rewrite divr_ge0 ?subr_ge0 ?lm ?mem_nth // ltW.
have qn i : (i < size x)%N -> (v i - lo) / w < nsets%:R.
  move=> li; rewrite ltr_pdivr_mulr // /w mulrA [nsets%:R * h]mulrC hn; apply: le_lt_trans (_ : hi - lo < _).
    by rewrite ler_sub ?hm ?mem_nth.
  by rewrite ltr_pmulr ?subr_gt0 // ltr1n.
have [i C P li cP|C EC [sz so me]] := @cover_loop nsets (size x) (fun cover i =>
      do v <- oget x i; do bl <- assign_lower W conv v lo w nsets; do bu <- assign_upper W conv v lo w nsets;
      do cover1 <- (if bl is Some b then emplace cover b i else Ok cover);
      if bu is Some b then emplace cover1 b i else Ok cover1) R; last first.
  by exists C; split=> // i j li lj; rewrite me // li.
rewrite (oget_nth 0) //; cbn [obind]; pose q := (v i - lo) / w.
have Rq j : R i j = (j%:R / 2%:R <= q) && (q < j%:R / 2%:R + 1).
  have two : 2%:R != 0 :> rat by [].
  rewrite /R /q ler_pdivl_mulr // ltr_pdivr_mulr // /w -ler_subr_addl -ltr_subl_addl mulrDl mul1r natrD mulrDl.
  have -> : j%:R / 2%:R * (h * 2%:R) = j%:R * h by rewrite [h * _]mulrC -mulrA mulKf.
  by rewrite [h * 2%:R]mulrC.
have fl (r : rat) (z : int) : (qfloor r = z) <-> (z%:~R <= r) && (r < z%:~R + 1).
  have -> : z%:~R + 1 = (z + 1)%:~R :> rat by rewrite intrD.
  by rewrite -qfloorP; split=> [->|/eqP].
have [c Ec] : exists c : nat, qfloor q = c.
  case E: (qfloor q) => [c|c]; first by exists c.
  have /fl/andP[_ h2] := E; have := lt_le_trans (le_lt_trans (q0 i li) h2); move=> hh.
  have : (0 : rat) < (Negz c + 1)%:~R by rewrite intrD; apply: le_lt_trans h2; exact: q0.
  by rewrite ltr0z NegzE; clear; lia.
have cn : (c < nsets)%N.
  have /fl/andP[h1 _] := Ec; have := le_lt_trans h1 (qn i li).
  by rewrite -[nsets%:R]/((nsets : int)%:~R) ltr_int.

pose lower := (c * 2)%N.
have EL : assign_lower W conv (v i) lo w nsets = Ok (if (lower < nsets)%N then Some lower else None).
  rewrite /assign_lower -/q Ec /to_size ifT; last by move: cn nW; clear; lia.
  cbn [obind]; rewrite modn_small; last by move: cn nW; clear; lia.
  by rewrite if_neg.
rewrite EL; cbn [obind].
pose half : rat := 1 / 2%:R.
have [u [EU uP]] : exists u, assign_upper W conv (v i) lo w nsets = Ok u /\ (forall b, u = Some b -> odd b && (b < nsets)%N) /\ forall j, (j < nsets)%N -> odd j -> (u == Some j) = R i j.
  rewrite /assign_upper -/q -/half; case: (lerP half q) => hq.
    have [d Ed] : exists d : nat, qfloor (q - half) = d.
      case E: (qfloor _) => [d|d]; first by exists d.
      have /fl/andP[_ h2] := E; have : (0 : rat) < (Negz d + 1)%:~R by rewrite intrD; apply: le_lt_trans h2; rewrite subr_ge0.
      by rewrite ltr0z NegzE; clear; lia.
    have dn : (d < nsets)%N.
      have /fl/andP[h1 _] := Ed; have h2 : q - half < nsets%:R by apply: le_lt_trans (qn i li); rewrite ger_addl oppr_le0.
      by have := le_lt_trans h1 h2; rewrite -[nsets%:R]/((nsets : int)%:~R) ltr_int.
    rewrite Ed /to_size ifT; last by move: dn nW; clear; lia.
    cbn [obind]; rewrite modn_small; last by move: dn nW; clear; lia.
    eexists; split; first reflexivity; split.
      by move=> b; case: ifP => // /negbT; rewrite negb_or !negbK => /andP[_ lb] [<-]; rewrite lb muln2 /= odd_double.
    move=> j lj oj.
    have -> : (if ~~ (0 < 1 + d * 2)%N || ~~ (1 + d * 2 < nsets)%N then None else Some (1 + d * 2)%N) == Some j = (d == j./2).
      have := odd_double_half j; rewrite oj; case: ifP => hh; move: hh lj; clear=> hh lj ej.
        by apply/esym/negbTE/eqP => dj; move: hh; rewrite dj -muln2 in ej *; lia.
      apply/eqP/eqP => [[e]|->]; [|congr Some]; rewrite -muln2 in ej; lia.
    rewrite -eqz_nat -Ed qfloorP Rq.
    have ej : j%:R / 2%:R = j./2%:R + half.
      rewrite -{1}(odd_double_half j) oj natrD mulrDl -muln2 natrM mulfK // addrC //.
    by rewrite ej ler_subr_addr ltr_subl_addr intrD addrAC.
  have -> : qfloor (q - half) = -1.
    apply/fl; rewrite ltr_subl_addr (_ : (-1)%:~R + 1 + half = half) ?hq ?andbT; last by rewrite addNr add0r.
    by rewrite ler_subr_addr; apply: le_trans (q0 i li).
  rewrite [to_size _ _ _]cv; cbn [obind].
  have -> : ((1 + W.-1 * 2) %% W = W.-1)%N.
    have W0 : (0 < W)%N by move: nW; clear; lia.
    have -> : (1 + W.-1 * 2 = W + W.-1)%N by move: W0; clear; lia.
    by rewrite modnDl modn_small // prednK.
  exists None; split.
    by rewrite [(W.-1 < nsets)%N]ltnNge (_ : (nsets <= W.-1)%N) ?orbT //; move: nW; clear; lia.
  split=> // j lj oj; rewrite Rq; apply/esym/negbTE; rewrite negb_and -ltNge; apply/orP; left.
  apply: lt_le_trans hq _; rewrite /half ler_pdivl_mulr // mulfVK // ler1n; by case: (j) oj.
have evP j : (j < nsets)%N -> ~~ odd j -> (j == lower) = R i j.
  move=> lj oj; rewrite Rq; have ej : j%:R / 2%:R = j./2%:R :> rat.
    by rewrite -{1}(odd_double_half j) (negbTE oj) add0n -muln2 natrM mulfK.
  have -> : (j == lower) = (c == j./2).
    have := odd_double_half j; rewrite (negbTE oj) add0n -muln2 /lower => <-; clear.
    by rewrite eqn_mul2r /= muln2 doubleK eq_sym.
  rewrite -eqz_nat -Ec qfloorP ej intrD //.
have lo2 : ~~ odd lower by rewrite /lower muln2 odd_double.
have [up uP2] := uP; rewrite EU; cbn [obind].
have [C1 E1 c1] : exists2 C1, (if (if (lower < nsets)%N then Some lower else None) is Some b then emplace C b i else Ok C) = Ok C1 &
    cov_is nsets (fun y j => P y j || (y == i) && (j == lower)) C1.
  case: ifP => ll; first exact: emplace_ok.
  by exists C => //; apply: cov_ext cP => y j lj; case: (j =P lower) => [e|_]; [move: lj; rewrite e ll|rewrite andbF orbF].
rewrite E1; cbn [obind].
have [C2 E2 c2] : exists2 C2, (if u is Some b then emplace C1 b i else Ok C1) = Ok C2 &
    cov_is nsets (fun y j => P y j || (y == i) && (j == lower) || (y == i) && (u == Some j)) C2.
  case: (u) up => [b|] up.
    have /andP[_ lb] := up b erefl; have [C2 E2 c2] := emplace_ok i c1 lb; exists C2 => //.
    by apply: cov_ext c2 => y j lj; rewrite [Some b == _]eq_sym.
  by exists C1 => //; apply: cov_ext c1 => y j lj; rewrite andbF orbF.
exists C2 => //; apply: cov_ext c2 => y j lj; rewrite -orbA -andb_orr; congr orb; congr andb.
case: (boolP (odd j)) => oj.
  by rewrite uP2 // (_ : j == lower = false) //; apply/eqP => e; move: lo2; rewrite -e oj.
rewrite evP // (_ : (u == Some j) = false) ?orbF //; apply/eqP => e; have /andP[] := up j e; by rewrite (negbTE oj).
Qed.
End I.

(** every point is in some set *)
Theorem C51_interval_covers x nsets W conv lo hi C : (nsets * 2 < W)%N -> conv (-1) = Ok W.-1 -> (0 < nsets)%N -> is_min x lo -> is_max x hi -> lo < hi ->
  uniform_interval_cover W conv x nsets = Ok C -> forall i, (i < size x)%N -> exists2 U, U \in C & i \in U.
Proof.
move=> nW cv n0 mlo mhi lh E i li; have [C' [E' sz _ me]] := C51_interval_cover nW cv n0 mlo mhi lh; move: E'; rewrite E => -[e]; rewrite -e in sz me.
have n0' : nsets%:R != 0 :> rat by rewrite pnatr_eq0 -lt0n.
set h := (hi - lo) / nsets%:R in me; have hn : h * nsets%:R = hi - lo by rewrite /h mulfVK.
have h0 : 0 < h by rewrite divr_gt0 ?subr_gt0 // ltr0n.
pose q := (nth 0 x i - lo) / h; have [_ lm] := mlo; have [_ hm] := mhi.
have q0 : 0 <= q by rewrite divr_ge0 ?subr_ge0 ?lm ?mem_nth // ltW.
have qn : q <= nsets%:R by rewrite ler_pdivr_mulr // mulrC hn ler_sub ?hm ?mem_nth.
have [c Ec] : exists c : nat, qfloor q = c.
  case F: (qfloor q) => [c|c]; first by exists c.
  have /eqP := F; rewrite qfloorP => /andP[_ h2]; have := le_lt_trans q0 h2; rewrite ltr0z NegzE; clear; lia.
have /eqP := Ec; rewrite qfloorP => /andP[c1 c2]; have cn : (c <= nsets)%N.
  by have := le_trans c1 qn; rewrite -[nsets%:R]/((nsets : int)%:~R) ler_int.
have qE : nth 0 x i = lo + q * h by rewrite /q mulfVK ?gt_eqF // addrC subrK.
pose j := if (c == nsets)%N then c.-1 else c.
have lj : (j < nsets)%N by rewrite /j; case: eqP => [->|/eqP ne]; [rewrite prednK|rewrite ltn_neqAle ne].
exists (nth [::] C j); first by apply: mem_nth; rewrite sz.
rewrite me // qE ler_add2l ltr_add2l ler_pmul2r // ltr_pmul2r //; apply/andP; split.
  apply: le_trans c1; rewrite -[j%:R]/((j : int)%:~R) ler_int /j; case: ifP => // _; exact: leq_pred.
apply: lt_le_trans c2 _; rewrite -[(j + 2)%:R]/(((j + 2)%N : int)%:~R) ler_int /j; case: ifP => _; clear; lia.
Qed.

(** the points 0, 1, 2, 3, 4 in four sets *)
Theorem C51_interval_example :
  uniform_interval_cover 1000 (fun _ => Ok 999%N) [:: 0; 1; 2%:R; 3%:R; 4%:R] 4 = Ok [:: [:: 0; 1]; [:: 1; 2]; [:: 2; 3]; [:: 3; 4]]%N.
Proof. by vm_compute. Qed.
