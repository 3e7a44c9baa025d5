(** C49, continued: witness complexes. *)
From mathcomp Require Import all_ssreflect all_algebra zify.
From Verif Require Import Outcome M_Sorted M_Simplicial M_Filtration M_Flag M_Nerve S_Simplicial S_Filtration S_Flag P_Outcome P_Util P_Simplicial P_ScOps P_ScBuild P_Filtration
  Props_Simplicial Props_Filtration Props_Util P_Flag P_Flag2 Props_Flag P_Nerve Props_Nerve.
Set Implicit Arguments.
Unset Strict Implicit.
Unset Printing Implicit Defensive.

(** ** strong witness complex *)
(** some point of X has exactly the landmarks of t as its nearest ones *)
Definition witnessed (nbrs : seq (seq nat)) (t : seq nat) : Prop := exists2 nb, nb \in nbrs & perm_eq t (take (size t) nb).
Definition wspec (nbrs : seq (seq nat)) (nL m : nat) (u : seq nat) : Prop :=
  [/\ u != [::], sorted ltn u, forall x, x \in u -> x < nL, size u <= m & forall t, subseq t u -> 1 < size t -> witnessed nbrs t].

Lemma addc_ok X s : built X -> s != [::] -> exists2 Y, addc X s = Ok Y &
  built Y /\ forall t, t != [::] -> contains Y t <-> contains X t \/ t = sort leq s /\ has_faces X (sort leq s).
Proof.
move=> b n0; have n0' : sort leq s != [::] by rewrite sort_nil.
have [cl iv d0] := built_inv b; have [X1 [r [cl' [E iv1 _ _ _]]]] := add_step iv n0'.
have E1 : sc_add X s = Ok (X1, r) by []; exists X1; first by rewrite /addc E1.
by have [H _ _ _] := C23_add b n0 E1; split=> //; exact: built_add b E1.
Qed.
Lemma subseq_face (t u : seq nat) : subseq t u -> size t < size u -> exists2 j, j < size u & subseq t (take j u ++ drop j.+1 u).
Proof.
elim: u t => [|x u IH] [|y t] //=.
  by move=> _ _; exists 0 => //; exact: sub0seq.
case: eqP => [->|ne] su; rewrite ltnS => sz.
  by have [j ju h] := IH t su sz; exists j.+1 => //=; rewrite eqxx.
by exists 0 => //=; rewrite drop0.
Qed.
Lemma wspec_face nbrs nL m u j : wspec nbrs nL m u -> 1 < size u -> j < size u -> wspec nbrs nL m (take j u ++ drop j.+1 u).
Proof.
move=> [n0 so al sz wi] s1 ju; have su : subseq (take j u ++ drop j.+1 u) u.
  by rewrite -{3}(cat_take_drop j u) cat_subseq // (drop_nth 0 ju) subseq_cons.
have sz' : size (take j u ++ drop j.+1 u) = (size u).-1 by rewrite size_cat size_take size_drop ju; move: ju; clear; lia.
split; first by rewrite -size_eq0 sz'; move: s1; clear; lia.
- exact: subseq_sorted ltn_trans _ _ su so.
- by move=> x /(mem_subseq su) /al.
- by rewrite sz'; move: sz; clear; lia.
by move=> t ts; apply: wi; exact: subseq_trans su.
Qed.

Definition wstep dim W (nb : seq nat) := do spx <- omapm (oget nb) (iota 0 dim.+1); do r <- sc_add W spx; Ok r.1.
Lemma wstepE dim W nb : dim < size nb -> wstep dim W nb = addc W (take dim.+1 nb).
Proof.
move=> sz; rewrite /wstep (@omapm_Ok_eq _ _ _ (nth 0 nb)) => [|i]; last first.
  by rewrite mem_iota add0n ltnS => /andP[_ li]; apply: oget_nth; exact: leq_ltn_trans sz.
cbn [obind]; congr (addc W _); rewrite -{2}(mkseq_nth 0 nb) /mkseq -map_take take_iota; congr map; congr iota; move: sz; clear; lia.
Qed.
Lemma wdim nbrs nL dim X : all (fun nb => uniq nb && (dim < size nb)) nbrs -> 0 < dim -> built X ->
  (forall u, u != [::] -> contains X u <-> wspec nbrs nL dim u) ->
  exists2 Y, ofold (wstep dim) X nbrs = Ok Y & built Y /\ forall u, u != [::] -> contains Y u <-> wspec nbrs nL dim.+1 u.
Proof.
move=> hn d0 bX HX.
have faces_sz Y s : size s = dim.+1 -> (forall t, size t = dim -> contains Y t <-> wspec nbrs nL dim t) ->
    has_faces Y s <-> forall j, j < size s -> wspec nbrs nL dim (take j s ++ drop j.+1 s).
  move=> sz h; have sf j : j < size s -> size (take j s ++ drop j.+1 s) = dim by rewrite size_cat size_take size_drop sz => js; rewrite js; move: js; clear; lia.
  by split=> hf j js; [|move=> _]; [apply/h; rewrite ?sf //; apply: hf; rewrite // sz|apply/h; rewrite ?sf //; exact: hf].
suff H l : {subset l <= nbrs} -> exists2 Y, ofold (wstep dim) X l = Ok Y & built Y /\ forall u, u != [::] -> contains Y u <->
    wspec nbrs nL dim u \/ [/\ size u = dim.+1, exists2 nb, nb \in l & u = sort leq (take dim.+1 nb) & forall j, j < size u -> wspec nbrs nL dim (take j u ++ drop j.+1 u)].
  have [Y E [b HY]] := H nbrs (fun _ h => h); exists Y => //; split=> // u u0; rewrite HY //; split.
    case=> [[h1 h2 h3 h4 h5]|[sz [nb nbi eu] hf]]; first by split=> //; exact: ltnW.
    have /andP[un sn] := allP hn nb nbi.
    split=> //; [by rewrite eu; apply: srt_ltn; exact: take_uniq| |by rewrite sz|].
      move=> x xu; have [i iu ex] := nthP 0 xu; pose j := if i == 0 then 1 else 0.
      have ju : j < size u by rewrite /j sz; case: (i == 0); move: d0; clear; lia.
      have [_ _ al _ _] := hf j ju; apply: al; rewrite mem_cat.
      rewrite /j -ex; case: (i =P 0) => [->|i0]; first by rewrite -(nth_take (n0 := 1)) // mem_nth // size_take sz ltnS d0.
      by apply/orP; right; case: (i) iu i0 => // i' iu _; rewrite -(addn1 i') addnC -nth_drop mem_nth // size_drop; move: iu; clear; lia.
    move=> t ts t1; case: (ltnP (size t) (size u)) => lt.
      by have [j ju sj] := subseq_face ts lt; have [_ _ _ _ h] := hf j ju; apply: h.
    have et : t = u by have /size_subseq_leqif := ts; move=> /leqifP; case: eqP => // _; rewrite ltnNge lt.
    by rewrite et; exists nb => //; rewrite sz eu; apply/permPl; exact: perm_sort.
  move=> [h1 h2 h3 h4 h5]; case: (ltnP (size u) dim.+1) => lt; first by left.
  have sz : size u = dim.+1 by apply/eqP; rewrite eqn_leq h4.
  right; split=> //.
    have [|nb nbi pe] := h5 u (subseq_refl _); first by rewrite sz ltnS.
    by exists nb => //; rewrite -sz -{1}(srt_id h2); exact: srtP.
  have wu : wspec nbrs nL dim.+1 u by split.
  have s1 : 1 < size u by rewrite sz ltnS.
  move=> j ju; have [a1 a2 a3 a4 a5] := wspec_face wu s1 ju.
  by split=> //; rewrite size_cat size_take size_drop ju sz; move: ju; rewrite sz; clear; lia.
elim/last_ind: l => [|l nb IH] sub; first by exists X => //; split=> // u u0; rewrite HX //; split=> [|[]] //; [left|case=> _ []].
have [|Y E [b HY]] := IH; first by move=> x xl; apply: sub; rewrite mem_rcons inE xl orbT.
have nbi : nb \in nbrs by apply: sub; rewrite mem_rcons mem_head.
have /andP[un sn] := allP hn nb nbi.
have n0 : take dim.+1 nb != [::] by rewrite -size_eq0 size_take; case: ifP => //; move: sn; clear; lia.
have [Z EZ [bZ HZ]] := addc_ok b n0; exists Z; first by rewrite ofold_rcons E; cbn [obind]; rewrite wstepE.
split=> // u u0; rewrite HZ // HY //; have szt : size (sort leq (take dim.+1 nb)) = dim.+1 by rewrite size_sort size_takel.
have hfi : has_faces Y (sort leq (take dim.+1 nb)) <-> forall j, j < size (sort leq (take dim.+1 nb)) ->
    wspec nbrs nL dim (take j (sort leq (take dim.+1 nb)) ++ drop j.+1 (sort leq (take dim.+1 nb))).
  apply: faces_sz => // t st; rewrite HY; last by rewrite -size_eq0 st -lt0n.
  split=> [[]|] //; [|by left]; by case=> e; move: st; rewrite e; clear; lia.
split.
  case=> [[h|[h1 [nb' nl h2] h3]]|[-> /hfi hf]]; [by left|right; split=> //; exists nb' => //; by rewrite mem_rcons inE nl orbT|].
  by right; split=> //; exists nb; rewrite // mem_rcons mem_head.
case=> [h|[h1 [nb']]]; first by left; left.
rewrite mem_rcons inE => /orP[/eqP -> eu hf|nl eu hf]; last by left; right; split=> //; exists nb'.
by right; split=> //; apply/hfi; rewrite -eu.
Qed.
(** WitnessComplex(X, L, dist, dmax), where nbrs[i] lists the landmarks by distance from X[i] (at least dmax + 1 of
    them): a set of landmarks is a simplex exactly when it has at most dmax + 1 elements and every subset of two or
    more landmarks is the set of nearest landmarks of some point *)
Theorem C49_witness_complex nbrs nL dmax : all (fun nb => uniq nb && (dmax < size nb)) nbrs ->
  exists W, [/\ witness_complex nbrs nL dmax = Ok W, built W & forall u, u != [::] -> contains W u <->
    [/\ sorted ltn u, forall x, x \in u -> x < nL, size u <= dmax.+1 & forall t, subseq t u -> 1 < size t -> witnessed nbrs t]].
Proof.
move=> hn; have [||W0 [E0 b0 H0]] := @run_sc [seq [:: i] | i <- iota 0 nL] (sc_new dmax) (built_new dmax).
- by move=> s /mapP[i _ ->].
- elim: (iota 0 nL) (contains _) => //= i l IH P; split=> [x _ /= |] //; exact: IH.
have H1 u : u != [::] -> contains W0 u <-> wspec nbrs nL 1 u.
  move=> u0; rewrite H0 //; split.
    case=> [/(contains_iff (inv_new dmax) u0)|/mapP[i]]; first by [].
    rewrite mem_iota add0n => /andP[_ li] ->; split=> // [x|t /size_subseq]; first by rewrite inE => /eqP ->.
    by rewrite /= leqNgt => /negP.
  by move=> [_ so al sz _]; right; case: u u0 sz al {so} => [|x [|]] // _ _ al; apply: map_f; rewrite mem_iota /= add0n al // mem_head.
have [W E [b HW]] : exists2 W, ofold (fun W dim => ofold (wstep dim) W nbrs) W0 (iota 1 dmax) = Ok W &
    built W /\ forall u, u != [::] -> contains W u <-> wspec nbrs nL dmax.+1 u.
  have H k : k <= dmax -> exists2 W, ofold (fun W dim => ofold (wstep dim) W nbrs) W0 (iota 1 k) = Ok W &
    built W /\ forall u, u != [::] -> contains W u <-> wspec nbrs nL k.+1 u.
    elim: k => [|k IH] kd; first by exists W0.
    have [W E [b HW]] := IH (ltnW kd); have -> : iota 1 k.+1 = iota 1 k ++ [:: k.+1] by rewrite -[k.+1]addn1 iotaD add1n addn1.
    rewrite ofold_cat E; cbn [obind ofold].
    have hk : all (fun nb => uniq nb && (k.+1 < size nb)) nbrs by apply: sub_all hn => nb /andP[-> h]; exact: leq_ltn_trans kd h.
    by have [Y EY HY] := @wdim nbrs nL k.+1 W hk isT b HW; rewrite EY; exists Y.
  exact: H.
exists W; split=> //.
  rewrite /witness_complex; have -> : ofold (fun W i => do r <- sc_add W [:: i]; Ok r.1) (sc_new dmax) (iota 0 nL) = Ok W0.
    by rewrite -E0; elim: (iota _ _) (sc_new dmax) => //= i l IH X; rewrite {1}/addc; case: (sc_add X [:: i]) => //= r; exact: IH.
  exact: E.
by move=> u u0; rewrite HW //; split=> [[]|[h1 h2 h3 h4]] //; split.
Qed.

(** ** lazy witness parameters *)
Section Lazy.
Variable V : eqType.
Variable v0 z top : V.
Variable le : V -> V -> bool.
Hypothesis le_total : total le.
Hypothesis le_trans : transitive le.
Hypothesis le_anti : antisymmetric le.
Hypothesis topP : forall v, le v top.
Notation lt a b := (~~ le b a).

Lemma ltW a b : lt a b -> le a b. Proof. by have := le_total a b; case: (le a b) => //= ->. Qed.
Lemma lt_eq a b : lt a b = le a b && (a != b).
Proof.
have := le_total a b; case: (boolP (le b a)) => [ba|nba] /=.
  by case: (boolP (le a b)) => //= ab _; have -> : a = b by [apply: le_anti; rewrite ab ba]; rewrite eqxx.
by rewrite orbF => ->; apply/esym/eqP => e; move: nba; rewrite e; have := le_total b b; rewrite orbb => ->.
Qed.
(** one round of increment_m: the smallest entry above m, the largest value when there is none *)
Lemma next_mP col m : let r := next_m le top col m in
  (r = top \/ r \in col /\ lt m r) /\ forall d, d \in col -> lt m d -> le r d.
Proof.
rewrite /next_m /=; elim/last_ind: col => [|col d [h1 h2]] /=; first by split; [left|].
rewrite foldl_rcons /=; set r := foldl _ _ _ in h1 h2 *; case: (boolP (lt r d)) => [rd|nrd].
  split; first by case: h1 => [->|[h h']]; [left|right; rewrite mem_rcons inE h orbT].
  by move=> d'; rewrite mem_rcons inE => /orP[/eqP -> _|]; [exact: ltW|exact: h2].
rewrite negbK in nrd; case: (boolP (lt m d)) => md.
  split; first by right; rewrite mem_rcons mem_head.
  move=> d'; rewrite mem_rcons inE => /orP[/eqP -> _|dc md']; first by have := le_total d d; rewrite orbb.
  exact: le_trans nrd (h2 d' dc md').
split; first by case: h1 => [->|[h h']]; [left|right; rewrite mem_rcons inE h orbT].
by move=> d'; rewrite mem_rcons inE => /orP[/eqP ->|]; [rewrite (negbTE md)|exact: h2].
Qed.
(** get_m(pdist, nu)[j] is the nu-th of the DIFFERENT values above zero of column j, not the nu-th smallest entry *)
Theorem C49_get_m (D : nat -> nat -> V) nrow ncol nu j : 0 < nu -> j < ncol ->
  nth v0 (get_m le top z D nrow ncol nu) j =
    nth top (sort le (undup [seq d <- [seq D i j | i <- iota 0 nrow] | lt z d])) nu.-1.
Proof.
move=> nu0 jn; rewrite /get_m (nth_map 0) ?size_iota // nth_iota // add0n; set col := map _ _; set s := sort _ _.
case: nu nu0 => // nu _ /=.
have ss : sorted le s by exact: sort_sorted.
have us : uniq s by rewrite sort_uniq undup_uniq.
have ms d : (d \in s) = (d \in col) && lt z d by rewrite mem_sort mem_undup mem_filter andbC.
have step k : next_m le top col (if k is k'.+1 then nth top s k' else z) = nth top s k.
  pose m := if k is k'.+1 then nth top s k' else z; have [h1 h2] := next_mP col m; rewrite -/m.
  set r := next_m _ _ _ _ in h1 h2 *; apply: le_anti; apply/andP; split.
    case: (ltnP k (size s)) => ks; last by rewrite nth_default ?topP.
    have kin : nth top s k \in s by exact: mem_nth.
    have := kin; rewrite ms => /andP[kc zk]; apply: h2 => //; rewrite /m; case: (k) ks kin kc zk => // k' ks _ _ _.
    rewrite lt_eq (sorted_leq_nth le_trans _ _ ss) ?inE //; [|by move=> v; have := le_total v v; rewrite orbb|exact: ltnW].
    by rewrite nth_uniq //; [move: (ltnSn k') => /ltn_eqF ->|exact: ltnW].
  case: h1 => [->|[rc mr]]; first exact: topP.
  have rs : r \in s.
    rewrite ms rc /=; rewrite /m in mr; case: (k) mr => // k' mr; case: (ltnP k' (size s)) => ks; last first.
      by exfalso; move: mr; rewrite (nth_default _ ks) topP.
    have : nth top s k' \in s by exact: mem_nth.
    rewrite ms => /andP[_ zk]; apply: contra zk => rz; exact: le_trans (ltW mr) rz.
  have /(nthP top) [i il ei] := rs; rewrite -ei; case: (ltnP i k) => ik.
    exfalso; move: mr; rewrite /m; case: (k) ik => // k' ik'; case: (ltnP k' (size s)) => ks; last by rewrite (nth_default _ ks) topP.
    by rewrite -ei (sorted_leq_nth le_trans _ _ ss) ?inE // => v; have := le_total v v; rewrite orbb.
  rewrite (sorted_leq_nth le_trans _ _ ss) ?inE //; last by exact: leq_ltn_trans ik il.
  by move=> v; have := le_total v v; rewrite orbb.
by elim: nu => [|nu IH] /=; [exact: (step 0)|rewrite [next_m _ _ _ (iter _ _ _)]IH; exact: (step nu.+1)].
Qed.

(** witness_edge_param subtracts along loops that both run to the number of columns.  With more points than landmarks
    (the usual case) it writes outside the matrix *)
Variable sub : V -> V -> V.
Definition shift1 (D : nat -> nat -> V) (m : seq V) i j : V := let y := sub (D i j) (nth v0 m j) in if lt z y then y else z.

(** the state of the matrix after the columns below J and the rows below I of column J *)
Definition smat (D : nat -> nat -> V) (m : seq V) nL nX I J : seq (seq V) :=
  [seq [seq if (j < J) && (i < nX) || (j == J) && (i < I) then shift1 D m i j else D i j | j <- iota 0 nX] | i <- iota 0 nL].
Lemma smat_nth D m nL nX I J i j : i < nL -> j < nX ->
  nth v0 (nth [::] (smat D m nL nX I J) i) j = if (j < J) && (i < nX) || (j == J) && (i < I) then shift1 D m i j else D i j.
Proof. by move=> li lj; rewrite /smat (nth_map 0) ?size_iota // (nth_map 0) ?size_iota // !nth_iota // !add0n. Qed.
Definition sbody J (m : seq V) (P : seq (seq V)) i :=
  do r <- oget P i; do x <- oget r J; do mj <- oget m J;
  let y := sub x mj in do r' <- oset r J (if lt z y then y else z); oset P i r'.
Lemma sbody_ok D m nL nX I J : I < nL -> J < nX -> size m = nX -> sbody J m (smat D m nL nX I J) I = Ok (smat D m nL nX I.+1 J).
Proof.
move=> li lj sm; rewrite /sbody (oget_nth [::]) ?size_map ?size_iota //; cbn [obind].
have sr : size (nth [::] (smat D m nL nX I J) I) = nX by rewrite /smat (nth_map 0) ?size_iota // size_map size_iota.
rewrite (oget_nth v0) ?sr //; cbn [obind]; rewrite (oget_nth v0) ?sm //; cbn [obind]; cbv zeta.
rewrite (oset_Ok v0) ?sr //; cbn [obind]; rewrite (oset_Ok [::]) ?size_map ?size_iota //; congr Ok.
rewrite smat_nth // ltnn /= eqxx ltnn /=; change (if lt z _ then _ else _) with (shift1 D m I J).
apply: (@eq_from_nth _ [::]) => [|i]; rewrite size_set_nth size_map size_iota ?size_map ?size_iota (maxn_idPr li) // => li'.
apply: (@eq_from_nth _ v0) => [|j].
  rewrite nth_setE; case: eqP => [->|_]; last by rewrite /smat !(nth_map 0) ?size_iota // !size_map.
  by rewrite size_set_nth sr (maxn_idPr lj) /smat (nth_map 0) ?size_iota // size_map size_iota.
rewrite nth_setE; case: eqP => [->|ne].
  rewrite size_set_nth sr (maxn_idPr lj) => lj'; rewrite nth_setE !smat_nth //; case: (j =P J) => [->|nj] /=; last by [].
  by rewrite ltnn ltnS leqnn /=.
have -> : size (nth [::] (smat D m nL nX I J) i) = nX by rewrite /smat (nth_map 0) ?size_iota // size_map size_iota.
move=> lj'; rewrite !smat_nth // ltnS [i <= I]leq_eqVlt; by move/eqP/negbTE: ne => ->.
Qed.
Lemma scol_ok D m nL nX J k : k <= nL -> J < nX -> size m = nX ->
  ofold (sbody J m) (smat D m nL nX 0 J) (iota 0 k) = Ok (smat D m nL nX k J).
Proof.
elim: k => [|k IH] // kn jn sm; rewrite -addn1 iotaD ofold_cat IH //; last exact: ltnW.
by cbn [obind iota ofold]; rewrite add0n sbody_ok // addn1.
Qed.
Lemma scol_ub D m nL nX J : nL < nX -> J < nX -> size m = nX -> ofold (sbody J m) (smat D m nL nX 0 J) (iota 0 nX) = UB.
Proof.
move=> ln jn sm; have -> : iota 0 nX = iota 0 nL ++ iota nL (nX - nL) by rewrite -{1}(subnKC (ltnW ln)) iotaD add0n.
rewrite ofold_cat scol_ok //; cbn [obind].
have : 0 < nX - nL by rewrite subn_gt0.
by case: (nX - nL) => // d _; cbn [iota ofold]; rewrite /sbody /oget drop_oversize // size_map size_iota.
Qed.
Theorem C49_witness_param_ub (D : nat -> nat -> V) nL nX nu : nL < nX -> witness_param v0 le top sub z D nL nX nu = UB.
Proof.
move=> ln; rewrite /witness_param /witness_shift; set m := get_m _ _ _ _ _ _ _.
have sm : size m = nX by rewrite /m /get_m size_map size_iota.
have e0 : [seq [seq D i j | j <- iota 0 nX] | i <- iota 0 nL] = smat D m nL nX 0 0.
  by apply: eq_map => i; apply: eq_map => j; rewrite ltn0 andbF.
have := scol_ub D ln (leq_ltn_trans (leq0n _) ln) sm; rewrite -e0 => ub.
have F l : ofold (fun P j => ofold (sbody j m) P (iota 0 nX)) [seq [seq D i j | j <- iota 0 nX] | i <- iota 0 nL] (0 :: l) = UB.
  by cbn [ofold]; rewrite ub.
by have := F (iota 1 nX.-1); have <- : iota 0 nX = 0 :: iota 1 nX.-1 by [case: (nX) ln]; rewrite /sbody => ->.
Qed.
Theorem C49_witness_filtration_ub (D : nat -> nat -> V) nL nX rmax dmax : nL < nX ->
  witness_filtration v0 le top sub z D nL nX rmax dmax = UB.
Proof. by move=> ln; rewrite /witness_filtration C49_witness_param_ub. Qed.
(** with at most as many points as landmarks it subtracts, but only from the rows below the number of columns *)
Theorem C49_witness_param (D : nat -> nat -> V) nL nX nu : nX <= nL -> exists2 R, witness_param v0 le top sub z D nL nX nu = Ok R &
  forall a b, b < a < nL -> R a b = dowker_param le top (fun i j => if i < nX then shift1 D (get_m le top z D nL nX nu) i j else D i j) nX a b.
Proof.
move=> ln; rewrite /witness_param /witness_shift; set m := get_m _ _ _ _ _ _ _.
have sm : size m = nX by rewrite /m /get_m size_map size_iota.
have e0 : [seq [seq D i j | j <- iota 0 nX] | i <- iota 0 nL] = smat D m nL nX 0 0.
  by apply: eq_map => i; apply: eq_map => j; rewrite ltn0 andbF.
have nxt J : smat D m nL nX nX J = smat D m nL nX 0 J.+1.
  by apply: eq_map => i; apply: eq_map => j; rewrite ltn0 andbF orbF [j < J.+1]ltnS [j <= J]leq_eqVlt; case: eqP => [->|_]; rewrite /= ?ltnn ?orbF.
have H k : k <= nX -> ofold (fun P j => ofold (sbody j m) P (iota 0 nX)) (smat D m nL nX 0 0) (iota 0 k) = Ok (smat D m nL nX 0 k).
  elim: k => [|k IH] // kn; rewrite -addn1 iotaD ofold_cat IH //; last exact: ltnW.
  by cbn [obind iota ofold]; rewrite add0n scol_ok //; cbn [obind]; rewrite nxt addn1.
have E := H nX (leqnn nX); rewrite -e0 in E; rewrite /sbody in E; rewrite E; cbn [obind]; eexists; first by reflexivity.
move=> a b /andP[ba aL]; rewrite /dowker_mat ba /dowker_param.
have : all (fun k => k < nX) (iota 0 nX) by apply/allP => k; rewrite mem_iota add0n => /andP[].
elim: (iota 0 nX) (top) => //= k l IH R /andP[kx al]; rewrite IH //; congr foldl; congr (smin le R (smax le _ _)).
  by rewrite smat_nth // kx ltn0 andbF orbF.
by rewrite smat_nth ?(ltn_trans ba aL) // kx ltn0 andbF orbF.
Qed.
(** WitnessFiltration (nu = 0) with at most as many points as landmarks is DowkerFiltration *)
Theorem C49_witness_filtration (D : nat -> nat -> V) nL nX rmax dmax : nX <= nL -> (forall x, sub x z = x) ->
  (forall i j, i < nL -> j < nX -> le z (D i j)) ->
  witness_filtration v0 le top sub z D nL nX rmax dmax = dowker_filtration v0 le top z D nL nX rmax dmax.
Proof.
move=> ln sz nn; rewrite /witness_filtration; have [R -> H] := C49_witness_param D 0 ln; cbn [obind]; rewrite /dowker_filtration.
have gm j : j < nX -> nth v0 (get_m le top z D nL nX 0) j = z by move=> jn; rewrite /get_m (nth_map 0) ?size_iota.
have e a b : b < a < nL -> R a b = dowker_mat v0 le top D nX a b.
  move=> /andP[ba aL]; rewrite H ?ba // /dowker_mat ba /dowker_param.
  have : all (fun k => k < nX) (iota 0 nX) by apply/allP => k; rewrite mem_iota add0n => /andP[].
  have sh i k : i < nL -> k < nX -> (if i < nX then shift1 D (get_m le top z D nL nX 0) i k else D i k) = D i k.
    move=> iL kx; case: ifP => // _; rewrite /shift1 gm // sz; case: ifP => // /negbT; rewrite negbK => dz.
    by apply: le_anti; rewrite dz nn.
  move: (get_m _ _ _ _ _ _ _) sh => g sh.
  elim: (iota 0 nX) (top) => //= k l IH r /andP[kx al]; rewrite IH // !sh //; exact: ltn_trans aL.
congr flag_filtration; rewrite /flag_fedges; congr fe_sort; set L := [seq (i, j) | i <- _, j <- _].
have Lp p : p \in L -> p.2 < p.1 < nL by move=> /allpairsPdep[i [j [+ + ->]]]; rewrite !mem_iota !add0n /= => -> ->.
have -> : [seq p <- L | lt (R p.1 p.2) rmax] = [seq p <- L | lt (dowker_mat v0 le top D nX p.1 p.2) rmax].
  by apply: eq_in_filter => p /Lp h; rewrite e.
by apply/eq_in_map => p; rewrite mem_filter => /andP[_ /Lp h]; rewrite e.
Qed.
End Lazy.

(** ** concrete cases *)
Theorem C49_witness_example : exists W, [/\ witness_complex [:: [:: 0; 1; 2]; [:: 1; 2; 0]; [:: 2; 0; 1]; [:: 3; 0; 1]] 4 2 = Ok W,
  all (fun nb => uniq nb && (2 < size nb)) [:: [:: 0; 1; 2]; [:: 1; 2; 0]; [:: 2; 0; 1]; [:: 3; 0; 1]],
  contains W [:: 0; 1; 2], contains W [:: 0; 3] & sc_find W [:: 0; 1; 3] = Ok None].
Proof. by eexists; split; [vm_compute; reflexivity|..|by exists 0|by exists 3|]. Qed.
(** the second smallest of 1, 1, 2 is 1; get_m gives 2 *)
Theorem C49_get_m_ties : get_m leq 9 0 (fun i _ => nth 0 [:: 1; 1; 2] i) 3 1 2 = [:: 2].
Proof. by []. Qed.
