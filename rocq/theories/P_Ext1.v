(** Extension of vertex functions: one cell. *)
From mathcomp Require Import all_ssreflect all_algebra zify.
From Verif Require Import Outcome P_Outcome M_Simplicial M_Cubical M_Extension.
Set Implicit Arguments.
Unset Strict Implicit.
Unset Printing Implicit Defensive.
Import Order.Theory.

Section S.
Variable disp : unit.
Variable A : orderType disp.
Variable a0 : A.
Notation ltv := (fun x y : A => (x < y)%O).
Variable f0 : seq A.
Notation f v := (nth a0 f0 v).

Lemma vminE x y : vmin ltv x y = Order.min x y. Proof. by rewrite /vmin minC minEle leNgt; case: ifP => //; case: ltgtP => // ->. Qed.
Lemma vmaxE x y : vmax ltv x y = Order.max x y. Proof. by rewrite /vmax maxElt. Qed.

Lemma extremaE lo hi s : all (fun v => v < size f0) s ->
  simplex_extrema ltv lo hi f0 s = Ok (foldl (fun m v => Order.min m (f v)) hi s, foldl (fun m v => Order.max m (f v)) lo s).
Proof.
rewrite /simplex_extrema; elim: s lo hi => //= v s IH lo hi /andP[lv al].
by rewrite (oget_nth a0) //=; rewrite vminE vmaxE IH.
Qed.
Lemma foldmin hi s t : (t <= foldl (fun m v => Order.min m (f v)) hi s)%O = (t <= hi)%O && all (fun v => (t <= f v)%O) s.
Proof. by elim: s hi => [|v s IH] hi /=; rewrite ?andbT // IH le_minr andbA. Qed.
Lemma foldmax lo s t : (foldl (fun m v => Order.max m (f v)) lo s <= t)%O = (lo <= t)%O && all (fun v => (f v <= t)%O) s.
Proof. by elim: s lo => [|v s IH] lo /=; rewrite ?andbT // IH le_maxl andbA. Qed.
Lemma foldmin_in hi s : all (fun v => (f v <= hi)%O) s -> s != [::] ->
  exists2 v, v \in s & foldl (fun m v => Order.min m (f v)) hi s = f v.
Proof.
case: s => //= v s /andP[h al] _; rewrite (min_idPr h) {h}.
elim: s v al => [|u s IH] v /= al; first by exists v; rewrite ?mem_head.
case/andP: al => hu al; case: (leP (f v) (f u)) => h.
  by have [w wi ->] := IH v al; exists w => //; move: wi; rewrite !inE => /orP[->//|->]; rewrite !orbT.
by have [w wi ->] := IH u al; exists w => //; rewrite inE wi orbT.
Qed.
Lemma foldmax_in lo s : all (fun v => (lo <= f v)%O) s -> s != [::] ->
  exists2 v, v \in s & foldl (fun m v => Order.max m (f v)) lo s = f v.
Proof.
case: s => //= v s /andP[h al] _; rewrite (max_idPr h) {h}.
elim: s v al => [|u s IH] v /= al; first by exists v; rewrite ?mem_head.
case/andP: al => hu al; case: (leP (f v) (f u)) => h.
  by have [w wi ->] := IH u al; exists w => //; rewrite inE wi orbT.
by have [w wi ->] := IH v al; exists w => //; move: wi; rewrite !inE => /orP[->//|->]; rewrite !orbT.
Qed.

Section Cell.
Variables (lo hi : A) (sub add : A -> A).
Hypothesis subm : {homo sub : x y / (x <= y)%O}.
Hypothesis addm : {homo add : x y / (x <= y)%O}.
Hypothesis bnd : forall v, v < size f0 -> (lo <= f v <= hi)%O.
Variable s : seq nat.
Hypothesis sn : s != [::].
Hypothesis sv : all (fun v => v < size f0) s.
Definition cell_fits := all (fun u => all (fun v => (sub (f u) <= add (f v))%O) s) s.
Lemma ext_cellE : if cell_fits
  then exists w, [/\ ext_cell ltv lo hi sub add f0 s = Ok [:: w], (w.1 <= w.2)%O &
         forall t, (w.1 <= t <= w.2)%O = all (fun v => (sub (f v) <= t <= add (f v))%O) s]
  else ext_cell ltv lo hi sub add f0 s = Throw.
Proof.
rewrite /ext_cell extremaE //=.
have al1 : all (fun v => (f v <= hi)%O) s by apply/allP => v /(allP sv)/bnd/andP[].
have al2 : all (fun v => (lo <= f v)%O) s by apply/allP => v /(allP sv)/bnd/andP[].
set m := foldl _ hi s; set M := foldl _ lo s.
have [u us eu] := foldmin_in al1 sn; have [w ws ew] := foldmax_in al2 sn; rewrite -/m in eu; rewrite -/M in ew.
have lm v : v \in s -> (m <= f v)%O by move=> vs; have := foldmin hi s m; rewrite lexx => /esym/andP[_ /allP]; apply.
have lM v : v \in s -> (f v <= M)%O by move=> vs; have := foldmax lo s M; rewrite lexx => /esym/andP[_ /allP]; apply.
case: ifP => [fit|/negbT nfit].
  have le : (sub M <= add m)%O by rewrite eu ew; exact: (allP (allP fit w ws) u us).
  rewrite ltNge le /=; exists (sub M, add m); split=> //= t; apply/andP/allP.
    by move=> [h1 h2] v vs; rewrite (le_trans (subm (lM v vs)) h1) (le_trans h2 (addm (lm v vs))).
  by move=> h; rewrite eu ew; have /andP[h1 _] := h w ws; have /andP[_ h2] := h u us.
case: ifP => //; rewrite ltNge => /negbT; rewrite negbK => le; case/negP: nfit.
apply/allP => x xs; apply/allP => y ys; exact: (le_trans (subm (lM x xs)) (le_trans le (addm (lm y ys)))).
Qed.
End Cell.

(** the first vertex with the largest value *)
Lemma max_loop v s : v < size f0 -> all (fun v => v < size f0) s ->
  exists m, [/\ ofold (fun m v => do a <- oget f0 m; do b <- oget f0 v; Ok (if ltv a b then v else m)) v s = Ok m,
    m \in v :: s, forall u, u \in v :: s -> (f u <= f m)%O & forall j, j < index m (v :: s) -> (f (nth 0 (v :: s) j) < f m)%O].
Proof.
elim: s v => [|u s IH] v lv /=; first by exists v; rewrite mem_head; split=> // [u|j]; rewrite ?inE ?eqxx // => /eqP ->.
move=> /andP[lu al]; rewrite (oget_nth a0) //=; rewrite (oget_nth a0) //=; case: ifP => h.
  have [m [-> mi mx fi]] := IH u lu al; exists m; split=> //.
  - by rewrite inE mi orbT.
  - by move=> x; rewrite inE => /orP[/eqP ->|/mx //]; apply: (le_trans (ltW h)); apply: mx; rewrite mem_head.
  have um := mx u (mem_head _ _); have vm := lt_le_trans h um.
  by rewrite /= in fi *; case: eqP => [_|_] [|j] //=; apply: fi.
have [m [-> mi mx fi]] := IH v lv al; exists m; split=> //.
- by move: mi; rewrite !inE => /orP[->//|->]; rewrite !orbT.
- move=> x; rewrite !inE => /orP[/eqP ->|/orP[/eqP ->|xs]]; [apply: mx; exact: mem_head| |by apply: mx; rewrite inE xs orbT].
  by move/negbT: h; rewrite -leNgt => h; apply: (le_trans h); apply: mx; rewrite mem_head.
rewrite /= in fi *; case: eqP fi => [//|nv] fi; move/negbT: h; rewrite -leNgt => h.
have vm : (f v < f m)%O by apply: (fi 0).
case: eqP => [e|_]; first by have := le_lt_trans h vm; rewrite e ltxx.
by case=> [|[|j]] //= lj; [apply: (le_lt_trans h)|apply: (fi j.+1)].
Qed.
Lemma star_cellE s : s != [::] -> all (fun v => v < size f0) s ->
  exists m, [/\ star_cell ltv f0 s = Ok (f m, m), m \in s,
    forall t, (f m <= t)%O = all (fun v => (f v <= t)%O) s & forall j, j < index m s -> (f (nth 0 s j) < f m)%O].
Proof.
case: s => //= v s _ /andP[lv al]; have [m [-> mi mx fi]] := max_loop lv al; exists m; rewrite /=.
have lm : m < size f0 by move: mi; rewrite inE => /orP[/eqP ->//|/(allP al)].
rewrite (oget_nth a0) //=; split=> // t; apply/idP/idP.
  by move=> h; apply/andP; split; [apply: le_trans h; apply: mx; rewrite mem_head|apply/allP => u us; apply: le_trans h; apply: mx; rewrite inE us orbT].
by move=> /andP[h al']; move: mi; rewrite inE => /orP[/eqP ->//|/(allP al')].
Qed.
End S.
