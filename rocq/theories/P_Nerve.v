(** Nerve: the simplices that are added, in which order, and that each finds its faces. *)
From mathcomp Require Import all_ssreflect all_algebra zify.
From Verif Require Import Outcome M_Sorted M_Simplicial M_Filtration M_Flag M_Nerve S_Simplicial P_Outcome P_Util P_Simplicial P_ScOps P_ScBuild Props_Simplicial Props_Util P_Flag P_Flag2.
Set Implicit Arguments.
Unset Strict Implicit.
Unset Printing Implicit Defensive.

(** ** lexicographic order from the largest vertex down *)
Fixpoint lexlt (a b : seq nat) : bool :=
  match a, b with
  | _, [::] => false
  | [::], _ => true
  | x :: a', y :: b' => (x < y) || (x == y) && lexlt a' b'
  end.
Definition before (u s : seq nat) : bool := lexlt (rev u) (rev s).
Lemma lexlt_cat p a b : lexlt (p ++ a) (p ++ b) = lexlt a b.
Proof. by elim: p => //= x p ->; rewrite ltnn eqxx. Qed.
Lemma lexlt_irr a : lexlt a a = false. Proof. by elim: a => //= x a ->; rewrite ltnn eqxx. Qed.
Lemma before_face s j : sorted ltn s -> j < size s -> before (take j s ++ drop j.+1 s) s.
Proof.
move=> so lj; rewrite /before rev_cat -{3}(cat_take_drop j s) (drop_nth 0 lj) rev_cat rev_cons cat_rcons lexlt_cat.
case: j lj => [|j] lj; first by rewrite take0.
have lj' := ltnW lj; rewrite (take_nth 0 lj') rev_rcons /=; rewrite (sorted_ltn_nth ltn_trans) //.
Qed.

(** ** runs *)
Definition addc X s := do r <- sc_add X s; Ok r.1.
Lemma run_sc L X : built X -> (forall s, s \in L -> sorted ltn s && (s != [::])) -> addable (contains X) L ->
  exists Y, [/\ ofold addc X L = Ok Y, built Y & forall u, u != [::] -> contains Y u <-> contains X u \/ u \in L].
Proof.
elim: L X => [|s L IH] X b so; first by move=> _; exists X; split=> // u _; split=> [|[]] //; left.
move=> [fs ad]; have /andP [ss s0] := so s (mem_head _ _); have ids := srt_id ss.
have hf : has_faces X (sort leq s).
  by move=> j js s1; rewrite ids in js s1 *; rewrite skip_rem ?ltn_uniq //; apply: fs => //; exact: mem_nth.
have n0 : sort leq s != [::] by rewrite sort_nil.
have [cl iv d0] := built_inv b; have [X1 [r [cl' [E iv1 _ _ _]]]] := add_step iv n0.
have E1 : sc_add X s = Ok (X1, r) by [].
have b1 := built_add b E1; have [H pr _ _] := C23_add b s0 E1; rewrite ids in H hf.
have so' u : u \in L -> sorted ltn u && (u != [::]) by move=> ul; apply: so; rewrite inE ul orbT.
have [|Y [E' b' H']] := IH X1 b1 so'.
  apply: addable_mono ad => u [[i ci]|->]; first by exists i; exact: pr.
  by apply/(H s s0); right.
exists Y; split=> //; first by rewrite /= /addc E1.
move=> u nu; rewrite H' // H // inE; split.
  by move=> [[h|[-> _]]|->]; [left|right; rewrite eqxx|right; rewrite orbT].
by move=> [h|/orP[/eqP e|h]]; [left; left|left; right; rewrite e|right].
Qed.

Lemma lexlt_asym a b : lexlt a b -> lexlt b a = false.
Proof.
elim: a b => [|x a IH] [|y b] //= /orP[h|/andP[/eqP -> h]]; last by rewrite ltnn eqxx IH.
by rewrite ltnNge (ltnW h) /= [y == x]eq_sym (ltn_eqF h).
Qed.
Lemma addable_before (P : seq nat -> Prop) L : (forall s, s \in L -> sorted ltn s) -> pairwise before L ->
  (forall s x, s \in L -> x \in s -> 1 < size s -> rem x s \in L) -> addable P L.
Proof.
move=> so pw fc; suff H post pre : L = pre ++ post -> addable (fun u => P u \/ u \in pre) post.
  by apply: addable_mono (H L [::] erefl) => u [].
elim: post pre => [|s post IH] pre e //; have sL : s \in L by rewrite e mem_cat mem_head orbT.
split; last by apply: addable_mono (IH (rcons pre s) _); rewrite ?cat_rcons // => u; rewrite mem_rcons inE => -[|/orP[/eqP|]]; tauto.
move=> x xs s1; right; have := fc s x sL xs s1; rewrite e mem_cat inE => /or3P[//||].
  by move=> /eqP/(congr1 size); rewrite size_rem //; case: (size s) s1 => // n _ /= /n_Sn.
move=> ri; have bf : before s (rem x s).
  by move: pw; rewrite e pairwise_cat /= => /and3P[_ _ /andP[/allP/(_ _ ri)]].
have := before_face (so s sL) (j := index x s); rewrite index_mem => /(_ xs).
rewrite skip_rem ?index_mem ?ltn_uniq ?so // nth_index // /before => h.
by have := lexlt_asym h; rewrite -/(before _ _) bf.
Qed.

(** ** the emitted simplices *)
Section E.
Variable cov : nat -> seq nat.
Hypothesis covs : forall k, sorted ltn (cov k).
Fixpoint nemit (d : nat) (spx inter : seq nat) : seq (seq nat) :=
  if d is d'.+1 then
    flatten [seq (let ik := intersect_sorted (cov k) inter in if 0 < size ik then (k :: spx) :: nemit d' (k :: spx) ik else [::]) | k <- iota 0 (head 0 spx)]
  else [::].
Lemma inter_mem k inter : sorted ltn inter -> sorted ltn (intersect_sorted (cov k) inter) /\
  forall x, (x \in intersect_sorted (cov k) inter) = (x \in cov k) && (x \in inter).
Proof. by move=> si; have [] := C31_intersect (covs k) si. Qed.
(** some element of inter is in all the sets *)
Definition common (w inter : seq nat) : bool := has (fun x => all (fun k => x \in cov k) w) inter.
Lemma common_rcons w k inter : sorted ltn inter -> common (rcons w k) inter = common w (intersect_sorted (cov k) inter).
Proof.
move=> si; have [_ me] := inter_mem k si; apply/hasP/hasP => -[x xi h]; exists x.
- by move: h; rewrite me xi all_rcons => /andP[->].
- by move: h; rewrite all_rcons => /andP[].
- by move: xi; rewrite me => /andP[].
- by move: xi; rewrite me all_rcons => /andP[-> _].
Qed.
Lemma common0 inter : common [::] inter = (0 < size inter). Proof. by case: inter. Qed.
Lemma common_sub w w' inter : {subset w' <= w} -> common w inter -> common w' inter.
Proof. by move=> h /hasP[x xi /allP al]; apply/hasP; exists x => //; apply/allP => k /h /al. Qed.
Lemma nemit_mem d spx inter u : sorted ltn inter -> sorted ltn spx -> spx != [::] ->
  u \in nemit d spx inter <-> exists w, [/\ u = w ++ spx, w != [::], sorted ltn u, size w <= d & common w inter].
Proof.
elim: d spx inter u => [|d IH] spx inter u si ss n0.
  by rewrite in_nil; split=> // -[w [_ nw _]]; rewrite leqn0 size_eq0 (negbTE nw).
have sk k : k < head 0 spx -> sorted ltn (k :: spx) by case: (spx) n0 ss => //= v s _ p ->.
split.
  move=> /flattenP[l /mapP[k]]; rewrite mem_iota add0n => /andP[_ lk] ->; cbv zeta.
  case: ifP => // c0; rewrite inE => /orP[/eqP ->|].
    exists [:: k]; rewrite ?sk //; split=> //; by rewrite -[[:: k]]/(rcons [::] k) common_rcons // common0.
  have [si' _] := inter_mem k si; move=> /(IH _ _ _ si' (sk k lk) isT)[w [-> nw su sw cw]].
  exists (rcons w k); rewrite cat_rcons; split=> //; rewrite ?size_rcons ?common_rcons //; by case: (w).
move=> [w [-> nw su sw cw]]; case/lastP: w nw su sw cw => // w k _; rewrite cat_rcons size_rcons ltnS => su sw.
rewrite common_rcons // => cw; have [si' _] := inter_mem k si.
have lk : k < head 0 spx.
  have : sorted ltn (k :: spx) by apply: subseq_sorted su; [exact: ltn_trans|exact: suffix_subseq].
  by case: (spx) n0 => //= v s _ /andP[].
apply/flattenP; eexists; first by apply: map_f; rewrite mem_iota; exact: lk.
cbv zeta; rewrite ifT; last by rewrite -common0; apply: common_sub cw.
case: (posnP (size w)) => [/eqP|w0]; first by rewrite size_eq0 => /eqP ->; rewrite mem_head.
rewrite inE; apply/orP; right; rewrite -/(nemit d _ _); apply/(IH _ _ _ si' (sk k lk) isT); exists w; split=> //.
by rewrite -size_eq0 -lt0n.
Qed.
Lemma before_suffix w w' spx : before (w ++ spx) (w' ++ spx) = before w w'.
Proof. by rewrite /before !rev_cat lexlt_cat. Qed.
Lemma pairwise_flatten (r : rel (seq nat)) (f : nat -> seq (seq nat)) n :
  (forall k, k < n -> pairwise r (f k)) -> (forall k l u v, k < l -> l < n -> u \in f k -> v \in f l -> r u v) ->
  pairwise r (flatten [seq f k | k <- iota 0 n]).
Proof.
elim: n => // n IH h1 h2; rewrite -addn1 iotaD map_cat flatten_cat /= cats0 pairwise_cat IH ?h1 ?add0n ?andbT //.
- apply/allrelP => u v /flattenP[l /mapP[k]]; rewrite mem_iota => /andP[_ lk] -> ui vi; exact: h2 ui vi.
- by move=> k lk; apply: h1; apply: ltnW.
by move=> k l u v kl ln; apply: h2 => //; apply: ltnW.
Qed.
Lemma nemit_before d spx inter : sorted ltn inter -> sorted ltn spx -> spx != [::] -> pairwise before (nemit d spx inter).
Proof.
elim: d spx inter => [|d IH] spx inter si ss n0 //=.
have sk k : k < head 0 spx -> sorted ltn (k :: spx) by case: (spx) n0 ss => //= v s _ p ->.
have suf k u : k < head 0 spx -> u \in (let ik := intersect_sorted (cov k) inter in if 0 < size ik then (k :: spx) :: nemit d (k :: spx) ik else [::]) ->
    exists w, u = w ++ k :: spx.
  move=> lk; cbv zeta; case: ifP => // c0; rewrite inE => /orP[/eqP ->|]; first by exists [::].
  have [si' _] := inter_mem k si; by move=> /(nemit_mem _ _ si' (sk k lk) isT)[w [-> _ _ _ _]]; exists w.
apply: pairwise_flatten => [k lk|k l u v kl ll ui vi].
  case: ifP => // c0 /=; have [si' _] := inter_mem k si; rewrite IH ?sk // andbT; apply/allP => u.
  move=> /(nemit_mem _ _ si' (sk k lk) isT)[w [-> nw _ _ _]].
  by rewrite -[k :: spx]/([::] ++ k :: spx) catA before_suffix cats0 /before; case/lastP: w nw => // w x _; rewrite rev_rcons.
have [w ->] := suf k u (ltn_trans kl ll) ui; have [w' ->] := suf l v ll vi.
by rewrite -!cat_rcons before_suffix /before !rev_rcons /= kl.
Qed.

(** the whole list: m = max(dmax, 1) *)
Definition nlist (m n : nat) : seq (seq nat) := flatten [seq [:: i] :: nemit m [:: i] (cov i) | i <- iota 0 n].
Definition nsimplex (m n : nat) (u : seq nat) : Prop :=
  [/\ u != [::], sorted ltn u, all (fun i => i < n) u, size u <= m.+1 & 1 < size u -> exists x, forall k, k \in u -> x \in cov k].
Lemma nlist_mem m n u : u \in nlist m n <-> nsimplex m n u.
Proof.
split.
  move=> /flattenP[l /mapP[i]]; rewrite mem_iota add0n => /andP[_ li] ->; rewrite inE => /orP[/eqP ->|].
    by split=> //=; rewrite li.
  move=> /(@nemit_mem _ [:: i] _ _ (covs i) isT isT)[w [-> nw su sw /hasP[x xi /allP al]]]; split=> //.
  - by case: (w).
  - rewrite all_cat /= li !andbT; apply/allP => k kw; apply: ltn_trans li.
    move: su; rewrite (sorted_pairwise ltn_trans) pairwise_cat => /and3P[/allrelP h _ _]; by apply: h kw _; rewrite mem_head.
  - by rewrite size_cat addn1 ltnS.
  - move=> _; exists x => k; rewrite mem_cat inE => /orP[/al //|/eqP ->]; exact: xi.
move=> [nu su al sz cm]; case/lastP: u nu su al sz cm => // w i _ su al sz cm; rewrite size_rcons ltnS in sz.
have li : i < n by move: al; rewrite all_rcons => /andP[].
apply/flattenP; eexists; first by apply: map_f; rewrite mem_iota; exact: li.
rewrite inE; case: (eqVneq w [::]) => [->|nw]; first by rewrite eqxx.
apply/orP; right; apply/(@nemit_mem _ [:: i] _ _ (covs i) isT isT); exists w; rewrite cats1; split=> //.
have [|x hx] := cm; first by rewrite size_rcons ltnS lt0n size_eq0.
by apply/hasP; exists x; [|apply/allP => k kw]; apply: hx; rewrite mem_rcons inE ?eqxx ?kw ?orbT.
Qed.
Lemma nlist_before m n : pairwise before (nlist m n).
Proof.
have suf i u : u \in [:: i] :: nemit m [:: i] (cov i) -> exists w, u = rcons w i.
  rewrite inE => /orP[/eqP ->|]; first by exists [::].
  by move=> /(@nemit_mem _ [:: i] _ _ (covs i) isT isT)[w [-> _ _ _ _]]; exists w; rewrite cats1.
apply: pairwise_flatten => [k lk|k l u v kl ll ui vi]; last first.
  by have [w ->] := suf k u ui; have [w' ->] := suf l v vi; rewrite /before !rev_rcons /= kl.
rewrite /= nemit_before // andbT; apply/allP => u /(@nemit_mem _ [:: k] _ _ (covs k) isT isT)[w [-> nw _ _ _]].
by rewrite -[[:: k]]/([::] ++ [:: k]) catA before_suffix cats0 /before; case/lastP: w nw => // w x _; rewrite rev_rcons.
Qed.
Lemma nlist_addable P m n : addable P (nlist m n).
Proof.
apply: addable_before; [by move=> s /nlist_mem[]|exact: nlist_before|].
move=> s x /nlist_mem[_ so al sz cm] xs s1; have ms := mem_rem (x := x) (s := s); have zr := size_rem xs.
apply/nlist_mem; split.
- by rewrite -size_eq0 zr; case: (size s) s1 => [|[|]].
- by apply: subseq_sorted (rem_subseq _ _) so; exact: ltn_trans.
- by apply/allP => y /ms /(allP al).
- by rewrite zr; exact: leq_trans (leq_pred _) sz.
by move=> _; have [y hy] := cm s1; exists y => k /ms /hy.
Qed.
End E.

(** ** the program runs over the list *)
Section Run.
Variable cover : seq (seq nat).
Hypothesis covs : all (sorted ltn) cover.
Notation cov := (nth [::] cover).
Lemma cov_sorted k : sorted ltn (cov k).
Proof. by case: (ltnP k (size cover)) => lk; [apply: (allP covs); exact: mem_nth|rewrite nth_default]. Qed.
Lemma push_front k spx : sorted ltn (k :: spx) -> push_sorted spx k = k :: spx.
Proof. by move=> so; rewrite /push_sorted -(srt_id so); apply: srtP; rewrite perm_rcons. Qed.
Lemma min_head v s : sorted ltn (v :: s) -> foldl minn v s = v.
Proof.
move=> so; have : all (fun x => v <= x) s by move: so => /= /(order_path_min ltn_trans); apply: sub_all => x; exact: ltnW.
by elim: s {so} => //= x s IH /andP[vx al]; rewrite (minn_idPl vx) IH.
Qed.
Lemma nerve_recE fuel N spx inter dmax : sorted ltn spx -> spx != [::] -> head 0 spx <= size cover -> dmax < fuel + size spx ->
  0 < fuel -> nerve_rec fuel N spx cover inter dmax = ofold addc N (nemit cov (dmax.+1 - size spx) spx inter).
Proof.
elim: fuel N spx inter => // fuel IH N spx inter so n0 hd fu _ /=.
have -> : (dmax <= (size spx).-1) = (dmax < size spx) by case: (spx) n0.
case: ltnP => le; first by rewrite (eqP (_ : dmax.+1 - size spx == 0)) // subn_eq0.
rewrite subSn //=; case: spx n0 so hd fu le => // v spx _ so hd fu le; rewrite (min_head so) ofold_flatten [head _ _]/=.
apply: ofold_ext => N' k; rewrite mem_iota add0n => /andP[_ lk]; rewrite (oget_nth [::]) ?(leq_trans lk) //; cbn [obind]; cbv zeta.
case: ifP => // c0; have sk : sorted ltn [:: k, v & spx] by rewrite /= lk.
rewrite push_front // ofold_cons {1}/addc; case: (sc_add _ _) => //= r.
have -> : dmax - (size spx).+1 = dmax.+1 - (size spx).+2 by rewrite subSS.
case: ltnP => l2.
  apply: IH => //=; [exact: leq_trans (ltnW lk) hd| |]; last by move: fu l2; rewrite /=; clear; lia.
  by move: fu; rewrite /=; clear; lia.
have -> // : dmax.+1 - (size spx).+2 = 0 by apply/eqP; rewrite subn_eq0.
Qed.
Lemma intersectC a b : sorted ltn a -> sorted ltn b -> intersect_sorted a b = intersect_sorted b a.
Proof.
move=> sa sb; have [s1 m1 _] := C31_intersect sa sb; have [s2 m2 _] := C31_intersect sb sa.
by apply: srt_eq => // x; rewrite m1 m2 andbC.
Qed.
Lemma nerve_vertexE dmax N i : i < size cover ->
  nerve_vertex cover dmax N i = ofold addc N ([:: i] :: nemit cov (maxn dmax 1) [:: i] (cov i)).
Proof.
move=> li; rewrite /nerve_vertex ofold_cons {1}/addc; case: (sc_add _ _) => //= r.
have [m em] : exists m, maxn dmax 1 = m.+1 by exists (maxn dmax 1).-1; rewrite prednK // leq_max orbT.
rewrite em /= ofold_flatten; apply: ofold_ext => N' j; rewrite mem_iota add0n => /andP[_ lj].
rewrite (oget_nth [::]) //; cbn [obind]; rewrite (oget_nth [::]) ?(ltn_trans lj) //; cbn [obind]; cbv zeta.
rewrite (intersectC (cov_sorted i) (cov_sorted j)); case: ifP => // c0; rewrite ofold_cons {1}/addc; case: (sc_add _ _) => //= q.
have em' : m = dmax.-1 by move: em; clear; lia.
case: ltnP => d1; last by have -> : m = 0 by move: em' d1; clear; lia.
have sji : sorted ltn [:: j; i] by rewrite /= lj.
rewrite nerve_recE //=; first by have -> : m = dmax.+1 - 2 by move: em'; clear; lia.
- exact: ltnW (ltn_trans lj li).
- by clear; lia.
- exact: ltnW d1.
Qed.
Lemma nerveE dmax : nerve cover dmax = ofold addc (sc_new dmax) (nlist cov (maxn dmax 1) (size cover)).
Proof.
rewrite /nerve /nlist ofold_flatten; apply: ofold_ext => N i; rewrite mem_iota add0n => /andP[_ li]; exact: nerve_vertexE.
Qed.
Lemma nerve_ok dmax : exists N, [/\ nerve cover dmax = Ok N, built N &
  forall u, u != [::] -> contains N u <-> nsimplex cov (maxn dmax 1) (size cover) u].
Proof.
have so s : s \in nlist cov (maxn dmax 1) (size cover) -> sorted ltn s && (s != [::]).
  by move=> /(nlist_mem cov_sorted)[h1 h2 _ _ _]; rewrite h1 h2.
have [Y [E b H]] := run_sc (built_new dmax) so (nlist_addable cov_sorted _ _ _); exists Y; split=> //; first by rewrite nerveE.
move=> u nu; rewrite H // (nlist_mem cov_sorted); split=> [[|//]|]; last by right.
by move/(contains_iff (inv_new dmax) nu).
Qed.
End Run.
