(** The simplices the flag recursion emits, and that each finds its faces. *)
From mathcomp Require Import all_ssreflect all_algebra zify.
From Verif Require Import Outcome M_Sorted M_Simplicial M_Filtration M_Flag S_Simplicial S_Filtration P_Outcome P_Util P_Filtration Props_Simplicial Props_Filtration.
Set Implicit Arguments.
Unset Strict Implicit.
Unset Printing Implicit Defensive.

Lemma srtP (s t : seq nat) : perm_eq s t -> sort leq s = sort leq t.
Proof. by move=> h; apply/perm_sortP => //; [exact: leq_total|exact: leq_trans|exact: anti_leq]. Qed.
Lemma srt_id (s : seq nat) : sorted ltn s -> sort leq s = s.
Proof. by move=> h; apply: sorted_sort => //; [exact: leq_trans|exact: sub_sorted ltnW _ h]. Qed.
Lemma srt_ltn (s : seq nat) : uniq s -> sorted ltn (sort leq s).
Proof. by move=> u; rewrite ltn_sorted_uniq_leq sort_uniq u sort_sorted //; exact: leq_total. Qed.
Lemma ltn_uniq (s : seq nat) : sorted ltn s -> uniq s.
Proof. by rewrite ltn_sorted_uniq_leq => /andP []. Qed.
Lemma srt_eq (s t : seq nat) : sorted ltn s -> sorted ltn t -> s =i t -> s = t.
Proof.
by move=> a b e; rewrite -(srt_id a) -(srt_id b); apply: srtP; apply: uniq_perm => //; exact: ltn_uniq.
Qed.

Lemma ofold_cat A B (f : A -> B -> outcome A) a l1 l2 : ofold f a (l1 ++ l2) = (do a' <- ofold f a l1; ofold f a' l2).
Proof. by elim: l1 a => //= x l IH a; case: (f a x). Qed.
Lemma ofold_flatten A B C (f : A -> B -> outcome A) (g : C -> seq B) a (l : seq C) :
  ofold f a (flatten [seq g c | c <- l]) = ofold (fun a c => ofold f a (g c)) a l.
Proof. by elim: l a => //= x l IH a; rewrite ofold_cat; case: (ofold f a (g x)) => //=. Qed.
Lemma ofold_ext A (B : eqType) (f g : A -> B -> outcome A) a (l : seq B) :
  (forall a b, b \in l -> f a b = g a b) -> ofold f a l = ofold g a l.
Proof.
elim: l a => //= x l IH a H; rewrite H ?mem_head //; case: (g a x) => //= a'; apply: IH => a0 b bl.
by apply: H; rewrite inE bl orbT.
Qed.

(** ** the emitted simplices *)
Fixpoint emitl (nb : nat -> seq nat) (depth : nat) (iter spx l : seq nat) : seq (seq nat) :=
  flatten [seq push_sorted spx k ::
    (if depth is d.+1 then let it := [seq x <- iter | (x \in nb k) && (x < k)] in emitl nb d it (push_sorted spx k) it
     else [::]) | k <- l].
Definition emit nb depth iter spx := emitl nb depth iter spx iter.
Definition cln (nb : nat -> seq nat) (w : seq nat) := forall x y, x \in w -> y \in w -> x < y -> x \in nb y.

Lemma emitlE nb depth iter spx l : emitl nb depth iter spx l =
  flatten [seq push_sorted spx k :: (if depth is d.+1 then emit nb d [seq x <- iter | (x \in nb k) && (x < k)] (push_sorted spx k) else [::]) | k <- l].
Proof. by case: depth. Qed.

Lemma cln_sub nb w w' : {subset w' <= w} -> cln nb w -> cln nb w'.
Proof. by move=> s h x y /s xi /s yi; exact: h. Qed.
Lemma rcons_ltn w k : sorted ltn (rcons w k) = sorted ltn w && all (fun x => x < k) w.
Proof.
have tr : transitive ltn by exact: ltn_trans.
by rewrite -cats1 (sorted_pairwise tr) (sorted_pairwise tr) pairwise_cat /= andbT allrel1r andbC.
Qed.
Lemma push_cat spx k w : sort leq (push_sorted spx k ++ w) = sort leq (spx ++ rcons w k).
Proof.
apply: srtP; rewrite -(cats1 w) (permPr (_ : perm_eq _ (spx ++ ([:: k] ++ w)))); last by rewrite perm_cat2l perm_catC.
by rewrite catA cats1 perm_cat2r; apply/permPl; exact: perm_sort.
Qed.

Lemma emitl_mem nb depth iter spx l u : {subset l <= iter} ->
  u \in emitl nb depth iter spx l <->
  exists w k, [/\ sorted ltn (rcons w k), {subset rcons w k <= iter}, k \in l, size w <= depth /\ cln nb (rcons w k) & u = sort leq (spx ++ rcons w k)].
Proof.
elim: depth iter spx l u => [|d IH] iter spx l u li; rewrite emitlE; split.
- move=> /flatten_mapP [k kl]; rewrite inE => /eqP ->; exists [::], k; split=> //.
  + by move=> x; rewrite inE => /eqP ->; exact: li.
  + by split=> // x y; rewrite !inE => /eqP -> /eqP ->; rewrite ltnn.
  + by rewrite /push_sorted -cats1.
- move=> [w [k [sw wi kl [w0 cw] ->]]]; case: w w0 {sw wi cw} => // _.
  by apply/flatten_mapP; exists k => //; rewrite inE /push_sorted cats1.
- move=> /flatten_mapP [k kl]; rewrite inE => /orP [/eqP ->|].
    exists [::], k; split=> //.
    + by move=> x; rewrite inE => /eqP ->; exact: li.
    + by split=> // x y; rewrite !inE => /eqP -> /eqP ->; rewrite ltnn.
    + by rewrite /push_sorted -cats1.
  move=> /IH [//|w [k' [sw wi kl' [w0 cw] ->]]]; exists (rcons w k'), k; split=> //.
  + rewrite rcons_ltn sw; apply/allP => x /wi; rewrite mem_filter => /andP [/andP []//].
  + move=> x; rewrite mem_rcons inE => /orP [/eqP ->|/wi]; first exact: li.
    by rewrite mem_filter => /andP [].
  + split; first by rewrite size_rcons.
    move=> x y; rewrite !(mem_rcons _ k) !inE => /orP [/eqP ->|xi] /orP [/eqP ->|yi]; rewrite ?ltnn //; last exact: cw.
      move=> ky; have := wi y yi; rewrite mem_filter => /andP [/andP [_ h]]; by move: h ky; clear; lia.
    by move=> _; have := wi x xi; rewrite mem_filter => /andP [/andP []].
  + exact: push_cat.
- move=> [w [k [sw wi kl [w0 cw] ->]]]; apply/flatten_mapP; exists k => //; rewrite inE.
  case: (lastP w) sw wi w0 cw => [|w' k'] sw wi w0 cw; first by rewrite /push_sorted cats1 eqxx.
  apply/orP; right; apply/IH => //; exists w', k'.
  have wlt : all (fun x => x < k) (rcons w' k') by move: sw; rewrite rcons_ltn => /andP [].
  have sub : {subset rcons w' k' <= [seq x <- iter | (x \in nb k) && (x < k)]}.
    move=> x xi; have xi' : x \in rcons (rcons w' k') k by rewrite mem_rcons inE xi orbT.
    rewrite mem_filter (allP wlt) // (wi _ xi') !andbT; apply: cw => //; last exact: (allP wlt).
    by rewrite mem_rcons mem_head.
  split.
  + by move: sw; rewrite rcons_ltn => /andP [].
  + exact: sub.
  + by apply: sub; rewrite mem_rcons mem_head.
  + split; first by move: w0; rewrite size_rcons.
    by apply: cln_sub cw => x xi; rewrite mem_rcons inE xi orbT.
  + by rewrite push_cat.
Qed.

(** ** each emitted simplex comes after its faces *)
Definition fcs (P : seq nat -> Prop) (s : seq nat) := forall x, x \in s -> 1 < size s -> P (rem x s).
Fixpoint addable (P : seq nat -> Prop) (L : seq (seq nat)) : Prop :=
  if L is s :: L' then fcs P s /\ addable (fun u => P u \/ u = s) L' else True.

Lemma addable_mono (P Q : seq nat -> Prop) L : (forall u, P u -> Q u) -> addable P L -> addable Q L.
Proof.
elim: L P Q => //= s L IH P Q H [h1 h2]; split; first by move=> x xi xs; apply: H; exact: h1.
by apply: IH h2 => u [/H|]; [left|right].
Qed.
Lemma addable_cat P L1 L2 : addable P L1 -> addable (fun u => P u \/ u \in L1) L2 -> addable P (L1 ++ L2).
Proof.
elim: L1 P => [|s L IH] P /=.
  by move=> _; apply: addable_mono => u [].
move=> [h1 h2] h3; split=> //; apply: IH => //; apply: addable_mono h3 => u; rewrite inE => -[|/orP [/eqP|]]; tauto.
Qed.

Lemma rem_srt x s : uniq s -> rem x (sort leq s) = sort leq (rem x s).
Proof.
move=> us; apply: srt_eq.
- apply: subseq_sorted (rem_subseq _ _) _; [exact: ltn_trans|exact: srt_ltn].
- by apply: srt_ltn; exact: rem_uniq.
- by move=> y; rewrite mem_rem_uniq ?sort_uniq // mem_sort !inE mem_sort mem_rem_uniq.
Qed.
Lemma rem_catl x (s t : seq nat) : x \in s -> rem x (s ++ t) = rem x s ++ t.
Proof. by elim: s => //= y s IH; rewrite inE eq_sym; case: eqP => //= _ /IH ->. Qed.

Lemma rem_rcons (k : nat) spx : k \notin spx -> rem k (rcons spx k) = spx.
Proof. by elim: spx => [|y s IH] /=; rewrite ?eqxx // inE negb_or eq_sym => /andP [/negbTE -> /IH ->]. Qed.

Lemma emit_addable nb depth iter spx (P : seq nat -> Prop) : sorted ltn iter -> uniq (spx ++ iter) -> P (sort leq spx) ->
  (forall w x, x \in spx -> sorted ltn w -> w != [::] -> {subset w <= iter} -> size w <= depth.+1 -> cln nb w ->
     P (sort leq (rem x spx ++ w))) ->
  addable P (emit nb depth iter spx).
Proof.
elim: depth iter spx P => [|d IH] iter spx P si us Ps HP; rewrite /emit.
all: have [uspx dis ui] : [/\ uniq spx, ~~ has (mem spx) iter & uniq iter] by move: us; rewrite cat_uniq => /and3P.
all: have ni x : x \in iter -> x \notin spx by move=> xi; apply: contra dis => xs; apply/hasP; exists x.
all: have first_ok k : k \in iter -> fcs P (push_sorted spx k).
1,3: move=> ki x xi _; rewrite /push_sorted rem_srt ?rcons_uniq ?ni // -cats1; case: (boolP (x \in spx)) => xs.
1,3: rewrite rem_catl //; apply: HP => //; [by move=> y; rewrite inE => /eqP ->|by move=> y z; rewrite !inE => /eqP -> /eqP ->; rewrite ltnn].
1,2: have xk : x = k by move: xi; rewrite mem_sort mem_rcons inE (negbTE xs) orbF => /eqP.
1,2: by rewrite cats1 xk rem_rcons ?ni.
- suff H pre post : iter = pre ++ post -> addable (fun u => P u \/ u \in emitl nb 0 iter spx pre) (emitl nb 0 iter spx post).
    by apply: addable_mono (H [::] iter erefl) => u [|] //.
  elim: post pre => [|k post IHp] pre e //; have ki : k \in iter by rewrite e mem_cat mem_head orbT.
  have := IHp (rcons pre k); rewrite cat_rcons => /(_ e) {}IHp; rewrite /= in IHp *; split.
    by move=> x xi xs; left; apply: first_ok.
  by apply: addable_mono IHp => u; rewrite -cats1 map_cat flatten_cat mem_cat /= inE => -[|/orP [|/eqP]]; tauto.
- suff H pre post : iter = pre ++ post -> addable (fun u => P u \/ u \in emitl nb d.+1 iter spx pre) (emitl nb d.+1 iter spx post).
    by apply: addable_mono (H [::] iter erefl) => u [|] //.
  elim: post pre => [|k post IHp] pre e //; have ki : k \in iter by rewrite e mem_cat mem_head orbT.
  have := IHp (rcons pre k); rewrite cat_rcons => /(_ e) {}IHp.
  have spl l1 l2 : emitl nb d.+1 iter spx (l1 ++ l2) = emitl nb d.+1 iter spx l1 ++ emitl nb d.+1 iter spx l2.
    by rewrite !emitlE map_cat flatten_cat.
  rewrite -cat1s spl; apply: addable_cat; last first.
    by apply: addable_mono IHp => u; rewrite -cats1 spl mem_cat => -[|/orP []]; tauto.
  rewrite (emitlE nb d.+1 iter spx [:: k]) [flatten _]/= cats0; split; first by move=> x xi xs; left; exact: first_ok.
  set it := [seq x <- iter | _].
  have itk x : x \in it -> [/\ x \in iter, x \in nb k & x < k] by rewrite mem_filter => /andP [/andP []].
  have k_it : k \notin it by apply/negP => /itk [_ _]; rewrite ltnn.
  apply: IH.
  + exact: sorted_filter ltn_trans _ _ si.
  + rewrite cat_uniq sort_uniq rcons_uniq ni // uspx filter_uniq //= andbT; apply/hasPn => x /itk [xi _ xk].
    by rewrite /= mem_sort mem_rcons inE negb_or ni // andbT; apply: contraTneq xk => ->; rewrite ltnn.
  + by right; rewrite /push_sorted sorted_sort //; [exact: leq_trans|exact: sort_sorted leq_total _].
  + move=> w x xs sw w0 wi ws cw; left; rewrite /push_sorted mem_sort mem_rcons inE in xs.
    have wk : sorted ltn (rcons w k) by rewrite rcons_ltn sw; apply/allP => y /wi /itk [].
    have wki : {subset rcons w k <= iter} by move=> y; rewrite mem_rcons inE => /orP [/eqP ->//|/wi /itk []].
    have cwk : cln nb (rcons w k).
      move=> y z; rewrite !mem_rcons !inE => /orP [/eqP ->|yi] /orP [/eqP ->|zi]; rewrite ?ltnn //; last exact: cw.
        by have [_ _ h] := itk _ (wi _ zi); move: h; clear; lia.
      by have [_ h _] := itk _ (wi _ yi).
    have up : uniq (rcons spx k) by rewrite rcons_uniq ni.
    rewrite rem_srt //.
    have pe a b : sort leq (sort leq a ++ b) = sort leq (a ++ b).
      by apply: srtP; rewrite perm_cat2r; apply/permPl; exact: perm_sort.
    rewrite pe -cats1; case: (boolP (x \in spx)) => xspx.
      rewrite rem_catl // -catA (srtP (_ : perm_eq _ (rem x spx ++ rcons w k))); last first.
        by rewrite perm_cat2l -cats1 perm_catC.
      left; apply: HP => //; first by case: (w).
      by rewrite size_rcons.
    have xk : x = k by move: xs; rewrite (negbTE xspx) orbF => /eqP.
    right; apply/emitl_mem; first by move=> y yi; rewrite e mem_cat yi.
    case: (lastP w) w0 sw wi ws cw {wk wki cwk} => // w' k' _ sw wi ws cw.
    have k'i : k' \in it by apply: wi; rewrite mem_rcons mem_head.
    exists w', k'; split=> //.
    * by move=> y /wi /itk [].
    * have [k1 _ k2] := itk _ k'i; move: k1; rewrite e mem_cat => /orP [//|].
      rewrite inE => /orP [/eqP ek|kp]; first by move: k2; rewrite ek ltnn.
      move: si; rewrite e => si'; have : sorted ltn (k :: post) by exact (subseq_sorted ltn_trans (suffix_subseq pre (k :: post)) si').
      move/(order_path_min ltn_trans) => /allP /(_ _ kp) /=; by move: k2; clear; lia.
    * by split=> //; move: ws; rewrite size_rcons; clear; lia.
    * by rewrite cats1 xk rem_rcons ?ni.
Qed.
