(** Signs of vertex lists: deleting an entry, sorting, and alternating sums of faces. *)
From mathcomp Require Import all_ssreflect all_algebra zify.
From Verif Require Import Outcome M_Simplicial S_Perm P_Simplicial P_Inv P_ScBuild P_ScBoundary.
Set Implicit Arguments.
Unset Strict Implicit.
Unset Printing Implicit Defensive.
Import GRing.Theory.

Lemma count_skip (P : pred nat) j s : j < size s -> count P s = P (nth 0 s j) + count P (skip j s).
Proof. by move=> lj; rewrite -(seq.permP (perm_skip lj)). Qed.

(** parity of the inversions when position j is deleted *)
Lemma inv_skip j s : j < size s ->
  odd (invl s) = odd (invl (skip j s)) (+) odd j (+) odd (count (fun y => y < nth 0 s j) s) (+) odd (count (pred1 (nth 0 s j)) (take j s)).
Proof.
elim: s j => [|y s IH] [|j] // lj.
  by rewrite skip0 /= ltnn add0n oddD /below !addbF addbC.
rewrite skipS [nth _ _ _]/= [take _ _]/= [invl (y :: s)]/= [invl (y :: _)]/= (oddD (below y s)) (oddD (below y _)) (IH j lj) [odd j.+1]/=.
have cs (P : pred nat) u : odd (count P (y :: u)) = P y (+) odd (count P u) by rewrite /= oddD oddb.
rewrite !cs /below (count_skip (fun z => z < y) (lj : j < size s)) oddD oddb.
set a := odd (invl _); set b := odd j; set c := odd (count _ s); set d := odd (count _ (take _ _)); set e := odd (count _ (skip _ _)).
set x := nth 0 s j; rewrite [pred1 x y]/= ; case: (ltngtP x y) => _; by case: a b c d e => [] [] [] [] [].
Qed.

Lemma index_sorted s j : sorted leq s -> uniq s -> j < size s -> count (fun y => y < nth 0 s j) s = j.
Proof.
elim: s j => [|y s IH] [|j] // so /= /andP [ny u] lj.
  rewrite ltnn add0n; apply/eqP; rewrite -leqn0 leqNgt -has_count; apply/hasPn => z zs.
  by rewrite -leqNgt; move: so; rewrite /= path_sortedE; [move=> /andP [/allP /(_ z zs)]|exact: leq_trans].
have so' := path_sorted so; rewrite IH //.
suff -> : y < nth 0 s j by [].
have ys : nth 0 s j \in s by exact: mem_nth.
move: so; rewrite /= path_sortedE; last exact: leq_trans.
move=> /andP [/allP /(_ _ ys)]; rewrite leq_eqVlt => /orP [/eqP e|] //.
by rewrite e ys in ny.
Qed.

Lemma skip_rem j s : uniq s -> j < size s -> skip j s = rem (nth 0 s j) s.
Proof.
elim: s j => [|y s IH] [|j] //= /andP [ny u] lj; first by rewrite skip0 eqxx.
rewrite skipS IH //; case: eqP => // e; by rewrite e mem_nth in ny.
Qed.

Lemma sort_rem x (s : seq nat) : sort leq (rem x s) = rem x (sort leq s).
Proof.
apply: (sorted_eq leq_trans anti_leq); first exact: (sort_sorted leq_total).
  by apply: (subseq_sorted leq_trans (rem_subseq x _)); exact: (sort_sorted leq_total).
rewrite perm_sort; have [xs|nx] := boolP (x \in s); last by rewrite !rem_id ?mem_sort // perm_sym perm_sort.
rewrite -(perm_cons x); apply: perm_trans (_ : perm_eq s _); first by rewrite perm_sym; exact: perm_to_rem.
by rewrite -(perm_sort leq); apply: perm_to_rem; rewrite mem_sort.
Qed.

Lemma uniq_skip j (s : seq nat) : uniq s -> uniq (skip j s).
Proof. exact: subseq_uniq (skip_subseq j s). Qed.

Section Alg.
Variable F : fieldType.
Local Open Scope ring_scope.

Definition sg (s : seq nat) : F := if uniq s then (-1) ^+ invl s else 0.

Lemma sgn_odd (m n : nat) : odd m = odd n -> (-1) ^+ m = (-1) ^+ n :> F.
Proof. by move=> e; rewrite -signr_odd e signr_odd. Qed.

(** the alternating extension commutes with the boundary *)
Lemma alt_sg (G : seq nat -> F) s : alt (fun t => sg t * G (sort leq t)) s = sg s * alt G (sort leq s).
Proof.
have [u|nu] := boolP (uniq s); last first.
  rewrite /sg (negbTE nu) mul0r; have /(uniqPn 0%N) [a [b [ab lb e]]] := nu.
  have la := ltn_trans ab lb; rewrite /alt (bigD1 (Ordinal la)) //= (bigD1 (Ordinal lb)) /=; last first.
    by apply/eqP => /(congr1 val) /= h; rewrite h ltnn in ab.
  rewrite [X in _ + (_ + X)]big1 ?addr0; last first.
    move=> j /andP [ja jb]; rewrite /sg (_ : uniq (skip j s) = false) ?mul0r ?mulr0 //; apply/negbTE/(uniqPn 0%N).
    have nja : (a == j :> nat) = false by apply/negbTE/eqP => h; case/eqP: ja; apply: val_inj.
    have njb : (b == j :> nat) = false by apply/negbTE/eqP => h; case/eqP: jb; apply: val_inj.
    have nt (i : nat) : i != j :> nat -> (i < size s)%N -> nth 0%N (skip j s) (if (i < j)%N then i else i.-1) = nth 0%N s i.
      move=> ni li; rewrite /skip nth_cat size_take ltn_ord; case: (ltnP i j) => l; first by rewrite l nth_take.
      have lt : (j < i)%N by rewrite ltn_neqAle eq_sym ni.
      rewrite (_ : (i.-1 < j)%N = false); last by move: lt; clear; lia.
      by rewrite nth_drop; congr nth; move: lt; clear; lia.
    exists (if (a < j)%N then a else a.-1), (if (b < j)%N then b else b.-1).
    rewrite !nt ?nja ?njb // size_skip //; split=> //.
      move: nja njb ab; case: (ltnP a j); case: (ltnP b j); clear; lia.
    case: (ltnP b j) => l; [have := ltn_ord j|have := lb; move: njb]; move: l; move: (size s) (nat_of_ord j) => m jn; clear; lia.
  have pe : perm_eq (skip a s) (skip b s).
    by rewrite -(perm_cons (nth 0%N s a)) {2}e; apply: perm_trans (perm_skip la) _; rewrite perm_sym; exact: perm_skip.
  have -> : sort leq (skip b s) = sort leq (skip a s) by apply/(perm_sortP leq_total leq_trans anti_leq); rewrite perm_sym.
  rewrite /sg (perm_uniq pe); case: ifP => ub; last by rewrite !mul0r !mulr0 addr0.
  have ua : uniq (skip a s) by rewrite (perm_uniq pe).
  have c0 : count (pred1 (nth 0%N s a)) (take a s) = 0%N.
    apply/eqP; rewrite -leqn0 leqNgt -has_count has_pred1; apply/negP => h.
    move: ub; rewrite /skip cat_uniq => /and3P [u1 _ _].
    have ta : take b s = take a s ++ drop a (take b s) by rewrite -[LHS](cat_take_drop a) take_take // ltnW.
    move: u1; rewrite ta cat_uniq => /and3P [_ /hasPn h2 _].
    have : nth 0%N s a \in drop a (take b s).
      have st : size (take b s) = b by rewrite size_take lb.
      by rewrite (drop_nth 0%N) ?st // nth_take // mem_head.
    by move/h2; rewrite /= h.
  have c1 : count (pred1 (nth 0%N s b)) (take b s) = 1%N.
    have u1 : uniq (take b s) by move: ub; rewrite /skip cat_uniq => /and3P [].
    rewrite (count_uniq_mem _ u1) -e (_ : _ \in _) //.
    by rewrite -(nth_take 0%N ab) mem_nth // size_take lb.
  have := inv_skip la; have := inv_skip lb; rewrite c0 c1 -e /= => -> h.
  set x := odd (count _ s) in h; rewrite !mulrA -!exprD -mulrDl.
  have -> : (-1) ^+ (a + invl (skip a s)) = - (-1) ^+ (b + invl (skip b s)) :> F.
    have -> : - (-1) ^+ (b + invl (skip b s)) = (-1) ^+ (b + invl (skip b s)).+1 :> F by rewrite exprS mulN1r.
    apply: sgn_odd; rewrite /= !oddD; move: h; clear.
    by case: (odd a); case: (odd b); case: x; case: (odd (invl _)); case: (odd (invl _)).
  by rewrite addNr mul0r.
pose H x : F := (-1) ^+ count (fun y => (y < x)%N) s * G (rem x (sort leq s)).
have us : uniq (sort leq s) by rewrite sort_uniq.
have so : sorted leq (sort leq s) by exact: (sort_sorted leq_total).
transitivity ((-1) ^+ invl s * \sum_(x <- s) H x).
  rewrite (big_nth 0%N) big_mkord mulr_sumr /alt; apply: eq_bigr => j _.
  rewrite /sg uniq_skip // skip_rem // sort_rem /H !mulrA -exprD -exprD; congr (_ * _); apply: sgn_odd.
  have c0 : count (pred1 (nth 0%N s j)) (take j s) = 0%N.
    apply/eqP; rewrite -leqn0 leqNgt -has_count has_pred1; apply/negP => h.
    move: u; rewrite -{1}(cat_take_drop j s) cat_uniq => /and3P [_ /hasPn h2 _].
    have : nth 0%N s j \in drop j s by rewrite (drop_nth 0%N) // mem_head.
    by move/h2; rewrite /= h.
  rewrite !oddD (inv_skip (ltn_ord j)) c0 -skip_rem //=; clear.
  by case: (odd j); case: (odd (count _ _)); case: (odd (invl _)).
rewrite /sg u; congr (_ * _); rewrite -(perm_big _ (_ : perm_eq (sort leq s) s)) ?perm_sort //=.
rewrite (big_nth 0%N) big_mkord /alt; apply: eq_bigr => j _; rewrite /H skip_rem //; congr (_ ^+ _ * _).
rewrite -(seq.permP (_ : perm_eq (sort leq s) s)) ?perm_sort //; exact: index_sorted.
Qed.

Lemma invl_map (g : nat -> nat) t : uniq (map g t) ->
  odd (invl (map g t)) = odd (invl t) (+) odd (invl (map g (sort leq t))).
Proof.
elim: t => [|x t IH] // /= /andP [nx u]; rewrite !oddD (IH u).
set S := sort leq (x :: t); have ux : uniq (x :: t) by rewrite /= (map_uniq u) andbT; apply: contra nx => h; exact: map_f.
have uS : uniq S by rewrite sort_uniq.
have xS : x \in S by rewrite mem_sort mem_head.
have li : (index x S < size S)%N by rewrite index_mem.
have pS : perm_eq S (x :: t) by rewrite perm_sort.
have sk : skip (index x S) S = sort leq t by rewrite skip_rem // nth_index // -sort_rem /= eqxx.
have ix : index x S = count (fun y => (y < x)%N) t.
  have := index_sorted (sort_sorted leq_total _ : sorted leq S) uS li.
  by rewrite nth_index // (seq.permP pS) /= ltnn.
have lm : (index x S < size (map g S))%N by rewrite size_map.
have := inv_skip lm; rewrite (nth_map 0%N) // nth_index // -map_take.
have -> : skip (index x S) (map g S) = map g (sort leq t) by rewrite -sk /skip map_cat map_take map_drop.
have ug : uniq (map g S) by rewrite (perm_uniq (perm_map g pS)) /= nx u.
have -> : count (pred1 (g x)) (map g (take (index x S) S)) = 0%N.
  apply/eqP; rewrite -leqn0 leqNgt -has_count has_pred1; apply/negP => h.
  move: ug; rewrite -{1}(cat_take_drop (index x S) S) map_cat cat_uniq => /and3P [_ /hasPn h2 _].
  have : g x \in map g (drop (index x S) S) by rewrite (drop_nth 0%N) // nth_index // mem_head.
  by move/h2; rewrite /= h.
rewrite (seq.permP (perm_map g pS)) /= ltnn add0n => ->; rewrite ix /below.
by case: (odd (invl t)); case: (odd (invl _)); case: (odd (count _ t)); case: (odd (count _ _)).
Qed.

Lemma sg_map (g : nat -> nat) t : uniq t -> sg (map g t) = sg t * sg (map g (sort leq t)).
Proof.
move=> u; rewrite /sg u; have pe : perm_eq (map g (sort leq t)) (map g t) by apply: perm_map; rewrite perm_sort.
rewrite (perm_uniq pe); case: ifP => um; last by rewrite mulr0.
by rewrite -exprD; apply: sgn_odd; rewrite oddD; exact: invl_map.
Qed.
End Alg.
