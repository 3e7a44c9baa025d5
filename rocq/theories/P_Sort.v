(** Sort permutations. *)
From mathcomp Require Import all_ssreflect all_algebra zify.
From Verif Require Import Outcome P_Outcome M_Perm S_Perm P_Perm.
Set Implicit Arguments.
Unset Strict Implicit.
Unset Printing Implicit Defensive.
Import Order.TTheory.

Section S.
Variables (disp : unit) (V : orderType disp) (v0 : V).
Notation ltv := (fun x y : V => (x < y)%O).
Notation sp v := (sortperm ltv v0 v).

Lemma sortperm_perm v : is_perm (sp v).
Proof.
rewrite /is_perm /sortperm; set r := (fun a b => _).
by rewrite size_sort size_iota perm_sort.
Qed.
Lemma size_sortperm v : size (sp v) = size v.
Proof. by rewrite /sortperm size_sort size_iota. Qed.

Lemma sortperm_le v i j : i <= j -> j < size v ->
  (nth v0 v (nth 0 (sp v) i) <= nth v0 v (nth 0 (sp v) j))%O.
Proof.
move=> ij jv; pose r a b := ~~ (nth v0 v b < nth v0 v a)%O.
have tot : total r by move=> a b; rewrite /r -!leNgt le_total.
have tr : transitive r by move=> b a c; rewrite /r -!leNgt; apply: le_trans.
have rf : reflexive r by move=> a; rewrite /r -leNgt.
have so : sorted r (sp v) by apply: sort_sorted.
have := sorted_leq_nth tr rf 0 so; rewrite /r size_sortperm => H.
rewrite leNgt; apply: H => //; rewrite inE; exact: leq_ltn_trans ij jv.
Qed.

Lemma sortperm_stable v i j : i < j -> j < size v ->
  nth v0 v (nth 0 (sp v) i) = nth v0 v (nth 0 (sp v) j) -> nth 0 (sp v) i < nth 0 (sp v) j.
Proof.
move=> ij jv E; pose r a b := ~~ (nth v0 v b < nth v0 v a)%O.
have tot : total r by move=> a b; rewrite /r -!leNgt le_total.
have tr : transitive r by move=> b a c; rewrite /r -!leNgt; apply: le_trans.
pose r2 a b := r a b && (r b a ==> (a < b)).
have tr2 : transitive r2.
  move=> b a c /andP[ab /implyP i1] /andP[bc /implyP i2]; rewrite /r2 (tr _ _ _ ab bc) /=.
  apply/implyP => ca; have ba : r b a := tr _ _ _ bc ca; have cb : r c b := tr _ _ _ ca ab.
  exact: ltn_trans (i1 ba) (i2 cb).
have so : sorted r2 (sp v).
  by apply: (sort_stable tot ltn_trans); exact: iota_ltn_sorted.
have := sorted_ltn_nth tr2 0 so; rewrite size_sortperm => H.
have /H : i \in [pred n | n < size v] by rewrite inE; apply: ltn_trans ij jv.
move=> /(_ j); rewrite inE => /(_ jv ij) /andP[_ /implyP]; apply.
by rewrite /r E -leNgt.
Qed.

Lemma sortperm_cut v s : exists2 a, a <= size v &
  forall i, i < size v -> (nth v0 v (nth 0 (sp v) i) <= s)%O = (i < a).
Proof.
pose w := [seq nth v0 v i | i <- sp v]; pose a := find (fun x => ~~ (x <= s)%O) w.
have sw : size w = size v by rewrite size_map size_sortperm.
have nw i : i < size v -> nth v0 w i = nth v0 v (nth 0 (sp v) i).
  by move=> lt; rewrite (nth_map 0) ?size_sortperm.
exists a; first by rewrite -sw find_size.
move=> i iv; case: (ltnP i a) => ia.
  by have := before_find v0 ia; rewrite nw // => /negbFE.
have av : a < size v by apply: leq_ltn_trans iv.
have h : has (fun x => ~~ (x <= s)%O) w by rewrite has_find sw.
have := nth_find v0 h; rewrite -/a nw // => /negP na.
apply/negP => le; apply: na; apply: le_trans le; exact: sortperm_le.
Qed.
End S.
