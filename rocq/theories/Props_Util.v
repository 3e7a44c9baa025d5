(** C29, C30, C31: the permutation, Kendall-tau and sorted-range utilities. *)
From mathcomp Require Import all_ssreflect all_algebra all_fingroup zify.
From Verif Require Import Outcome M_SparseVec M_Perm M_Sorted S_Perm S_Linalg P_Outcome P_Perm P_Sort P_Inv P_Util P_SumReduce.
Set Implicit Arguments.
Unset Strict Implicit.
Unset Printing Implicit Defensive.

(** C29: [sortperm v] is a permutation of the positions of v, reading v through it gives a
    nondecreasing sequence, and equal values keep their order.  For every totally ordered value type. *)
Theorem C29_sortperm (d : unit) (T : orderType d) (v0 : T) (v : seq T) :
  let p := sortperm (fun a b => (a < b)%O) v0 v in
  [/\ is_perm p, size p = size v,
      forall i j, i <= j -> j < size v -> (nth v0 v (nth 0 p i) <= nth v0 v (nth 0 p j))%O &
      forall i j, i < j -> j < size v -> nth v0 v (nth 0 p i) = nth v0 v (nth 0 p j) -> nth 0 p i < nth 0 p j].
Proof.
split; [exact: sortperm_perm|exact: size_sortperm|exact: sortperm_le|exact: sortperm_stable].
Qed.

(** C29: inv_perm returns the inverse, and both composites are the identity. *)
Theorem C29_inv_perm (p : seq nat) : is_perm p ->
  exists q, [/\ inv_perm p = Ok q, is_perm q, size q = size p,
    forall i, i < size p -> nth 0 q (nth 0 p i) = i & forall i, i < size p -> nth 0 p (nth 0 q i) = i].
Proof.
move=> P; exists (ipl p); split; [exact: inv_permE|exact: is_perm_ipl|exact: size_ipl|..] => i lt.
  exact: ipl_nth.
exact: nth_ipl_nth.
Qed.

(** C29: applying a permutation moves the entry at p[i] to i (apply_perm and apply_iperm_swap);
    apply_perm_swap moves the entry at i to p[i]. *)
Theorem C29_apply (A : Type) (d0 : A) (p : seq nat) (d : seq A) : is_perm p -> size d = size p ->
  [/\ exists r, [/\ apply_perm p d = Ok r, size r = size d & forall i, i < size p -> nth d0 r i = nth d0 d (nth 0 p i)],
      exists r, [/\ apply_iperm_swap d0 p d = Ok r, size r = size d & forall i, i < size p -> nth d0 r i = nth d0 d (nth 0 p i)] &
      exists r, [/\ apply_perm_swap d0 p d = Ok r, size r = size d & forall i, i < size p -> nth d0 r (nth 0 p i) = nth d0 d i]].
Proof.
move=> P s; have B : all (fun i => i < size d) p by apply/allP => i; rewrite is_perm_mem // s.
split.
- exists [seq nth d0 d i | i <- p]; split; last by move=> i lt; rewrite (nth_map 0).
    by rewrite (apply_permE d0 B) ?s // drop_oversize ?s // cats0.
  by rewrite size_map s.
- exists [seq nth d0 d i | i <- p]; split; [exact: apply_iperm_swapE|by rewrite size_map s|].
  by move=> i lt; rewrite (nth_map 0).
- exists [seq nth d0 d i | i <- ipl p]; split; [exact: apply_perm_swapE|by rewrite size_map size_ipl s|].
  by move=> i lt; rewrite (nth_map 0) ?size_ipl ?is_perm_lt // ipl_nth.
Qed.

(** C29: apply_perm only reads inside the range, even for index vectors with repetitions *)
Theorem C29_apply_gather (A : Type) (d0 : A) (p : seq nat) (d : seq A) :
  all (fun i => i < size d) p -> size p = size d ->
  exists r, [/\ apply_perm p d = Ok r, size r = size d & forall i, i < size p -> nth d0 r i = nth d0 d (nth 0 p i)].
Proof.
move=> B s; exists [seq nth d0 d i | i <- p]; split; last by move=> i lt; rewrite (nth_map 0).
  by rewrite (apply_permE d0 B) ?s // drop_size cats0.
by rewrite size_map s.
Qed.

(** C29: perm_sign is the sign of the permutation *)
Theorem C29_sign (n : nat) (s : 'S_n) :
  perm_sign_neg [seq nat_of_ord (s i) | i <- enum 'I_n] = odd_perm s.
Proof. by rewrite /perm_sign_neg perm_inversionsE; exact: plist_sign. Qed.

(** C29: perm_inversions counts inversions, for every vector *)
Theorem C29_inversions (p : seq nat) : perm_inversions p = inversions p.
Proof. by rewrite perm_inversionsE inversionsE. Qed.

(** C29: partial_perm(ind, n) sends ind[k] to k and everything else to NO_IND *)
Theorem C29_partial_perm (ind : seq nat) (n : nat) : uniq ind -> all (fun i => i < n) ind ->
  exists r, [/\ partial_perm ind n = Ok r, size r = n,
    (forall k, k < size ind -> nth None r (nth 0 ind k) = Some k) &
    forall i, i \notin ind -> nth None r i = None].
Proof. exact: partial_permE. Qed.

(** C29: find_perm_from_vector gives the rank of every entry, ties in order of position *)
Theorem C29_find_perm (v : seq nat) : exists p, [/\ find_perm_from_vector v = Ok p, is_perm p, size p = size v &
  forall i j, i < size v -> j < size v ->
    (nth 0 p i < nth 0 p j) = (nth 0 v i < nth 0 v j) || (nth 0 v i == nth 0 v j) && (i < j)].
Proof. exact: find_perm_order. Qed.

(** C29: perm_to_the_end is a permutation that keeps the others in order and puts the list last *)
Theorem C29_perm_to_the_end (l : seq nat) (n : nat) : sorted ltn l -> all (fun i => i < n) l ->
  [/\ is_perm (perm_to_the_end l n), size (perm_to_the_end l n) = n,
      drop (n - size l) (perm_to_the_end l n) = l &
      take (n - size l) (perm_to_the_end l n) = [seq i <- iota 0 n | i \notin l]].
Proof.
move=> so B; have [E P] := perm_to_the_endE so B.
have Ul : uniq l := sorted_uniq ltn_trans ltnn so.
have s : size [seq i <- iota 0 n | i \notin l] = n - size l.
  have C := count_predC (mem l) (iota 0 n); rewrite size_iota in C.
  rewrite size_filter -{2}C; have -> : count (mem l) (iota 0 n) = size l.
    rewrite -size_filter; apply/perm_size/uniq_perm; rewrite ?filter_uniq ?iota_uniq // => i.
    rewrite mem_filter mem_iota /= add0n; case: (boolP (i \in l)) => // /(allP B) //.
  by rewrite addKn.
have le : size l <= n.
  rewrite -[n](size_iota 0); apply: uniq_leq_size => // i /(allP B) lt; by rewrite mem_iota.
split=> //; first by rewrite E size_cat s subnK.
  by rewrite E -s drop_size_cat.
by rewrite E -s take_size_cat.
Qed.
Theorem C29_perm_to_the_end1 (i n : nat) : i < n -> perm_to_the_end1 i n = perm_to_the_end [:: i] n.
Proof. exact: perm_to_the_end1E. Qed.

(** C29: extension_perm extends a permutation by the identity *)
Theorem C29_extension (p : seq nat) (n : nat) : is_perm p -> size p <= n ->
  [/\ is_perm (extension_perm p n), size (extension_perm p n) = n &
    forall i, i < n -> nth 0 (extension_perm p n) i = if i < size p then nth 0 p i else i].
Proof. exact: extension_permE. Qed.

(** C30: the one-argument form is the number of inversions, for every vector, and never fails *)
Theorem C30_kendall (v : seq nat) : Kendall_tau v = Ok (inversions v).
Proof. by rewrite Kendall_tauE inversionsE. Qed.

(** C30: the two-argument form counts the pairs ordered differently by p and q *)
Theorem C30_kendall2 (p q : seq nat) : is_perm p -> is_perm q -> size p = size q ->
  Kendall_tau2 p q = Ok (discordant (size p) p q).
Proof. exact: Kendall_tau2E. Qed.

(** C31: intersection *)
Theorem C31_intersect (a b : seq nat) : sorted ltn a -> sorted ltn b ->
  [/\ sorted ltn (intersect_sorted a b),
      forall x, (x \in intersect_sorted a b) = (x \in a) && (x \in b) &
      has_intersect_sorted a b = has (mem b) a].
Proof.
move=> sa sb; rewrite has_intersect_sortedE intersect_sortedE //; split.
- exact: sorted_filter ltn_trans _ _ sa.
- by move=> x; rewrite mem_filter andbC.
- by rewrite -has_filter.
Qed.

(** C31: the restricted form is right as soon as one of the ranges starts below maxval (or is empty) *)
Theorem C31_intersect_lt (m : nat) (a b : seq nat) : sorted ltn a -> sorted ltn b ->
  (forall x y, ohead a = Some x -> ohead b = Some y -> (x < m) || (y < m)) ->
  [/\ sorted ltn (intersect_sorted_lt m a b),
      forall x, (x \in intersect_sorted_lt m a b) = [&& x \in a, x \in b & x < m] &
      has_intersect_sorted_lt m a b = has (fun x => (x \in b) && (x < m)) a].
Proof.
move=> sa sb H; rewrite has_intersect_sorted_ltE intersect_sorted_ltE //.
have -> : tl m a b = [::].
  case: a b {sa sb} H => [|x a] [|y b] //= H; apply: tl_nil; rewrite /= !negbK; exact: H.
rewrite cats0; split.
- exact: sorted_filter ltn_trans _ _ sa.
- by move=> x; rewrite mem_filter andbC.
- by rewrite -has_filter.
Qed.

(** C31, refuted part: with both ranges starting at the same value v >= maxval, v is returned *)
Theorem C31_intersect_lt_wrong (m v : nat) (a b : seq nat) : sorted ltn (v :: a) -> sorted ltn (v :: b) -> m <= v ->
  intersect_sorted_lt m (v :: a) (v :: b) = [:: v] /\ has_intersect_sorted_lt m (v :: a) (v :: b).
Proof.
move=> sa sb mv; have E : intersect_sorted_lt m (v :: a) (v :: b) = [:: v].
  by rewrite intersect_sorted_ltE // past_filter //= ?/tl -?leqNgt ?eqxx ?mv.
by rewrite has_intersect_sorted_ltE E.
Qed.

(** C31: find_sorted_lt finds the last entry below v; undefined behaviour when the first entry is not below v *)
Theorem C31_find_lt (s : seq nat) (v : nat) : sorted leq s ->
  match s with
  | [::] => find_sorted_lt s v = Ok None
  | x :: _ => if x < v then exists k, [/\ find_sorted_lt s v = Ok (Some k), k < size s, nth 0 s k < v &
                       forall j, k < j < size s -> v <= nth 0 s j]
              else find_sorted_lt s v = UB
  end.
Proof. exact: find_sorted_ltE. Qed.

(** C31: sorted_complement is the complement, in increasing order *)
Theorem C31_complement (ind : seq nat) (n : nat) : sorted ltn ind -> all (fun i => i < n) ind ->
  exists r, [/\ sorted_complement ind n = Ok r, sorted ltn r & forall i, (i \in r) = (i < n) && (i \notin ind)].
Proof.
move=> so B; exists [seq j <- iota 0 n | j \notin ind]; split.
- rewrite sorted_complementE //; case: ind so B => [//|x l] so B.
  have -> // : maxn n (maxl (x :: l)).+1 = n.
  apply/maxn_idPl; exact: (allP B _ (maxl_in x l)).
- exact: sorted_filter ltn_trans _ _ (iota_ltn_sorted 0 n).
- by move=> i; rewrite mem_filter mem_iota andbC.
Qed.

(** C31: sort_sum_reduce keeps what lies before offset, and turns the rest into the sorted list of the
    distinct indices whose coefficients do not cancel *)
Theorem C31_sort_sum_reduce (F : fieldType) (ind : seq nat) (vals : seq F) (offset : nat) :
  size vals = size ind -> offset < size ind ->
  exists (i2 : seq nat) (v2 : seq F),
  [/\ sort_sum_reduce (ops_of F) ind vals offset = Ok (take offset ind ++ i2, take offset vals ++ v2),
    size i2 = size v2, sorted ltn i2, all (fun x => x != 0%R) v2 &
    coef (zip i2 v2) =1 coef (zip (drop offset ind) (drop offset vals))].
Proof. exact: sort_sum_reduceE. Qed.

(** C31, refuted part: on an empty range it reads past the end *)
Theorem C31_sort_sum_reduce_empty (F : fieldType) (ind : seq nat) (vals : seq F) :
  size vals = size ind -> sort_sum_reduce (ops_of F) ind vals (size ind) = UB.
Proof. by move=> s; exact: sort_sum_reduce_empty. Qed.

(** C31: simplex_sign sorts the vertex list and returns the parity of its inversions, 0 for a repeated vertex *)
Theorem C31_simplex_sign (s : seq nat) : exists s' g, [/\ simplex_sign s = Ok (s', g), perm_eq s' s, sorted leq s' &
  g = if uniq s then (if odd (inversions s) then Minus else Plus) else Zero].
Proof. exact: simplex_signE. Qed.
