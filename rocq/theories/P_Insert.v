(** Inserting rows and columns at given positions. *)
From mathcomp Require Import all_ssreflect all_algebra zify.
From Verif Require Import Outcome P_Outcome M_SparseVec M_Perm M_ColMatrix M_Reduce M_Homology M_UpdateGen S_Linalg S_Perm S_Homology S_UpdateGen P_SparseVec P_Reduce.
Set Implicit Arguments.
Unset Strict Implicit.
Unset Printing Implicit Defensive.
Import GRing.Theory.

(** where index i goes when the positions r (sorted) are inserted *)
Definition up (r : seq nat) (i : nat) : nat := foldl (fun i a => if a <= i then i.+1 else i) i r.

Lemma up_cons a r i : up (a :: r) i = up r (if a <= i then i.+1 else i). Proof. by []. Qed.

Lemma up_id r i : all (ltn i) r -> up r i = i.
Proof. by elim: r => [|a r IH] // /andP [h /IH]; rewrite up_cons leqNgt (h : i < a). Qed.

Lemma up_ge r i : i <= up r i.
Proof. elim: r i => [|a r IH] i //; rewrite up_cons; apply: leq_trans (IH _); by case: ifP => _; rewrite ?leqW. Qed.

Lemma up_spec r i : sorted ltn r -> (up r i \notin r) /\ up r i = i + count (ltn^~ (up r i)) r.
Proof.
elim: r i => [|a r IH] i; first by rewrite /= addn0.
move=> so; have sr : sorted ltn r by exact: path_sorted so.
have al : all (ltn a) r by move: so; rewrite /= path_sortedE; [move=> /andP []|exact: ltn_trans].
rewrite up_cons; case: leqP => ai.
  have [n1 e1] := IH i.+1 sr; have g := up_ge r i.+1.
  rewrite inE negb_or n1 andbT; split; first by move: g ai; clear; lia.
  by rewrite /= (_ : a < up r i.+1); [rewrite addnA addn1|move: g ai; clear; lia].
have al' : all (ltn i) r by apply: sub_all al => x; exact: ltn_trans.
rewrite up_id // inE negb_or; split.
  by apply/andP; split; [move: ai; clear; lia|apply/negP => /(allP al') /=; rewrite ltnn].
rewrite /= (_ : count _ r = 0); first by rewrite (ltnNge a i) (ltnW ai) !addn0.
apply/eqP; rewrite -leqn0 leqNgt -has_count; apply/hasPn => x /(allP al'); rewrite -leqNgt; exact: ltnW.
Qed.

Lemma up_mono r i j : i < j -> up r i < up r j.
Proof.
elim: r i j => [|a r IH] i j // lt; rewrite !up_cons; apply: IH.
by have [h|h] := leqP a i; have [h'|h'] := leqP a j; move: lt h h'; clear; lia.
Qed.

Lemma up_inj r : injective (up r).
Proof.
move=> i j e; case: (ltngtP i j) => // h.
  by have := up_mono r h; rewrite e ltnn.
by have := up_mono r h; rewrite e ltnn.
Qed.

Lemma up_lt r n i : all (fun x => x < n + size r) r -> i < n -> up r i < n + size r.
Proof.
move=> _; elim: r n i => [|a r IH] n i /= li; first by rewrite addn0.
have := IH n.+1 (if a <= i then i.+1 else i); rewrite addSnnS; apply; by case: ifP => _; rewrite ?ltnS // ltnW.
Qed.

Lemma without_cat d m n : without d (m + n) = without d m ++ [seq x <- iota m n | x \notin d].
Proof. by rewrite /without iotaD filter_cat add0n. Qed.

Lemma size_without d n : sorted ltn d -> size (without d n) = n - count (ltn^~ n) d.
Proof.
move=> so; have u : uniq d by exact: (sorted_uniq ltn_trans ltnn).
elim: n => [|n IH]; first by rewrite sub0n.
rewrite -addn1 without_cat size_cat IH /= addn1.
have c1 : count (ltn^~ n.+1) d = count (ltn^~ n) d + (n \in d).
  rewrite -(count_uniq_mem _ u) -count_predUI [X in _ = _ + X](_ : _ = 0) ?addn0.
    by apply: eq_count => x /=; rewrite ltnS leq_eqVlt orbC.
  by rewrite (eq_count (a2 := pred0)) ?count_pred0 // => x /=; apply/negP => /andP [h /eqP e]; rewrite e ltnn in h.
have le : count (ltn^~ n) d <= n.
  rewrite -size_filter -{2}(size_iota 0 n); apply: uniq_leq_size; first exact: filter_uniq.
  by move=> x; rewrite mem_filter mem_iota => /andP [].
by rewrite c1; move: le; clear; case: (n \in d); rewrite /=; lia.
Qed.

Lemma nth_without r n i : sorted ltn r -> all (fun x => x < n + size r) r -> i < n -> nth 0 (without r (n + size r)) i = up r i.
Proof.
move=> so al li; have [n1 e1] := up_spec i so; have lt := up_lt al li.
set x := up r i in n1 e1 lt *.
have <- : size (without r x) = i by rewrite size_without // {1}e1 addnK.
have -> : n + size r = x + (n + size r - x) by rewrite subnKC // ltnW.
rewrite without_cat nth_cat ltnn subnn; case: (n + size r - x) (subn_gt0 x (n + size r)) => [|m] /=; first by rewrite lt.
by rewrite n1.
Qed.

Lemma size_without_sub r n : subset_list r n -> size (without r n) = n - size r.
Proof. by move=> [so al]; rewrite size_without //; congr (_ - _); apply/eqP; rewrite -all_count. Qed.

Lemma subset_size r n : subset_list r n -> size r <= n.
Proof.
move=> [so al]; rewrite -(size_iota 0 n); apply: uniq_leq_size; first exact: (sorted_uniq ltn_trans ltnn).
by move=> x /(allP al); rewrite mem_iota.
Qed.

Lemma nth_place r n m i : subset_list r m -> n + size r = m -> i < n -> nth 0 (without r m) i = up r i.
Proof. by move=> [so al] e li; rewrite -e in al *; exact: nth_without. Qed.

(** every position is an inserted one or the image of an old one *)
Lemma up_cover r n x : subset_list r (n + size r) -> x < n + size r -> x \in r \/ exists2 i, i < n & x = up r i.
Proof.
move=> sl lx; have [xr|nx] := boolP (x \in r); [by left|right].
have xi : x \in without r (n + size r) by rewrite mem_filter nx mem_iota.
exists (index x (without r (n + size r))).
  by move: xi; rewrite -index_mem (size_without_sub sl) addnK.
rewrite -(nth_place sl (erefl _)); last by move: xi; rewrite -index_mem (size_without_sub sl) addnK.
by rewrite nth_index.
Qed.

Lemma up_notin r i : sorted ltn r -> up r i \notin r. Proof. by move=> /(up_spec i) []. Qed.

(** ** rows *)
Lemma up_cat r s i : up (r ++ s) i = up s (up r i). Proof. by rewrite /up foldl_cat. Qed.

Lemma bump_unfold fuel r n ind : bump true fuel r n ind =
  match drop n r with
  | [::] => Ok (n, ind)
  | a :: _ => if a <= ind then (if fuel is f.+1 then bump true f r n.+1 ind.+1 else OutOfFuel) else Ok (n, ind)
  end.
Proof. by case: fuel. Qed.

Lemma bumpE r n ind fuel : sorted ltn r -> n <= size r -> size r - n <= fuel ->
  exists2 n', bump true fuel r n ind = Ok (n', up (drop n r) ind) &
    n <= n' <= size r /\ forall j, n <= j < n' -> nth 0 r j <= ind + (j - n).
Proof.
move=> so; elim: fuel n ind => [|fuel IH] n ind ln lf; rewrite bump_unfold.
  have -> : n = size r by move: ln lf; clear; lia.
  rewrite drop_size; exists (size r) => //; split; first by rewrite leqnn.
  by move=> j; clear; lia.
case: (ltnP n (size r)) => h; last first.
  have -> : n = size r by move: ln h; clear; lia.
  rewrite drop_size; exists (size r) => //; split; first by rewrite leqnn.
  by move=> j; clear; lia.
rewrite (drop_nth 0 h); case: ifP => [le|/negbT gt]; last first.
  exists n; last by split; [rewrite leqnn ltnW|move=> j; clear; lia].
  rewrite up_id //; have sd : sorted ltn (nth 0 r n :: drop n.+1 r) by rewrite -drop_nth //; exact: drop_sorted.
  move: gt; rewrite -ltnNge => gt; rewrite /= gt /=.
  move: sd; rewrite /= path_sortedE; last exact: ltn_trans.
  by move=> /andP [al _]; apply: sub_all al => x; exact: ltn_trans.
have [n' E [b1 b2]] := IH n.+1 ind.+1 h (ltac:(move: lf h; clear; lia)).
exists n'; first by rewrite E up_cons le.
split; first by move: b1; clear; lia.
move=> j lj; case: (eqVneq j n) => [->|ne]; first by rewrite subnn addn0.
by have := b2 j; move: lj ne; clear; lia.
Qed.

(** the loop: each stored index i becomes up r i *)
Lemma insert_rows_loop_cons (T : Type) r nins i x (v : svec T) : insert_rows_loop true r nins ((i, x) :: v) =
  let n1 := nins + find (fun a => i + nins <= a) (drop nins r) in
  do st <- bump true (size r) r n1 (i + n1);
  do w <- insert_rows_loop true r st.1 v;
  Ok ((st.2, x) :: w).
Proof. by []. Qed.

Lemma insert_rows_loopE (T : Type) r nins (v : svec T) : sorted ltn r -> nins <= size r -> sorted ltn [seq p.1 | p <- v] ->
  (forall p, head None (map some v) = Some p -> forall j, j < nins -> nth 0 r j <= p.1 + j) ->
  insert_rows_loop true r nins v = Ok [seq (up r p.1, p.2) | p <- v].
Proof.
move=> so; elim: v nins => [|[i x] v IH] nins // ln sv hn; rewrite insert_rows_loop_cons; cbv zeta.
set n1 := nins + find _ _.
have hn0 j : j < nins -> nth 0 r j <= i + j by move=> lj; exact: (hn (i, x) (erefl _) j lj).
have l1 : n1 <= size r.
  rewrite /n1; have := find_size (fun a => i + nins <= a) (drop nins r); rewrite size_drop; move: ln; clear; lia.
have b j : j < n1 -> nth 0 r j <= i + j.
  move=> lj; case: (ltnP j nins) => h; first exact: hn0.
  have := @before_find _ 0 (fun a => i + nins <= a) (drop nins r) (j - nins).
  rewrite nth_drop subnKC // (_ : _ < _); last by move: lj h; rewrite /n1; clear; lia.
  by move=> /(_ isT); move: h; clear; lia.
have up1 : up (take n1 r) i = i + n1.
  elim: (n1) l1 b => [|n IHn] l1 b; first by rewrite take0 addn0.
  rewrite (take_nth 0) // -cats1 up_cat IHn; [|exact: ltnW|by move=> j lj; apply: b; exact: ltnW].
  by rewrite /up /= b // addnS.
have [n2 E [b1 b2]] := @bumpE r n1 (i + n1) (size r) so l1 (leq_subr _ _).
rewrite E; cbn [obind fst snd].
have -> : up (drop n1 r) (i + n1) = up r i by rewrite -up1 -up_cat cat_take_drop.
have [sv' al] : sorted ltn [seq p.1 | p <- v] /\ all (ltn i) [seq p.1 | p <- v].
  by move: sv; rewrite /= path_sortedE; [move=> /andP [] //|exact: ltn_trans].
rewrite IH //; [by move: b1; clear; lia|].
move=> p hp j lj; have lp : i < p.1.
  by case: (v) hp al => [|q v'] //= -[<-] /andP [].
case: (ltnP j n1) => h; first by have := b j h; move: lp; clear; lia.
by have := b2 j; move: lj h lp; clear; lia.
Qed.

Lemma prefix_fromE r i : let n := prefix_from r i in i <= n <= i + size r /\ forall j, i <= j < n -> nth 0 r (j - i) = j.
Proof.
elim: r i => [|a r IH] i /=; first by rewrite addn0 leqnn; split=> // j; clear; lia.
case: eqP => [->|_]; last by rewrite leqnn leq_addr; split=> // j; clear; lia.
have [b1 b2] := IH i.+1; split; first by move: b1; clear; lia.
move=> j lj; case: (eqVneq j i) => [->|ne]; first by rewrite subnn.
have -> : j - i = (j - i.+1).+1 by move: lj ne; clear; lia.
by rewrite /=; apply: b2; move: lj ne; clear; lia.
Qed.

Lemma sv_insert_rowsE (T : Type) r (v : svec T) : sorted ltn r -> sorted ltn [seq p.1 | p <- v] ->
  sv_insert_rows true r (prefix_from r 0) v = Ok [seq (up r p.1, p.2) | p <- v].
Proof.
move=> so sv; case E: r => [|a r']; last rewrite -E.
  by rewrite /sv_insert_rows; congr Ok; rewrite -[LHS]map_id; apply: eq_map => -[i x].
have [b1 b2] := prefix_fromE r 0.
have -> : sv_insert_rows true r (prefix_from r 0) v = insert_rows_loop true r (prefix_from r 0) v by rewrite E.
apply: insert_rows_loopE => //.
move=> p _ j lj; have := b2 j; rewrite subn0 => -> //; exact: leq_addl.
Qed.

Section F.
Variable F : fieldType.
Local Open Scope ring_scope.
Notation svec := (svec F).
Notation cmat := (cmat F).

Definition shift_col (r : seq nat) (v : svec) : svec := [seq (up r p.1, p.2) | p <- v].

Lemma coef_shift r v i : coef (shift_col r v) (up r i) = coef v i.
Proof.
elim: v => [|p v IH]; first by rewrite !coef_nil.
by rewrite /shift_col map_cons !coef_cons IH /= (inj_eq (@up_inj r)).
Qed.

Lemma coef_shift_in r v a : sorted ltn r -> a \in r -> coef (shift_col r v) a = 0.
Proof.
move=> so ar; elim: v => [|p v IH]; first by rewrite coef_nil.
rewrite /shift_col map_cons coef_cons IH /= addr0.
by case: eqP => // e; have := up_notin p.1 so; rewrite e ar.
Qed.

Lemma shift_wf r m v : sv_wf m v -> sv_wf (m + size r) (shift_col r v).
Proof.
move=> /and3P [s b n]; apply/and3P; split.
- rewrite /sv_sorted -map_comp; move: s; rewrite /sv_sorted; set w := map _ v.
  have -> : [seq ((fun p => p.1) \o (fun p => (up r p.1, p.2))) i | i <- v] = [seq up r x | x <- w] by rewrite -map_comp.
  by move=> s; rewrite sorted_map; apply: sub_sorted s => x y; exact: up_mono.
- rewrite /sv_below all_map; apply: sub_all b => p /=.
  have : forall n i, (i < n)%N -> (up r i < n + size r)%N; last exact.
  clear; elim: r => [|a r IH] n i li; first by rewrite addn0.
  rewrite up_cons -addSnnS; apply: IH; by case: ifP => _; rewrite ?ltnS // ltnW.
- by rewrite /sv_nonzero all_map.
Qed.

Lemma cm_insert_rowsE r (A : cmat) : sorted ltn r -> cm_wf A ->
  cm_insert_rows true r A = Ok (CMat (nrow A + size r) (ncol A) (map (shift_col r) (cols A))) /\
  cm_wf (CMat (nrow A + size r) (ncol A) (map (shift_col r) (cols A))).
Proof.
move=> so /andP [/eqP sA W]; split.
  rewrite /cm_insert_rows (omapm_Ok_eq (g := shift_col r)) // => v vi.
  by apply: sv_insert_rowsE => //; have /and3P [] := allP W v vi.
by rewrite /cm_wf /= size_map sA eqxx all_map; apply: sub_all W => v /= Wv; exact: shift_wf.
Qed.
End F.

(** ** columns *)
Lemma sorted_full c i n : sorted ltn c -> all (fun x => i <= x < i + n) c -> size c = n -> c = iota i n.
Proof.
move=> so al sc; apply: (irr_sorted_eq ltn_trans ltnn) => //; first exact: iota_ltn_sorted.
have sub : {subset c <= iota i n} by move=> x /(allP al); rewrite mem_iota.
have [] := uniq_min_size (sorted_uniq ltn_trans ltnn so) sub; first by rewrite size_iota sc.
by [].
Qed.

Lemma merge_cols_cons (T : Type) f i ci c (a b : svec T) old new :
  merge_cols f.+1 i (ci :: c) (a :: old) (b :: new) =
  if i == ci then do s <- merge_cols f i.+1 c (a :: old) new; Ok (b :: s)
  else do s <- merge_cols f i.+1 (ci :: c) old (b :: new); Ok (a :: s).
Proof. by []. Qed.

Lemma merge_colsE (T : Type) fuel i c (old new : seq (svec T)) : sorted ltn c -> size c = size new ->
  all (fun x => i <= x < i + (size old + size new)) c -> size old + size new <= fuel ->
  exists s, [/\ merge_cols fuel i c old new = Ok s, size s = size old + size new,
    forall j, j < size old -> nth [::] s (up c (i + j) - i) = nth [::] old j &
    forall j, j < size new -> nth [::] s (nth 0 c j - i) = nth [::] new j].
Proof.
elim: fuel i c old new => [|fuel IH] i c old new so sc al lf.
  move: lf sc; rewrite leqn0 addn_eq0 => /andP [/nilP -> /nilP ->] _; by exists [::].
case: old al lf => [|a old] al lf.
  exists new; split; [by case: (new)|by []|by []|].
  move=> j lj; rewrite (@sorted_full c i (size new) so _ sc); last by apply: sub_all al => x; rewrite /= add0n.
  by rewrite nth_iota // addKn.
case: new sc al lf => [|b new] sc al lf.
  exists (a :: old); split; [by []|by rewrite addn0| |by []].
  by move=> j lj; case: (c) sc => // _; rewrite /up /= addKn.
case: c so sc al => [|ci c] // so [sc] al; rewrite merge_cols_cons.
have sc' : sorted ltn c by exact: path_sorted so.
have al' : all (ltn ci) c by move: so; rewrite /= path_sortedE; [move=> /andP []|exact: ltn_trans].
have [rci rc] : i <= ci < i + (size (a :: old) + size (b :: new)) /\ all (fun x => i <= x < i + (size (a :: old) + size (b :: new))) c.
  by move: al => /andP [].
case: eqP => [e|ne].
  have A1 : all (fun x => i.+1 <= x < i.+1 + (size (a :: old) + size new)) c.
    by apply/allP => x xc; have := allP rc x xc; have := allP al' x xc; rewrite /= -e; clear; lia.
  have A2 : size (a :: old) + size new <= fuel by move: lf; rewrite /=; clear; lia.
  have [s [E ss h1 h2]] := IH i.+1 c (a :: old) new sc' sc A1 A2.
  rewrite E; cbn [obind]; exists (b :: s); split=> //.
  - by rewrite /= ss /=; clear; lia.
  - move=> j lj; rewrite up_cons -e leq_addr.
    have := h1 j lj; have := up_ge c (i + j).+1; rewrite addSn => g <-.
    by rewrite (_ : up c (i + j).+1 - i = (up c (i + j).+1 - i.+1).+1) //; move: g; clear; lia.
  move=> [|j] lj; first by rewrite -e subnn.
  rewrite [nth _ (_ :: _) j.+1]/= [nth _ (b :: _) j.+1]/=; have lc : j < size c by rewrite sc.
  have g : ci < nth 0 c j by have := all_nthP 0 al' j lc.
  by rewrite -(h2 j) // (_ : nth 0 c j - i = (nth 0 c j - i.+1).+1) //; move: g; rewrite -e; clear; lia.
have lt : i < ci by move: rci ne; clear; lia.
have A1 : all (fun x => i.+1 <= x < i.+1 + (size old + size (b :: new))) (ci :: c).
  apply/allP => x; rewrite inE => /orP [/eqP ->|xc]; first by move: rci lt; rewrite /=; clear; lia.
  by have := allP rc x xc; have := allP al' x xc; move: lt; rewrite /=; clear; lia.
have A2 : size old + size (b :: new) <= fuel by move: lf; rewrite /=; clear; lia.
have A3 : size (ci :: c) = size (b :: new) by rewrite /= sc.
have [s [E ss h1 h2]] := IH i.+1 (ci :: c) old (b :: new) so A3 A1 A2.
rewrite E; cbn [obind]; exists (a :: s); split=> //.
- by rewrite /= ss /=; clear; lia.
- move=> [|j] lj.
    rewrite addn0 up_id ?subnn //= lt; apply/allP => x xc; have := allP al' x xc; exact: ltn_trans.
  have g := up_ge (ci :: c) (i + j.+1).
  rewrite (_ : up (ci :: c) (i + j.+1) - i = (up (ci :: c) (i + j.+1) - i.+1).+1); last by move: g; clear; lia.
  by rewrite [nth _ (_ :: _) _.+1]/= [nth _ (_ :: _) j.+1]/= addnS -addSn h1.
move=> j lj; have g : i < nth 0 (ci :: c) j.
  case: j lj => [|j] lj //=; have lc : j < size c by rewrite sc.
  by have := all_nthP 0 al' j lc; rewrite /=; exact: ltn_trans.
by rewrite (_ : nth 0 (ci :: c) j - i = (nth 0 (ci :: c) j - i.+1).+1); [exact: h2|move: g; clear; lia].
Qed.

Lemma insert_columnsE (T : Type) c (new : seq (svec T)) (A : cmat T) : size (cols A) = ncol A -> size c = size new ->
  subset_list c (ncol A + size c) ->
  exists s, [/\ insert_columns c new A = Ok (CMat (nrow A) (ncol A + size c) s), size s = ncol A + size c,
    forall j, j < ncol A -> nth [::] s (up c j) = nth [::] (cols A) j &
    forall j, j < size c -> nth [::] s (nth 0 c j) = nth [::] new j].
Proof.
move=> sA sc [so al]; have [|s [E ss h1 h2]] := @merge_colsE T (size (cols A) + size new) 0 c (cols A) new so sc _ (leqnn _).
  by apply: sub_all al => x; rewrite add0n sA sc.
exists s; rewrite /insert_columns E; cbn [obind]; rewrite ss sA sc leqnn subnn cats0; split=> //.
  by move=> j lj; rewrite -h1 ?sA // add0n subn0.
by move=> j lj; rewrite -h2 // subn0.
Qed.
