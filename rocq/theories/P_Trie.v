(** The trie as a finite map on keys, and sorting of one range of the face arrays. *)
From mathcomp Require Import all_ssreflect all_algebra zify.
From Verif Require Import Outcome M_SparseVec M_Perm M_ColMatrix M_CSC M_Simplicial S_Perm P_Outcome P_Perm P_Sort.
Set Implicit Arguments.
Unset Strict Implicit.
Unset Printing Implicit Defensive.

(** value at a key, ignoring dangling pointers *)
Fixpoint tg (k : seq nat) (t : trie) : option nat :=
  match k with
  | [::] => Some (tval t)
  | a :: k' => if tassoc a (tch t) is Some u then tg k' u else None
  end.

Definition alive (t : trie) : Prop := forall k, tget k t = Ok (tg k t).

Lemma alive_dead t : alive t -> tdead t = false.
Proof. by move=> /(_ [:: 0]) /=; case: (tdead t). Qed.

Lemma alive_child t a u : alive t -> tassoc a (tch t) = Some u -> alive u.
Proof. by move=> al E k; have := al (a :: k); rewrite /= (alive_dead al) E. Qed.

Lemma alive_new : alive tnew. Proof. by case. Qed.

Lemma tassoc_put a b t c : tassoc b (tput a t c) = if b == a then Some t else tassoc b c.
Proof.
elim: c => [|[d u] c IH] /=; first by rewrite eq_sym.
case: (eqVneq d a) => [e|ne] /=; first by rewrite e [a == b]eq_sym; case: (b == a).
by rewrite IH; case: (eqVneq d b) => [e|//]; rewrite -e (negbTE ne).
Qed.

Lemma tinsert_ok k v t : alive t -> exists t', [/\ tinsert k v t = Ok t', alive t' &
  forall k', tg k' t' = if k' == k then Some v
                        else if prefix k' k then (if tg k' t is Some w then Some w else Some 0) else tg k' t].
Proof.
elim: k t => [|a k IH] t al /=.
  eexists; split; [by []|move=> [|b k'] //=|by case].
  by have := al (b :: k') => /=.
rewrite (alive_dead al).
set u := if tassoc a (tch t) is Some u then u else tnew.
have alu : alive u by rewrite /u; case E: (tassoc a (tch t)) => [w|]; [exact: alive_child E|exact: alive_new].
have [u' [E al' G]] := IH u alu; rewrite E /=.
eexists; split; [by []|move=> [|b k'] //=|move=> [|b k'] //=].
- rewrite tassoc_put; case: eqP => [_|_]; first exact: al'.
  by have := al (b :: k'); rewrite /= (alive_dead al).
rewrite tassoc_put eqseq_cons; case: (eqVneq b a) => [->|ne] //=.
rewrite ?eqxx /= G; case: eqP => // _; case: ifP => // pf.
- by rewrite /u; case: (tassoc a (tch t)) => //; case: k' pf => //= c k'.
- by rewrite /u; case: (tassoc a (tch t)) => //; case: k' pf => [|//]; rewrite prefix0s.
Qed.

Lemma tcount_ok k t : alive t -> tcount k t = Ok (if tg k t is Some _ then 1 else 0).
Proof.
elim: k t => [|a k IH] t al //=; rewrite (alive_dead al).
case E: (tassoc a (tch t)) => [u|] //; apply: IH; exact: alive_child E.
Qed.

Lemma tget_at_ok k t v : alive t -> tg k t = Some v -> tget_at k t = Ok v.
Proof.
elim: k t => [|a k IH] t al /=; first by case=> ->.
rewrite (alive_dead al); case E: (tassoc a (tch t)) => [u|] // Ev.
have alu := alive_child al E.
by case: (tch t) E => // p c _; exact: IH Ev.
Qed.

(** ** range_sort *)
Notation sperm := (sortperm (fun a b => a < b) 0).

Lemma sperm_perm s : is_perm (sperm s).
Proof. exact: (@sortperm_perm _ Order.NatOrder.orderType 0%N s). Qed.
Lemma size_sperm s : size (sperm s) = size s.
Proof. exact: (@size_sortperm _ Order.NatOrder.orderType 0%N s). Qed.

Lemma apply_perm_pre (A : Type) (d0 : A) p d : is_perm p -> size p <= size d ->
  apply_perm p d = Ok ([seq nth d0 d i | i <- p] ++ drop (size p) d).
Proof.
move=> P le; apply: apply_permE => //; apply/allP => i; rewrite is_perm_mem //.
by move=> lt; apply: leq_trans le.
Qed.

Lemma range_sort_ok (T : Type) (t0 : T) (A : seq nat) (B : seq T) seg segv R S :
  size A = size B -> size seg = size segv ->
  range_sort (size A) (size seg) (A ++ seg ++ R) (B ++ segv ++ S) =
  Ok (A ++ [seq nth 0 seg p | p <- sperm seg] ++ R, B ++ [seq nth t0 segv p | p <- sperm seg] ++ S).
Proof.
move=> eAB es; rewrite /range_sort.
have -> : (size A + size seg <= size (A ++ seg ++ R)) && (size A + size seg <= size (B ++ segv ++ S)).
  by rewrite !size_cat; lia.
have d1 : drop (size A) (A ++ seg ++ R) = seg ++ R by rewrite drop_size_cat.
have d2 : drop (size A) (B ++ segv ++ S) = segv ++ S by rewrite eAB drop_size_cat.
have t1 : take (size A) (A ++ seg ++ R) = A by rewrite take_size_cat.
have t2 : take (size A) (B ++ segv ++ S) = B by rewrite eAB take_size_cat.
rewrite d1 d2 t1 t2 take_size_cat //.
have P := sperm_perm seg; have sz := size_sperm seg.
rewrite (apply_perm_pre 0) //; last by rewrite size_cat sz; lia.
rewrite (apply_perm_pre t0) //=; last by rewrite size_cat sz; lia.
rewrite sz drop_size_cat // es drop_size_cat //.
congr (Ok (_ ++ (_ ++ _), _ ++ (_ ++ _))); apply/eq_in_map => i; rewrite is_perm_mem // sz => lt.
  by rewrite nth_cat lt.
by rewrite nth_cat -es lt.
Qed.
