(** The number of dimensions of a complex after add, nerve and flag complexes. *)
From mathcomp Require Import all_ssreflect all_algebra zify.
From Verif Require Import Outcome M_Sorted M_Simplicial M_Filtration M_Flag M_Nerve S_Flag P_Outcome P_Nerve P_ScOps P_Flag.
Set Implicit Arguments.
Unset Strict Implicit.
Unset Printing Implicit Defensive.

Lemma oset_size (A : Type) (s s' : seq A) i x : oset s i x = Ok s' -> size s' = size s.
Proof.
by rewrite /oset; case: ltnP => // h [<-]; rewrite size_set_nth; apply/maxn_idPr.
Qed.
Lemma store_dims X s d i X' : sc_store X s d i = Ok X' -> sc_dims X' = sc_dims X.
Proof. by rewrite /sc_store; case: tinsert => //= t; case: oget => //= v; case: oset => //= ss [<-]. Qed.
Lemma add_dims X s X' r : sc_add X s = Ok (X', r) -> sc_dims X' = maxn (size s) (sc_dims X).
Proof.
rewrite /sc_add -(size_sort leq s); case: (sort leq s) => // a l; move: (a :: l) (isT : 0 < size (a :: l)) => {a l} {}s s0 /=.
rewrite /sc_add_directed; case: s s0 => // a l _; set s := a :: l; cbv zeta.
have ds : sc_dims (sc_reserve (size s).-1 X) = maxn (size s) (sc_dims X) by rewrite /sc_dims /= size_grow.
rewrite -ds; move: (sc_reserve _ X) => Y; case: (tcount _ _) => // n; cbn [obind]; case: ifP => _; first by case: (tget_at _ _) => // i; cbn [obind] => -[<- _].
rewrite /sc_add_unsafe; cbv zeta; case: oget => //= ind; case En: oset => [nc| | |] //=; have sn := oset_size En.
case: ifP => _; first by case Es: sc_store => [Z| | |] //= [<- _]; rewrite (store_dims Es).
case: oget => //= fv; case: oget => //= cv; case: face_loop => //= -[[ok f1] c1]; case: ok.
  case: (M_CSC.range_sort _ _ _ _) => //= q; case: oset => //= fs; case: oset => //= cs; case Es: sc_store => [Z| | |] //= [<- _].
  by rewrite (store_dims Es).
case: oset => //= fs; case: oset => //= cs; case E2: oset => [nc'| | |] //= [<- _].
by rewrite /sc_dims /= (oset_size E2) sn.
Qed.
Lemma new_dims m : sc_dims (sc_new m) = m.+1. Proof. by rewrite /sc_dims /= size_nseq. Qed.

(** bounded dimension is kept by adding small simplices *)
Definition dims_in (m : nat) (X : scx) : bool := sc_dims X == m.
Lemma add_dims_in m X s X' r : sc_add X s = Ok (X', r) -> size s <= m -> sc_dims X = m -> sc_dims X' = m.
Proof. by move=> /add_dims -> h ->; rewrite (maxn_idPr h). Qed.
Lemma ofold_inv (A B : Type) (f : A -> B -> outcome A) (P : A -> Prop) a l a1 :
  (forall a b a', List.In b l -> P a -> f a b = Ok a' -> P a') -> P a -> ofold f a l = Ok a1 -> P a1.
Proof.
elim: l a => [|b l IH] a H pa /=; first by case=> <-.
case E: (f a b) => [a'| | |] //= E2; apply: (IH a') => //; first by move=> x y z yl; apply: H; right.
by apply: H E => //; left.
Qed.
Lemma nerve_dims cover dmax N : all (sorted ltn) cover -> 0 < dmax -> nerve cover dmax = Ok N -> sc_dims N = dmax.+1.
Proof.
move=> so d0; rewrite (nerveE so); apply: (ofold_inv (P := fun X => sc_dims X = dmax.+1)); last exact: new_dims.
move=> X s X' /In_mem sl dX; rewrite /addc; case E: sc_add => [[Y r]| | |] //= [<-]; apply: add_dims_in E _ dX.
have [_ _ _ sz _] := (nlist_mem (cov_sorted so) _ _ _).1 sl.
by move: sz d0; clear; lia.
Qed.
Lemma push_size spx k : size (push_sorted spx k) = (size spx).+1. Proof. by rewrite size_sort size_rcons. Qed.
Lemma cflag_rec_dims fuel X nbrs d maxd iter spx X' : size spx <= d -> cflag_rec fuel X nbrs d maxd iter spx = Ok X' ->
  sc_dims X = maxd.+1 -> sc_dims X' = maxd.+1.
Proof.
elim: fuel X d iter spx X' => // fuel IH X d iter spx X' sd; cbn [cflag_rec]; case: eqP => [e|_].
  move=> E dX; apply: (ofold_inv (P := fun X => sc_dims X = maxd.+1) _ _ E) => // Y k Z _ dY; case Ea: sc_add => [[W r]| | |] //= [<-].
  by apply: add_dims_in Ea _ dY; rewrite push_size -e.
case: ltnP => [l|_ [<-]] // E dX; apply: (ofold_inv (P := fun X => sc_dims X = maxd.+1) _ _ E) => // Y k Z _ dY; case Ea: sc_add => [[W r]| | |] //=.
case: oget => //= nk Er; apply: IH Er _; first by rewrite push_size.
by apply: add_dims_in Ea _ dY; rewrite push_size; move: sd l; clear; lia.
Qed.
Lemma flag_dims edges n dmax X : 0 < dmax -> flag_complex edges n dmax = Ok X -> sc_dims X = dmax.+1.
Proof.
move=> d0; rewrite /flag_complex; case: ifP => // _; case E1: (ofold _ (sc_new _) _) => [X1| | |] //.
have d1 : sc_dims X1 = dmax.+1.
  apply: (ofold_inv (P := fun X => sc_dims X = dmax.+1) _ _ E1); last exact: new_dims.
  by move=> Y k Z _ dY; case Ea: sc_add => [[W r]| | |] //= [<-]; apply: add_dims_in Ea _ dY.
cbn [obind]; case E2: (ofold _ (X1, _) _) => [[X2 nb]| | |] //= [<-].
apply: (ofold_inv (P := fun st : scx * seq (seq nat) => sc_dims st.1 = dmax.+1) _ _ E2) => //.
move=> [Y nbs] [i j] [Z nb'] _ dY; rewrite /cflag_edge; cbn [fst snd] in dY |- *; case Ea: sc_add => [[W r]| | |] //; cbn [obind].
have dW : sc_dims W = dmax.+1 by apply: add_dims_in Ea _ dY; rewrite /=; move: d0; clear; lia.
case: oget => //; cbn [obind] => ni; case: oget => // nj; cbn [obind]; cbv zeta; case: ifP => _; last first.
  by cbn [obind fst]; case: add_nbrs => //= ? [<- _].
case Er: (cflag_rec dmax.+1 _ _ _ _ _ _) => [V2| | |] //; cbn [obind]; case: add_nbrs => // nb2; cbn [obind] => -[<- _].
by apply: cflag_rec_dims Er dW; rewrite size_sort.
Qed.
