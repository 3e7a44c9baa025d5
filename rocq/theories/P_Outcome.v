From mathcomp Require Import all_ssreflect zify.
From Verif Require Import Outcome.
Set Implicit Arguments.
Unset Strict Implicit.
Unset Printing Implicit Defensive.

Section S.
Variables (A B : Type).

Lemma oget_nth (d : A) s i : i < size s -> oget s i = Ok (nth d s i).
Proof.
by rewrite /oget; elim: s i => [|x s IH] [|i] //= lt; apply: IH.
Qed.

Lemma oget_Ok (d : A) s i x : oget s i = Ok x -> i < size s /\ x = nth d s i.
Proof.
case: (ltnP i (size s)) => lt; first by rewrite (oget_nth d lt) => -[<-].
by rewrite /oget drop_oversize.
Qed.

Lemma oset_Ok (d : A) s i x : i < size s -> oset s i x = Ok (set_nth d s i x).
Proof.
by move=> lt; rewrite /oset lt !set_nthE lt.
Qed.
End S.

Section F.
Variables (A B : Type) (f : A -> B -> outcome A).

Lemma ofold_cat l1 l2 a : ofold f a (l1 ++ l2) = obind (ofold f a l1) (fun a' => ofold f a' l2).
Proof. by elim: l1 a => //= b l1 IH a; case: (f a b) => //= a'. Qed.

Lemma ofold_rcons l b a : ofold f a (rcons l b) = obind (ofold f a l) (fun a' => f a' b).
Proof. by rewrite -cats1 ofold_cat; case: (ofold f a l) => //= a'; case: (f a' b). Qed.

(** invariant rule for [for (j = 0; j < n; j++)] loops *)
Lemma ofold_iota_ind (g : A -> nat -> outcome A) (P : nat -> A -> Prop) n a :
  P 0 a ->
  (forall j a', j < n -> P j a' -> exists2 a'', g a' j = Ok a'' & P j.+1 a'') ->
  exists2 r, ofold g a (iota 0 n) = Ok r & P n r.
Proof.
move=> H0 step.
suff: forall k, k <= n -> exists2 r, ofold g a (iota 0 k) = Ok r & P k r by apply.
elim=> [|k IH] le; first by exists a.
have [r E Pr] := IH (ltnW le); have [r' E' Pr'] := step k r le Pr.
exists r' => //; rewrite -addn1 iotaD /= add0n.
elim: (iota 0 k) a E {H0 step IH} => [|x l IHl] a0 /=; first by move=> [->]; rewrite E'.
by case: (g a0 x) => //= a1 /IHl.
Qed.
End F.

Lemma omapm_Ok (A B : Type) (f : A -> outcome B) (g : A -> B) (l : seq A) :
  (forall a, List.In a l -> f a = Ok (g a)) -> omapm f l = Ok (map g l).
Proof.
elim: l => //= a l IH H; rewrite H /=; last by left.
by rewrite IH // => b Hb; apply: H; right.
Qed.

Lemma In_mem (A : eqType) (a : A) l : List.In a l <-> a \in l.
Proof.
elim: l => //= b l IH; rewrite inE; split.
  by case=> [->|/IH ->]; rewrite ?eqxx ?orbT.
by case/orP=> [/eqP ->|/IH]; [left | right].
Qed.

Lemma omapm_Ok_eq (A : eqType) B (f : A -> outcome B) (g : A -> B) (l : seq A) :
  (forall a, a \in l -> f a = Ok (g a)) -> omapm f l = Ok (map g l).
Proof. by move=> H; apply: omapm_Ok => a /In_mem; apply: H. Qed.

Lemma omapm_inv (A B : Type) (f : A -> outcome B) l r (da : A) (db : B) :
  omapm f l = Ok r -> size r = size l /\
  forall i, i < size l -> f (nth da l i) = Ok (nth db r i).
Proof.
elim: l r => [|a l IH] r /=; first by move=> [<-].
case E: (f a) => [b| | |] //=; case E': (omapm f l) => [bs| | |] //= -[<-] /=.
have [-> H] := IH _ E'; split=> // -[|i] //= lt; exact: H.
Qed.

Lemma omapm_exists (A B : Type) (f : A -> outcome B) (P : A -> B -> Prop) l (da : A) (db : B) :
  (forall i, i < size l -> exists2 b, f (nth da l i) = Ok b & P (nth da l i) b) ->
  exists rs, [/\ omapm f l = Ok rs, size rs = size l &
                forall i, i < size l -> P (nth da l i) (nth db rs i)].
Proof.
elim: l => [|a l IH] H; first by exists [::].
have [b /= E Pb] := H 0 isT; have [|rs [E' s Pr]] := IH; first by move=> i; apply: (H i.+1).
by exists (b :: rs); rewrite /= E /= E' /= s; split=> // -[|i] //=; apply: Pr.
Qed.

Lemma nth_setE (A : Type) (d : A) s i y j : nth d (set_nth d s i y) j = if j == i then y else nth d s j.
Proof. by rewrite nth_set_nth. Qed.
