(** Cubes as lists of intervals: dimension, faces, subcubes, the boundary operator. *)
From mathcomp Require Import all_ssreflect all_algebra zify.
From Verif Require Import Outcome M_Simplicial M_Cubical P_Outcome.
Set Implicit Arguments.
Unset Strict Implicit.
Unset Printing Implicit Defensive.
Import GRing.Theory.

Fixpoint cval (D : nat) (s : seq nat) : bool :=
  match D, s with
  | 0, [::] => true
  | D'.+1, a :: b :: s' => [&& a <= b, b <= a.+1 & cval D' s']
  | _, _ => false
  end.
Fixpoint cdim (s : seq nat) : nat := if s is a :: b :: s' then (b - a) + cdim s' else 0.
Fixpoint cfaces (s : seq nat) : seq (seq nat * int) :=
  if s is a :: b :: s' then
    if a == b then [seq (a :: b :: f.1, f.2) | f <- cfaces s']
    else (b :: b :: s', 1%R) :: (a :: a :: s', (-1)%R) :: [seq (a :: b :: f.1, (- f.2)%R) | f <- cfaces s']
  else [::].
Fixpoint subc (t s : seq nat) : bool :=
  match t, s with
  | a :: b :: t', c :: d :: s' => [&& c <= a, a <= b, b <= d & subc t' s']
  | [::], [::] => true
  | _, _ => false
  end.

Lemma nth2S (a b : nat) s i : nth 0 (a :: b :: s) (2 * i.+1) = nth 0 s (2 * i).
Proof. by rewrite mulnS. Qed.
Lemma nth2SS (a b : nat) s i : nth 0 (a :: b :: s) (2 * i.+1).+1 = nth 0 s (2 * i).+1.
Proof. by rewrite mulnS. Qed.

Lemma iotaS n : iota 0 n.+1 = 0 :: map S (iota 0 n).
Proof. by rewrite /= -[1]addn1 addnC iotaDl. Qed.

(** sequences of even length *)
Lemma seq2_ind (P : seq nat -> Prop) : P [::] -> (forall a b s, P s -> P (a :: b :: s)) -> forall D s, size s = (2 * D)%N -> P s.
Proof.
move=> H0 HS; elim=> [|D IH] [|a [|b s]] //; rewrite mulnS // => -[e]; apply: HS; exact: IH.
Qed.

Lemma cvalP D s : cube_valid D s = cval D s.
Proof.
elim: D s => [|D IH] [|a [|b s]] //; rewrite /cube_valid ?mulnS // [cval _ _]/= -IH /cube_valid iotaS.
rewrite [size _]/= !eqSS [all _ (0 :: _)]/= all_map negb_or -!leqNgt.
have -> : all (preim S (fun i => ~~ ((nth 0 (a :: b :: s) (2 * i).+1 < nth 0 (a :: b :: s) (2 * i)) || ((nth 0 (a :: b :: s) (2 * i)).+1 < nth 0 (a :: b :: s) (2 * i).+1)))) (iota 0 D) =
  all (fun i => ~~ ((nth 0 s (2 * i).+1 < nth 0 s (2 * i)) || ((nth 0 s (2 * i)).+1 < nth 0 s (2 * i).+1))) (iota 0 D).
  by apply: eq_all => i; rewrite -(nth2S a b s) -(nth2SS a b s).
by case: (size s == _); rewrite ?andbF //= -!andbA.
Qed.

Lemma cdimP D s : size s = (2 * D)%N -> cube_dim D s = cdim s.
Proof.
rewrite /cube_dim; elim: D s => [|D IH] [|a [|b s]] //; rewrite mulnS // => -[e].
rewrite iotaS [map _ (0 :: _)]/= [cdim _]/= -(IH s e) -map_comp [sumn _]/=; congr (_ + sumn _); apply: eq_map => i.
by rewrite -(nth2S a b s) -(nth2SS a b s).
Qed.

Lemma size_cval D s : cval D s -> size s = (2 * D)%N.
Proof. by elim: D s => [|D IH] [|a [|b s]] //= /and3P [_ _ /IH ->]; rewrite mulnS. Qed.

Lemma cdim_le D s : cval D s -> cdim s <= D.
Proof. elim: D s => [|D IH] [|a [|b s]] //= /and3P [l1 l2 /IH]; lia. Qed.

(** ** faces *)
Fixpoint floop (s : seq nat) (ds : seq nat) (c : int) : seq (seq nat * int) :=
  if ds is i :: ds' then
    if nth 0 s (2 * i) == nth 0 s (2 * i).+1 then floop s ds' c
    else (face_up s i, c) :: (face_lo s i, (- c)%R) :: floop s ds' (- c)%R
  else [::].

Lemma floop_cons a b s ds c : floop (a :: b :: s) (map S ds) c = [seq (a :: b :: f.1, f.2) | f <- floop s ds c].
Proof.
elim: ds c => [|i ds IH] c //; rewrite [map S _]/= [floop _ (i :: ds) c]/=; cbn [floop]; rewrite nth2S nth2SS.
case: eqP => // _; rewrite !IH.
by congr ((_, _) :: (_, _) :: _); rewrite /face_up /face_lo ?nth2S ?nth2SS mulnS.
Qed.

Lemma floopE D s c : size s = (2 * D)%N -> floop s (iota 0 D) c = [seq (f.1, (c * f.2)%R) | f <- cfaces s].
Proof.
elim: D s c => [|D IH] [|a [|b s]] // c; rewrite ?mulnS // => -[e]; rewrite iotaS; cbn [floop cfaces].
rewrite [nth _ _ (2 * 0)]/= [nth _ _ (2 * 0).+1]/=; case: eqP => [->|_]; rewrite floop_cons IH -?map_comp //.
rewrite [map _ (_ :: _)]/= mulr1 mulrN1 -?map_comp; congr ((_, _) :: (_, _) :: _).
by apply: eq_map => f /=; rewrite mulrN mulNr.
Qed.

Lemma cfaces_val D s f : cval D s -> f \in cfaces s -> cval D f.1 /\ cdim s = (cdim f.1).+1.
Proof.
elim: D s f => [|D IH] [|a [|b s]] // f /= /and3P [l1 l2 v]; case: eqP => [e|ne].
  by move=> /mapP [g /(IH _ _ v) [vg ->] ->] /=; rewrite l1 l2 vg; split=> //; rewrite e subnn.
rewrite !inE => /or3P [/eqP ->|/eqP ->|/mapP [g /(IH _ _ v) [vg ->] ->]] /=; rewrite ?leqnn ?leqnSn ?v ?vg ?l1 ?l2; split=> //; lia.
Qed.

Lemma cfaces_size D s : cval D s -> size (cfaces s) = (2 * cdim s)%N.
Proof.
elim: D s => [|D IH] [|a [|b s]] //= /and3P [l1 l2 v]; case: eqP => [->|ne]; rewrite /= size_map (IH s) // ?subnn //.
have -> : b - a = 1 by lia.
by rewrite mulnDr.
Qed.

Lemma cfaces_sub s f : f \in cfaces s -> forall D, cval D s -> subc f.1 s.
Proof.
move=> fi D; elim: D s f fi => [|D IH] [|a [|b s]] // f /=.
have R D' u : cval D' u -> subc u u.
  by elim: D' u => [|D' IH'] [|x [|y u]] //= /and3P [h1 h2 /IH' ->]; rewrite !leqnn h1.
case: eqP => [e|ne].
  by move=> /mapP [g gi ->] /and3P [l1 l2 v] /=; rewrite !leqnn l1 (IH _ _ gi).
rewrite !inE => /or3P [/eqP ->|/eqP ->|/mapP [g gi ->]] /and3P [l1 l2 v] /=; rewrite ?leqnn ?l1 ?(R _ _ v) //=.
exact: IH gi v.
Qed.

Lemma subc_refl D s : cval D s -> subc s s.
Proof. by elim: D s => [|D IH] [|x [|y u]] //= /and3P [h1 h2 /IH ->]; rewrite !leqnn h1. Qed.

Lemma subc_trans t u s : subc t u -> subc u s -> subc t s.
Proof.
move: {2}(size t) (leqnn (size t)) => n; elim: n t u s => [|n IH] [|a [|b t]] u s //=; try by case: u => //; case: s.
case: u => [|c [|d u]] //; case: s => [|e [|f s]] // lt /and4P [h1 h2 h3 h4] /and4P [k1 k2 k3 k4].
by rewrite /= (leq_trans k1 h1) h2 (leq_trans h3 k3) (IH t u s) //; apply: ltnW.
Qed.

(** a proper subcube lies in a face *)
Lemma subc_face D t s : cval D s -> subc t s -> t != s -> exists2 f, f \in cfaces s & subc t f.1.
Proof.
elim: D t s => [|D IH] [|a [|b t]] [|c [|d s]] //= /and3P [l1 l2 v] /and4P [h1 h2 h3 h4] ne.
case: eqP => [e|nd].
  have ea : a = c by lia.
  have eb : b = d by lia.
  subst a b; have ne' : t != s by apply/eqP => et; move: ne; rewrite et eqxx.
  have [f fi sf] := IH t s v h4 ne'; exists (c :: d :: f.1, f.2); first exact: map_f.
  by rewrite /= !leqnn l1 sf.
have [ea|na] := eqVneq a c; last first.
  by exists (d :: d :: s, 1%R); [rewrite inE eqxx|rewrite /= h2 h3 h4 !andbT; lia].
have [eb|nb] := eqVneq b d; last first.
  by exists (c :: c :: s, (-1)%R); [rewrite !inE eqxx orbT|rewrite /= h1 h2 h4 !andbT; lia].
have ne' : t != s by apply/eqP => et; move: ne; rewrite et ea eb eqxx.
have [f fi sf] := IH t s v h4 ne'; exists (c :: d :: f.1, (- f.2)%R); last by rewrite /= h1 h2 h3 sf.
by rewrite !inE !orbA; apply/orP; right; apply/mapP; exists f.
Qed.

Lemma subc_val D t s : cval D s -> subc t s -> cval D t.
Proof.
elim: D t s => [|D IH] [|a [|b t]] [|c [|d s]] //= /and3P [l1 l2 v] /and4P [h1 h2 h3 h4].
by rewrite h2 (IH t s v h4) andbT; lia.
Qed.

Lemma subc_dim t s D : cval D s -> subc t s -> cdim t <= cdim s /\ (cdim t = cdim s -> t = s).
Proof.
elim: D t s => [|D IH] [|a [|b t]] [|c [|d s]] //= /and3P [l1 l2 v] /and4P [h1 h2 h3 h4].
have [le eq] := IH t s v h4; split; first lia.
move=> e; have e1 : cdim t = cdim s by lia.
by rewrite (eq e1); have [-> ->] : a = c /\ b = d by lia.
Qed.

Lemma cfaces_uniq s : uniq (map fst (cfaces s)).
Proof.
move: {2}(size s) (leqnn (size s)) => n; elim: n s => [|n IH] [|a [|b s]] //= ls.
have u : uniq (map fst (cfaces s)) by apply: IH; apply: ltnW.
have um (g : seq nat * int -> int) : uniq [seq f.1 | f <- [seq (a :: b :: f.1, g f) | f <- cfaces s]].
  rewrite -map_comp (_ : map _ _ = [seq a :: b :: x | x <- map fst (cfaces s)]); last by rewrite -map_comp.
  by rewrite map_inj_uniq // => x y [].
case: eqP => [e|ne]; first exact: um.
rewrite /= um !andbT inE negb_or; apply/andP; split.
  apply/andP; split; first by apply/eqP => -[e]; case: ne.
  by apply/mapP => -[x /mapP [f _ ->] /= [e]]; case: ne.
by apply/mapP => -[x /mapP [f _ ->] /= [e]]; case: ne.
Qed.

Lemma cfaces_coef s f : f \in cfaces s -> f.2 = 1%R \/ f.2 = (-1)%R.
Proof.
move: {2}(size s) (leqnn (size s)) => n; elim: n s f => [|n IH] [|a [|b s]] //= f ls.
have H : forall g, g \in cfaces s -> g.2 = 1%R \/ g.2 = (-1)%R by move=> g; apply: IH; apply: ltnW.
case: eqP => [e|ne]; first by move=> /mapP [g /H h ->].
rewrite !inE => /or3P [/eqP ->|/eqP ->|/mapP [g /H [h|h] ->]] /=; rewrite ?h ?opprK; by auto.
Qed.

(** ** the boundary operator *)
Section Alg.
Variable F : ringType.
Local Open Scope ring_scope.

Definition cbd (g : seq nat -> F) (s : seq nat) : F := \sum_(f <- cfaces s) f.2%:~R * g f.1.

Lemma cbd_cons g a b s : cbd g (a :: b :: s) =
  if a == b then cbd (fun t => g (a :: b :: t)) s
  else g (b :: b :: s) - g (a :: a :: s) - cbd (fun t => g (a :: b :: t)) s.
Proof.
rewrite /cbd [cfaces _]/=; case: eqP => _; first by rewrite big_map.
rewrite !big_cons big_map /= mul1r mulrNz mulN1r addrA; congr (_ + _).
by rewrite -sumrN; apply: eq_bigr => f _; rewrite mulrNz mulNr.
Qed.

Lemma cbd_sub g h s : cbd (fun t => g t - h t) s = cbd g s - cbd h s.
Proof. by rewrite /cbd -sumrB; apply: eq_bigr => f _; rewrite mulrBr. Qed.
Lemma eq_cbd g h s : g =1 h -> cbd g s = cbd h s.
Proof. by move=> e; apply: eq_bigr => f _; rewrite e. Qed.

Lemma cbd_cbd g s D : size s = (2 * D)%N -> cbd (cbd g) s = 0.
Proof.
move=> e; move: g; apply: (@seq2_ind (fun s => forall g, cbd (cbd g) s = 0) _ _ D s e) => [g|a b {s e} s IH g].
  by rewrite /cbd big_nil.
rewrite cbd_cons; case: eqP => [->|ne].
  by rewrite -(IH (fun t => g (b :: b :: t))); apply: eq_cbd => t; rewrite cbd_cons eqxx.
have -> : cbd (fun t => cbd g (a :: b :: t)) s =
          cbd (fun t => g (b :: b :: t) - g (a :: a :: t) - cbd (fun u => g (a :: b :: u)) t) s.
  by apply: eq_cbd => t; rewrite cbd_cons; case: eqP.
by rewrite 2!cbd_sub IH !cbd_cons !eqxx subr0 subrr.
Qed.
End Alg.
