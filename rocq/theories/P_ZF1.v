(** Zigzag barcodes are transported along a chain map that is a bijection on the cells present. *)
From mathcomp Require Import all_ssreflect all_algebra zify.
From Verif Require Import Outcome M_SparseVec M_ColMatrix S_Linalg S_Homology S_Induced M_Zigzag S_Zigzag S_ZigzagFilt.
Set Implicit Arguments.
Unset Strict Implicit.
Unset Printing Implicit Defensive.
Import GRing.Theory.
Local Open Scope ring_scope.

Lemma sum_nz (F : fieldType) n (P : pred 'I_n) (f : 'I_n -> F) : \sum_(p | P p) f p != 0 -> exists2 p, P p & f p != 0.
Proof.
move=> n0; case: (pickP (fun p => P p && (f p != 0))) => [p /andP[a b]|no]; first by exists p.
by case/negP: n0; apply/eqP/big1 => p pp; have := no p; rewrite pp /= => /negbFE/eqP.
Qed.

Section S.
Variable F : fieldType.
Variables C D : seq (cmat F).
Variable phi : nat -> nat -> nat.
Variables PC PD : nat -> nat -> bool.
Hypothesis phi_lt : forall k p, (p < ncell D k)%N -> (phi k p < ncell C k)%N.
Hypothesis phi_P : forall k p, (p < ncell D k)%N -> PD k p -> PC k (phi k p).
Hypothesis phi_inj : forall k p q, (p < ncell D k)%N -> (q < ncell D k)%N -> PD k p -> PD k q -> phi k p = phi k q -> p = q.
Hypothesis phi_sur : forall k i, (i < ncell C k)%N -> PC k i -> exists p, [/\ (p < ncell D k)%N, PD k p & phi k p = i].
Hypothesis faces : forall k i j, (j < ncell D k.+1)%N -> PD k.+1 j -> entry (bmx D k.+1) i j != 0 -> PD k i.

Definition Phi k : 'M[F]_(ncell C k, ncell D k) := \matrix_(i, p) (phi k p == i)%:R.
Hypothesis Phi_map : forall k, bd1 C k *m Phi k.+1 = Phi k *m bd1 D k.
Hypothesis Phi_cyc : forall k (z : 'cV[F]_(ncell D k)), cycle z -> cycle (Phi k *m z).
Hypothesis cyc_Phi : forall k (z : 'cV[F]_(ncell D k)), chain_in PD z -> cycle (Phi k *m z) -> cycle z.

Definition Psi k : 'M[F]_(ncell D k, ncell C k) := \matrix_(p, i) ((phi k p == i) && PD k p)%:R.

Lemma PhiE k (z : 'cV[F]_(ncell D k)) i : (Phi k *m z) i 0 = \sum_(p < ncell D k | phi k p == i) z p 0.
Proof.
rewrite mxE [RHS]big_mkcond; apply: eq_bigr => p _; rewrite mxE; case: eqP => _; by rewrite ?mul1r ?mul0r.
Qed.
Lemma PsiE k (y : 'cV[F]_(ncell C k)) (p : 'I_(ncell D k)) (i : 'I_(ncell C k)) : phi k p = i -> (Psi k *m y) p 0 = if PD k p then y i 0 else 0.
Proof.
move=> e; rewrite mxE (bigD1 i) //= big1 ?addr0 => [|j ne]; rewrite mxE e.
  by rewrite eqxx /=; case: (PD k p); rewrite ?mul1r ?mul0r.
by rewrite eq_sym in ne; rewrite [_ == _](negbTE ne) mul0r.
Qed.
Lemma chain_Phi k (z : 'cV[F]_(ncell D k)) : chain_in PD z -> chain_in PC (Phi k *m z).
Proof.
move=> h i; rewrite PhiE => n; have [p /eqP e nz] := sum_nz n.
by rewrite -e; apply: phi_P => //; apply: h.
Qed.
Lemma chain_Psi k (y : 'cV[F]_(ncell C k)) : chain_in PD (Psi k *m y).
Proof.
move=> p; have lt := phi_lt (ltn_ord p); rewrite (PsiE y (i := Ordinal lt)) //; by case: (PD k p); rewrite ?eqxx.
Qed.
Lemma PhiPsi k (y : 'cV[F]_(ncell C k)) : chain_in PC y -> Phi k *m (Psi k *m y) = y.
Proof.
move=> h; apply/colP => i; rewrite PhiE; case: (eqVneq (y i 0) 0) => [e0|n].
  rewrite e0 big1 // => p /eqP e; by rewrite (PsiE y e) e0; case: ifP.
have [p [lp pp e]] := phi_sur (ltn_ord i) (h i n).
rewrite (bigD1 (Ordinal lp)) ?e //= (PsiE y (p := Ordinal lp) e) pp big1 ?addr0 // => q /andP[/eqP eq ne].
rewrite (PsiE y eq); case: ifP => // pq; case/negP: ne; rewrite -val_eqE /=; apply/eqP; apply: phi_inj => //; by rewrite eq.
Qed.
Lemma Phi_inj k (z w : 'cV[F]_(ncell D k)) : chain_in PD z -> chain_in PD w -> Phi k *m z = Phi k *m w -> z = w.
Proof.
have G (x : 'cV[F]_(ncell D k)) : chain_in PD x -> Psi k *m (Phi k *m x) = x.
  move=> h; apply/colP => p; have lt := phi_lt (ltn_ord p); rewrite (PsiE _ (i := Ordinal lt)) // PhiE.
  case: ifP => [pp|np]; last by apply/esym/eqP/negPn/negP => /h; rewrite np.
  rewrite (bigD1 p) ?eqxx //= big1 ?addr0 // => q /andP[/eqP e ne]; apply/eqP/negPn/negP => /h pq.
  by case/negP: ne; rewrite -val_eqE; apply/eqP; apply: (phi_inj (k := k)) => //; exact: ltn_ord.
by move=> hz hw e; rewrite -(G z) // e G.
Qed.
Lemma chain_bd k (w : 'cV[F]_(ncell D k.+1)) : chain_in PD w -> chain_in PD (bd1 D k *m w).
Proof.
move=> h i; rewrite mxE => n; have [p _] := sum_nz n; rewrite mulf_eq0 negb_or => /andP[n1 n2].
by apply: (faces (ltn_ord p) (h p n2)); rewrite /entry; move: n1; rewrite mxE.
Qed.
Lemma chainB P (E : seq (cmat F)) k (x y : 'cV[F]_(ncell E k)) : chain_in P x -> chain_in P y -> chain_in P (x - y).
Proof.
move=> hx hy i; rewrite !mxE => n; case: (eqVneq (x i 0) 0) => [e|/hx //]; apply: hy; apply: contra n => /eqP ->.
by rewrite e subr0.
Qed.
Lemma hom_Phi k (x y : 'cV[F]_(ncell D k)) : homologous_in PD x y -> homologous_in PC (Phi k *m x) (Phi k *m y).
Proof. by move=> [w cw e]; exists (Phi k.+1 *m w); [exact: chain_Phi|rewrite -mulmxBr e mulmxA -Phi_map mulmxA]. Qed.
Lemma hom_Phi' k (x y : 'cV[F]_(ncell D k)) : chain_in PD x -> chain_in PD y ->
  homologous_in PC (Phi k *m x) (Phi k *m y) -> homologous_in PD x y.
Proof.
move=> cx cy [w cw e]; exists (Psi k.+1 *m w); first exact: chain_Psi.
apply: Phi_inj; [exact: chainB|apply: chain_bd; exact: chain_Psi|].
by rewrite mulmxBr e mulmxA -Phi_map -mulmxA PhiPsi.
Qed.
Lemma chainM P (E : seq (cmat F)) k r (Z : 'M[F]_(ncell E k, r)) h : (forall j, chain_in P (col j Z)) -> chain_in P (Z *m h).
Proof.
move=> H i; rewrite mxE => n; have [p _] := sum_nz n; rewrite mulf_eq0 negb_or => /andP[n1 _].
by apply: (H p); rewrite mxE.
Qed.
Lemma basis_Phi k r (Z : 'M[F]_(ncell D k, r)) : basis_in PD Z -> basis_in PC (Phi k *m Z).
Proof.
move=> [h1 h2]; split.
  move=> j; rewrite colE -mulmxA -colE; have [a b] := h1 j; split; [exact: chain_Phi|exact: Phi_cyc].
have cM h : chain_in PD (Z *m h) by apply: chainM => j; have [] := h1 j.
move=> z [cz yz]; have cP : cycle (Psi k *m z) by apply: cyc_Phi; [exact: chain_Psi|rewrite PhiPsi].
have [h [e u]] := h2 (Psi k *m z) (conj (@chain_Psi k z) cP); exists h; split.
  by have := hom_Phi e; rewrite PhiPsi // mulmxA.
move=> h' e'; apply: u; apply: hom_Phi' => //; first exact: chain_Psi.
by rewrite PhiPsi // mulmxA.
Qed.
End S.

(** the intervals of D with the events [evs] are intervals of C with the relabelled events *)
Lemma zigzag_transport (F : fieldType) (disp : unit) (A : orderType disp) (C D : seq (cmat F)) (phi : nat -> nat -> nat)
  (X : nat -> nat -> nat -> bool) (evs evs' : seq (rfv A)) k ps :
  size evs' = size evs -> (forall e e' t, (t < size evs)%N -> z_entry (nth e evs t) = z_entry (nth e' evs' t)) ->
  (forall k p, (p < ncell D k)%N -> (phi k p < ncell C k)%N) ->
  (forall k, bd1 C k *m Phi C D phi k.+1 = Phi C D phi k *m bd1 D k) ->
  (forall k (z : 'cV[F]_(ncell D k)), cycle z -> cycle (Phi C D phi k *m z)) ->
  (forall t, (t <= size evs)%N ->
   let PD := present (take t evs) in
   [/\ forall k p, (p < ncell D k)%N -> PD k p -> X t k (phi k p),
     forall k p q, (p < ncell D k)%N -> (q < ncell D k)%N -> PD k p -> PD k q -> phi k p = phi k q -> p = q,
     forall k i, (i < ncell C k)%N -> X t k i -> exists p, [/\ (p < ncell D k)%N, PD k p & phi k p = i],
     forall k i j, (j < ncell D k.+1)%N -> PD k.+1 j -> entry (bmx D k.+1) i j != 0 -> PD k i &
     forall k (z : 'cV[F]_(ncell D k)), chain_in PD z -> cycle (Phi C D phi k *m z) -> cycle z]) ->
  zigzag_intervals D evs k ps -> zigzag_intervals_of C X evs' k ps.
Proof.
move=> sz en lt cm cy H [d [Z [lab [h1 h2 h3 h4]]]]; exists d, (fun t => Phi C D phi k *m Z t), lab; rewrite sz.
have cP t x : col x (Phi C D phi k *m Z t) = Phi C D phi k *m col x (Z t) by rewrite !colE mulmxA.
have sP t (P : pred 'I_(d t)) : \sum_(y | P y) col y (Phi C D phi k *m Z t) = Phi C D phi k *m \sum_(y | P y) col y (Z t).
  by rewrite mulmx_sumr; apply: eq_bigr => y _; rewrite cP.
split=> //.
- by move=> t lt'; have [a b c f g] := H t lt'; apply: (@basis_Phi _ _ _ phi _ (present (take t evs))) => //; apply: h1.
- move=> t e lt'; have e0 := nth e evs 0; rewrite -(en e0) //; have := h3 t e0 lt'; case: (z_entry _) => h x; rewrite cP sP.
  + by have [a b c f g] := H t.+1 lt'; apply: hom_Phi (h x).
  + by have [a b c f g] := H t (ltnW lt'); apply: hom_Phi (h x).
Qed.
