From Coq Require Import Ring.
From mathcomp Require Import all_ssreflect all_algebra zify.
From Verif Require Import Outcome P_Outcome M_SparseVec M_ColMatrix S_Linalg P_SparseVec P_Reduce P_ColMatrix M_Poly RingTac2.
Set Implicit Arguments.
Unset Strict Implicit.
Unset Printing Implicit Defensive.
Import GRing.Theory.
Local Open Scope ring_scope.

Section Poly.
Variable F : fieldType.
Implicit Types (p q : {poly F}) (s : seq F).

Lemma mk_rcons s x : mk_poly (rcons s x) = if x == 0 then mk_poly s else rcons s x.
Proof. by rewrite /mk_poly rev_rcons /=; case: eqP => // _; rewrite rev_cons revK. Qed.

Lemma mk_nth s i : (mk_poly s)`_i = s`_i.
Proof.
elim/seq.last_ind: s => [|s x IH]; first by [].
rewrite mk_rcons; case: eqP => // ->; rewrite IH nth_rcons; case: (ltnP i (size s)) => // h.
by rewrite nth_default //; case: eqP.
Qed.

Lemma mk_last s : last 1 (mk_poly s) != 0.
Proof.
elim/seq.last_ind: s => [|s x IH]; first by rewrite /= oner_neq0.
by rewrite mk_rcons; case: (x =P 0) => // /eqP nx; rewrite last_rcons.
Qed.

(** C52: a polynomial built from coefficients is the list of its coefficients without leading zeros *)
Theorem C52_make s : mk_poly s = Poly s.
Proof.
rewrite -(PolyK (mk_last s)); congr polyseq; apply/polyP => i.
by rewrite !coef_Poly mk_nth.
Qed.

Lemma mkE s p : (forall i, s`_i = p`_i) -> mk_poly s = p.
Proof. by move=> h; rewrite C52_make; congr polyseq; apply/polyP => i; rewrite coef_Poly. Qed.

Lemma add_loopE (a b : seq F) i : (add_loop a b)`_i = a`_i + b`_i.
Proof.
elim: a b i => [|x a IH] [|y b] [|i] //=; rewrite ?nth_nil ?addr0 ?add0r //.
Qed.
Lemma sub_loopE (a b : seq F) i : (sub_loop a b)`_i = a`_i - b`_i.
Proof.
elim: a b i => [|x a IH] [|y b] [|i] //=; rewrite ?nth_nil ?subr0 ?sub0r ?oppr0 ?add0r //.
case: (ltnP i (size b)) => h; first by rewrite (nth_map 0).
by rewrite !nth_default ?oppr0 ?size_map.
Qed.

Theorem C52_add p q : p_add p q = (p + q : {poly F}).
Proof. by apply: mkE => i; rewrite add_loopE coefD. Qed.
Theorem C52_sub p q : p_sub p q = (p - q : {poly F}).
Proof. by apply: mkE => i; rewrite sub_loopE coefB. Qed.
Theorem C52_opp p : p_opp p = (- p : {poly F}).
Proof.
apply: mkE => i; rewrite coefN; case: (ltnP i (size p)) => h; first by rewrite (nth_map 0).
by rewrite !nth_default ?oppr0 ?size_map.
Qed.
Theorem C52_monomial d x : p_monomial d x = (x *: 'X^d : {poly F}).
Proof.
apply: mkE => i; rewrite nth_rcons size_nseq nth_nseq if_same coefZ coefXn.
by case: ltngtP => h; rewrite ?mulr0 ?mulr1.
Qed.
Theorem C52_identity : p_identity F = (1 : {poly F}).
Proof. by apply: mkE => -[|[|i]]; rewrite coef1. Qed.
Lemma mk0 : mk_poly [:: 0 : F] = (0 : {poly F}).
Proof. by apply: mkE => -[|[|i]]; rewrite coef0. Qed.
Theorem C52_const (x : F) : mk_poly [:: x] = x%:P.
Proof. by apply: mkE => -[|[|i]]; rewrite coefC. Qed.

Theorem C52_eval p v : p_eval p v = p.[v].
Proof.
rewrite /p_eval horner_coef; case: (polyseq p) => [|c0 c] /=; first by rewrite big_ord0.
rewrite big_ord_recl expr0 mulr1 /=.
have H (d : seq F) n a : foldl (fun st ck => let vk := st.2 * v in (st.1 + ck * vk, vk)) (a, v ^+ n) d
   = (a + \sum_(i < size d) d`_i * v ^+ (n + i).+1, v ^+ (n + size d)).
  elim: d n a => [|x d IH] n a /=; first by rewrite big_ord0 addr0 addn0.
  rewrite -exprSr IH big_ord_recl /= addn0 addrA addnS; congr (_, _); congr (_ + _).
  by apply: eq_bigr => i _; rewrite /bump /= addSn addnCA.
rewrite -[1](expr0 v) H /=; congr (_ + _).
Qed.

Lemma Poly_upd s n a : (n < size s)%N -> Poly (set_nth 0 s n (s`_n + a)) = Poly s + a *: 'X^n.
Proof.
move=> h; apply/polyP => i; rewrite coefD !coef_Poly coefZ coefXn nth_set_nth /=.
by case: eqP => [->|_]; rewrite ?mulr1 ?mulr0 ?addr0.
Qed.

Lemma p_mulP (s1 s2 : seq F) : exists2 r, p_mul s1 s2 = Ok r & r = (Poly s1 * Poly s2 : {poly F}).
Proof.
rewrite /p_mul; case: ifP => [/orP h|/norP[n1 n2]].
  by exists [::] => //; case: h => /nilP ->; rewrite ?mul0r ?mulr0 polyseq0.
set N := (size s1 + size s2).-1.
pose Inv k (c : seq F) := size c = N /\ Poly c = \sum_(i < k) (s1`_i *: 'X^i * Poly s2) :> {poly F}.
suff [r E [sr Pr]] : exists2 r, ofold (fun newc i =>
            ofold (fun newc j =>
              do x <- oget newc (i + j)%N; do a <- oget s1 i; do b <- oget s2 j;
              oset newc (i + j)%N (x + a * b)) newc (iota 0 (size s2)))
          (nseq (size s1 + size s2).-1 0) (iota 0 (size s1)) = Ok r & Inv (size s1) r.
  rewrite E /=; exists (mk_poly r) => //; rewrite C52_make Pr; congr polyseq.
  rewrite -mulr_suml; congr (_ * _); apply/polyP => i.
  rewrite coef_sum coef_Poly; case: (ltnP i (size s1)) => h.
    rewrite (bigD1 (Ordinal h)) //= coefZ coefXn eqxx mulr1 big1 ?addr0 // => j nj.
    rewrite coefZ coefXn; case: eqP => [e|_]; rewrite ?mulr0 //.
    by move: nj; rewrite -val_eqE /= -e eqxx.
  rewrite nth_default // big1 // => j _; rewrite coefZ coefXn; case: eqP => [e|_]; rewrite ?mulr0 //.
  by move: (ltn_ord j); rewrite -e ltnNge h.
apply: ofold_iota_ind => [|k c hk [sc Pc]].
  by split; [rewrite size_nseq | rewrite big_ord0; apply/polyP => i; rewrite coef_Poly coef0 nth_nseq if_same].
suff [r E [sr Pr]] : exists2 r, ofold (fun newc j =>
              do x <- oget newc (k + j)%N; do a <- oget s1 k; do b <- oget s2 j;
              oset newc (k + j)%N (x + a * b)) c (iota 0 (size s2)) = Ok r &
    size r = N /\ Poly r = Poly c + \sum_(j < size s2) (s1`_k * s2`_j) *: 'X^(k + j).
  exists r => //; split=> //; rewrite Pr Pc big_ord_recr /=; congr (_ + _).
  apply/polyP => i; rewrite -scalerAl coefZ [s1`_k * _]mulrC coefXnM coef_sum coef_Poly.
  have H j : ((s1`_k * s2`_j) *: 'X^(k + j) : {poly F})`_i = if (i == (k + j)%N) then s1`_k * s2`_j else 0.
    by rewrite coefZ coefXn; case: eqP => _; rewrite ?mulr1 ?mulr0.
  rewrite (eq_bigr _ (fun j _ => H (val j))); case: ltnP => hi.
    by rewrite mul0r big1 // => j _; case: eqP => // e; move: hi; rewrite e; clear; lia.
  case: (ltnP (i - k) (size s2)) => hj.
    rewrite (bigD1 (Ordinal hj)) //= subnKC // eqxx big1 ?addr0 1?mulrC // => j nj; case: eqP => // e.
    by case/negP: nj; rewrite -val_eqE /= e addKn.
  rewrite [s2`_(i - k)]nth_default // mul0r big1 // => j _; case: eqP => // e; by move: hj; rewrite e addKn leqNgt ltn_ord.
pose Inv2 l (r : seq F) := size r = N /\ Poly r = Poly c + \sum_(j < l) (s1`_k * s2`_j) *: 'X^(k + j).
apply: (@ofold_iota_ind _ _ Inv2) => [|l d hl [sd Pd]]; first by split=> //; rewrite big_ord0 addr0.
have hN : (k + l < N)%N by rewrite /N; move: hk hl; clear; lia.
rewrite (oget_nth 0) ?sd // (oget_nth 0) // (oget_nth 0) //= (oset_Ok 0) ?sd //.
eexists; first by [].
split; first by rewrite size_set_nth sd; apply/maxn_idPr.
by rewrite Poly_upd ?sd // Pd big_ord_recr /= addrA.
Qed.

Theorem C52_mul p q : p_mul p q = Ok (polyseq (p * q)).
Proof. by have [r -> ->] := p_mulP p q; rewrite !polyseqK. Qed.

Lemma leadE p : p != 0 -> p_lead p = Ok (lead_coef p).
Proof.
rewrite -size_poly_gt0 /p_lead lead_coefE; case E: (polyseq p) => [|x s] //= _.
by rewrite (last_nth 0).
Qed.

Lemma div_step p q : q != 0 -> (size q <= size p)%N ->
  (size (p - (lead_coef p / lead_coef q) *: 'X^(size p - size q) * q)%R < size p)%N.
Proof.
move=> nq h; have sq : (0 < size q)%N by rewrite size_poly_gt0.
have sp0 : (0 < size p)%N by apply: leq_trans h.
rewrite -[X in (_ < X)%N](prednK sp0) ltnS; apply/leq_sizeP => j hj.
rewrite coefB -scalerAl coefZ coefXnM; case: ltnP => hj2; first by move: hj hj2 h sq; clear; lia.
move: hj; rewrite leq_eqVlt => /orP[/eqP <-|hj].
  rewrite (_ : ((size p).-1 - (size p - size q))%N = (size q).-1); last by move: h sq; clear; lia.
  by rewrite -!lead_coefE mulfVK ?subrr // lead_coef_eq0.
have [h1 h2] : (size p <= j)%N /\ (size q <= j - (size p - size q))%N.
  by move: (size p) (size q) sp0 hj h sq => a b; clear; lia.
by rewrite !nth_default // mulr0 subr0.
Qed.

Lemma divrem_loopE q : q != 0 -> forall fuel (quo : {poly F}) p, (size p < fuel)%N ->
  exists d r : {poly F}, [/\ divrem_loop fuel quo p q = Ok (polyseq d, polyseq r), d * q + r = quo * q + p & (size r < size q)%N].
Proof.
move=> nq; elim=> [//|fuel IH] quo p hp.
rewrite /divrem_loop -/(divrem_loop (F := F)); case: leqP => h; last by exists quo, p.
have np : p != 0 by rewrite -size_poly_gt0; apply: leq_trans h; rewrite size_poly_gt0.
rewrite (leadE np) (leadE nq); cbn [obind]; cbv zeta; rewrite C52_monomial C52_mul; cbn [obind].
rewrite C52_add C52_sub.
have [|d [r [E e s]]] := IH (quo + (lead_coef p / lead_coef q) *: 'X^(size p - size q)) (p - (lead_coef p / lead_coef q) *: 'X^(size p - size q) * q).
  by apply: leq_trans (div_step nq h) _.
exists d, r; split=> //; by rewrite e mulrDl addrACA subrr addr0.
Qed.

(** C52: division with remainder by a nonzero polynomial is the division of polynomials over a field *)
Theorem C52_divrem p q : q != 0 -> p_divrem p q = Ok (polyseq (p %/ q), polyseq (p %% q)).
Proof.
move=> nq; rewrite /p_divrem mk0; have [d [r [-> e s]]] := divrem_loopE nq 0 (ltnSn (size p)).
rewrite mul0r add0r in e; by rewrite (divpP (esym e) s) (modpP (esym e) s).
Qed.
(** ... its defining property, in full *)
Theorem C52_division p q : q != 0 -> exists d r : {poly F},
  [/\ p_div p q = Ok (polyseq d), p_rem p q = Ok (polyseq r), p = d * q + r & (size r < size q)%N].
Proof.
move=> nq; exists (p %/ q), (p %% q); rewrite /p_div /p_rem C52_divrem //=; split=> //; first exact: divp_eq.
by rewrite ltn_modp.
Qed.
(** ... and by zero it reads the last element of an empty vector *)
Theorem C52_divide_by_zero p : p_divrem p (0 : {poly F}) = UB.
Proof.
rewrite /p_divrem polyseq0 /=; case E: (p_lead p) => [x|||] //=; move: E; rewrite /p_lead; by case: (polyseq p).
Qed.

(** C52: equality *)
Theorem C52_eq p q : p_eq p q = (p == q).
Proof.
rewrite /p_eq; apply/andP/eqP => [[/eqP s /allP h]|-> //]; last by split=> //; apply/allP.
apply/polyP => i; case: (ltnP i (size p)) => hi; first by apply/eqP/h; rewrite mem_iota.
by rewrite !nth_default // -s.
Qed.
Theorem C52_eq_scalar p x : p_eq_scalar p x = (p == x%:P).
Proof.
rewrite /p_eq_scalar; case: (x =P 0) => [->|/eqP nx]; first by rewrite -size_poly_eq0 /nilp.
apply/idP/eqP => [|->]; last by rewrite polyseqC nx /= eqxx.
case E: (polyseq p) => [|c [|c' s]] // /eqP e; apply: val_inj; rewrite /= E polyseqC nx /= e //.
Qed.

(** C52: the greatest common divisor *)
Theorem C52_gcd p q : exists2 g : {poly F}, p_gcd p q = Ok (polyseq g) & g %= gcdp p q.
Proof.
suff G fuel : forall a b : {poly F}, (size b < fuel)%N -> exists2 g : {poly F}, gcd_loop fuel a b = Ok (polyseq g) & g %= gcdp a b.
  exact: (G _ p q (ltnSn _)).
elim: fuel => [|fuel IH] {}p {}q hs //.
rewrite /gcd_loop -/(gcd_loop (F := F)); case: ifP => [/nilP e|/negbT nn].
  have -> : q = 0 by apply: val_inj; rewrite /= polyseq0.
  by exists p => //; rewrite gcdp0 eqpxx.
have nq : q != 0 by rewrite -size_poly_eq0; move: nn; rewrite /nilp.
rewrite /p_rem C52_divrem //=; have [|g E e] := IH q (p %% q); first by apply: leq_trans (_ : size q <= fuel)%N; rewrite ?ltn_modp.
exists g => //; apply: (eqp_trans e); exact: eqp_trans (gcdp_modr _ _) (gcdpC _ _).
Qed.
End Poly.

Section Euclid.
Variables (P : Type) (R : comRingType) (den : P -> R) (ok : P -> Prop) (sz : R -> nat).
Variables (p0 p1 : P) (sub mul div : P -> P -> outcome P) (opp : P -> P) (is0 : P -> bool).
Hypotheses (ok0 : ok p0) (ok1 : ok p1) (den0 : den p0 = 0) (den1 : den p1 = 1).
Hypothesis subE : forall a b, ok a -> ok b -> exists2 c, sub a b = Ok c & ok c /\ den c = den a - den b.
Hypothesis mulE : forall a b, ok a -> ok b -> exists2 c, mul a b = Ok c & ok c /\ den c = den a * den b.
Hypothesis oppE : forall a, ok a -> ok (opp a) /\ den (opp a) = - den a.
Hypothesis is0E : forall a, ok a -> is0 a = (den a == 0).
Hypothesis divE : forall a b, ok a -> ok b -> den b != 0 ->
  exists2 c, div a b = Ok c & ok c /\ (sz (den a - den c * den b) < sz (den b))%N.

Add Ring Rr : (C_ring_theory R).
Lemma eu_loopE a b : forall fuel i or r os s ot t,
  [/\ ok or, ok r & ok os] -> [/\ ok s, ok ot & ok t] -> (sz (den r) < fuel)%N ->
  den os * a + den ot * b = den or -> den s * a + den t * b = den r ->
  den os * den t - den s * den ot = (-1) ^+ i ->
  exists i' or' r' os' s', exists ot' t',
   [/\ eu_loop sub mul div is0 fuel (i, (or, r), (os, s), (ot, t)) = Ok (i', (or', r'), (os', s'), (ot', t')),
       [/\ ok or', ok os' & ok s'] /\ (ok ot' /\ ok t'), den os' * a + den ot' * b = den or',
       den s' * a + den t' * b = 0 & den os' * den t' - den s' * den ot' = (-1) ^+ i'].
Proof.
elim=> [|fuel IH] i or r os s ot t [k1 k2 k3] [k4 k5 k6] // hf e1 e2 e3.
rewrite /eu_loop -/(eu_loop sub mul div is0) is0E //; case: eqP => [z|/eqP nz].
  by exists i, or, r, os, s, ot, t; split=> //; rewrite ?e2.
have [q -> [kq hq]] := divE k1 k2 nz; cbn [obind].
have [u1 -> [ku1 d1]] := mulE kq k2; cbn [obind]; have [v1 -> [kv1 f1]] := subE k1 ku1; cbn [obind].
have [u2 -> [ku2 d2]] := mulE kq k4; cbn [obind]; have [v2 -> [kv2 f2]] := subE k3 ku2; cbn [obind].
have [u3 -> [ku3 d3]] := mulE kq k6; cbn [obind]; have [v3 -> [kv3 f3]] := subE k5 ku3; cbn [obind].
apply: IH => //.
- by rewrite f1 d1; apply: leq_trans hq _.
- by rewrite f2 d2 f3 d3 f1 d1 !mulrBl -e1 -e2 mulrDr !mulrA opprD addrACA.
- by rewrite f2 d2 f3 d3 exprS -e3; cring R.
Qed.

Lemma euclidE fuel a b : ok a -> ok b -> (sz (den b) < fuel)%N ->
  exists x y g w z, [/\ extended_euclidean p0 p1 sub mul div opp is0 fuel a b = Ok (x, y, g, w, z),
    [/\ ok x, ok y, ok g, ok w & ok z], den x * den a + den y * den b = den g,
    den a = den g * den w /\ den b = den g * den z & den x * den w + den y * den z = 1].
Proof.
move=> ka kb hf; rewrite /extended_euclidean.
have [|||//|||i [g [r [x [s [y [t [-> [[kg kx ks] [ky kt]] e1 e2 e3]]]]]]]] :=
  @eu_loopE (den a) (den b) fuel 0 a b p1 p0 p0 p1; rewrite ?den0 ?den1 ?mul0r ?mul1r ?addr0 ?add0r ?subr0 ?mulr1 //.
cbn [obind]; cbv zeta.
have gt : den g * den t = (-1) ^+ i * den a.
  by rewrite -e3 -e1 -[LHS]subr0 -[X in _ - X](mulr0 (den y)) -e2; cring R.
have gs : den g * den s = - ((-1) ^+ i * den b).
  by rewrite -e3 -e1 -[LHS]subr0 -[X in _ - X](mulr0 (den x)) -e2; cring R.
case: (boolP (odd i)) => oi /=.
- have [ko do_] := oppE kt; exists x, y, g, (opp t), s; split=> //; first split=> //.
  + by rewrite do_ mulrN gt -signr_odd oi expr1 !mulN1r !opprK.
  + by rewrite gs -signr_odd oi expr1 !mulN1r !opprK.
  + by rewrite do_ mulrN [den y * _]mulrC; move: e3; rewrite -signr_odd oi expr1 => e3; rewrite addrC -opprB e3 opprK.
- have [ko do_] := oppE ks; exists x, y, g, t, (opp s); split=> //; first split=> //.
  + by rewrite gt -signr_odd (negbTE oi) expr0 !mul1r ?opprK.
  + by rewrite do_ mulrN gs -signr_odd (negbTE oi) expr0 !mul1r ?opprK.
  + by rewrite do_ mulrN [den y * _]mulrC e3 -signr_odd (negbTE oi).
Qed.
End Euclid.

(** C52: the extended Euclidean algorithm on integers (Bezout coefficients, the gcd, the two quotients, a unimodular matrix) *)
Theorem C52_euclid_int (a b : int) : exists x y g w z, [/\ euclid_int `|b|%N.+1 a b = Ok (x, y, g, w, z),
  x * a + y * b = g, a = g * w, b = g * z & x * w + y * z = 1].
Proof.
have [||||||x [y [g [w [z [E _ e1 [e2 e3] e4]]]]]] := @euclidE int [comRingType of int] id (fun _ => True) absz 0 1
  (fun a b => Ok (a - b)) (fun a b => Ok (a * b)) int_div -%R (fun a => a == 0) I I erefl erefl _ _ _ _ _ `|b|%N.+1 a b I I => //.
- by move=> c d _ _; exists (c - d).
- by move=> c d _ _; exists (c * d).
- move=> c d _ _ /negbTE nd; rewrite /int_div nd; eexists; first by []; split=> //.
  have d0 : d != 0 by rewrite nd.
  rewrite (_ : _ - _ = sgz c * (`|c| %% `|d|)%N%:Z).
    rewrite abszM absz_nat; apply: leq_ltn_trans (_ : (`|c| %% `|d|)%N < _)%N; first by case: (sgzP c); rewrite ?mul1n ?mul0n.
    by rewrite ltn_mod absz_gt0.
  have ec : c = sgz c * `|c|%:Z by rewrite -intEsg.
  have ed : d = sgz d * `|d|%:Z by rewrite -intEsg.
  have sd : sgz d * sgz d = 1 by move: d0; case: (sgzP d).
  rewrite [X in X - _]ec [X in _ - _ * X]ed {1}(divn_eq `|c| `|d|) PoszD PoszM.
  have : forall s t q a r : int, t * t = 1 -> s * (q * a + r) - s * t * q * (t * a) = s * r.
    clear; move=> s t q u r tt; have -> : s * t * q * (t * u) = s * (q * u) * (t * t) by lia.
    by rewrite tt mulr1 mulrDr addrAC subrr add0r.
  exact.
by exists x, y, g, w, z.
Qed.

(** ... and on polynomials *)
Theorem C52_euclid_poly (F : fieldType) (p q : {poly F}) : exists x y g w z : {poly F},
  [/\ euclid_poly (size q).+1 p q = Ok (polyseq x, polyseq y, polyseq g, polyseq w, polyseq z),
  x * p + y * q = g, p = g * w /\ q = g * z, x * w + y * z = 1 & g %= gcdp p q].
Proof.
have [||||||||||||x [y [g [w [z [E [/eqP kx /eqP ky /eqP kg /eqP kw /eqP kz] e1 [e2 e3] e4]]]]]] := @euclidE (seq F) [comRingType of {poly F}] (@Poly F) (fun s => polyseq (Poly s) == s) (fun p : {poly F} => size p) (mk_poly [:: 0]) (mk_poly [:: 1])
  (fun a b => Ok (p_sub a b)) (@p_mul F) (@p_div F) (@p_opp F) (fun a => p_eq_scalar a 0) _ _ _ _ _ _ _ _ _ (size q).+1 p q; rewrite ?mk0 -?[mk_poly [:: 1]]/(p_identity F) ?C52_identity ?polyseqK ?eqxx //.
- by move=> a b /eqP <- /eqP <-; eexists; first by []; rewrite C52_sub !polyseqK eqxx.
- by move=> a b /eqP <- /eqP <-; rewrite C52_mul; eexists; first by []; rewrite !polyseqK eqxx.
- by move=> a /eqP <-; rewrite C52_opp !polyseqK eqxx.
- by move=> a /eqP <-; rewrite C52_eq_scalar !polyseqK.
- move=> a b /eqP <- /eqP <-; rewrite !polyseqK => nb; rewrite /p_div C52_divrem //=; eexists; first by [].
  by rewrite !polyseqK eqxx; split=> //; rewrite {1}(divp_eq (Poly a) (Poly b)) addrAC subrr add0r ltn_modp.
exists (Poly x), (Poly y), (Poly g), (Poly w), (Poly z); rewrite !polyseqK in e1 e2 e3.
rewrite kx ky kg kw kz; split=> //.
apply/andP; split; first by rewrite dvdp_gcd e2 e3 !dvdp_mulr.
by rewrite -e1 dvdp_add // dvdp_mull // ?dvdp_gcdl ?dvdp_gcdr.
Qed.

Section Matrix.
Variable F : fieldType.
Notation O := (ops_of F).

Lemma axpy_vec n a (x y : svec F) : sv_wf n x -> sv_wf n y ->
  sv_wf n (axpy O a x y) /\ vec n (axpy O a x y) = vec n y + a *: vec n x.
Proof. by move=> wx wy; split; [exact: sv_wf_axpy | apply/colP => i; rewrite !mxE coef_axpy]. Qed.

(** C52: p(A) v is the combination of the iterates A^k v with the coefficients of p *)
Theorem C52_apply (p : {poly F}) n (cs : seq (svec F)) v : cm_wf (CMat n n cs) -> sv_wf n v ->
  exists2 z, p_apply p (CMat n n cs) v = Ok z &
    sv_wf n z /\ vec n z = \sum_(k < size p) p`_k *: iter k (mulmx (mxc n n cs)) (vec n v).
Proof.
move=> W wv; rewrite /p_apply; case: (polyseq p) => [|c0 c].
  by exists [::] => //; split=> //; rewrite big_ord0; apply/colP => i; rewrite !mxE /coef big_nil.
have [w0 e0] := axpy_vec c0 wv (isT : sv_wf n [::]).
have H : forall (d : seq F) y w, sv_wf n y -> sv_wf n w ->
  exists2 st, ofold (fun st ck => do w <- gemv O (CMat n n cs) st.2; Ok (axpy O ck w st.1, w)) (y, w) d = Ok st &
    sv_wf n st.1 /\ vec n st.1 = vec n y + \sum_(k < size d) d`_k *: iter k.+1 (mulmx (mxc n n cs)) (vec n w).
  elim=> [|x d IH] y w wy ww; first by exists (y, w) => //=; rewrite big_ord0 addr0.
  have [z [E Wz Vz]] := gemvE W (proj1 (andP (proj2 (andP ww)))).
  rewrite /ofold -/(ofold _) [fst _]/= [snd _]/= E; cbn [obind].
  have [w1 e1] := axpy_vec x Wz wy.
  have [st -> [W2 V2]] := IH _ _ w1 Wz.
  exists st => //; split=> //; rewrite V2 e1 big_ord_recl /= addrA Vz; congr (_ + _ + _).
  by apply: eq_bigr => k _; rewrite -iterSr.
have [st -> [W2 V2]] := H c _ _ w0 wv; exists st.1 => //; split=> //.
rewrite V2 e0 big_ord_recl /=; congr (_ + _); rewrite -[RHS]add0r; congr (_ + _).
by apply/colP => i; rewrite !mxE /coef big_nil.
Qed.

Lemma char_poly_tr n (A : 'M[F]_n) : char_poly A^T = char_poly A.
Proof. by rewrite /char_poly -det_tr; congr (\det _); apply/matrixP => i j; rewrite !mxE eq_sym. Qed.

(** C52: the companion matrix of a monic polynomial of positive degree has that characteristic polynomial *)
Theorem C52_companion (p : {poly F}) : p \is monic -> (1 < size p)%N ->
  exists2 cs, companion_matrix p = Ok (CMat (size p).-1 (size p).-1 cs) &
    cm_wf0 (CMat (size p).-1 (size p).-1 cs) /\ char_poly (mxc (size p).-1 (size p).-1 cs) = p.
Proof.
move=> mp sp1; have np : p != 0 by rewrite -size_poly_gt0 ltnW.
rewrite /companion_matrix /p_is_monic (leadE np); cbn [obind]; rewrite (monicP mp) eqxx /=.
case: eqP => [e|_]; first by move: sp1; rewrite -ltn_predRL e.
set n := (size p).-1; eexists; first by [].
have n0 : (0 < n)%N by rewrite /n ltn_predRL.
split.
  apply/andP; split=> /=; first by rewrite size_rcons size_map size_iota prednK.
  rewrite all_rcons; apply/andP; split.
    apply/andP; split; first by rewrite /sv_sorted -map_comp map_id iota_ltn_sorted.
    by apply/allP => q /mapP[i]; rewrite mem_iota add0n => /= hi ->.
  by apply/allP => q /mapP[j]; rewrite mem_iota add0n => /= hj ->; rewrite /sv_sorted /sv_below /= andbT -ltn_predRL.
rewrite -[RHS](companionmxK mp) -(char_poly_tr (companionmx p)); congr char_poly; apply/matrixP => j i; rewrite !mxE.
rewrite nth_rcons size_map size_iota; case: ltnP => hi.
  rewrite (nth_map 0%N) ?size_iota // nth_iota // add0n coef_cons coef_nil addr0 /=.
  by rewrite (ltn_eqF hi); case: eqP.
have -> : i = n.-1 :> nat by apply/eqP; rewrite eqn_leq hi -ltnS prednK // ltn_ord.
rewrite eqxx /coef big_map -/n big_mkcond /=.
rewrite (_ : iota 0 n = index_iota 0 n) ?big_mkord; last by rewrite /index_iota subn0.
by rewrite (bigD1 (j : 'I_n)) //= eqxx big1 ?addr0 // => k; rewrite -val_eqE /= => /negbTE ->.
Qed.
(** ... it is refused when the leading coefficient is not 1, and for the constant 1 a column that does not exist is written *)
Theorem C52_companion_refuses (p : {poly F}) : p != 0 -> p \isn't monic -> companion_matrix p = Throw.
Proof. by move=> np mp; rewrite /companion_matrix /p_is_monic (leadE np); cbn [obind]; rewrite -monicE mp. Qed.
Theorem C52_companion_one : companion_matrix (1 : {poly F}) = UB.
Proof. by rewrite /companion_matrix polyseq1 /= eqxx. Qed.

(** what a column of polynomials denotes *)
Definition pcoef (v : seq (nat * seq F)) (i : nat) : {poly F} := \sum_(q <- v | q.1 == i) Poly q.2.

Lemma char_colE j (col : svec F) i : sv_sorted col ->
  pcoef (char_col j col) i = (if i == j then 'X else 0) - (coef col i)%:P.
Proof.
rewrite /char_col => S.
have rest (r : svec F) : \sum_(q <- [seq (q.1, mk_poly [:: - q.2]) | q <- r] | q.1 == i) Poly q.2 = - (coef r i)%:P :> {poly F}.
  rewrite big_map /coef rmorph_sum -sumrN /=; apply: eq_bigr => q _.
  by rewrite C52_const polyseqK polyCN.
have Xe : Poly (mk_poly [:: 0; 1 : F]) = 'X.
  by rewrite C52_make polyseqK; apply/polyP => k; rewrite coef_Poly coefX; case: k => [|[|k]] //=; rewrite nth_nil.
have Xm x : Poly (mk_poly [:: - x; 1 : F]) = 'X - x%:P.
  by rewrite C52_make polyseqK; apply/polyP => k; rewrite coef_Poly coefB coefX coefC; case: k => [|[|k]]; rewrite /= ?nth_nil ?mulr0n ?mulr1n ?sub0r ?subr0 ?oppr0.
elim: col S => [|[k x] col IH] S.
  by rewrite /= /pcoef big_cons big_nil /= Xe addr0 coef_nil polyC0 subr0 eq_sym.
rewrite /=; case: (k =P j) => [->|nkj].
  rewrite /= /pcoef big_cons /= Xm rest coef_cons /= polyCD opprD [j == i]eq_sym; case: eqP => [_|_]; rewrite ?addrA //.
  by rewrite polyC0 subrr add0r.
case: ltnP => hk.
  have := IH (path_sorted S); case: (char_upto j col) => [[a r] b] /= e.
  rewrite /pcoef big_cons -/(pcoef _ i) e coef_cons polyCD opprD /= C52_const polyseqK polyCN.
  by case: eqP => _; rewrite ?polyC0 ?oppr0 ?add0r // addrCA.
rewrite /pcoef !cat_cons !cat0s big_cons (rest ((k, x) :: col)) [fst _]/= [snd _]/= Xe eq_sym.
by case: eqP => _; rewrite ?sub0r.
Qed.

(** C52: the characteristic matrix is xI - A *)
Theorem C52_characteristic n (cs : seq (svec F)) : cm_wf (CMat n n cs) ->
  exists2 ps, characteristic_matrix (CMat n n cs) = Ok (CMat n n ps) &
    \matrix_(i < n, j < n) pcoef (nth [::] ps j) i = char_poly_mx (mxc n n cs).
Proof.
move=> /cm_wfP[/= s W]; rewrite /characteristic_matrix /= eqxx /=.
exists [seq char_col j (nth [::] cs j) | j <- iota 0 n].
  rewrite (omapm_Ok_eq (g := fun j => char_col j (nth [::] cs j))) // => j; rewrite mem_iota add0n => /= hj.
  by rewrite (oget_nth [::]) ?s.
apply/matrixP => i j; rewrite !mxE (nth_map 0%N) ?size_iota // nth_iota // add0n char_colE.
  by rewrite -val_eqE; case: eqP => _; rewrite ?mulr1n ?mulr0n.
by have /and3P[] := nth_wf j W.
Qed.
Theorem C52_characteristic_refuses (A : cmat F) : nrow A != ncol A -> characteristic_matrix A = Throw.
Proof. by rewrite /characteristic_matrix => ->. Qed.
End Matrix.

(** concrete cases *)
Definition yields (T : eqType) (x : outcome T) (r : T) : bool := if x is Ok y then y == r else false.
Example ex_mul : yields (p_mul [:: 1; 1 : F2] [:: 1; 1]) [:: 1; 0; 1]. Proof. by vm_compute. Qed.
Example ex_divrem : yields (p_divrem [:: 1; 1; 1; 1 : F2] [:: 0; 1; 1]) ([:: 0; 1], [:: 1; 1]). Proof. by vm_compute. Qed.
Example ex_gcd : yields (p_gcd [:: 1; 0; 1 : F2] [:: 0; 1; 1]) [:: 1; 1]. Proof. by vm_compute. Qed.
Example ex_euclid : yields (euclid_int 19 12 (- 18%:Z)) (1, 1, - 6%:Z, - 2%:Z, 3%:Z). Proof. by vm_compute. Qed.
Example ex_companion : yields (do A <- companion_matrix [:: 1; 1; 0; 1 : F2]; Ok (cols A))
  [:: [:: (1%N, 1)]; [:: (2%N, 1)]; [:: (0%N, 1); (1%N, 1); (2%N, 0)]]. Proof. by vm_compute. Qed.
Example ex_characteristic : yields (do A <- characteristic_matrix (CMat 2 2 [:: [:: (0%N, 1 : F2)]; [:: (0%N, 1)]]); Ok (cols A))
  [:: [:: (0%N, [:: 1; 1])]; [:: (0%N, [:: 1]); (1%N, [:: 0; 1])]]. Proof. by vm_compute. Qed.
(** the last column of the companion matrix keeps zero coefficients: it is not a well formed sparse column (no stored zeros) *)
Theorem C52_companion_stored_zeros : if companion_matrix [:: 1; 1; 0; 1 : F2] is Ok A then ~~ cm_wf A else false.
Proof. by vm_compute. Qed.
