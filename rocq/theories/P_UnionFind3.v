(** Components of a graph and the zeroth persistent Betti number. *)
From mathcomp Require Import all_ssreflect all_algebra zify.
From Verif Require Import Outcome M_SparseVec M_Perm M_ColMatrix M_Reduce M_Homology M_Persist M_UnionFind
  S_Linalg S_Perm S_Homology S_Persist S_UnionFind P_Outcome P_SparseVec P_Sort P_Persist P_Pairs P_UnionFind P_UnionFind2.
Set Implicit Arguments.
Unset Strict Implicit.
Unset Printing Implicit Defensive.
Import GRing.Theory.
Local Open Scope ring_scope.

Section Alg.
Variable F : fieldType.
Variables (n q : nat) (cs : seq (svec F)).
Hypothesis scs : size cs = q.
(** columns c_i e_i + c_j e_j with c_i + c_j = 0 *)
Hypothesis col2 : forall k, (k < q)%N -> exists i j c, [/\ nth [::] cs k = [:: (i, c); (j, - c)], c != 0, (i < n)%N & (j < n)%N].
Let E := [seq edge (0%N, 0 : F) c | c <- cs].
Let B := mxc n q cs.

Definition ev (i : nat) : 'rV[F]_n := \row_x ((x : nat) == i)%:R.

Lemma ev_row (i : 'I_n) m (A : 'M[F]_(n, m)) : ev i *m A = row i A.
Proof.
apply/rowP => y; rewrite !mxE (bigD1 i) //= mxE eqxx mul1r big1 ?addr0 // => x ne.
by rewrite mxE (_ : ((x : nat) == i) = false) ?mul0r //; apply/negbTE.
Qed.

Lemma ev_mask (i : 'I_n) (s : pred nat) : s (i : nat) -> (ev i <= mask F n s)%MS.
Proof.
move=> si; have -> : ev i = row i (mask F n s); last exact: row_sub.
apply/rowP => y; rewrite !mxE; case: (eqVneq i y) => [e|ne]; first by rewrite e eqxx mulr1n -e si.
by rewrite mulr0n (_ : ((y : nat) == i) = false) //; apply/negbTE; rewrite eq_sym.
Qed.

Lemma bsp_row k (t : pred nat) : (k < q)%N -> t k -> exists i j c, [/\ nth (0%N, 0%N) E k = (i, j), c != 0 &
  (c *: (ev i - ev j) <= Bsp B t)%MS].
Proof.
move=> lk tk; have [i [j [c [e c0 li lj]]]] := col2 lk; exists i, j, c; split=> //.
  by rewrite (nth_map [::]) ?scs // e.
have -> : c *: (ev i - ev j) = row (Ordinal lk) (Bsp B t); last exact: row_sub.
apply/rowP => y; rewrite [RHS]mxE mask_mul /= tk !mxE /= e coef_cons coef_cons coef_nil addr0 /=.
rewrite ![_ == (y : nat)]eq_sym; case: eqP => _; case: eqP => _;
  by rewrite ?subr0 ?sub0r ?subrr ?mulr0 ?mulr1 ?mulrN1 ?addr0 ?add0r ?subrr.
Qed.

Lemma conn_bsp m (t : pred nat) : (forall k, (k < m)%N -> (k < q)%N -> t k) -> forall i j, conn (take m E) i j -> (ev i - ev j <= Bsp B t)%MS.
Proof.
move=> tm i j; elim=> {i j} [i|i j|i j _|i j l _ IH1 _ IH2].
- by rewrite subrr sub0mx.
- move=> /(nthP (0%N, 0%N)) [k]; rewrite size_take_min leq_min ltn_neqAle => /andP [lm lk] e.
  move: lk; rewrite size_map scs => lk; rewrite -ltn_neqAle in lm.
  have [i' [j' [c [e' c0 H]]]] := bsp_row lk (tm k lm lk).
  move: e; rewrite nth_take // e' => -[<- <-].
  by rewrite -[ev _ - _](scalerK c0) scalemx_sub.
- by move=> H; rewrite -opprB -scaleN1r; exact: scalemx_sub.
- by have := addmx_sub IH1 IH2; rewrite addrA subrK.
Qed.

Variables (m : nat) (t : pred nat) (rho : nat -> nat) (vle : nat -> nat -> Prop).
Hypothesis tm : forall k, (k < q)%N -> t k = (k < m)%N.
Hypothesis st : stage n vle E m rho.

Definition Phi : 'M[F]_n := \matrix_(i, r) ((r : nat) == rho i)%:R.

Lemma row_Phi (i : 'I_n) : row i Phi = ev (rho i).
Proof. by apply/rowP => y; rewrite !mxE. Qed.

Lemma bsp_Phi : Bsp B t *m Phi = 0.
Proof.
apply/row_matrixP => k; rewrite row_mul row0.
have [i [j [c [e c0 li lj]]]] := col2 (ltn_ord k).
apply/rowP => y; rewrite mxE [RHS]mxE.
have [s1 s2 s3 s4] := st.
case tk : (t k); last by apply: big1 => x _; rewrite [_ 0 x]mxE mask_mul tk mul0r.
have nE : nth (0%N, 0%N) E k = (i, j) by rewrite (nth_map [::]) ?scs // e.
have rij : rho i = rho j.
  apply: s3; rewrite -nE -(nth_take (0%N, 0%N) (_ : k < m)%N) -?tm //.
  by apply: mem_nth; rewrite size_take_min leq_min -tm // tk size_map scs /=.
under eq_bigr => x _ do rewrite [_ 0 x]mxE mask_mul tk [_ x y]mxE.
under eq_bigr => x _ do rewrite [B^T _ _]mxE [B _ _]mxE e coef_cons coef_cons coef_nil addr0 /=.
have S (a : nat) (d : F) : \sum_(x < n) (if a == x then d else 0) * ((y : nat) == rho x)%:R =
  if (a < n)%N then d * ((y : nat) == rho a)%:R else 0.
  case: ltnP => la; last by apply: big1 => x _; case: eqP => [e1|]; rewrite ?mul0r //; move: la; rewrite e1 leqNgt ltn_ord.
  rewrite (bigD1 (Ordinal la)) //= eqxx big1 ?addr0 // => x ne; case: eqP => [e1|]; rewrite ?mul0r //.
  by case/eqP: ne; apply: val_inj.
under eq_bigr => x _ do rewrite mulrDl.
by rewrite big_split /= !S -rij li lj mulNr subrr.
Qed.

Lemma Phi_ker : (kermx Phi :=: Bsp B t)%MS.
Proof.
apply/eqmxP/andP; split; last by rewrite sub_kermx bsp_Phi.
have [s1 s2 s3 s4] := st.
have H : (1%:M - Phi <= Bsp B t)%MS.
  apply/row_subP => i; rewrite linearB /= row_Phi row1.
  have -> : delta_mx 0 i = ev i by apply/rowP => y; rewrite !mxE eqxx.
  by apply: (@conn_bsp m) (s2 i (ltn_ord i)) => k lk lq; rewrite tm.
have -> : kermx Phi = kermx Phi *m (1%:M - Phi) by rewrite mulmxBr mulmx1 mulmx_ker subr0.
exact: submx_trans (submxMl _ _) H.
Qed.

(** the classes alive at t with a vertex in s are the roots in s, if s is closed under going to the root *)
Lemma rank_stage (p : nat) (B1 : 'M[F]_(p, n)) (s : pred nat) : B1 = 0 -> (forall i, (i < n)%N -> s i -> s (rho i)) ->
  pbet B1 B s t = count (fun r => (rho r == r) && s r) (iota 0 n).
Proof.
move=> -> cl; have [s1 s2 s3 s4] := st.
have Z : (Zsp (0 : 'M[F]_(p, n)) s :=: mask F n s)%MS.
  rewrite /Zsp trmx0; apply/eqmxP; rewrite capmxSr sub_capmx submx_refl andbT sub_kermx mulmx0 eqxx //.
rewrite /pbet Z (cap_eqmx Z (eqmx_sym Phi_ker)) -(mxrank_mul_ker (mask F n s) Phi) addnK.
have -> : \rank (mask F n s *m Phi) = \rank (mask F n (fun r => (rho r == r) && s r)).
  apply/eqP; rewrite eqn_leq; apply/andP; split; apply: mxrankS; apply/row_subP => i.
    case si: (s i); last first.
      rewrite (_ : row i _ = 0) ?sub0mx //; apply/rowP => y; rewrite mxE mask_mul si [RHS]mxE //.
    have [lr rr] := s1 i (ltn_ord i).
    have -> : row i (mask F n s *m Phi) = ev (Ordinal lr).
      by rewrite -row_Phi; apply/rowP => y; rewrite [LHS]mxE mask_mul si [RHS]mxE.
    by apply: ev_mask; rewrite /= rr eqxx cl.
  case E1 : ((rho i == i) && s i); last first.
    by rewrite (_ : row i _ = 0) ?sub0mx //; apply/rowP => y; rewrite !mxE E1 /=; case: eqP => _; rewrite ?mulr0n ?mulr1n.
  have /andP [/eqP ri si] := E1.
  have -> : row i (mask F n (fun r => (rho r == r) && s r)) = row i (mask F n s *m Phi); last exact: row_sub.
  apply/rowP => y; rewrite [RHS]mxE mask_mul si !mxE E1 ri [i == y]eq_sym -val_eqE /=.
  by case: eqP => _; rewrite ?mulr0n ?mulr1n.
rewrite rank_mask -sum1dep_card -sum1_count big_mkcond [RHS]big_mkcond /=.
have -> : iota 0 n = index_iota 0 n by rewrite /index_iota subn0.
by rewrite big_mkord.
Qed.
End Alg.
