(** C25: cubical complexes. *)
From mathcomp Require Import all_ssreflect all_algebra zify.
From Verif Require Import Outcome M_SparseVec M_Perm M_ColMatrix M_CSC M_Simplicial M_Cubical S_Perm S_Linalg S_Homology S_Cubical P_Outcome P_SparseVec P_SparseVec2 P_Trie P_Simplicial P_ScOps P_ScBuild P_CubeList P_Cubical P_CubeOps P_CubeBoundary.
Set Implicit Arguments.
Unset Strict Implicit.
Unset Printing Implicit Defensive.
Import GRing.Theory.

(** ** the specification and the recursive definitions agree *)
Lemma is_cubeP D s : is_cube D s <-> cval D s.
Proof.
rewrite -cvalP /cube_valid /is_cube /lo /hi; split.
  move=> [-> H]; rewrite eqxx; apply/allP => i; rewrite mem_iota add0n => /H; lia.
move=> /andP [/eqP -> /allP H]; split=> // i li; have := H i; rewrite mem_iota add0n => /(_ li); lia.
Qed.

Lemma loS a b s i : lo (a :: b :: s) i.+1 = lo s i. Proof. exact: nth2S. Qed.
Lemma hiS a b s i : hi (a :: b :: s) i.+1 = hi s i. Proof. exact: nth2SS. Qed.
Lemma lo0 a b s : lo (a :: b :: s) 0 = a. Proof. by []. Qed.
Lemma hi0 a b s : hi (a :: b :: s) 0 = b. Proof. by []. Qed.
Lemma at_point0 a b s x : at_point (a :: b :: s) 0 x = [:: x, x & s]. Proof. by rewrite /at_point /= drop0. Qed.
Lemma at_pointS a b s i x : at_point (a :: b :: s) i.+1 x = a :: b :: at_point s i x.
Proof. by rewrite /at_point mulnS. Qed.
Lemma dim_ofS i a b s : dim_of i.+1 (a :: b :: s) = (a != b) + dim_of i s.
Proof.
rewrite /dim_of iotaS [count _ (_ :: _)]/= count_map lo0 hi0; congr addn.
by apply: eq_count => j; rewrite /preim /= loS hiS.
Qed.

Lemma dim_ofP D s : cval D s -> dim_of D s = cdim s.
Proof.
elim: D s => [|D IH] [|a [|b s]] // /and3P [l1 l2 v]; rewrite dim_ofS IH // [cdim _]/=; congr addn.
case: (eqVneq a b) => [->|]; rewrite ?subnn //; move: l1 l2; clear; lia.
Qed.

Lemma is_subcubeP D t s : cval D s -> is_subcube D t s <-> subc t s.
Proof.
move=> vs; split.
  move=> [/is_cubeP vt H]; elim: D t s vs vt H => [|D IH] [|a [|b t]] [|c [|d s]] // /and3P [l1 l2 vs] /and3P [k1 k2 vt] H.
  have [] := H 0 isT; rewrite !lo0 !hi0 => h1 h2; apply/and4P; split=> //; apply: IH => // i li; have := H i.+1 li.
  by rewrite !loS !hiS.
move=> st; split; first by apply/is_cubeP; exact: subc_val vs st.
elim: D t s vs st => [|D IH] [|a [|b t]] [|c [|d s]] // /and3P [l1 l2 vs] /and4P [h1 h2 h3 h4] [|i] li; first by [].
by rewrite !loS !hiS; exact: IH.
Qed.

(** faces, direction by direction *)
Lemma cbdE (F : ringType) (g : seq nat -> F) D s : cval D s ->
  (cbd g s = \sum_(0 <= i < D | lo s i != hi s i) (-1) ^+ dim_of i s * (g (at_point s i (hi s i)) - g (at_point s i (lo s i))))%R.
Proof.
elim: D s g => [|D IH] [|a [|b s]] // g; first by rewrite /cbd big_nil big_geq.
move=> /and3P [l1 l2 v]; rewrite cbd_cons big_ltn_cond // big_add1 [D.+1.-1]/= lo0 hi0 !at_point0.
under eq_bigl => i do rewrite loS hiS.
under eq_bigr => i _ do rewrite dim_ofS !at_pointS loS hiS.
case: eqP => [e|ne]; first by rewrite (IH s _ v).
rewrite [~~ false]/= /dim_of [iota 0 0]/= [count _ [::]]/= expr0 mul1r; congr (_ + _)%R; rewrite (IH s _ v) -sumrN.
by apply: eq_bigr => i _; rewrite exprS mulN1r mulNr.
Qed.

Lemma mem_cfaces D s u : cval D s -> (exists2 f, f \in cfaces s & u = f.1) <->
  exists2 i, i < D /\ lo s i != hi s i & u = at_point s i (lo s i) \/ u = at_point s i (hi s i).
Proof.
elim: D s u => [|D IH] [|a [|b s]] // u; first by move=> _; split=> [[f]|[i []]].
move=> /and3P [l1 l2 v].
have R1 f : f \in cfaces s -> exists2 i, i < D.+1 /\ lo (a :: b :: s) i != hi (a :: b :: s) i &
    a :: b :: f.1 = at_point (a :: b :: s) i (lo (a :: b :: s) i) \/ a :: b :: f.1 = at_point (a :: b :: s) i (hi (a :: b :: s) i).
  move=> fi; have [i [li ni] e] := (IH s f.1 v).1 (ex_intro2 _ _ f fi erefl).
  by exists i.+1; rewrite !loS !hiS ?at_pointS //; case: e => ->; [left|right].
have R2 i u' : i < D -> lo s i != hi s i -> u' = at_point s i (lo s i) \/ u' = at_point s i (hi s i) ->
    exists2 f, f \in cfaces s & u' = f.1.
  by move=> li ni e; apply: (IH s u' v).2; exists i.
cbn [cfaces]; case: (eqVneq a b) => [e|ne]; split.
- by move=> [_ /mapP [f /R1 fi ->] ->].
- move=> [[|i] []]; first by rewrite lo0 hi0 e eqxx.
  rewrite loS hiS !at_pointS => li ni H; have [|f fi e'] := R2 i (drop 2 u) li ni; first by case: H => ->; rewrite /= drop0; [left|right].
  by exists (a :: b :: f.1, f.2); [exact: map_f|rewrite -e' /=; case: H => ->; rewrite /= drop0].
- move=> [f]; rewrite !inE => /or3P [/eqP ->|/eqP ->|/mapP [g /R1 gi ->] ->] // ->.
  + by exists 0; [|right; rewrite hi0 at_point0].
  + by exists 0; [|left; rewrite lo0 at_point0].
- move=> [[|i] []]; first rewrite lo0 hi0 !at_point0 => _ _ [->|->].
  + by exists (a :: a :: s, (-1)%R); rewrite // !inE eqxx orbT.
  + by exists (b :: b :: s, 1%R); rewrite // !inE eqxx.
  rewrite loS hiS !at_pointS => li ni H; have [|f fi e'] := R2 i (drop 2 u) li ni; first by case: H => ->; rewrite /= drop0; [left|right].
  exists (a :: b :: f.1, (- f.2)%R); last by rewrite -e' /=; case: H => ->; rewrite /= drop0.
  by rewrite !inE (map_f (fun f => (a :: b :: f.1, (- f.2)%R)) fi) !orbT.
Qed.

(** ** invariants of every complex the API builds *)
Lemma ccontains_iff D cl X s : cinv D cl X -> 0 < D -> size s = (2 * D)%N -> ccontains X s <-> s \in cl (cdim s).
Proof.
move=> [_ _ _ _ T] D0 ss; have n0 : s != [::] by rewrite -size_eq0 ss; move: D0; clear; lia.
rewrite /ccontains (cfind_ok T n0 ss); case: ifP => si; split=> //; first by move=> _; eexists.
by move=> [i].
Qed.

Lemma cpreserves_ext D cl X cl' X' : cinv D cl X -> cinv D cl' X' -> 0 < D -> extends cl cl' -> cpreserves X X'.
Proof.
move=> [[_ _ _ _ q] _ _ _ T] [_ _ _ _ T'] D0 ex t i; rewrite q => st.
have n0 : t != [::] by rewrite -size_eq0 st; move: D0; clear; lia.
rewrite (cfind_ok T) // (cfind_ok T') //; case: ifP => // si [<-].
have [e ->] := ex (cdim t); by rewrite mem_cat si index_cat si.
Qed.

Lemma chas_faces_iff D cl X s : cinv D cl X -> 0 < D -> cval D s ->
  chas_faces X s <-> all (fun f => f.1 \in cl (cdim f.1)) (cfaces s).
Proof.
move=> iv D0 vs; have [[_ _ _ _ q] _ _ _ _] := iv; rewrite /chas_faces q.
have sf f : f \in cfaces s -> size f.1 = (2 * D)%N by move=> fi; have [/size_cval] := cfaces_val vs fi.
split=> [H|/allP H i li ni].
  apply/allP => f fi; apply/(ccontains_iff iv D0 (sf f fi)).
  have [i [li ni] e] := (mem_cfaces f.1 vs).1 (ex_intro2 _ _ f fi erefl).
  by have [h1 h2] := H i li ni; case: e => ->.
have K u : u = at_point s i (lo s i) \/ u = at_point s i (hi s i) -> ccontains X u.
  move=> e; have [|f fi ->] := (mem_cfaces u vs).2; first by exists i.
  by apply/(ccontains_iff iv D0 (sf f fi)); exact: H.
by split; apply: K; [left|right].
Qed.

Lemma ccell_is_iff D cl X k i s : cinv D cl X -> ccell_is X k i s <-> i < size (cl k) /\ s = nth [::] (cl k) i.
Proof.
move=> iv; have [[q1 _ _ _ _] _ _ Ci _] := iv; split=> [[n]|[li ->]].
  case: (leqP k D) => lk; last by rewrite /cc_ncell /oget drop_oversize // q1.
  by rewrite (cncell_ok iv lk) => -[<-] [li]; rewrite (ccube_ok iv li) => -[->].
exists (size (cl k)); last by rewrite (ccube_ok iv li).
apply: (cncell_ok iv); rewrite leqNgt; apply/negP => le; by rewrite Ci in li.
Qed.

Lemma add_extends (cl : cells_t) d s : extends cl (upd cl d (rcons (cl d) s)).
Proof.
by move=> d'; rewrite /upd; case: eqP => [->|_]; [exists [:: s]; rewrite cats1|exists [::]; rewrite cats0].
Qed.

Lemma cadd_step D cl X s : cinv D cl X -> 0 < D -> cval D s -> exists X' r cl',
  [/\ cc_add X s = Ok (X', (cdim s, r)), cinv D cl' X', extends cl cl',
      forall t, (t \in cl' (cdim t)) = (t \in cl (cdim t)) || (t == s) && all (fun f => f.1 \in cl (cdim f.1)) (cfaces s) &
      cc_find X' s = Ok r /\ (s \in cl (cdim s) -> X' = X)].
Proof.
move=> iv D0 vs; have [_ _ _ _ T] := iv; have ss := size_cval vs; have n0 := val_nonnil D0 vs.
have := add_ok D0 iv vs; rewrite /=; case: ifP => si.
  move=> E; exists X, (Some (index s (cl (cdim s)))), cl; split=> //; first exact: extends_refl.
    by move=> t; case: eqP => [->|]; rewrite ?si ?orbF.
  by split=> //; rewrite (cfind_ok T) // si.
case: ifP => fb; last first.
  move=> E; exists X, None, cl; split=> //; first exact: extends_refl.
    by move=> t; rewrite andbF orbF.
  by split=> //; rewrite (cfind_ok T) // si.
move=> [X' E iv']; exists X', (Some (size (cl (cdim s)))), (upd cl (cdim s) (rcons (cl (cdim s)) s)); split=> //.
- exact: add_extends.
- move=> t; rewrite andbT /upd; case: (eqVneq (cdim t) (cdim s)) => [->|ne]; first by rewrite mem_rcons inE orbC.
  by case: eqP => [e|_]; rewrite ?orbF //; rewrite e eqxx in ne.
- split=> //; have [_ _ _ _ T'] := iv'; rewrite (cfind_ok T') // /upd eqxx mem_rcons mem_head.
  by rewrite -cats1 index_cat si /= eqxx addn0.
Qed.

Lemma crec_step D cl X s : cinv D cl X -> 0 < D -> cval D s -> exists X' r cl',
  [/\ cc_add_recursive X s = Ok (X', r), cinv D cl' X', extends cl cl',
      forall t, cval D t -> (t \in cl' (cdim t)) = (t \in cl (cdim t)) || subc t s &
      if s \in cl (cdim s) then X' = X /\ r = [:: (cdim s, index s (cl (cdim s)))] else new_cells cl cl' r].
Proof.
move=> iv D0 vs; have := rec_ok D0 iv vs; rewrite /=; case: ifP => si.
  move=> E; exists X, [:: (cdim s, index s (cl (cdim s)))], cl; split=> //; first exact: extends_refl.
  move=> t _; case st: (subc t s); rewrite ?orbF ?orbT //; exact: csub_closed iv si st.
move=> [X' [cl' [new [E iv' ex ct nw]]]]; by exists X', new, cl'.
Qed.

Definition Qb (n : nat) (R : nat -> nat -> nat -> bool) (X : ccx) : Prop :=
  exists cl, cinv 3 cl X /\ forall t, cval 3 t -> t \in cl (cdim t) <->
    exists a b c, R a b c /\ subc t [:: a; a.+1; b; b.+1; c; c.+1].

Lemma Qb_eq n R R' X : (forall a b c, R a b c = R' a b c) -> Qb n R X -> Qb n R' X.
Proof.
move=> e [cl [iv H]]; exists cl; split=> // t vt; rewrite H //.
by split=> -[a [b [c [r s]]]]; exists a, b, c; rewrite ?e // -?e.
Qed.

Lemma generate_ok n : 1 < n -> exists2 X, cc_generate n = Ok X & Qb n (fun a b c => [&& a < n.-1, b < n.-1 & c < n.-1]) X.
Proof.
move=> n2; rewrite /cc_generate ltnNge n2; cbn [negb]; set m := n.-1.
set g3 := fun i j X k => do r <- cc_add_recursive X [:: i; i.+1; j; j.+1; k; k.+1]; Ok r.1.
have Q3 i j k X R : Qb n R X -> exists2 X', g3 i j X k = Ok X' & Qb n (fun a b c => R a b c || [&& a == i, b == j & c == k]) X'.
  move=> [cl [iv H]]; set s := [:: i; i.+1; j; j.+1; k; k.+1].
  have vs : cval 3 s by rewrite /= !leqnSn !leqnn.
  have [X' [r [cl' [E iv' ex ct _]]]] := crec_step iv isT vs; exists X'; first by rewrite /g3 E.
  exists cl'; split=> // t vt; rewrite ct //; split.
    case/orP => [/(H t vt) [a [b [c [h1 h2]]]]|st]; first by exists a, b, c; rewrite h1.
    by exists i, j, k; rewrite !eqxx orbT.
  move=> [a [b [c [/orP [h|/and3P [/eqP -> /eqP -> /eqP ->]] st]]]]; last by rewrite st orbT.
  by rewrite (H t vt).2 //; exists a, b, c.
have Q2 i j X R : Qb n R X -> exists2 X', ofold (g3 i j) X (iota 0 m) = Ok X' & Qb n (fun a b c => R a b c || [&& a == i, b == j & c < m]) X'.
  move=> q; have [||X' E q'] := @ofold_iota_ind _ (g3 i j) (fun k => Qb n (fun a b c => R a b c || [&& a == i, b == j & c < k])) m X.
  - by apply: Qb_eq q => a b c; rewrite ltn0 !andbF orbF.
  - move=> k Y lk qk; have [Y' E q'] := Q3 i j k Y _ qk; exists Y' => //; apply: Qb_eq q' => a b c.
    rewrite -orbA; congr orb; rewrite [in RHS]ltnS [in RHS]leq_eqVlt; by case: (a == i); case: (b == j); rewrite //= orbC.
  by exists X'.
have Q1 i X R : Qb n R X -> exists2 X', ofold (fun X j => ofold (g3 i j) X (iota 0 m)) X (iota 0 m) = Ok X' & Qb n (fun a b c => R a b c || [&& a == i, b < m & c < m]) X'.
  move=> q; have [||X' E q'] := @ofold_iota_ind _ (fun X j => ofold (g3 i j) X (iota 0 m)) (fun j => Qb n (fun a b c => R a b c || [&& a == i, b < j & c < m])) m X.
  - by apply: Qb_eq q => a b c; rewrite ltn0 !andbF orbF.
  - move=> j Y lj qj; have [Y' E q'] := Q2 i j Y _ qj; exists Y' => //; apply: Qb_eq q' => a b c.
    rewrite -orbA; congr orb; rewrite [in RHS]ltnS [in RHS]leq_eqVlt; by case: (a == i); case: (b == j); case: (c < m); rewrite //= ?andbF ?orbF ?orbT.
  by exists X'.
have [||X' E q'] := @ofold_iota_ind _ (fun X i => ofold (fun X j => ofold (g3 i j) X (iota 0 m)) X (iota 0 m)) (fun i => Qb n (fun a b c => [&& a < i, b < m & c < m])) m (cc_new 3).
- exists (fun _ => [::]); split; first exact: cinv_new.
  by move=> t vt; split=> // -[a [b [c []]]].
- move=> i Y li qi; have [Y' E q'] := Q1 i Y _ qi; exists Y' => //; apply: Qb_eq q' => a b c.
  rewrite [in RHS]ltnS [in RHS]leq_eqVlt; by case: (a == i); case: (b < m); case: (c < m); rewrite //= ?andbF ?orbF ?orbT ?andbT.
by exists X'.
Qed.

Lemma cbuilt_inv X : cc_built X -> exists2 cl, cinv (cc_maxdim X) cl X & (cc_maxdim X = 0 -> forall d, cl d = [::]).
Proof.
elim=> {X}.
- by move=> m; exists (fun _ => [::]) => //; have := cinv_new m; case: (cinv_new m) => -[_ _ _ _ ->].
- move=> X s X' r _ [cl iv z] E; have vs : cval (cc_maxdim X) s by move: E; rewrite /cc_add cvalP; case: (cval _ _).
  case: (posnP (cc_maxdim X)) => [D0|D0].
    have [_ vs'] : _ /\ _ := conj iv vs; rewrite D0 in iv vs'; have [E1 _] := add0 iv vs'; move: E; rewrite E1 => -[<- _].
    by exists cl; rewrite ?D0 // => _; exact: z.
  have [X1 [r1 [cl1 [E1 iv1 _ _ _]]]] := cadd_step iv D0 vs; move: E; rewrite E1 => -[<- _].
  have q : cc_maxdim X1 = cc_maxdim X by case: (iv1) => -[].
  by exists cl1; rewrite q // => z0; rewrite z0 in D0.
- move=> X s X' r _ [cl iv z] E; have vs : cval (cc_maxdim X) s by move: E; rewrite /cc_add_recursive cvalP; case: (cval _ _).
  case: (posnP (cc_maxdim X)) => [D0|D0].
    have [_ vs'] : _ /\ _ := conj iv vs; rewrite D0 in iv vs'; have [_ E1] := add0 iv vs'; move: E; rewrite E1 => -[<- _].
    by exists cl; rewrite ?D0 // => _; exact: z.
  have [X1 [r1 [cl1 [E1 iv1 _ _ _]]]] := crec_step iv D0 vs; move: E; rewrite E1 => -[<- _].
  have q : cc_maxdim X1 = cc_maxdim X by case: (iv1) => -[].
  by exists cl1; rewrite q // => z0; rewrite z0 in D0.
- move=> X m X' _ [cl iv z]; rewrite /cc_set_dimension; case E: (cc_total X) => [n| | |] //; cbn [obind].
  case: posnP => // n0 [<-]; have c0 : forall d, cl d = [::] by apply: ctotal_0 iv _; exists n => //; rewrite n0.
  by exists cl => //=; exact: cinv_reserve.
- move=> X k X' _ [cl iv z] E; have lk : k <= cc_maxdim X by move: E; rewrite /cc_skeleton; case: ltnP.
  case: (posnP (cc_maxdim X)) => [D0|D0].
    move: E; rewrite /cc_skeleton D0; rewrite D0 leqn0 in lk; rewrite (eqP lk); cbn [ltn].
    rewrite [iota 0 1]/= ofold_cons /cc_cubes; have [[_ q2 _ _ _] _ Wi _ _] := iv; have [_ w2 _ _] := Wi 0 isT.
    rewrite (oget_nth [::]) ?q2 //; cbn [obind]; rewrite w2 z // => -[<-].
    exists (fun _ => [::]) => //; have := cinv_new 0; by case: (cinv_new 0) => -[_ _ _ _ ->].
  have [Y [clY [E1 ivY cY]]] := skeleton_ok D0 iv lk; move: E; rewrite E1 => -[<-].
  have q : cc_maxdim Y = cc_maxdim X by case: (ivY) => -[].
  by exists clY; rewrite q // => z0; rewrite z0 in D0.
- move=> n X E; have n2 : 1 < n by move: E; rewrite /cc_generate; case: ltnP.
  have [X1 E1 [cl [iv _]]] := generate_ok n2; move: E; rewrite E1 => -[<-].
  have q : cc_maxdim X1 = 3 by case: (iv) => -[].
  by exists cl; rewrite q.
Qed.

(** ** C25 *)

(** Every public call on a complex the API built is defined; what is not a cube of the ambient dimension is refused. *)
Theorem C25_defined X s k : cc_built X ->
  [/\ (is_cube (cc_maxdim X) s -> (exists X' r, cc_add X s = Ok (X', r)) /\ exists X' r, cc_add_recursive X s = Ok (X', r)),
      (~ is_cube (cc_maxdim X) s -> cc_add X s = Throw /\ cc_add_recursive X s = Throw),
      exists r, cc_find X s = Ok r,
      (k <= cc_maxdim X -> exists2 n, cc_ncell X k = Ok n & forall i, i < n -> exists t, cc_cube X k i = Ok t) &
      if k <= cc_maxdim X then exists Y, cc_skeleton X k = Ok Y else cc_skeleton X k = Throw].
Proof.
move=> b; have [cl iv z] := cbuilt_inv b; split.
- move=> /is_cubeP vs; case: (posnP (cc_maxdim X)) => [D0|D0].
    have vs' := vs; rewrite D0 in vs' iv; have [-> ->] := add0 iv vs'; by split; do 2 eexists.
  have [X1 [r1 [cl1 [E1 _ _ _ _]]]] := cadd_step iv D0 vs; have [X2 [r2 [cl2 [E2 _ _ _ _]]]] := crec_step iv D0 vs.
  by rewrite E1 E2; split; do 2 eexists.
- move=> ns; have vs : ~~ cval (cc_maxdim X) s by apply/negP => /is_cubeP.
  by rewrite /cc_add /cc_add_recursive cvalP vs.
- by have [_ _ _ _ [al _ _]] := iv; rewrite /cc_find al; eexists.
- move=> lk; exists (size (cl k)); first exact: cncell_ok iv lk.
  by move=> i li; rewrite (ccube_ok iv li); eexists.
- case: leqP => lk; last by rewrite /cc_skeleton lk.
  case: (posnP (cc_maxdim X)) => [D0|D0]; last by have [Y [clY [E _ _]]] := skeleton_ok D0 iv lk; exists Y.
  rewrite /cc_skeleton D0; rewrite D0 leqn0 in lk; rewrite (eqP lk); cbn [ltn].
  rewrite [iota 0 1]/= ofold_cons /cc_cubes; have [[_ q2 _ _ _] _ Wi _ _] := iv; have [_ w2 _ _] := Wi 0 isT.
  by rewrite (oget_nth [::]) ?q2 //; cbn [obind]; rewrite w2 z //; eexists.
Qed.

(** find_idx and get_cube are inverse to each other: a cube has one index *)
Theorem C25_find X s i : cc_built X -> 0 < cc_maxdim X -> size s = (2 * cc_maxdim X)%N ->
  cc_find X s = Ok (Some i) <-> ccell_is X (dim_of (cc_maxdim X) s) i s.
Proof.
move=> b D0 ss; have [cl iv _] := cbuilt_inv b; have [_ _ _ _ T] := iv.
have n0 : s != [::] by rewrite -size_eq0 ss; move: D0; clear; lia.
rewrite (cfind_ok T n0 ss) (ccell_is_iff _ _ _ iv); split.
  case: ifP => // si [<-]; have [vs _ _] := cl_cube iv si; by rewrite (dim_ofP vs) index_mem nth_index.
move=> [li e]; have si := mem_nth [::] li; rewrite -e in si; have [vs d _] := cl_cube iv si.
rewrite d si; congr (Ok (Some _)); have [_ u _] := cinv_Wc (dim_of (cc_maxdim X) s) iv.
by have := index_uniq [::] li u; rewrite -e.
Qed.

(** every stored cube is a cube of the ambient dimension, filed under its dimension *)
Theorem C25_dimension X k i s : cc_built X -> ccell_is X k i s -> is_cube (cc_maxdim X) s /\ dim_of (cc_maxdim X) s = k.
Proof.
move=> b; have [cl iv _] := cbuilt_inv b; move=> /(ccell_is_iff _ _ _ iv) [li ->].
have [vs d _] := cl_cube iv (mem_nth [::] li); by split; [exact/is_cubeP|rewrite dim_ofP].
Qed.

(** closed under faces of every dimension *)
Theorem C25_closed X s t : cc_built X -> 0 < cc_maxdim X -> size s = (2 * cc_maxdim X)%N ->
  ccontains X s -> is_subcube (cc_maxdim X) t s -> ccontains X t.
Proof.
move=> b D0 ss; have [cl iv _] := cbuilt_inv b; move=> /(ccontains_iff iv D0 ss) si; have [vs _ _] := cl_cube iv si.
move=> /(is_subcubeP _ vs) st; apply/(ccontains_iff iv D0); first exact: size_cval (subc_val vs st).
exact: csub_closed iv si st.
Qed.

(** add(s): s is added exactly when its codimension-one faces are there; the answer is its dimension and index, or NO_IND;
    nothing else changes, and adding a cube that is there changes nothing at all *)
Theorem C25_add X s X' d r : cc_built X -> 0 < cc_maxdim X -> cc_add X s = Ok (X', (d, r)) ->
  [/\ cc_maxdim X' = cc_maxdim X /\ d = dim_of (cc_maxdim X) s,
      forall t, size t = (2 * cc_maxdim X)%N -> ccontains X' t <-> ccontains X t \/ t = s /\ chas_faces X s,
      cpreserves X X', cc_find X' s = Ok r & ccontains X s -> X' = X].
Proof.
move=> b D0 E; have [cl iv _] := cbuilt_inv b.
have vs : cval (cc_maxdim X) s by move: E; rewrite /cc_add cvalP; case: (cval _ _).
have [X1 [r1 [cl1 [E1 iv1 ex1 ct [fd st]]]]] := cadd_step iv D0 vs.
move: E; rewrite E1 => -[<- <- <-]; split=> //.
- by rewrite dim_ofP //; case: iv1 => -[].
- move=> t tt; rewrite (ccontains_iff iv1 D0 tt) ct; split.
    case/orP => [h|/andP [/eqP -> h]]; [left; exact/(ccontains_iff iv D0 tt)|right; split=> //; exact/(chas_faces_iff iv D0 vs)].
  by case=> [/(ccontains_iff iv D0 tt) ->//|[-> /(chas_faces_iff iv D0 vs) ->]]; rewrite eqxx orbT.
- exact: cpreserves_ext iv iv1 D0 ex1.
- by move=> /(ccontains_iff iv D0 (size_cval vs)).
Qed.

(** add_recursive(s): afterwards the complex contains what it had and all subcubes of s; when s was new the answer lists
    each new cell exactly once, otherwise nothing changes and the answer is the cell of s *)
Theorem C25_add_recursive X s X' r : cc_built X -> 0 < cc_maxdim X -> cc_add_recursive X s = Ok (X', r) ->
  [/\ cc_maxdim X' = cc_maxdim X,
      forall t, size t = (2 * cc_maxdim X)%N -> ccontains X' t <-> ccontains X t \/ is_subcube (cc_maxdim X) t s,
      cpreserves X X',
      ~ ccontains X s -> uniq r /\ forall k i, (k, i) \in r <-> exists2 t, ccell_is X' k i t & ~ ccontains X t &
      ccontains X s -> X' = X /\ exists2 i, r = [:: (dim_of (cc_maxdim X) s, i)] & cc_find X s = Ok (Some i)].
Proof.
move=> b D0 E; have [cl iv _] := cbuilt_inv b.
have vs : cval (cc_maxdim X) s by move: E; rewrite /cc_add_recursive cvalP; case: (cval _ _).
have ss := size_cval vs; have [X1 [r1 [cl1 [E1 iv1 ex1 ct nw]]]] := crec_step iv D0 vs.
move: E; rewrite E1 => -[<- <-]; split=> //.
- by case: iv1 => -[].
- move=> t tt; rewrite (ccontains_iff iv1 D0 tt); split.
    move=> ti; have [vt _ _] := cl_cube iv1 ti; move: ti; rewrite ct //.
    by case/orP => h; [left; exact/(ccontains_iff iv D0 tt)|right; exact/(is_subcubeP _ vs)].
  case=> [/(ccontains_iff iv D0 tt) ti|/(is_subcubeP _ vs) st]; first exact: extends_mem ex1 ti.
  by rewrite ct ?st ?orbT //; exact: subc_val vs st.
- exact: cpreserves_ext iv iv1 D0 ex1.
- move=> /(ccontains_iff iv D0 ss) /negP ns; rewrite (negbTE ns) in nw; have [u m] := nw; split=> // k i; rewrite m.
  have cin t : t \in cl1 k -> ccontains X t <-> t \in cl k.
    move=> ti; have [vt dt _] := cl_cube iv1 ti.
    by rewrite (ccontains_iff iv D0 (size_cval vt)) dt.
  have [e Ee] := ex1 k; have [_ u1 _] := cinv_Wc k iv1; split.
    move=> /andP [l1 l2]; exists (nth [::] (cl1 k) i); first exact/(ccell_is_iff _ _ _ iv1).
    move=> /(cin _ (mem_nth _ l2)) h; have := index_uniq [::] l2 u1.
    by rewrite {2}Ee index_cat h => e2; move: h; rewrite -index_mem e2 ltnNge l1.
  move=> [t /(ccell_is_iff _ _ _ iv1) [li et] ncx]; rewrite li andbT leqNgt; apply/negP => l2; apply: ncx.
  have ti : t \in cl1 k by rewrite et mem_nth.
  by apply/(cin t ti); rewrite et Ee nth_cat l2 mem_nth.
- move=> /(ccontains_iff iv D0 ss) si; rewrite si in nw; have [-> ->] := nw; split=> //.
  exists (index s (cl (cdim s))); first by rewrite dim_ofP.
  by have [_ _ _ _ T] := iv; rewrite (cfind_ok T (val_nonnil D0 vs) ss) si.
Qed.

(** skeleton(k) is the complex of the cubes of dimension at most k *)
Theorem C25_skeleton X k Y : cc_built X -> 0 < cc_maxdim X -> cc_skeleton X k = Ok Y ->
  [/\ k <= cc_maxdim X, cc_maxdim Y = cc_maxdim X &
      forall t i, size t = (2 * cc_maxdim X)%N ->
        cc_find Y t = Ok (Some i) <-> cc_find X t = Ok (Some i) /\ dim_of (cc_maxdim X) t <= k].
Proof.
move=> b D0 E; have [cl iv _] := cbuilt_inv b; have lk : k <= cc_maxdim X by move: E; rewrite /cc_skeleton; case: ltnP.
have [Y1 [clY [E1 ivY cY]]] := skeleton_ok D0 iv lk; move: E; rewrite E1 => -[<-]; split=> //; first by case: ivY => -[].
move=> t i tt; have n0 : t != [::] by rewrite -size_eq0 tt; move: D0; clear; lia.
have [_ _ _ _ T] := iv; have [_ _ _ _ TY] := ivY; rewrite (cfind_ok T n0 tt) (cfind_ok TY n0 tt) cY.
case: (leqP (cdim t) k) => ld; case: ifP => // ti; split=> //.
- by move=> [<-]; split=> //; have [vt _ _] := cl_cube iv ti; rewrite dim_ofP.
- by move=> [].
- by move=> [].
- by move=> [_]; have [vt _ _] := cl_cube iv ti; rewrite dim_ofP // leqNgt ld.
- by move=> [].
Qed.

(** generate_cube(n), n > 1: all cubes of the grid {0, ..., n-1}^3 *)
Theorem C25_generate n : if 1 < n then exists2 X, cc_generate n = Ok X &
    cc_maxdim X = 3 /\ forall t, size t = 6 -> ccontains X t <-> is_cube 3 t /\ forall i, i < 3 -> hi t i < n
  else cc_generate n = Throw.
Proof.
case: ltnP => n2; last by rewrite /cc_generate ltnS n2.
have [X E [cl [iv H]]] := generate_ok n2; exists X => //; split; first by case: iv => -[].
move=> t tt; rewrite (ccontains_iff iv isT tt); split.
  move=> ti; have [vt _ _] := cl_cube iv ti; have [a [b [c [/and3P [la lb lc] st]]]] := (H t vt).1 ti.
  split; first exact/is_cubeP.
  have vs : cval 3 [:: a; a.+1; b; b.+1; c; c.+1] by rewrite /= !leqnSn !leqnn.
  have [_ sub] := (is_subcubeP t vs).2 st.
  move=> [|[|[|i]]] // li; have [_] := sub _ li; rewrite /hi /= => h; apply: leq_ltn_trans h _.
  + by move: la n2; clear; lia.
  + by move: lb n2; clear; lia.
  + by move: lc n2; clear; lia.
move=> [/is_cubeP vt h]; apply/(H t vt).
have h0 := h 0 isT; have h1 := h 1 isT; have h2 := h 2 isT; move: h0 h1 h2 vt; case: t tt {h} => [|a [|a' [|b [|b' [|c [|c' []]]]]]] // _.
rewrite /hi /= => h0 h1 h2 /and3P [l1 l2 /and3P [l3 l4 /and3P [l5 l6 _]]].
have K x x' : x' < n -> x <= x' -> x' <= x.+1 -> exists2 y, y < n.-1 & (y <= x) && (x' <= y.+1).
  move=> k1 k2 k3; case: (ltnP x n.-1) => k4; first by exists x; rewrite ?leqnn.
  by exists n.-2; move: n2 k1 k2 k3 k4; clear; lia.
have [y0 y0n /andP [p1 p2]] := K _ _ h0 l1 l2; have [y1 y1n /andP [p3 p4]] := K _ _ h1 l3 l4; have [y2 y2n /andP [p5 p6]] := K _ _ h2 l5 l6.
by exists y0, y1, y2; rewrite y0n y1n y2n p1 p2 p3 p4 p5 p6 l1 l3 l5.
Qed.

(** a 0-dimensional complex stays empty: add reports a vertex that is not there *)
Theorem C25_dim0 : cc_add (cc_new 0) [::] = Ok (cc_new 0, (0, Some 0)) /\ cc_total (cc_new 0) = Ok 0.
Proof. by []. Qed.

(** find_idx does not check the length of its argument: a proper prefix of a stored cube has index 0 *)
Theorem C25_prefix X s k : cc_built X -> 0 < cc_maxdim X -> size s = (2 * cc_maxdim X)%N -> ccontains X s ->
  exists i, cc_find X (take k s) = Ok (Some i).
Proof.
move=> b D0 ss; have [cl iv _] := cbuilt_inv b; have [_ _ _ _ [al _ _]] := iv.
rewrite /ccontains /cc_find => -[i]; rewrite !al => -[h].
suff [j ->] : exists j, tg (take k s) (cc_trie X) = Some j by exists j.
elim: s k (cc_trie X) h {ss b iv al} => [|a s IH] k t h; first by exists (tval t).
case: k => [|k]; first by exists (tval t).
by move: h; rewrite /=; case: (tassoc a (tch t)) => // u; exact: IH.
Qed.
