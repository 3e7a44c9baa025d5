(** The representation invariant of CubicalComplex and its preservation. *)
From mathcomp Require Import all_ssreflect all_algebra zify.
From Verif Require Import Outcome M_SparseVec M_Perm M_ColMatrix M_CSC M_Simplicial M_Cubical P_Outcome P_Trie P_Simplicial P_ScOps P_ScBuild P_CubeList.
Set Implicit Arguments.
Unset Strict Implicit.
Unset Printing Implicit Defensive.
Import GRing.Theory.

Notation ncc X d := (nth 0 (cc_ncells X) d).
Notation spc X d := (nth [::] (cc_spx X) d).
Notation fac X d := (nth [::] (cc_faces X) d).
Notation coc X d := (nth [::] (cc_coeff X) d).

Definition cidx (cl : seq (seq nat)) (s : seq nat) : seq nat := [seq index f.1 cl | f <- cfaces s].
Definition ccf (s : seq nat) : seq int := [seq f.2 | f <- cfaces s].

Definition cfin (cl : seq (seq nat)) (s : seq nat) : Prop := forall f, f \in cfaces s -> f.1 \in cl.

Lemma cidx_cat cl e s : cfin cl s -> cidx (cl ++ e) s = cidx cl s.
Proof. by move=> h; apply/eq_in_map => f /h fi; rewrite index_cat fi. Qed.

Section D.
Variable D : nat.

Definition cWc (cl : cells_t) d : Prop :=
  [/\ all (fun s => cval D s && (cdim s == d)) (cl d), uniq (cl d) &
      if d is d'.+1 then forall s, s \in cl d -> cfin (cl d') s else True].

Definition cW (cl : cells_t) (X : ccx) d : Prop :=
  [/\ ncc X d = size (cl d), spc X d = flatten (cl d), cWc cl d &
   if d is d'.+1 then fac X d' = flatten [seq cidx (cl d') s | s <- cl d] /\ coc X d' = flatten [seq ccf s | s <- cl d]
   else True].

Definition cTinv (cl : cells_t) (X : ccx) : Prop :=
  [/\ alive (cc_trie X),
      (forall d, cl d = [::]) -> cc_trie X = tnew &
      forall k, k != [::] -> size k = (2 * D)%N ->
        tg k (cc_trie X) = if k \in cl (cdim k) then Some (index k (cl (cdim k))) else None].

Definition cshape (X : ccx) : Prop :=
  [/\ size (cc_ncells X) = D.+1, size (cc_spx X) = D.+1, size (cc_faces X) = D, size (cc_coeff X) = D & cc_maxdim X = D].

Definition cinvb (b : nat) (cl : cells_t) (X : ccx) : Prop :=
  [/\ cshape X, b <= D.+1, forall d, d < b -> cW cl X d, forall d, D < d -> cl d = [::] & cTinv cl X].
Definition cinv := cinvb D.+1.

Lemma cW_ext cl cl' X X' d : cW cl X d -> extends cl cl' -> cl' d = cl d ->
  ncc X' d = ncc X d -> spc X' d = spc X d -> (0 < d -> fac X' d.-1 = fac X d.-1 /\ coc X' d.-1 = coc X d.-1) -> cW cl' X' d.
Proof.
move=> [w1 w2 [w3 w4 w5] w6] ex e en es ef; split; rewrite ?e ?en ?es //.
  split; rewrite ?e //; case: d w5 {w1 w2 w3 w4 w6} e en es ef => // d w5 e _ _ _ s si f fi.
  exact: extends_mem ex (w5 s si f fi).
case: d w1 w2 w3 w4 w5 w6 e en es ef => // d w1 w2 w3 w4 w5 [f1 f2] e en es /(_ isT) /= [-> ->].
have [x Ex] := ex d; rewrite Ex f1 f2; split=> //.
by congr flatten; apply/eq_in_map => s si; rewrite cidx_cat //; exact: w5.
Qed.

Lemma cclosed_sub cl b : (forall d, d < b -> cWc cl d) -> forall d s t, d < b -> s \in cl d -> subc t s -> t \in cl (cdim t).
Proof.
move=> H; elim=> [|d IH] s t lt si st; have [w _ cf] := H _ lt; have /andP [vs /eqP ds] := allP w _ si.
  have [le eq] := subc_dim vs st; have e : cdim t = 0 by move: le; rewrite ds leqn0 => /eqP.
  by rewrite e (eq _) // e ds.
have [->|ne] := eqVneq t s; first by rewrite ds.
have [f fi sf] := subc_face vs st ne; apply: (IH f.1) => //; [exact: ltnW|exact: (cf s si f fi)].
Qed.

Lemma cfind_ok cl X s : cTinv cl X -> s != [::] -> size s = (2 * D)%N ->
  cc_find X s = Ok (if s \in cl (cdim s) then Some (index s (cl (cdim s))) else None).
Proof. by move=> [al _ T] n0 ss; rewrite /cc_find al T. Qed.

Lemma cdim_up cl cl' X X' : cc_trie X' = cc_trie X -> (forall d, cl d = cl' d) -> cTinv cl X -> cTinv cl' X'.
Proof. by move=> e ec [al T0 T]; split; rewrite e // => *; rewrite -?ec ?T // T0 // => d; rewrite ec. Qed.

Hypothesis D0 : 0 < D.

Lemma val_nonnil s : cval D s -> s != [::].
Proof. by move=> /size_cval e; rewrite -size_eq0 e; lia. Qed.

Lemma tail_ok cl Y s n : let cl' := upd cl n (rcons (cl n) s) in cinvb n cl Y -> n <= D -> cval D s -> cdim s = n -> s \notin cl n ->
  cWc cl n -> ncc Y n = size (cl n) -> spc Y n = flatten (cl n) -> (0 < n -> cfin (cl n.-1) s) ->
  (0 < n -> fac Y n.-1 = flatten [seq cidx (cl n.-1) u | u <- cl n] ++ cidx (cl n.-1) s /\
            coc Y n.-1 = flatten [seq ccf u | u <- cl n] ++ ccf s) ->
  exists X', [/\ cc_store Y s n = Ok (X', size (cl n)), cinvb n.+1 cl' X',
    forall d, n < d -> ncc X' d = ncc Y d /\ spc X' d = spc Y d & cc_faces X' = cc_faces Y /\ cc_coeff X' = cc_coeff Y].
Proof.
move=> cl' [[h1 h2 h3 h4 h5] lb Wi Ci Ti] ln vs ds ns [c1 c2 c3] en es fin fe; have [al T0 T] := Ti.
have n0 := val_nonnil vs; have ss := size_cval vs.
rewrite /cc_store (oget_nth 0) ?h1 //; cbn [obind]; rewrite (oset_Ok 0) ?h1 //; cbn [obind].
have [t' [Et al' G]] := tinsert_ok s (ncc Y n) al; rewrite Et; cbn [obind].
rewrite (oget_nth [::]) ?h2 //; cbn [obind]; rewrite (oset_Ok [::]) ?h2 //; cbn [obind]; rewrite en.
eexists; split; first reflexivity; last by [].
- split.
  + by split; rewrite /= ?size_set_nth ?h1 ?h2 //; lia.
  + exact: ln.
  + move=> d; rewrite ltnS leq_eqVlt => /orP [/eqP ->|ld]; last first.
      have ne : d == n = false by lia.
      apply: cW_ext (Wi d ld) (extends_rcons _ _ _) _ _ _ _ => //; rewrite ?/cl' /upd /= ?nth_setE ?ne //.
    split; rewrite /= ?nth_setE ?eqxx /cl' /upd ?eqxx.
    * by rewrite size_rcons.
    * by rewrite es flatten_rcons.
    * rewrite /cWc eqxx all_rcons rcons_uniq ns c2 c1 vs ds eqxx; split=> //.
      case: (n) ds fin c3 => // m ds fin c3 u; rewrite mem_rcons inE (_ : m == m.+1 = false); last by lia.
      case/orP => [/eqP ->|ui]; [exact: fin|exact: c3].
    * case: (n) ds fin fe => // m ds fin /(_ isT) [-> ->]; rewrite (_ : m == m.+1 = false); last by lia.
      by rewrite !map_rcons !flatten_rcons.
  + by move=> d ld; rewrite /cl' /upd (_ : d == n = false) ?Ci //; lia.
  + split=> //.
    * move=> /(_ n); rewrite /cl' /upd eqxx; by case: (cl n).
    * move=> k nk sk; rewrite G.
      have [->|ne] := eqVneq k s.
        by rewrite ds /cl' /upd eqxx mem_rcons mem_head en -cats1 index_cat (negbTE ns) /= eqxx addn0.
      have -> : prefix k s = false.
        by apply/negP => /prefixP [u eu]; move: ne ss; rewrite eu size_cat sk; case: u {eu} => [|x u]; rewrite ?cats0 ?eqxx //=; lia.
      rewrite T // /cl' /upd; case: eqP => // e; rewrite e mem_rcons inE (negbTE ne) /=.
      by case: ifP => // ki; rewrite -cats1 index_cat ki.
- by move=> d ld; rewrite /= !nth_setE (_ : d == n = false) //; lia.
Qed.

(** ** recursive addition *)
Definition cpush (fuel dim : nat) (st : ccx * seq (nat * nat)) (fc : seq nat * int) : outcome (ccx * seq (nat * nat)) :=
  let: (Y, ci) := st in
  do i <- cc_find Y fc.1;
  do r <- (match i with
           | Some i => Ok (Y, ci, i)
           | None => cc_add_rec fuel Y ci fc.1
           end);
  let: (Y1, ci1, i) := r in
  do fv <- oget (cc_faces Y1) dim.-1;
  do cv <- oget (cc_coeff Y1) dim.-1;
  do fs <- oset (cc_faces Y1) dim.-1 (rcons fv i);
  do cs <- oset (cc_coeff Y1) dim.-1 (rcons cv fc.2);
  Ok (CCX (cc_ncells Y1) (cc_spx Y1) fs cs (cc_trie Y1) (cc_maxdim Y1), ci1).

Lemma loop_push fuel dim s ds Y ci c :
  ofold (fun st i =>
    let: (Y, ci, c) := st in
    if nth 0 s (2 * i) == nth 0 s (2 * i).+1 then Ok st else
    do st1 <- cpush fuel dim (Y, ci) (face_up s i, c);
    do st2 <- cpush fuel dim st1 (face_lo s i, (- c)%R);
    Ok (st2, - c)%R) (Y, ci, c) ds =
  do st <- ofold (cpush fuel dim) (Y, ci) (floop s ds c); Ok (st, iter (size (floop s ds 1%R))./2 (fun x => - x)%R c).
Proof.
have sz : forall ds c c', size (floop s ds c) = size (floop s ds c').
  by elim=> [|i l IH] x y //=; case: eqP => _ //=; rewrite (IH _ (- y)%R).
elim: ds Y ci c => [|i ds IH] Y ci c //; cbn [ofold floop]; case: eqP => _; first exact: IH.
cbn [ofold]; case: (cpush _ _ _ _) => //= st1; case: (cpush _ _ _ _) => //= -[Y2 ci2]; rewrite IH.
case: (ofold _ _ _) => //= st; congr (Ok (_, _)); by rewrite (sz ds 1%R (-1)%R) -iterSr.
Qed.

Lemma cc_add_recS fuel X ci s : cval (cc_maxdim X) s -> cc_add_rec fuel.+1 X ci s =
  do st <- ofold (cpush fuel (cdim s)) (X, ci) (cfaces s);
  do q <- cc_store st.1 s (cdim s);
  Ok (q.1, rcons st.2 (cdim s, q.2), q.2).
Proof.
move=> vs; have ss := size_cval vs; cbn [cc_add_rec]; rewrite (cdimP ss).
have EL := @loop_push fuel (cdim s) s (iota 0 (cc_maxdim X)) X ci 1%R.
rewrite floopE // in EL.
have id1 : [seq (f.1, (1 * f.2)%R) | f <- cfaces s] = cfaces s.
  by rewrite -[RHS]map_id; apply: eq_map => -[f c]; rewrite mul1r.
rewrite id1 in EL; case: eqP => [e|ne].
  have -> : cfaces s = [::] by apply/nilP; rewrite /nilp (cfaces_size vs) e.
  by [].
rewrite /cpush in EL; cbn [fst snd] in EL; rewrite EL.
by case: (ofold _ _ _) => //= -[Y ci1].
Qed.

Definition cframe n (X X' : ccx) : Prop :=
  (forall d, n <= d -> ncc X' d = ncc X d /\ spc X' d = spc X d) /\
  (forall d, n <= d.+1 -> fac X' d = fac X d /\ coc X' d = coc X d).

Lemma cframe_trans n X Y Z : cframe n X Y -> cframe n Y Z -> cframe n X Z.
Proof.
move=> [a2 a3] [b2 b3]; split.
  by move=> d ld; have [-> ->] := b2 d ld; exact: a2.
by move=> d ld; have [-> ->] := b3 d ld; exact: a3.
Qed.

Definition crec_spec n := forall X cl ci s, cval D s -> cdim s = n -> cinvb n.+1 cl X -> s \notin cl n ->
  exists (X' : ccx) (cl' : cells_t) (new : seq (nat * nat)),
  [/\ cc_add_rec n.+1 X ci s = Ok (X', ci ++ new, size (cl n)),
      cinvb n.+1 cl' X' /\ cframe n.+1 X X',
      [/\ extends cl cl', cl' n = rcons (cl n) s & forall d, n < d -> cl' d = cl d],
      forall t, cval D t -> (t \in cl' (cdim t)) = (t \in cl (cdim t)) || subc t s &
      new_cells cl cl' new].

Lemma crec_loop n : crec_spec n -> n < D -> forall fs, all (fun f => cval D f.1 && (cdim f.1 == n)) fs ->
  forall Y cl ci, cinvb n.+1 cl Y ->
  exists (Y' : ccx) (cl' : cells_t) (new : seq (nat * nat)),
  [/\ ofold (cpush n.+1 n.+1) (Y, ci) fs = Ok (Y', ci ++ new),
      [/\ cinvb n.+1 cl' Y',
          (forall d, n < d -> [/\ ncc Y' d = ncc Y d, spc Y' d = spc Y d, fac Y' d = fac Y d & coc Y' d = coc Y d]),
          fac Y' n = fac Y n ++ [seq index f.1 (cl' n) | f <- fs] &
          coc Y' n = coc Y n ++ [seq f.2 | f <- fs]],
      extends cl cl' /\ forall d, n < d -> cl' d = cl d,
      forall t, cval D t -> (t \in cl' (cdim t)) = (t \in cl (cdim t)) || has (fun f => subc t f.1) fs &
      new_cells cl cl' new].
Proof.
move=> IHr nD; elim=> [|[f c] fs IH].
  move=> _ Y cl ci iv; exists Y, cl, [::]; split; rewrite ?cats0 //.
  - by split=> //; exact: extends_refl.
  - by move=> t _; rewrite orbF.
  - exact: new_cells_refl.
rewrite [all _ _]/= => /andP [/andP [vf /eqP df] al] Y cl ci iv.
have [sh lb Wi Ci Ti] := iv.
rewrite ofold_cons [cpush _ _ _ _]/cpush [(f, c).1]/= [(f, c).2]/= (cfind_ok Ti (val_nonnil vf) (size_cval vf)) df; cbn [obind].
have [Y1 [cl1 [new1 [E1 [iv1 fr1] [ex1 mem1 st1] ct1 nw1]]]] :
  exists (Y1 : ccx) (cl1 : cells_t) (new1 : seq (nat * nat)),
  [/\ (match (if f \in cl n then Some (index f (cl n)) else None) with
       | Some i => Ok (Y, ci, i) | None => cc_add_rec n.+1 Y ci f end) = Ok (Y1, ci ++ new1, index f (cl1 n)),
      cinvb n.+1 cl1 Y1 /\ cframe n.+1 Y Y1,
      [/\ extends cl cl1, f \in cl1 n & forall d, n < d -> cl1 d = cl d],
      forall t, cval D t -> (t \in cl1 (cdim t)) = (t \in cl (cdim t)) || subc t f &
      new_cells cl cl1 new1].
  case: ifP => kin.
    exists Y, cl, [::]; split; rewrite ?cats0 //.
    - by split=> //; exact: extends_refl.
    - move=> t nt; case E: (subc t f); rewrite ?orbF // orbT.
      by apply: (cclosed_sub _ (ltnSn n) kin E) => d ld; case: (Wi d ld).
    - exact: new_cells_refl.
  have [Y1 [cl1 [new1 [E [iv1 fr] [ex c1 st] ct nw]]]] := IHr Y cl ci f vf df iv (negbT kin).
  exists Y1, cl1, new1; split=> //.
    by rewrite E; congr (Ok (_, _, _)); rewrite c1 -cats1 index_cat kin /= eqxx addn0.
  by split=> //; rewrite c1 mem_rcons mem_head.
rewrite E1; cbn [obind]; have [g2 g3] := fr1; have [sh1 lb1 Wi1 Ci1 Ti1] := iv1; have [q1 q2 q3 q4 q5] := sh1.
have lf1 : n < size (cc_faces Y1) by rewrite q3.
have lc1 : n < size (cc_coeff Y1) by rewrite q4.
rewrite [n.+1.-1]/= (oget_nth [::]) // (oget_nth [::]) //; cbn [obind].
rewrite (oset_Ok [::]) // (oset_Ok [::]) //; cbn [obind].
set Y2 := CCX _ _ _ _ _ _.
have iv2 : cinvb n.+1 cl1 Y2.
  split=> //=; first by split=> //=; rewrite size_set_nth ?q3 ?q4; apply/maxn_idPr.
  move=> d ld; apply: cW_ext (Wi1 d ld) (extends_refl _) _ _ _ _ => //= d0.
  by rewrite !nth_setE; case: eqP => // e; exfalso; move: e d0 ld; clear; lia.
have [Y3 [cl3 [new3 [E3 [iv3 fr3 fa3 co3] [ex3 st3] ct3 nw3]]]] := IH al Y2 cl1 (ci ++ new1) iv2.
exists Y3, cl3, (new1 ++ new3); split.
- by rewrite E3 catA.
- split=> //.
  + move=> d ld; have [-> -> -> ->] := fr3 d ld; rewrite /= !nth_setE.
    have [-> ->] := g2 d ld; have [-> ->] := g3 d (leqW ld).
    by case: eqP => [e|//]; exfalso; move: e ld; clear; lia.
  + rewrite fa3 /= nth_setE eqxx cat_rcons; have [-> _] := g3 n (leqnn _).
    by have [e ->] := ex3 n; rewrite index_cat mem1.
  + by rewrite co3 /= nth_setE eqxx cat_rcons; have [_ ->] := g3 n (leqnn _).
- by split; [exact: extends_trans ex1 ex3|move=> d ld; rewrite st3 // st1].
- by move=> t nt; rewrite ct3 // ct1 //= orbA.
- exact: new_cells_cat ex1 ex3 nw1 nw3.
Qed.

(** subcubes of s: s and the subcubes of its faces *)
Lemma has_face t s : cval D s -> subc t s = (t == s) || has (fun f => subc t f.1) (cfaces s).
Proof.
move=> vs; apply/idP/orP => [st|[/eqP ->|/hasP [f fi sf]]].
- by have [->|ne] := eqVneq t s; [left|right; have [f fi sf] := subc_face vs st ne; apply/hasP; exists f].
- exact: subc_refl vs.
- exact: subc_trans sf (cfaces_sub fi vs).
Qed.

Lemma cW_frame n cl X cl' X' d : cW cl X d -> extends cl cl' -> cl' d = cl d -> cframe n X X' -> n <= d -> cW cl' X' d.
Proof.
move=> w ex e [f1 f2] le; have [a b] := f1 d le; apply: cW_ext w ex e a b _ => d0; apply: f2.
by move: d0 le; clear; lia.
Qed.

Lemma crec_ok n : n <= D -> crec_spec n.
Proof.
elim: n => [|n IH] nD X cl ci s vs ds iv ns; have [sh lb Wi Ci Ti] := iv; have [q1 q2 q3 q4 q5] := sh.
  have [w1 w2 wc _] := Wi 0 isT; rewrite cc_add_recS ?q5 // ds.
  have cf0 : cfaces s = [::] by apply/nilP; rewrite /nilp (cfaces_size vs) ds.
  rewrite cf0; cbn [ofold obind]; cbn [fst snd].
  have iv0 : cinvb 0 cl X by split.
  have [//|//|X' [E iv' fr [f1 f2]]] := tail_ok iv0 (leq0n _) vs ds ns wc w1 w2.
  rewrite E; cbn [obind]; cbn [fst snd]; rewrite -cats1.
  exists X', (upd cl 0 (rcons (cl 0) s)), [:: (0, size (cl 0))]; split=> //.
  - by split=> //; split=> [d ld|d _]; [exact: fr|rewrite f1 f2].
  - by split; [exact: extends_rcons|rewrite /upd eqxx|move=> [|d]].
  - move=> t vt; rewrite has_face // cf0 orbF /upd; case: eqP => e.
      by rewrite e mem_rcons inE orbC.
    by case: eqP => [et|]; rewrite ?orbF //; exfalso; apply: e; rewrite et ds.
  - exact: new_cells_rcons.
have [w1 w2 wc [w5 w6]] := Wi n.+1 (ltnSn _); rewrite cc_add_recS ?q5 // ds.
have iv0 : cinvb n.+1 cl X by split=> //; [exact: ltnW|move=> d ld; apply: Wi; exact: leqW].
have al : all (fun f => cval D f.1 && (cdim f.1 == n)) (cfaces s).
  by apply/allP => f fi; have [-> e] := cfaces_val vs fi; move: e; rewrite ds => -[->]; rewrite eqxx.
have [Y [cl1 [new1 [E [iv1 fr1 fa1 co1] [ex1 st1] ct1 nw1]]]] := crec_loop (IH (ltnW nD)) nD al ci iv0.
rewrite E; cbn [obind]; cbn [fst snd]; have [r1 r2 r3 r4] := fr1 n.+1 (ltnSn _).
have c1n : cl1 n.+1 = cl n.+1 by apply: st1.
have ns1 : s \notin cl1 n.+1 by rewrite c1n.
have fin : cfin (cl1 n) s.
  move=> f fi; have := allP al f fi => /andP [vf /eqP df]; have := ct1 f.1 vf; rewrite df => ->.
  by apply/orP; right; apply/hasP; exists f => //; exact: subc_refl vf.
have wc1 : cWc cl1 n.+1.
  have [v1 v2 v3] := wc; split; rewrite ?c1n // => u ui f fi; exact: extends_mem ex1 (v3 u ui f fi).
have nY : ncc Y n.+1 = size (cl1 n.+1) by rewrite r1 c1n.
have sY : spc Y n.+1 = flatten (cl1 n.+1) by rewrite r2 c1n.
have fY : 0 < n.+1 -> fac Y n.+1.-1 = flatten [seq cidx (cl1 n.+1.-1) u | u <- cl1 n.+1] ++ cidx (cl1 n.+1.-1) s /\
            coc Y n.+1.-1 = flatten [seq ccf u | u <- cl1 n.+1] ++ ccf s.
  move=> _ /=; rewrite fa1 co1 w5 w6 c1n; split=> //; congr (flatten _ ++ _); apply/eq_in_map => u ui.
  by have [e ->] := ex1 n; rewrite cidx_cat //; case: wc => _ _; apply.
have [X' [Et ivt frt [ff fc]]] := tail_ok iv1 nD vs ds ns1 wc1 nY sY (fun _ => fin) fY.
rewrite Et; cbn [obind]; cbn [fst snd]; set cl2 := upd cl1 n.+1 (rcons (cl1 n.+1) s) in ivt.
exists X', cl2, (rcons new1 (n.+1, size (cl1 n.+1))); rewrite rcons_cat c1n; split=> //.
- split=> //; split.
    by move=> d ld; have [-> ->] := frt d ld; have [-> -> _ _] := fr1 d (ltnW ld).
  by move=> d ld; rewrite ff fc; have ld' : n < d by []; have [_ _ -> ->] := fr1 d ld'.
- split.
  + exact: extends_trans ex1 (extends_rcons _ _ _).
  + by rewrite /cl2 /upd eqxx c1n.
  + by move=> d ld; rewrite /cl2 /upd; case: eqP => [e|_]; [exfalso; move: e ld; clear; lia|apply: st1; exact: ltnW].
- move=> t vt; have -> : (t \in cl2 (cdim t)) = (t \in cl1 (cdim t)) || (t == s).
    rewrite /cl2 /upd; case: eqP => e; first by rewrite e mem_rcons inE orbC.
    case: eqP => [et|]; rewrite ?orbF ?orbT //; by exfalso; apply: e; rewrite et ds.
  by rewrite ct1 // -orbA has_face // [has _ _ || _]orbC.
- rewrite -cats1 -c1n; exact: new_cells_cat ex1 (extends_rcons _ _ _) nw1 (new_cells_rcons _ _ _).
Qed.
End D.
