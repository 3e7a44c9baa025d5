(** Union-find: the forest invariant, and the history of components. *)
From mathcomp Require Import all_ssreflect zify.
From Verif Require Import Outcome M_SparseVec M_Perm M_ColMatrix M_Reduce M_Homology M_Persist M_UnionFind S_UnionFind P_Outcome.
Set Implicit Arguments.
Unset Strict Implicit.
Unset Printing Implicit Defensive.

Lemma conn_sub E E' i j : {subset E <= E'} -> conn E i j -> conn E' i j.
Proof.
move=> sub; elim=> {i j} [i|i j /sub|i j _|i j l _ c1 _ c2]; [exact: conn_refl|exact: conn_edge|exact: conn_sym|exact: conn_trans c1 c2].
Qed.

(** a function constant on the edges is constant on components *)
Lemma conn_const E (f : nat -> nat) i j : (forall a b, (a, b) \in E -> f a = f b) -> conn E i j -> f i = f j.
Proof. by move=> H; elim=> {i j} [//|i j /H|i j _ ->|i j l _ -> _ ->]. Qed.

Section Forest.
Variable n : nat.

Definition forest (p : seq nat) (rho h : nat -> nat) : Prop :=
  [/\ size p = n,
      forall i, i < n -> nth 0 p i < n /\ rho i < n,
      forall i, i < n -> rho (nth 0 p i) = rho i /\ nth 0 p (rho i) = rho i,
      forall i, i < n -> nth 0 p i = i -> rho i = i &
      forall i, i < n -> h (rho i) = 0 /\ (nth 0 p i != i -> h (nth 0 p i) < h i)].

Lemma rho_idem p rho h i : forest p rho h -> i < n -> rho (rho i) = rho i.
Proof. by move=> [_ f2 f3 f4 _] li; have [_ lr] := f2 i li; have [_ e] := f3 i li; exact: f4. Qed.

Lemma uf_root_ok p rho h : forest p rho h -> forall fuel i, i < n -> h i <= fuel -> uf_root fuel p i = Ok (rho i).
Proof.
move=> [f1 f2 f3 f4 f5]; elim=> [|f IH] i li hi; have [lp lr] := f2 i li.
  rewrite /= (oget_nth 0) ?f1 //=; case: eqP => [/(f4 i li) ->//|/eqP ne].
  by have [_ /(_ ne)] := f5 i li; move: hi; clear; lia.
rewrite /= (oget_nth 0) ?f1 //=; case: eqP => [/(f4 i li) ->//|/eqP ne].
have [_ /(_ ne) lt] := f5 i li; have [<- _] := f3 i li; apply: IH => //.
by move: hi lt; clear; lia.
Qed.

Lemma forest_set p rho h i : forest p rho h -> i < n -> nth 0 p i != rho i -> forest (set_nth 0 p i (rho i)) rho h.
Proof.
move=> F li ne; have idem := rho_idem F; have [f1 f2 f3 f4 f5] := F.
have nr x : x < n -> (rho x == i) = false.
  move=> lx; apply/negP => /eqP e; case/eqP: ne; have [_] := f3 x lx; rewrite e => pe.
  by rewrite pe; have := idem x lx; rewrite e => ->.
split.
- by rewrite size_set_nth f1; apply/maxn_idPr.
- move=> x lx; rewrite nth_set_nth /=; have [a b] := f2 x lx; case: eqP => _; split=> //.
  by have [] := f2 i li.
- move=> x lx; rewrite !nth_set_nth /= nr //; have [a b] := f3 x lx; split=> //.
  by case: eqP => [->|_] //; exact: idem.
- by move=> x lx; rewrite nth_set_nth /=; case: eqP => [-> //|_]; exact: f4.
- move=> x lx; rewrite nth_set_nth /=; have [a b] := f5 x lx; split=> //; case: (x =P i) => [e|_] //.
  rewrite e in lx a b * => ne'; have [-> _] := f5 i li.
  have ne2 : nth 0 p i != i by apply/negP => /eqP /(f4 i li) e2; rewrite e2 eqxx in ne'.
  by have := b ne2; clear; lia.
Qed.

Lemma uf_compress_ok p rho h r : forest p rho h -> forall fuel i, i < n -> rho i = r -> h i <= fuel -> exists2 p',
  uf_compress fuel p i r = Ok p' & forest p' rho h.
Proof.
move=> F fuel; elim: fuel p F => [|f IH] p F i li ri hi; have [f1 f2 f3 f4 f5] := F.
  rewrite /= (oget_nth 0) ?f1 //=; case: eqP => [_|/eqP ne]; first by exists p.
  case: (nth 0 p i =P i) => [e|/eqP e]; first by rewrite e -ri (f4 i li e) eqxx in ne.
  by have [_ /(_ e)] := f5 i li; move: hi; clear; lia.
rewrite /= (oget_nth 0) ?f1 //=; case: eqP => [_|/eqP ne]; first by exists p.
have ne' : nth 0 p i != i by apply/negP => /eqP e; rewrite e -ri (f4 i li e) eqxx in ne.
have [_ /(_ ne') lt] := f5 i li; have [lp _] := f2 i li; have [rp _] := f3 i li.
rewrite (oset_Ok 0) ?f1 //=; apply: IH => //; [|by rewrite rp|by move: hi lt; clear; lia].
by rewrite -ri; apply: forest_set => //; rewrite ri.
Qed.

Lemma find_parent_ok p rho h i : forest p rho h -> i < n -> h i <= n -> exists2 p',
  find_parent p i = Ok (p', rho i) & forest p' rho h.
Proof.
move=> F li hi; have [f1 _ _ _ _] := F; rewrite /find_parent f1 (uf_root_ok F li hi) /=.
by have [p' -> F'] := uf_compress_ok F li erefl hi; exists p'.
Qed.

Definition mrho (rho : nat -> nat) live dead x := if rho x == dead then live else rho x.
Definition mh (rho h : nat -> nat) dead x := if rho x == dead then (h x).+1 else h x.

Lemma forest_merge p rho h live dead child : forest p rho h -> live < n -> dead < n -> child < n ->
  rho live = live -> rho dead = dead -> rho child = dead -> live != dead ->
  forest (set_nth 0 (set_nth 0 p dead live) child live) (mrho rho live dead) (mh rho h dead).
Proof.
move=> F ll ld lc rl rd rc ne; have idem := rho_idem F; have [f1 f2 f3 f4 f5] := F.
have ml : mrho rho live dead live = live by rewrite /mrho rl (negbTE ne).
have pl : nth 0 p live = live by have [_] := f3 live ll; rewrite rl.
have ncl : (live == child) = false by apply/negP => /eqP e; move: ne; rewrite -rl e rc eqxx.
have hl : h live = 0 by have [] := f5 live ll; rewrite rl.
split.
- by rewrite !size_set_nth f1; move: ld lc; clear; lia.
- move=> x lx; rewrite !nth_set_nth /= nth_set_nth /= /mrho; have [a b] := f2 x lx.
  by split; repeat case: eqP => //.
- move=> x lx; rewrite !nth_set_nth /= !nth_set_nth /=; have [a b] := f3 x lx; split.
    case: eqP => [->|nc]; first by rewrite ml /mrho rc eqxx.
    case: eqP => [->|nd]; first by rewrite ml /mrho rd eqxx.
    by rewrite /mrho a.
  rewrite /mrho; case: (rho x =P dead) => [e|/eqP nd].
    by rewrite ncl (negbTE ne) pl.
  case: eqP => [e|_]; first by case/eqP: nd; rewrite -(idem x lx) e rc.
  by rewrite (negbTE nd).
- move=> x lx; rewrite !nth_set_nth /= !nth_set_nth /=; case: (x =P child) => [->|_].
    by move=> e; move: ncl; rewrite e eqxx.
  case: (x =P dead) => [->|nd]; first by move=> e; move: ne; rewrite e eqxx.
  by move=> /(f4 x lx) e; rewrite /mrho e; case: eqP.
- move=> x lx; have [a b] := f5 x lx; have [c d] := f3 x lx; split.
    rewrite /mh /mrho; case: (rho x =P dead) => [e|/eqP nd]; first by rewrite rl (negbTE ne).
    by rewrite (idem x lx) (negbTE nd).
  rewrite !nth_set_nth /= !nth_set_nth /=; case: (x =P child) => [->|ncx]; first by rewrite /mh rl rc (negbTE ne) eqxx hl.
  case: (x =P dead) => [->|ndx]; first by rewrite /mh rl rd (negbTE ne) eqxx hl.
  by rewrite /mh c; case: ifP => _; exact: b.
Qed.

Definition nroots (rho : nat -> nat) := count (fun i => rho i == i) (iota 0 n).

Lemma nroots_merge p rho h live dead : forest p rho h -> live < n -> dead < n ->
  rho live = live -> rho dead = dead -> live != dead -> (nroots (mrho rho live dead)).+1 = nroots rho.
Proof.
move=> F ll ld rl rd ne; rewrite /nroots -!sum1_count big_mkcond [RHS]big_mkcond /=.
have -> : iota 0 n = index_iota 0 n by rewrite /index_iota subn0.
rewrite !big_mkord (bigD1 (Ordinal ld)) //= [RHS](bigD1 (Ordinal ld)) //= /mrho rd !eqxx (negbTE ne) add0n add1n.
congr _.+1; apply: eq_bigr => -[x lx] /= nx; rewrite -val_eqE /= in nx.
case: (rho x =P dead) => [e|//]; rewrite e eq_sym.
case: (x =P live) => [e2|_]; first by rewrite e2 rl in e; rewrite e eqxx in ne.
by rewrite eq_sym (negbTE nx).
Qed.

Lemma nroots_pos p rho h : forest p rho h -> 0 < n -> 0 < nroots rho.
Proof.
move=> F n0; rewrite /nroots -has_count; apply/hasP; exists (rho 0); last by rewrite (rho_idem F).
by have [_ f2 _ _ _] := F; have [_] := f2 0 n0; rewrite mem_iota.
Qed.

Lemma nroots1 p rho h i j : forest p rho h -> nroots rho = 1 -> i < n -> j < n -> rho i = rho j.
Proof.
move=> F; rewrite /nroots -size_filter => e li lj; have [_ f2 _ _ _] := F.
case E: [seq i <- iota 0 n | rho i == i] e => [|x [|y s]] // _.
have H z : z < n -> rho z = x.
  move=> lz; have [_ lr] := f2 z lz; suff : rho z \in [:: x] by rewrite inE => /eqP.
  by rewrite -E mem_filter (rho_idem F lz) eqxx mem_iota.
by rewrite !H.
Qed.
End Forest.

Section Inv.
Variables (V : Type) (n : nat) (inf : V) (birth : nat -> V) (dval : nat -> V) (vle : nat -> nat -> Prop).
Hypothesis vle_refl : forall a, vle a a.
Hypothesis vle_trans : forall a b c, vle a b -> vle b c -> vle a c.
Variable E : seq (nat * nat).
Hypothesis Ein : forall a b, (a, b) \in E -> a < n /\ b < n.

Definition stage (m : nat) (rho : nat -> nat) : Prop :=
  [/\ forall i, i < n -> rho i < n /\ rho (rho i) = rho i,
      forall i, i < n -> conn (take m E) i (rho i),
      forall a b, (a, b) \in take m E -> rho a = rho b &
      forall i, i < n -> vle (rho i) i].

Definition upair (D : nat -> option nat) (v : nat) : ppair V :=
  PPair 0 v (D v) (birth v) (if D v is Some k then dval k else inf).

(** alive before edge m *)
Definition alive (D : nat -> option nat) (m v : nat) : bool := if D v is Some k then m <= k else true.

Definition history (D : nat -> option nat) (m : nat) : Prop :=
  forall m', m' <= m -> exists2 rho, stage m' rho & forall v, v < n -> (rho v == v) = alive D m' v.

Definition dlt (D : nat -> option nat) (m : nat) := forall v k, v < n -> D v = Some k -> k < m.

Definition ufinv (m nf : nat) (p : seq nat) (pairs : seq (ppair V)) : Prop :=
  exists rho h D, [/\ forest n p rho h /\ pairs = mkseq (upair D) n, nf + nroots n rho = n /\ (forall i, i < n -> h i <= nf),
    dlt D m /\ (forall v, v < n -> (rho v == v) = alive D m v), stage m rho & history D m].

Lemma stage0 : stage 0 id.
Proof. by split=> [i li|i li|a b|i li]; rewrite ?take0; [|exact: conn_refl| |exact: vle_refl]. Qed.

Lemma ufinv_init : ufinv 0 0 (iota 0 n) (mkseq (upair (fun _ => None)) n).
Proof.
exists id, (fun _ => 0), (fun _ => None); split.
- split=> //; split; first exact: size_iota.
  + by move=> i li; rewrite nth_iota.
  + by move=> i li; rewrite nth_iota // add0n nth_iota.
  + by [].
  + by move=> i li; rewrite nth_iota // eqxx.
- split=> //; rewrite add0n /nroots; under eq_count do rewrite eqxx; by rewrite count_predT size_iota.
- by split=> // v; rewrite eqxx.
- exact: stage0.
- by move=> m; rewrite leqn0 => /eqP ->; exists id; [exact: stage0|move=> v; rewrite eqxx].
Qed.

Lemma takeSE m : m < size E -> take m.+1 E = rcons (take m E) (nth (0, 0) E m).
Proof. exact: take_nth. Qed.

Lemma stage_same m i j rho : m < size E -> nth (0, 0) E m = (i, j) -> stage m rho -> rho i = rho j -> stage m.+1 rho.
Proof.
move=> lm e [s1 s2 s3 s4] r; split=> //.
- by move=> x lx; apply: conn_sub (s2 x lx); rewrite takeSE // => y yi; rewrite mem_rcons inE yi orbT.
- by move=> a b; rewrite takeSE // e mem_rcons inE => /orP [/eqP [-> ->]|/s3].
Qed.

Lemma stage_merge m i j rho live dead : m < size E -> nth (0, 0) E m = (i, j) -> stage m rho ->
  (live, dead) = (rho i, rho j) \/ (live, dead) = (rho j, rho i) -> live != dead -> vle live dead ->
  stage m.+1 (mrho rho live dead).
Proof.
move=> lm e [s1 s2 s3 s4] r ne vl; have [li lj] : i < n /\ j < n by apply: Ein; rewrite -e mem_nth.
have [li1 ii] := s1 i li; have [lj1 jj] := s1 j lj.
have [ll ld rl rd] : [/\ live < n, dead < n, rho live = live & rho dead = dead] by case: r => -[-> ->].
have sub : {subset take m E <= take m.+1 E} by rewrite takeSE // => y yi; rewrite mem_rcons inE yi orbT.
have cij : conn (take m.+1 E) (rho i) (rho j).
  apply: (conn_trans (conn_sym (conn_sub sub (s2 i li)))); apply: conn_trans (conn_sub sub (s2 j lj)).
  by apply: conn_edge; rewrite takeSE // e mem_rcons mem_head.
split.
- move=> x lx; have [a b] := s1 x lx; rewrite /mrho; case: (rho x =P dead) => [_|/eqP nd]; first by rewrite rl (negbTE ne).
  by rewrite b (negbTE nd).
- move=> x lx; have c := conn_sub sub (s2 x lx); rewrite /mrho; case: eqP => [e1|//].
  apply: conn_trans c _; rewrite e1; case: r => -[-> ->]; [exact: conn_sym|exact: cij].
- move=> a b; rewrite takeSE // e mem_rcons inE => /orP [/eqP [-> ->]|/s3]; last by rewrite /mrho => ->.
  by rewrite /mrho; case: r ne => -[-> ->] ne; rewrite eqxx; case: ifP.
- move=> x lx; rewrite /mrho; case: eqP => [e1|_]; last exact: s4.
  by apply: vle_trans vl _; rewrite -e1; exact: s4.
Qed.

Lemma alive_lt D m v : v < n -> dlt D m -> alive D m v = (D v == None).
Proof. by move=> lv H; rewrite /alive; case e: (D v) => [k|] //; have := H v k lv e; rewrite ltnNge => /negbTE. Qed.

Lemma dltS D m : dlt D m -> dlt D m.+1. Proof. by move=> H v k lv /(H v k lv); exact: ltnW. Qed.

(** an edge inside a component *)
Lemma ufinv_same m nf p pairs i j : m < size E -> nth (0, 0) E m = (i, j) -> ufinv m nf p pairs -> exists p1 p2 r,
  [/\ find_parent p i = Ok (p1, r), find_parent p1 j = Ok (p2, r) & ufinv m.+1 nf p2 pairs] \/
  exists ri rj, [/\ find_parent p i = Ok (p1, ri), find_parent p1 j = Ok (p2, rj), ri != rj &
    forall live dead child k, ((live, dead, child) = (ri, rj, j) \/ (live, dead, child) = (rj, ri, i)) -> vle live dead -> k = m ->
    exists p3 pairs', [/\ uf_merge (p2, pairs) live dead child k (dval k) = Ok (p3, pairs'), live < n /\ dead < n,
      nth (upair (fun _ => None) 0) pairs live = PPair 0 live None (birth live) inf,
      nth (upair (fun _ => None) 0) pairs dead = PPair 0 dead None (birth dead) inf & ufinv m.+1 nf.+1 p3 pairs']].
Proof.
move=> lm e [rho [h [D [[F ep] [nr hb] [dl rD] st hi]]]].
have [li lj] : i < n /\ j < n by apply: Ein; rewrite -e mem_nth.
have nfn : nf <= n by rewrite -nr leq_addr.
have hn x : x < n -> h x <= n by move=> lx; apply: leq_trans (hb x lx) nfn.
have [p1 E1 F1] := find_parent_ok F li (hn i li); have [p2 E2 F2] := find_parent_ok F1 lj (hn j lj).
exists p1, p2, (rho i); case: (eqVneq (rho i) (rho j)) => [r|ne].
  left; split; [exact: E1|by rewrite r|].
  have st' := stage_same lm e st r.
  have dl' := dltS dl.
  have rD' v : v < n -> (rho v == v) = alive D m.+1 v.
    by move=> lv; rewrite rD // (alive_lt lv dl) (alive_lt lv dl').
  exists rho, h, D; split=> // m'; rewrite leq_eqVlt => /orP [/eqP ->|]; last exact: hi.
  by exists rho.
right; exists (rho i), (rho j); split; [exact: E1|exact: E2|exact: ne|].
move=> live dead child _ H vl ->.
have ij : (live, dead) = (rho i, rho j) \/ (live, dead) = (rho j, rho i) by case: H => -[-> -> _]; [left|right].
have ne' : live != dead by case: ij => -[-> ->]; rewrite // eq_sym.
have [s1 _ _ _] := st; have [li1 ii] := s1 i li; have [lj1 jj] := s1 j lj.
have [ll ld rl rd] : [/\ live < n, dead < n, rho live = live & rho dead = dead] by case: ij => -[-> ->].
have [lc rc] : child < n /\ rho child = dead by case: H => -[_ -> ->].
have [f1 _ _ _ _] := F2.
have Dl v : v < n -> rho v = v -> D v = None.
  by move=> lv rv; have := rD v lv; rewrite rv eqxx (alive_lt lv dl) => /esym/eqP.
pose D' v := if v == dead then Some m else D v.
have pd : nth (upair (fun _ => None) 0) pairs dead = PPair 0 dead None (birth dead) inf.
  by rewrite ep nth_mkseq // /upair Dl.
exists (set_nth 0 (set_nth 0 p2 dead live) child live), (mkseq (upair D') n); split=> //.
- rewrite /uf_merge ep (oget_nth (upair D 0)) ?size_mkseq //= nth_mkseq //= (oset_Ok (upair D 0)) ?size_mkseq //=.
  rewrite (oset_Ok 0) ?f1 //= (oset_Ok 0) ?size_set_nth ?f1 ?leq_max ?lc ?orbT //=; congr (Ok (_, _)).
  apply: (@eq_from_nth _ (upair D 0)) => [|v].
    by rewrite size_set_nth !size_mkseq; apply/maxn_idPr.
  rewrite size_set_nth size_mkseq (maxn_idPr ld) => lv; rewrite nth_set_nth /= [RHS]nth_mkseq //.
  by case: (v =P dead) => [->|/eqP nd]; rewrite ?nth_mkseq // /upair /D' ?eqxx // (negbTE nd).
- by rewrite ep nth_mkseq // /upair Dl.
have st' := stage_merge lm e st ij ne' vl.
have dl' : dlt D' m.+1.
  by move=> v k lv; rewrite /D'; case: eqP => [_ [<-]//|_ /(dl v k lv)]; exact: ltnW.
have rD' v : v < n -> (mrho rho live dead v == v) = alive D' m.+1 v.
  move=> lv; rewrite (alive_lt lv dl') /D' /mrho; case: (v =P dead) => [->|/eqP nd]; first by rewrite rd eqxx (negbTE ne').
  have := rD v lv; rewrite (alive_lt lv dl) => <-; case: (rho v =P dead) => // e1; rewrite e1 [dead == v]eq_sym (negbTE nd).
  by apply/negP => /eqP e2; rewrite -e2 rl in e1; rewrite e1 eqxx in ne'.
exists (mrho rho live dead), (mh rho h dead), D'; split=> //.
- by split=> //; exact: forest_merge.
- split; first by rewrite addSnnS (nroots_merge F).
  by move=> x lx; rewrite /mh; case: eqP => _; [rewrite ltnS|apply: leqW]; exact: hb.
- move=> m'; rewrite leq_eqVlt => /orP [/eqP ->|lm']; first by exists (mrho rho live dead).
  have [rho' st1 r1] := hi m' lm'; exists rho' => // v lv; rewrite r1 // /alive /D'.
  by case: (v =P dead) => [ev|//]; rewrite ev (Dl _ ld rd).
Qed.

(** the final answer *)
Definition ufdone (pairs : seq (ppair V)) : Prop :=
  exists D, [/\ pairs = mkseq (upair D) n, dlt D (size E) & history D (size E)].

Lemma ufinv_end nf p pairs : ufinv (size E) nf p pairs -> ufdone pairs.
Proof. by move=> [rho [h [D [[_ ep] _ [dl _] _ hi]]]]; exists D. Qed.

(** one component left: the other edges change nothing *)
Lemma ufinv_break m nf p pairs : m <= size E -> ufinv m nf p pairs -> nf.+1 = n -> ufdone pairs.
Proof.
move=> lm [rho [h [D [[F ep] [nr hb] [dl rD] st hi]]]] nn.
have r1 : nroots n rho = 1 by move: nr nn; clear; lia.
exists D; split=> //; first by move=> v k lv /(dl v k lv) lt; exact: leq_trans lt lm.
move=> m' lm'; case: (leqP m' m) => [|lt]; first exact: hi.
have [s1 s2 s3 s4] := st; exists rho.
  split=> //.
  - move=> x lx; apply: conn_sub (s2 x lx) => y; rewrite -[take m E](take_take (ltnW lt)); exact: mem_take.
  - by move=> a b /mem_take /Ein [la lb]; exact: nroots1 F r1 la lb.
move=> v lv; rewrite rD // (alive_lt lv dl) (@alive_lt _ m') // => v' k lv' /(dl v' k lv') lk.
exact: ltn_trans lk lt.
Qed.
End Inv.
