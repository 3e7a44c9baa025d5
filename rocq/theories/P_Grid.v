(** Chains inside unit boxes of the grid, and the loops of grid.hpp. *)
From mathcomp Require Import all_ssreflect all_algebra zify.
From Verif Require Import Outcome M_Simplicial M_Cubical M_Product M_Grid S_Simplicial S_Cubical P_Outcome P_Trie P_Simplicial P_ScOps P_ScBuild P_Product Props_Simplicial Props_Cubical.
Set Implicit Arguments.
Unset Strict Implicit.
Unset Printing Implicit Defensive.

Definition p3 := (nat * nat * nat)%type.
Definition plt3 (u v : p3) : bool := [&& u.1.1 <= v.1.1, u.1.2 <= v.1.2, u.2 <= v.2 & u != v].
Definition inbox (lo hi v : p3) : bool := [&& lo.1.1 <= v.1.1 <= hi.1.1, lo.1.2 <= v.1.2 <= hi.1.2 & lo.2 <= v.2 <= hi.2].
Definition unitbox (lo hi : p3) : bool := [&& lo.1.1 <= hi.1.1 <= lo.1.1.+1, lo.1.2 <= hi.1.2 <= lo.1.2.+1 & lo.2 <= hi.2 <= lo.2.+1].
Definition idxp n2 n3 (v : p3) : nat := idx3 v.1.1 v.1.2 v.2 n2 n3.

Lemma plt3_trans : transitive plt3.
Proof.
move=> [[b1 b2] b3] [[a1 a2] a3] [[c1 c2] c3] /and4P [/= h1 h2 h3 h4] /and4P [/= h5 h6 h7 h8]; apply/and4P; split; rewrite /=; try lia.
apply/eqP => -[e1 e2 e3]; case/eqP: h4; congr (_, _, _); lia.
Qed.

(** codes of the corners of a box *)
Definition code := (bool * bool * bool)%type.
Definition pltc (c d : code) : bool := [&& c.1.1 ==> d.1.1, c.1.2 ==> d.1.2, c.2 ==> d.2 & c != d].
Definition pt (lo hi : p3) (c : code) : p3 := (if c.1.1 then hi.1.1 else lo.1.1, if c.1.2 then hi.1.2 else lo.1.2, if c.2 then hi.2 else lo.2).
Definition cd (hi v : p3) : code := (v.1.1 == hi.1.1, v.1.2 == hi.1.2, v.2 == hi.2).
(** directions in which the box is degenerate *)
Definition degen (lo hi : p3) : code := (lo.1.1 == hi.1.1, lo.1.2 == hi.1.2, lo.2 == hi.2).
Definition sel (e c : code) : bool := [&& e.1.1 ==> c.1.1, e.1.2 ==> c.1.2 & e.2 ==> c.2].

Definition fff : code := (false, false, false).
Definition fft : code := (false, false, true).
Definition ftf : code := (false, true, false).
Definition ftt : code := (false, true, true).
Definition tff : code := (true, false, false).
Definition tft : code := (true, false, true).
Definition ttf : code := (true, true, false).
Definition ttt : code := (true, true, true).

Definition mchains (e : code) : seq (seq code) :=
  match e with
  | (false, false, false) => [:: [:: fff; fft; ftt; ttt]; [:: fff; fft; tft; ttt]; [:: fff; tff; ttf; ttt]; [:: fff; tff; tft; ttt]; [:: fff; ftf; ttf; ttt]; [:: fff; ftf; ftt; ttt]]
  | (false, false, true) => [:: [:: fft; tft; ttt]; [:: fft; ftt; ttt]]
  | (true, false, false) => [:: [:: tff; ttf; ttt]; [:: tff; tft; ttt]]
  | (false, true, false) => [:: [:: ftf; ttf; ttt]; [:: ftf; ftt; ttt]]
  | (false, true, true) => [:: [:: ftt; ttt]]
  | (true, false, true) => [:: [:: tft; ttt]]
  | (true, true, false) => [:: [:: ttf; ttt]]
  | (true, true, true) => [:: [:: ttt]]
  end.

Definition codes : seq code := [:: fff; fft; ftf; ftt; tff; tft; ttf; ttt].
Fixpoint allq (e : code) (n : nat) : seq (seq code) :=
  if n is n'.+1 then [::] :: flatten [seq [seq v :: q | v <- [seq v <- codes | sel e v && sorted pltc (v :: q)]] | q <- allq e n'] else [:: [::]].
Lemma mem_codes c : c \in codes. Proof. by case: c => [[[] []] []]. Qed.
Lemma allqP e n q : size q <= n -> sorted pltc q -> all (sel e) q -> q \in allq e n.
Proof.
elim: n q => [|n IH] [|v q] // sz so al; rewrite /allq -/allq inE; apply/orP; right.
apply/flattenP; eexists; first by apply: map_f; apply: (IH q) => //; [exact: path_sorted so|case/andP: al].
by apply: map_f; rewrite mem_filter mem_codes andbT so andbT; case/andP: al.
Qed.
Lemma pltc_trans : transitive pltc.
Proof. by move=> [[[] []] []] [[[] []] []] [[[] []] []]. Qed.
Lemma pltc_irr : irreflexive pltc.
Proof. by move=> c; rewrite /pltc eqxx !andbF. Qed.
Lemma mchains_all e q : sorted pltc q -> all (sel e) q -> exists2 p, p \in mchains e & subseq q p.
Proof.
move=> so al; have sz : size q <= 8 by apply: (@uniq_leq_size _ q codes) => [|c _]; [exact: sorted_uniq pltc_trans pltc_irr _ so|exact: mem_codes].
have H : all (fun q => has (subseq q) (mchains e)) (allq e 8).
  by clear; case: e => [[[] []] []]; vm_compute.
by have /hasP [p hp sp] := allP H _ (allqP sz so al); exists p.
Qed.
Lemma mchains_ok e p : p \in mchains e -> sorted pltc p && all (sel e) p.
Proof.
have H : all (fun p => sorted pltc p && all (sel e) p) (mchains e) by clear; case: e => [[[] []] []]; vm_compute.
by move=> /(allP H).
Qed.

Lemma cdK lo hi v : unitbox lo hi -> inbox lo hi v -> pt lo hi (cd hi v) = v.
Proof.
case: lo hi v => [[a b] c] [[a' b'] c'] [[x y] z]; rewrite /unitbox /inbox /pt /cd /= => u h.
congr (_, _, _); [case: eqP|case: eqP|case: eqP]; lia.
Qed.
Lemma cd_sel lo hi v : inbox lo hi v -> sel (degen lo hi) (cd hi v).
Proof.
case: lo hi v => [[a b] c] [[a' b'] c'] [[x y] z]; rewrite /inbox /sel /cd /degen /= => h.
by apply/and3P; split; apply/implyP => /eqP e; apply/eqP; lia.
Qed.
Lemma cd_lt lo hi u v : unitbox lo hi -> inbox lo hi u -> inbox lo hi v -> plt3 u v -> pltc (cd hi u) (cd hi v).
Proof.
move=> ub hu hv /and4P [h1 h2 h3 ne]; apply/and4P; split; last by apply: contraNneq ne => e; rewrite -(cdK ub hu) -(cdK ub hv) e.
all: move: hv; rewrite /cd /inbox /=; clear -h1 h2 h3 => hv; apply/implyP => /eqP e; apply/eqP; lia.
Qed.
Lemma pt_in lo hi c : unitbox lo hi -> inbox lo hi (pt lo hi c).
Proof.
case: lo hi c => [[a b] c] [[a' b'] c'] [[x y] z]; rewrite /unitbox /inbox /pt /=.
by case: x; case: y; case: z; lia.
Qed.
Lemma pt_lt lo hi c d : unitbox lo hi -> sel (degen lo hi) c -> sel (degen lo hi) d -> pltc c d -> plt3 (pt lo hi c) (pt lo hi d).
Proof.
case: lo hi c d => [[a b] c] [[a' b'] c'] [[x y] z] [[x' y'] z']; rewrite /unitbox /sel /pt /plt3 /pltc /degen /= => u s1 s2 /and4P [h1 h2 h3 ne].
have -> : (if x then a' else a) <= (if x' then a' else a) by case: x h1 {s1 ne} => //=; [move=> ->|case: x' {s2}; move: u; clear; lia].
have -> : (if y then b' else b) <= (if y' then b' else b) by case: y h2 {s1 ne} => //=; [move=> ->|case: y' {s2}; move: u; clear; lia].
have -> : (if z then c' else c) <= (if z' then c' else c) by case: z h3 {s1 ne} => //=; [move=> ->|case: z' {s2}; move: u; clear; lia].
rewrite /=; apply: contraNneq ne => -[e1 e2 e3].
have K (w w' : bool) (l h : nat) : (l == h) ==> w -> (l == h) ==> w' -> (if w then h else l) = (if w' then h else l) -> w = w'.
  by clear; case: w; case: w' => // k1 k2 /= e; move: k1 k2; rewrite e eqxx.
case/and3P: s1 => k1 k2 k3; case/and3P: s2 => l1 l2 l3.
by rewrite (K _ _ _ _ k1 l1 e1) (K _ _ _ _ k2 l2 e2) (K _ _ _ _ k3 l3 e3).
Qed.

Lemma sorted_map_in (A B : eqType) (lt : rel A) (lt' : rel B) (f : A -> B) q (P : pred A) :
  (forall u v, P u -> P v -> lt u v -> lt' (f u) (f v)) -> sorted lt q -> all P q -> sorted lt' (map f q).
Proof.
move=> h; case: q => // v q; elim: q v => //= w q IH v /andP [h1 h2] /and3P [h3 h4 h5].
by rewrite h //= IH //= h4.
Qed.

(** the chains in a unit box are the subsequences of the maximal ones *)
Lemma box_chains lo hi q : unitbox lo hi ->
  sorted plt3 q && all (inbox lo hi) q <-> exists2 p, p \in mchains (degen lo hi) & subseq q (map (pt lo hi) p).
Proof.
move=> ub; split=> [/andP [so al]|[p hp sq]].
  have [||p hp sp] := @mchains_all (degen lo hi) (map (cd hi) q).
  - by apply: sorted_map_in so al => u v hu hv; exact: cd_lt ub hu hv.
  - by rewrite all_map; apply: sub_all al => v /=; exact: cd_sel.
  exists p => //; have -> : q = map (pt lo hi) (map (cd hi) q); last exact: map_subseq.
  by rewrite -map_comp -[LHS]map_id; apply/eq_in_map => v /(allP al) /= /(cdK ub).
have /andP [so al] := mchains_ok hp; apply/andP; split.
  apply: (subseq_sorted plt3_trans sq); apply: sorted_map_in so al => c d; exact: pt_lt.
by apply/allP => v /(mem_subseq sq) /mapP [c _ ->]; exact: pt_in.
Qed.

Lemma idx_lt n2 n3 u v : 0 < n2 -> 0 < n3 -> plt3 u v -> idxp n2 n3 u < idxp n2 n3 v.
Proof.
move=> p2 p3; case: u v => [[a b] c] [[a' b'] c']; rewrite /plt3 /idxp /idx3 /= => /and4P [h1 h2 h3 ne].
have m1 : a * n2 <= a' * n2 by rewrite leq_mul2r h1 orbT.
case: (ltnP a a') => la.
  have m2 : a * n2 < a' * n2 by rewrite ltn_mul2r p2.
  rewrite -addnS; apply: leq_add h3 _; rewrite ltn_mul2l p3; move: m2 h2; clear; lia.
case: (ltnP b b') => lb; first by rewrite -addnS; apply: leq_add h3 _; rewrite ltn_mul2l p3; move: m1 lb; clear; lia.
have ea : a = a' by lia.
have eb : b = b' by lia.
rewrite ea eb ltn_add2r ltn_neqAle h3 andbT; apply: contraNneq ne => ->; by rewrite ea eb.
Qed.
Lemma idx_sorted n2 n3 q : 0 < n2 -> 0 < n3 -> sorted plt3 q -> sorted ltn (map (idxp n2 n3) q).
Proof.
move=> h2 h3 so; apply: (@sorted_map_in _ _ plt3 ltn (idxp n2 n3) q predT) so _; last exact: all_predT.
by move=> u v _ _; exact: idx_lt.
Qed.

Definition bl n2 n3 (lo hi : p3) : seq (seq nat) := [seq map (idxp n2 n3) (map (pt lo hi) p) | p <- mchains (degen lo hi)].
Lemma bl_iff n2 n3 lo hi t : 0 < n2 -> 0 < n3 -> unitbox lo hi ->
  (exists2 s, s \in bl n2 n3 lo hi & subseq t (sort leq s)) <->
  exists q, [/\ sorted plt3 q, all (inbox lo hi) q & t = map (idxp n2 n3) q].
Proof.
move=> p2 p3 ub.
have so p : p \in mchains (degen lo hi) -> sort leq (map (idxp n2 n3) (map (pt lo hi) p)) = map (idxp n2 n3) (map (pt lo hi) p).
  move=> hp; apply: (sorted_sort leq_trans); apply: (@sub_sorted _ ltn); first by move=> x y /ltnW.
  apply: idx_sorted => //; have /andP [] := (box_chains (map (pt lo hi) p) ub).2 (ex_intro2 _ _ p hp (subseq_refl _)).
  by [].
split=> [[s /mapP [p hp ->]]|[q [c al ->]]].
  rewrite (so p hp) => /subseqP [m _ ->]; exists (mask m (map (pt lo hi) p)); rewrite map_mask.
  by have /andP [] := (box_chains (mask m (map (pt lo hi) p)) ub).2 (ex_intro2 _ _ p hp (mask_subseq _ _)).
have [|p hp sq] := (box_chains q ub).1; first by rewrite c al.
exists (map (idxp n2 n3) (map (pt lo hi) p)); first exact: map_f.
by rewrite (so p hp); exact: map_subseq.
Qed.

(** loops of add_recursive *)
Lemma addrs_adds X L : built X -> all (fun s => s != [::]) L -> exists2 X', addrs X L = Ok X' & adds X L X'.
Proof.
move=> bX al; have [|X' E a] := @adds_fold _ addr (fun s => [:: s]) L X _ bX.
  by move=> s Z si bZ; apply: adds1 => //; exact: (allP al).
by exists X' => //; move: a; rewrite (_ : flatten _ = L) //; clear; elim: L => //= s L ->.
Qed.

(** cubical complexes *)
Definition cadds D (X : ccx) (L : seq (seq nat)) (X' : ccx) : Prop :=
  [/\ cc_built X', cc_maxdim X' = D & forall t, size t = (2 * D)%N -> ccontains X' t <-> ccontains X t \/ exists2 s, s \in L & is_subcube D t s].
Lemma cadds0 D X : cc_built X -> cc_maxdim X = D -> cadds D X [::] X.
Proof. by move=> b e; split=> // t _; split=> [|[]] //; [left|move=> []]. Qed.
Lemma cadds_cat D X L1 X1 L2 X2 : cadds D X L1 X1 -> cadds D X1 L2 X2 -> cadds D X (L1 ++ L2) X2.
Proof.
move=> [b1 e1 h1] [b2 e2 h2]; split=> // t n0; rewrite (h2 t n0) (h1 t n0); split.
  by case=> [[|[s si st]]|[s si st]]; [left|right; exists s; rewrite // mem_cat si|right; exists s; rewrite // mem_cat si orbT].
by case=> [|[s]]; [left; left|rewrite mem_cat => /orP [] si st; [left; right; exists s|right; exists s]].
Qed.
Lemma cadds1 D X s : cc_built X -> cc_maxdim X = D -> 0 < D -> is_cube D s -> exists2 X', caddr X s = Ok X' & cadds D X [:: s] X'.
Proof.
move=> b e D0 cs; have [H _ _ _ _] := C25_defined s 0 b; rewrite e in H; have [_ [X' [r E]]] := H cs.
exists X'; first by rewrite /caddr E.
have D0' : 0 < cc_maxdim X by rewrite e.
have b' : cc_built X' by exact: ccb_add_recursive b E.
have [e' K _ _ _] := C25_add_recursive b D0' E; rewrite e in e' K; split=> // t st; rewrite (K t st).
by split=> [[|h]|[|[s']]]; [left|right; exists s; rewrite ?inE|left|rewrite inE => /eqP -> h; right].
Qed.
Lemma cadds_fold D (B : eqType) (f : ccx -> B -> outcome ccx) (g : B -> seq (seq nat)) l X :
  (forall b X, b \in l -> cc_built X -> cc_maxdim X = D -> exists2 X', f X b = Ok X' & cadds D X (g b) X') -> cc_built X -> cc_maxdim X = D ->
  exists2 X', ofold f X l = Ok X' & cadds D X (flatten (map g l)) X'.
Proof.
elim: l X => [|b l IH] X H bX eX; first by exists X => //; exact: cadds0.
have [|X1 E1 a1] := H b X _ bX eX; first by rewrite inE eqxx.
have [|||X2 E2 a2] := IH X1; [by move=> c Z ci; apply: H; rewrite inE ci orbT|by case: a1|by case: a1|].
by exists X2; [rewrite /= E1; cbn [obind]; exact: E2|exact: cadds_cat a1 a2].
Qed.

(** three nested loops *)
Definition fl3 (g : nat -> nat -> nat -> seq (seq nat)) i0 i1 j0 j1 k0 k1 : seq (seq nat) :=
  flatten [seq flatten [seq flatten [seq g i j k | k <- iota k0 (k1 - k0)] | j <- iota j0 (j1 - j0)] | i <- iota i0 (i1 - i0)].
Lemma mem_fl3 g i0 i1 j0 j1 k0 k1 s : s \in fl3 g i0 i1 j0 j1 k0 k1 <->
  exists i j k, [/\ i0 <= i < i1, j0 <= j < j1, k0 <= k < k1 & s \in g i j k].
Proof.
have R a b x : (x \in iota a (b - a)) = (a <= x < b) by rewrite mem_iota; lia.
split.
  move=> /flattenP [? /mapP [i]]; rewrite R => hi -> /flattenP [? /mapP [j]]; rewrite R => hj -> /flattenP [? /mapP [k]]; rewrite R => hk -> hs.
  by exists i, j, k.
move=> [i [j [k [hi hj hk hs]]]]; apply/flattenP; eexists; first by apply/mapP; exists i; [rewrite R|reflexivity].
apply/flattenP; eexists; first by apply/mapP; exists j; [rewrite R|reflexivity].
by apply/flattenP; eexists; first by apply/mapP; exists k; [rewrite R|reflexivity].
Qed.
Lemma loop3_adds f g i0 i1 j0 j1 k0 k1 X :
  (forall i j k X, built X -> exists2 X', f i j k X = Ok X' & adds X (g i j k) X') -> built X ->
  exists2 X', loop3 i0 (Ok i1) j0 (Ok j1) k0 (Ok k1) f X = Ok X' & adds X (fl3 g i0 i1 j0 j1 k0 k1) X'.
Proof.
move=> H bX; rewrite /loop3 /loop; cbn [obind].
by apply: adds_fold bX => i Z _ bZ; apply: adds_fold bZ => j Z1 _ bZ1; apply: adds_fold bZ1 => k Z2 _ bZ2; exact: H.
Qed.
Lemma loop3_cadds D f g i0 i1 j0 j1 k0 k1 X :
  (forall i j k X, cc_built X -> cc_maxdim X = D -> exists2 X', f i j k X = Ok X' & cadds D X (g i j k) X') -> cc_built X -> cc_maxdim X = D ->
  exists2 X', loop3 i0 (Ok i1) j0 (Ok j1) k0 (Ok k1) f X = Ok X' & cadds D X (fl3 g i0 i1 j0 j1 k0 k1) X'.
Proof.
move=> H bX eX; rewrite /loop3 /loop; cbn [obind].
apply: cadds_fold eX => // i Z _ bZ eZ; apply: cadds_fold eZ => // j Z1 _ bZ1 eZ1; apply: cadds_fold eZ1 => // k Z2 _ bZ2 eZ2; exact: H.
Qed.
