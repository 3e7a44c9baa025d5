(** Folds of add_recursive, and staircase paths in a product of two simplices. *)
From mathcomp Require Import all_ssreflect all_algebra zify.
From Verif Require Import Outcome M_Simplicial M_Product S_Simplicial P_Outcome P_Trie P_Simplicial P_ScOps P_ScBuild Props_Simplicial.
Set Implicit Arguments.
Unset Strict Implicit.
Unset Printing Implicit Defensive.

(** X' is X with the simplices of L and their faces *)
Definition adds (X : scx) (L : seq (seq nat)) (X' : scx) : Prop :=
  built X' /\ forall t, t != [::] -> contains X' t <-> contains X t \/ exists2 s, s \in L & subseq t (sort leq s).

Lemma adds0 X : built X -> adds X [::] X.
Proof. by move=> b; split=> // t _; split=> [|[]] //; [left|move=> []]. Qed.
Lemma adds_cat X L1 X1 L2 X2 : adds X L1 X1 -> adds X1 L2 X2 -> adds X (L1 ++ L2) X2.
Proof.
move=> [b1 h1] [b2 h2]; split=> // t n0; rewrite (h2 t n0) (h1 t n0); split.
  by case=> [[|[s si st]]|[s si st]]; [left|right; exists s; rewrite // mem_cat si|right; exists s; rewrite // mem_cat si orbT].
by case=> [|[s]]; [left; left|rewrite mem_cat => /orP [] si st; [left; right; exists s|right; exists s]].
Qed.
Lemma adds1 X s : built X -> s != [::] -> exists2 X', (do r <- sc_add_recursive X s; Ok r.1) = Ok X' & adds X [:: s] X'.
Proof.
move=> b n0; have [H _ _ _ _] := C23_defined s b b; have [_ _ [X' [r E]] _] := H n0.
exists X'; first by rewrite E.
have b' : built X' by exact: built_add_recursive E.
split=> // t nt; have [K _ _ _] := C23_add_recursive b n0 E; rewrite (K t nt).
by split=> [[|h]|[|[s' ]]]; [left|right; exists s; rewrite ?inE|left|rewrite inE => /eqP -> h; right].
Qed.
Lemma adds_fold (B : eqType) (f : scx -> B -> outcome scx) (g : B -> seq (seq nat)) l X :
  (forall b X, b \in l -> built X -> exists2 X', f X b = Ok X' & adds X (g b) X') -> built X ->
  exists2 X', ofold f X l = Ok X' & adds X (flatten (map g l)) X'.
Proof.
elim: l X => [|b l IH] X H bX; first by exists X => //; exact: adds0.
have [|X1 E1 a1] := H b X _ bX; first by rewrite inE eqxx.
have [||X2 E2 a2] := IH X1; [by move=> c Z ci; apply: H; rewrite inE ci orbT|by case: a1|].
by exists X2; [rewrite /= E1; cbn [obind]; exact: E2|exact: adds_cat a1 a2].
Qed.

(** strict chains of N x N *)
Definition plt (u v : nat * nat) : bool := [&& u.1 <= v.1, u.2 <= v.2 & u != v].
Lemma plt_trans : transitive plt.
Proof.
move=> [b1 b2] [a1 a2] [c1 c2] /and3P [/= h1 h2 h3] /and3P [/= h4 h5 h6]; apply/and3P; split; rewrite /=; try lia.
apply/eqP => -[e1 e2]; case/eqP: h3; congr (_, _); lia.
Qed.

Fixpoint stairs (f : nat) (xs ys : seq nat) : seq (seq (nat * nat)) :=
  if f is f'.+1 then
    match xs, ys with
    | x :: xs', y :: ys' =>
      if nilp xs' && nilp ys' then [:: [:: (x, y)]]
      else [seq (x, y) :: p | p <- (if nilp xs' then [::] else stairs f' xs' ys) ++ (if nilp ys' then [::] else stairs f' xs ys')]
    | _, _ => [::]
    end
  else [::].

Definition within (xs ys : seq nat) (q : seq (nat * nat)) : bool := all (fun v => (v.1 \in xs) && (v.2 \in ys)) q.

Lemma within_sub xs ys xs' ys' q : {subset xs <= xs'} -> {subset ys <= ys'} -> within xs ys q -> within xs' ys' q.
Proof. by move=> hx hy /allP h; apply/allP => v /h /andP [/hx -> /hy ->]. Qed.

Lemma path_min x xs : sorted ltn (x :: xs) -> forall a, a \in x :: xs -> x <= a.
Proof. by move=> so a; rewrite inE => /orP [/eqP ->//|]; move: so; rewrite /= (path_sortedE ltn_trans) => /andP [/allP h _] /h /ltnW. Qed.

Lemma stairs_chain f xs ys p : sorted ltn xs -> sorted ltn ys -> p \in stairs f xs ys ->
  [/\ sorted plt p, within xs ys p, p != [::] & head (0, 0) p = (head 0 xs, head 0 ys)].
Proof.
elim: f xs ys p => // f IH [|x xs] [|y ys] p sx sy //=.
have sx' := path_sorted sx; have sy' := path_sorted sy.
case: ifP => [/andP [/nilP -> /nilP ->]|_]; first by rewrite inE => /eqP -> /=; rewrite !inE !eqxx.
move=> /mapP [q]; rewrite mem_cat => /orP [] hq ->.
  case: xs sx sx' hq => // x' xs sx sx' hq; have [c w n0 hd] := IH _ _ _ sx' sy hq; split=> //.
    case: q c hd {w n0 hq} => // v q c /= hd; apply/andP; split=> //; rewrite hd /plt /=.
    move: sx => /= /andP [l _]; rewrite (ltnW l) leqnn /=; apply/eqP => -[e]; by rewrite e ltnn in l.
  by rewrite /= !inE !eqxx /=; apply: within_sub w => // a; rewrite !inE => /orP [] ->; rewrite ?orbT.
case: ys sy sy' hq => // y' ys sy sy' hq; have [c w n0 hd] := IH _ _ _ sx sy' hq; split=> //.
  case: q c hd {w n0 hq} => // v q c /= hd; apply/andP; split=> //; rewrite hd /plt /=.
  move: sy => /= /andP [l _]; rewrite (ltnW l) leqnn /=; apply/eqP => -[e]; by rewrite e ltnn in l.
by rewrite /= !inE !eqxx /=; apply: within_sub w => // a; rewrite !inE => /orP [] ->; rewrite ?orbT.
Qed.

Lemma stairs_all f xs ys q : sorted ltn xs -> sorted ltn ys -> xs != [::] -> ys != [::] -> size xs + size ys <= f.+1 ->
  sorted plt q -> within xs ys q -> exists2 p, p \in stairs f xs ys & subseq q p.
Proof.
elim: f xs ys q => [|f IH] [|x xs] [|y ys] q //= sx sy _ _; first by rewrite addSn addnS.
move=> sz; have sx' := path_sorted sx; have sy' := path_sorted sy.
(* chains that start at (x, y) *)
suff H : forall q, path plt (x, y) q -> within (x :: xs) (y :: ys) q -> exists2 p, p \in stairs f.+1 (x :: xs) (y :: ys) & subseq ((x, y) :: q) p.
  move=> c w; case: q c w => [|v q] c w.
    by have [p hp _] := H [::] isT isT; exists p => //; exact: sub0seq.
  case: (v =P (x, y)) => [e|ne].
    by rewrite e in c *; apply: H => //; move: w => /= /andP [].
  have [|p hp sp] := H (v :: q) _ w.
    move: w => /andP [/andP [w1 w2] _]; rewrite [path _ _ _]/=; change (path plt v q) with (sorted plt (v :: q)); rewrite c andbT /plt /= (path_min sx w1) (path_min sy w2) /=.
    by apply/eqP => e; case: ne.
  by exists p => //; apply: subseq_trans sp; exact: subseq_cons.
move=> {q} q c w; rewrite /=; case: ifP => [/andP [/nilP ex /nilP ey]|ne].
  exists [:: (x, y)]; rewrite ?inE //; case: q c w => [|v q] /=; rewrite ?eqxx // => /andP [/and3P [_ _ nv] _]; rewrite ex ey !inE => /andP [/andP [/eqP e1 /eqP e2] _].
  by case/eqP: nv; rewrite -e1 -e2; case: (v).
have X1 : xs != [::] -> within xs (y :: ys) q -> exists2 p, p \in [seq (x, y) :: p | p <- (if nilp xs then [::] else stairs f xs (y :: ys)) ++ (if nilp ys then [::] else stairs f (x :: xs) ys)] & subseq ((x, y) :: q) p.
  move=> nx w'; have [|p hp sp] := IH xs (y :: ys) q sx' sy nx isT _ (path_sorted c) w'; first by move: sz; rewrite /=; lia.
  by exists ((x, y) :: p); rewrite /= ?eqxx // map_f // mem_cat /nilp size_eq0 (negbTE nx) hp.
have Y1 : ys != [::] -> within (x :: xs) ys q -> exists2 p, p \in [seq (x, y) :: p | p <- (if nilp xs then [::] else stairs f xs (y :: ys)) ++ (if nilp ys then [::] else stairs f (x :: xs) ys)] & subseq ((x, y) :: q) p.
  move=> ny w'; have [|p hp sp] := IH (x :: xs) ys q sx sy' isT ny _ (path_sorted c) w'; first by move: sz; rewrite /=; lia.
  by exists ((x, y) :: p); rewrite /= ?eqxx // map_f // mem_cat /nilp !size_eq0 (negbTE ny) hp orbT.
case: q c w X1 Y1 => [|v q] c w X1 Y1.
  case: (eqVneq xs [::]) => ex; last exact: X1.
  by apply: Y1 => //; move: ne; rewrite ex /=; case: (ys).
move: (c) => /= /andP [/and3P [/= l1 l2 nv] cq].
have later u : u \in v :: q -> v.1 <= u.1 /\ v.2 <= u.2.
  rewrite inE => /orP [/eqP ->//|ui]; move: cq; rewrite (path_sortedE plt_trans) => /andP [/allP h _].
  by have /and3P [] := h u ui.
move: (w) => /allP W; case: (ltnP x v.1) => lx.
  have wx : within xs (y :: ys) (v :: q).
    apply/allP => u ui; have /andP [] := W u ui; rewrite inE => /orP [/eqP e|->]; last by [].
    by have [] := later u ui; rewrite e leqNgt lx.
  by apply: X1 => //; move: wx => /= /andP [/andP [h _] _]; apply: contraTneq h => ->.
have e1 : v.1 = x by apply/eqP; rewrite eqn_leq lx l1.
have ly : y < v.2 by rewrite ltn_neqAle l2 andbT; apply: contraNneq nv => e2; rewrite -e1 e2; case: (v).
have wy : within (x :: xs) ys (v :: q).
  apply/allP => u ui; have /andP [h1] := W u ui; rewrite inE h1 => /orP [/eqP e|->]; last by [].
  by have [_] := later u ui; rewrite e leqNgt ly.
by apply: Y1 => //; move: wy => /= /andP [/andP [_ h] _]; apply: contraTneq h => ->.
Qed.

(** the loop adds the staircases *)
Definition pind n (v : nat * nat) : nat := prod_ind n v.1 v.2.
Lemma product_pathsS f X x xs y ys s n : product_paths f.+1 X (x :: xs) (y :: ys) s n =
  let s := rcons s (prod_ind n x y) in
  if nilp xs && nilp ys then do r <- sc_add_recursive X s; Ok r.1
  else do XY1 <- (if nilp xs then Ok X else product_paths f X xs (y :: ys) s n);
       if nilp ys then Ok XY1 else product_paths f XY1 (x :: xs) ys s n.
Proof. by []. Qed.
Lemma stairsS f x xs y ys : stairs f.+1 (x :: xs) (y :: ys) =
  if nilp xs && nilp ys then [:: [:: (x, y)]]
  else [seq (x, y) :: p | p <- (if nilp xs then [::] else stairs f xs (y :: ys)) ++ (if nilp ys then [::] else stairs f (x :: xs) ys)].
Proof. by []. Qed.
Lemma product_paths_adds f X xs ys s n : built X -> xs != [::] -> ys != [::] -> size xs + size ys <= f.+1 ->
  exists2 X', product_paths f.+1 X xs ys s n = Ok X' & adds X [seq s ++ map (pind n) p | p <- stairs f.+1 xs ys] X'.
Proof.
elim: f X xs ys s => [|f IH] X [|x xs] [|y ys] s // bX _ _; first by rewrite /= addSn addnS.
move=> sz; rewrite product_pathsS stairsS; cbv zeta; set ff := f.+1; case: ifP => [_|ne].
  have [|X' E a] := @adds1 X (rcons s (prod_ind n x y)) bX; first by case: (s).
  by exists X' => //; move: a; rewrite /= cats1.
set s1 := rcons s _; pose L1 := if nilp xs then [::] else stairs ff xs (y :: ys); pose L2 := if nilp ys then [::] else stairs ff (x :: xs) ys.
have eL L : [seq s ++ map (pind n) p | p <- [seq (x, y) :: p | p <- L]] = [seq s1 ++ map (pind n) p | p <- L].
  by rewrite -map_comp; apply: eq_map => p /=; rewrite /s1 cat_rcons.
have [X1 E1 a1] : exists2 X1, (if nilp xs then Ok X else product_paths ff X xs (y :: ys) s1 n) = Ok X1 & adds X [seq s1 ++ map (pind n) p | p <- L1] X1.
  rewrite /L1; case: ifP => nx; first by exists X => //; exact: adds0.
  by apply: IH => //; rewrite -size_eq0 -/(nilp _) nx.
have [X2 E2 a2] : exists2 X2, (if nilp ys then Ok X1 else product_paths ff X1 (x :: xs) ys s1 n) = Ok X2 & adds X1 [seq s1 ++ map (pind n) p | p <- L2] X2.
  have [b1 _] := a1; rewrite /L2; case: ifP => ny; first by exists X1 => //; exact: adds0.
  by apply: IH => //; [rewrite -size_eq0 -/(nilp _) ny|move: sz; rewrite /= !addSn addnS].
exists X2; first by rewrite E1; cbn [obind]; exact: E2.
rewrite eL map_cat; exact: adds_cat a1 a2.
Qed.
