(** C28: a Filtration keeps exactly one value per simplex, and its sublevel sets. *)
From mathcomp Require Import all_ssreflect all_algebra zify.
From Verif Require Import Outcome M_SparseVec M_Perm M_ColMatrix M_CSC M_Simplicial M_Filtration S_Perm S_Simplicial S_Filtration P_Outcome P_Trie P_Simplicial P_ScOps P_ScBuild P_Filtration Props_Simplicial.
Set Implicit Arguments.
Unset Strict Implicit.
Unset Printing Implicit Defensive.

Section C28.
Variable V : Type.
Variable v0 : V.
Variable le : V -> V -> bool.
Implicit Types (F : filt V) (s u : seq nat).

(** There are exactly as many values as simplices in every dimension, so every simplex has exactly one value. *)
Theorem C28_aligned F : fbuilt v0 F ->
  [/\ built (fl_X F),
      forall k, k < size (fl_val F) -> exists2 vs, oget (fl_val F) k = Ok vs & sc_ncell (fl_X F) k = Ok (size vs),
      forall k, size (fl_val F) <= k < sc_dims (fl_X F) -> sc_ncell (fl_X F) k = Ok 0,
      forall s, s != [::] -> contains (fl_X F) s <-> exists v, fvalue F s v &
      forall s v w, fvalue F s v -> fvalue F s w -> v = w].
Proof.
move=> b0; have [cl fi b] := fbuilt_inv b0; have [iv sv g] := fi; split=> //.
- move=> k lk; exists (nth [::] (fl_val F) k); first exact: oget_nth.
  by rewrite (ncell_ok iv) ?(leq_trans lk sv) // g.
- by move=> k /andP [l1 l2]; rewrite (ncell_ok iv) // (cells_none fi l1).
- move=> s n0; rewrite (contains_iff iv n0); split=> [si|[v /(fvalue_iff v0 _ fi n0) []//]].
  by exists (va v0 cl F s); apply/(fvalue_iff v0 _ fi n0).
- by move=> s v w [i e0 e1] [j e2]; move: e2; rewrite e0 => -[<-]; rewrite e1 => -[].
Qed.

(** A filtration made from a complex gives every simplex the default value. *)
Theorem C28_of C : built C -> exists F, [/\ fl_of v0 C = Ok F, fl_X F = C & forall s v, s != [::] -> fvalue F s v <-> contains C s /\ v = v0].
Proof.
move=> /built_inv [cl iv _]; have [F [E fi e d]] := fof_ok v0 iv; exists F; split=> // s v n0.
by rewrite (fvalue_iff v0 _ fi n0) (contains_iff iv n0) d.
Qed.

(** add_directed(t, s), for a simplex that is there or whose faces are there: s has value t afterwards, even if it had
    another one; every other simplex keeps its value. *)
Theorem C28_add_directed F t s : fbuilt v0 F -> s != [::] -> contains (fl_X F) s \/ has_faces (fl_X F) s ->
  exists (F' : filt V) (i : nat), [/\ fl_add_directed v0 F t s = Ok (F', Some i), preserves (fl_X F) (fl_X F'), sc_find (fl_X F') s = Ok (Some i) &
    forall u v, u != [::] -> fvalue F' u v <-> u = s /\ v = t \/ u <> s /\ fvalue F u v].
Proof.
move=> b0 n0 H; have [cl fi b] := fbuilt_inv b0; have [iv sv g] := fi.
have H' : (s \isin cl) || facesb cl s.
  by case: H => [/(contains_iff iv n0) ->//|/(has_faces_iff iv n0) ->]; rewrite orbT.
have [F' [i [cl' [E [fi' _] ex ct vv]]]] := fadd_ok v0 t fi n0 H'.
exists F', i; have [iv' _ _] := fi'; split=> //; first exact: preserves_ext iv iv' ex.
  move: E; rewrite /fl_add_directed; case E1: sc_add_directed => [[X' r]|||] //=; case: fv_store => //= val [<- er] /=.
  by have [_ _ -> _] := C23_add_directed b n0 E1; rewrite er.
move=> u v nu; rewrite (fvalue_iff v0 _ fi' nu) (fvalue_iff v0 _ fi nu) ct //; split.
  move=> [ui ->]; rewrite vv // ?ct //; case: eqP ui => [->|ne]; first by left.
  by rewrite orbF => ui; right.
case=> [[-> ->]|[ne [ui ->]]]; first by rewrite eqxx orbT vv ?ct ?eqxx ?orbT.
by rewrite ui vv ?ct ?ui //; case: eqP.
Qed.

(** ... and otherwise the value is stored outside the vector. *)
Theorem C28_add_directed_missing F t s : fbuilt v0 F -> s != [::] -> ~ contains (fl_X F) s -> ~ has_faces (fl_X F) s ->
  fl_add_directed v0 F t s = UB.
Proof.
move=> b0 n0 h1 h2; have [cl fi b] := fbuilt_inv b0; have [iv sv g] := fi; apply: (fadd_fail _ _ fi n0); rewrite negb_or; apply/andP; split.
  by apply/negP => /(contains_iff iv n0).
by apply/negP => /(has_faces_iff iv n0).
Qed.

(** add(t, s) is add_directed(t, sorted s) *)
Theorem C28_add F t s : fbuilt v0 F -> s != [::] -> contains (fl_X F) (sort leq s) \/ has_faces (fl_X F) (sort leq s) ->
  exists (F' : filt V) (i : nat), [/\ fl_add v0 F t s = Ok (F', Some i), preserves (fl_X F) (fl_X F'), sc_find (fl_X F') (sort leq s) = Ok (Some i) &
    forall u v, u != [::] -> fvalue F' u v <-> u = sort leq s /\ v = t \/ u <> sort leq s /\ fvalue F u v].
Proof. by move=> b n0; rewrite fl_addE; apply: C28_add_directed => //; rewrite sort_nil. Qed.

Theorem C28_add_missing F t s : fbuilt v0 F -> s != [::] -> ~ contains (fl_X F) (sort leq s) -> ~ has_faces (fl_X F) (sort leq s) ->
  fl_add v0 F t s = UB.
Proof. by move=> b n0; rewrite fl_addE; apply: C28_add_directed_missing => //; rewrite sort_nil. Qed.

(** add_recursive(t, s) always succeeds: s and its faces that were missing get value t; all others keep theirs *)
Theorem C28_add_recursive F t s : fbuilt v0 F -> s != [::] ->
  exists (F' : filt V) (r : seq (nat * nat)), [/\ fl_add_recursive v0 F t s = Ok (F', r), preserves (fl_X F) (fl_X F') &
    forall u v, u != [::] -> fvalue F' u v <->
      v = t /\ (u = sort leq s \/ subseq u (sort leq s) /\ ~ contains (fl_X F) u) \/ u <> sort leq s /\ fvalue F u v].
Proof.
move=> b0 n0; have [cl fi b] := fbuilt_inv b0; have [iv sv g] := fi; have n0' : sort leq s != [::] by rewrite sort_nil.
have [F' [r [cl' [E [fi' _] ex ct vv]]]] := frec_ok v0 t fi n0.
exists F', r; have [iv' _ _] := fi'; split=> //; first exact: preserves_ext iv iv' ex.
move=> u v nu; rewrite (fvalue_iff v0 _ fi' nu) (fvalue_iff v0 _ fi nu) (contains_iff iv nu) ct //; split.
  move=> [ui ->]; rewrite vv // ?ct //; case: eqP => /= [->|ne]; first by left; split=> //; left.
  case: (boolP (u \isin cl)) ui => /= ui; first by right.
  by move=> us; left; split=> //; right; split=> //; exact/negP.
case=> [[-> [->|[us ui]]]|[ne [ui ->]]].
- by rewrite subseq_refl orbT vv ?ct ?subseq_refl ?orbT // eqxx.
- by move/negP: ui => ui; rewrite us orbT vv ?ct ?us ?orbT // (negbTE ui) orbT.
- by rewrite ui vv ?ct ?ui //; case: eqP.
Qed.

(** Adding a new simplex no earlier than its faces keeps the filtration monotone. *)
Theorem C28_add_recursive_monotone F t s F' r : (forall v, le v v) -> fbuilt v0 F -> s != [::] -> monotone le F ->
  ~ contains (fl_X F) (sort leq s) -> (forall u v, u != [::] -> subseq u (sort leq s) -> fvalue F u v -> le v t) ->
  fl_add_recursive v0 F t s = Ok (F', r) -> monotone le F'.
Proof.
move=> rf b n0 mo nc lo; have [F1 [r1 [E _ H]]] := C28_add_recursive t b n0; rewrite E => -[<- _] {E F'}.
have [_ _ _ cv _] := C28_aligned b; have n0' : sort leq s != [::] by rewrite sort_nil.
move=> p q v w nq qp fp fq; have np : p != [::] by case: p qp {fp} => //; case: q nq {fq}.
have nos v' : ~ fvalue F (sort leq s) v' by move=> h; apply: nc; apply/(cv _ n0'); exists v'.
have below u : u != [::] -> subseq u (sort leq s) -> forall x, fvalue F1 u x -> le x t.
  by move=> nu us x /(H u x nu) [[-> _]//|[_ fu]]; exact: lo fu.
case/(H p v np): fp => [[-> [e|[ps _]]]|[ne fp]].
- by apply: below fq => //; rewrite -e.
- by apply: below fq => //; exact: subseq_trans ps.
- case/(H q w nq): fq => [[-> [e|[qs qn]]]|[ne2 fq]]; last exact: mo fp fq.
    case: nc; apply: C23_closed (_ : contains (fl_X F) p) _ _ => //; [by case: (fbuilt_inv b)| |by rewrite -e].
    by apply/(cv _ np); exists v.
  case: qn; apply: C23_closed (_ : contains (fl_X F) p) _ _ => //; [by case: (fbuilt_inv b)|].
  by apply/(cv _ np); exists v.
Qed.

Theorem C28_add_monotone F t s F' r : (forall v, le v v) -> fbuilt v0 F -> s != [::] -> monotone le F ->
  ~ contains (fl_X F) (sort leq s) -> (forall u v, u != [::] -> subseq u (sort leq s) -> fvalue F u v -> le v t) ->
  fl_add v0 F t s = Ok (F', r) -> monotone le F'.
Proof.
move=> rf b n0 mo nc lo E; have [cl fi bX] := fbuilt_inv b; have [iv _ _] := fi; have n0' : sort leq s != [::] by rewrite sort_nil.
case: (boolP (facesb cl (sort leq s))) => hf; last first.
  by move: E; rewrite (C28_add_missing t b n0 nc) // => /(has_faces_iff iv n0'); apply/negP.
have hf' : has_faces (fl_X F) (sort leq s) by apply/(has_faces_iff iv n0').
have [F1 [i [E1 _ _ H]]] := C28_add t b n0 (or_intror hf'); move: E; rewrite E1 => -[<- _] {E1 F'}.
have [_ _ _ cv _] := C28_aligned b.
have nos v' : ~ fvalue F (sort leq s) v' by move=> h; apply: nc; apply/(cv _ n0'); exists v'.
move=> p q v w nq qp fp fq; have np : p != [::] by case: p qp {fp} => //; case: q nq {fq}.
case/(H p v np): fp => [[e ->]|[ne fp]]; case/(H q w nq): fq => [[e2 ->]|[ne2 fq]] //.
- by apply: lo fq => //; rewrite -e.
- case: nc; apply: C23_closed (_ : contains (fl_X F) p) _ _ => //; last by rewrite -e2.
  by apply/(cv _ np); exists v.
- exact: mo fp fq.
Qed.

(** union_add(F2): the simplices of F2, with their vertices sorted, are added with the values they have in F2,
    overwriting the values of F. *)
Theorem C28_union_add F F2 : fbuilt v0 F -> fbuilt v0 F2 ->
  exists F', [/\ fl_union_add v0 F F2 = Ok F', preserves (fl_X F) (fl_X F'),
    forall u, u != [::] -> contains (fl_X F') u <->
      contains (fl_X F) u \/ exists2 s, s != [::] /\ contains (fl_X F2) s & sort leq s = u &
    forall u v, u != [::] -> fvalue F' u v ->
      (exists2 s, s != [::] /\ fvalue F2 s v & sort leq s = u) \/
      (forall s, s != [::] -> contains (fl_X F2) s -> sort leq s <> u) /\ fvalue F u v].
Proof.
move=> b0 b02; have [cl fi b] := fbuilt_inv b0; have [cl2 fi2 b2] := fbuilt_inv b02; have [iv sv g] := fi; have [iv2 _ _] := fi2.
have [F' [cl' [E fi' ex ct vv]]] := funion_ok v0 fi fi2; have [iv' _ _] := fi'.
exists F'; split=> //; first exact: preserves_ext iv iv' ex.
  move=> u nu; rewrite (contains_iff iv' nu) (contains_iff iv nu) ct //; split.
    case/orP=> [->|/mapP [s si ->]]; first by left.
    have n0 := cell_list_nonnil iv2 si; rewrite (mem_cell_listv fi2 n0) in si.
    by right; exists s => //; split=> //; apply/(contains_iff iv2 n0).
  case=> [->//|[s [n0 /(contains_iff iv2 n0) si] <-]]; apply/orP; right; apply: map_f; by rewrite (mem_cell_listv fi2 n0).
move=> u v nu /(fvalue_iff v0 _ fi' nu) [ui ->]; rewrite vv //.
case: (lastvP (va v0 cl F u) u (vlist v0 cl2 (fl_val F2) (size (fl_val F2)))) => [[p -> [pi e]]|[-> ni]].
  have [n0 si pe] := vlist_in iv2 pi; left; exists p.1 => //; split=> //; exact/(fvalue_iff v0 _ fi2 n0).
rewrite unzip1_vlist in ni; right; split.
  move=> s n0 /(contains_iff iv2 n0) si e; case/negP: ni; rewrite -e; apply: map_f; by rewrite (mem_cell_listv fi2 n0).
by apply/(fvalue_iff v0 _ fi nu); split=> //; move: ui; rewrite ct // (negbTE ni) orbF.
Qed.

(** With sorted simplices in F2 the new values are: those of F2, and those of F elsewhere. *)
Theorem C28_union_add_undirected F F2 F' : fbuilt v0 F -> fbuilt v0 F2 -> undirected (fl_X F2) ->
  fl_union_add v0 F F2 = Ok F' ->
  forall u v, u != [::] -> fvalue F' u v <-> fvalue F2 u v \/ ~ contains (fl_X F2) u /\ fvalue F u v.
Proof.
move=> b b2 ud E u v nu; have [F1 [E1 _ cF vF]] := C28_union_add b b2.
have e : F1 = F' by move: E1; rewrite E => -[].
rewrite {F1}e {E1} in cF vF E1 *.
have [_ _ _ cv' un'] := C28_aligned (fb_union_add b b2 E).
have [_ _ _ cv un] := C28_aligned b; have [_ _ _ cv2 un2] := C28_aligned b2.
have srt s : contains (fl_X F2) s -> sort leq s = s by move=> h; apply: sorted_sort (ud _ h); exact: leq_trans.
have fwd x : fvalue F' u x -> fvalue F2 u x \/ ~ contains (fl_X F2) u /\ fvalue F u x.
  move=> h; case: (vF u x nu h) => [[s [n0 fs] <-]|[ns fu]].
    by left; rewrite srt //; apply/(cv2 _ n0); exists x.
  by right; split=> // h2; apply: (ns u nu h2); exact: srt.
split; first exact: fwd.
move=> H; have /(cv' _ nu) [x fx] : contains (fl_X F') u.
  apply/(cF u nu); case: H => [f2|[_ f1]]; [right|by left; apply/(cv _ nu); exists v].
  have c2 : contains (fl_X F2) u by apply/(cv2 _ nu); exists v.
  by exists u => //; exact: srt.
rewrite (_ : v = x) //; case: (fwd x fx) H => [f2|[n2 f1]] [g2|[m2 g1]].
- exact: un2 g2 f2.
- by case: m2; apply/(cv2 _ nu); exists x.
- by case: n2; apply/(cv2 _ nu); exists v.
- exact: un g1 f1.
Qed.

(** sublevelset(a) is always a complex: t is in it exactly when every face of t (t included) is the sorted version of
    a simplex with value at most a. *)
Theorem C28_sublevelset F a : fbuilt v0 F -> exists2 Y, fl_sublevelset le F a = Ok Y & built Y /\
  forall t, t != [::] -> contains Y t <->
    forall u, u != [::] -> subseq u t -> exists s v, [/\ s != [::], sort leq s = u, fvalue F s v & le v a].
Proof.
move=> b0; have [cl fi b] := fbuilt_inv b0; have [cl0 _ d0] := built_inv b.
have [Y [cl' [E iv' _ ct]]] := fsub_ok v0 le a fi d0; exists Y => //; split.
  move: E; rewrite (fsub_loop v0 le a fi d0); move: (built_new (sc_dims (fl_X F)).-1); move: (sc_new _).
  elim: (filter _ _) => [|s l IH] Z bZ /=; first by case=> <-.
  by rewrite /add1; case E: sc_add => [[Z' r]|||] //=; apply: IH; exact: built_add E.
move=> t nt; rewrite (contains_iff iv' nt) ct //; split=> H u nu us.
  have [s [n0 si e l]] := H u nu us; exists s, (va v0 cl F s); split=> //; exact/(fvalue_iff v0 _ fi n0).
by have [s [v [n0 e /(fvalue_iff v0 _ fi n0) [si ->] l]]] := H u nu us; exists s.
Qed.

(** For a monotone filtration with sorted simplices it is exactly the set of simplices with value at most a. *)
Theorem C28_sublevelset_monotone F a Y t : transitive le -> fbuilt v0 F -> undirected (fl_X F) -> monotone le F ->
  fl_sublevelset le F a = Ok Y -> t != [::] -> contains Y t <-> exists2 v, fvalue F t v & le v a.
Proof.
move=> tr b ud mo E nt; have [Y' E' [bY H]] := C28_sublevelset a b; move: E; rewrite E' => -[<-].
have [bX _ _ cv un] := C28_aligned b.
have srt s : contains (fl_X F) s -> sort leq s = s by move=> h; apply: sorted_sort (ud _ h); exact: leq_trans.
rewrite H //; split=> [/(_ t nt (subseq_refl t)) [s [v [n0 e f l]]]|[v f l] u nu us].
  exists v => //; rewrite -e srt //; by apply/(cv _ n0); exists v.
have ct : contains (fl_X F) t by apply/(cv _ nt); exists v.
have cu := C23_closed bX ct nu us; have /(cv _ nu) [w fw] := cu; exists u, w; split=> //; first exact: srt.
exact: tr (mo _ _ _ _ nu us f fw) l.
Qed.
End C28.

(** The hypotheses matter: the edge of this filtration enters before its vertex 1, and the sublevel set at 1 silently
    leaves it out although its value is 0. *)
Definition exf (r : outcome (filt nat * seq (nat * nat))) : filt nat := if r is Ok (F, _) then F else fl_empty nat.
Definition exf1 (r : outcome (filt nat * option nat)) : filt nat := if r is Ok (F, _) then F else fl_empty nat.
Definition ex_F0 : filt nat := Eval vm_compute in exf (fl_add_recursive 0 (fl_empty nat) 1 [:: 0; 1]).
Definition ex_F : filt nat := Eval vm_compute in exf (fl_add_recursive 0 ex_F0 2 [:: 2; 1; 0]).
Definition ex_early : filt nat := Eval vm_compute in exf1 (fl_add 0 ex_F0 0 [:: 0; 1]).

Lemma ex_empty_value u v : ~ fvalue (fl_empty nat) u v.
Proof. by move=> [i _] /=; case: (size u).-1. Qed.
Lemma ex_F0_value u v : fvalue ex_F0 u v -> v = 1.
Proof. by move=> [i _] /=; case: (size u).-1 => [|[|k]] /=; case: i => [|[|i]] //=; try (by case=> <-); case: i => //; case: k. Qed.

Lemma ex_F0_mono : monotone leq ex_F0.
Proof. by move=> t u v w _ _ /ex_F0_value -> /ex_F0_value ->. Qed.
Lemma ex_F0_built : fbuilt 0 ex_F0.
Proof.
apply: (@fb_add_recursive _ 0 (fl_empty nat) 1 [:: 0; 1] ex_F0 [:: (0, 0); (0, 1); (1, 0)]); first exact: fb_empty.
by vm_compute.
Qed.

Theorem C28_overwrite_breaks : [/\ fbuilt 0 ex_F0, monotone leq ex_F0, fl_add_recursive 0 ex_F0 0 [:: 0; 1] = Ok (ex_early, [:: (1, 0)]),
  fbuilt 0 ex_early & ~ monotone leq ex_early] /\
  exists2 Y, fl_sublevelset leq ex_early 0 = Ok Y & fvalue ex_early [:: 0; 1] 0 /\ ~ contains Y [:: 0; 1].
Proof.
have E : fl_add_recursive 0 ex_F0 0 [:: 0; 1] = Ok (ex_early, [:: (1, 0)]) by vm_compute.
have b1 : fbuilt 0 ex_early := fb_add_recursive ex_F0_built E.
split; first split=> //.
- exact: ex_F0_built.
- exact: ex_F0_mono.
- by move=> /(_ [:: 0; 1] [:: 0] 0 1 isT isT) H; suff : 1 <= 0 by []; apply: H; exists 0.
exists (sc_new 1); first by vm_compute.
by split; [exists 0|move=> [i]].
Qed.

Theorem C28_nonvacuous : [/\ fbuilt 0 ex_F, fvalue ex_F [:: 0; 1] 1, fvalue ex_F [:: 0; 1; 2] 2, monotone leq ex_F &
  exists2 Y, fl_sublevelset leq ex_F 1 = Ok Y & contains Y [:: 0; 1] /\ ~ contains Y [:: 2]].
Proof.
have E : fl_add_recursive 0 ex_F0 2 [:: 2; 1; 0] = Ok (ex_F, [:: (0, 2); (1, 1); (1, 2); (2, 0)]) by vm_compute.
have b1 : fbuilt 0 ex_F := fb_add_recursive ex_F0_built E.
have mo : monotone leq ex_F.
  apply: (@C28_add_recursive_monotone _ 0 leq ex_F0 2 [:: 2; 1; 0] ex_F _ leqnn ex_F0_built isT ex_F0_mono _ _ E); first by move=> [i].
  by move=> u v _ _ /ex_F0_value ->.
clear E; split; [exact: b1|by exists 0|by exists 0|exact: mo|].
exists (if fl_sublevelset leq ex_F 1 is Ok Y then Y else sc_new 0); first by vm_compute.
by split; [exists 0; vm_compute|move=> [i]; vm_compute].
Qed.
