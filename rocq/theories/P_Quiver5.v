(** barcode_from_barcode_form: following pivots through the diagram. *)
From mathcomp Require Import all_ssreflect all_fingroup all_algebra zify.
From Verif Require Import Outcome P_Outcome RingTac M_SparseVec M_Perm M_ColMatrix S_Linalg P_SparseVec
  P_SparseVec2 P_Reduce P_Homology P_Pairing P_ColMatrix M_Fact S_Fact P_Den M_Quiver S_Quiver
  P_Quiver1 P_Quiver2 P_Quiver3 P_Quiver4.
Set Implicit Arguments.
Unset Strict Implicit.
Unset Printing Implicit Defensive.
Import GRing.Theory.

Definition b0 : bar := Bar 0 0 0 0.
Notation nb := (nth b0).
Definition bal (b : bar) (k : nat) : bool := b_start b <= k <= b_end b.

(** labels lab s i (i < dd s) name the bars of the basis vectors seen so far; nodes after K have none *)
Definition linv (K : nat) (dd : nat -> nat) (piv : nat -> nat -> option nat) (bars : seq bar) (lab : nat -> nat -> nat) : Prop :=
  [/\ forall s i, i < dd s -> lab s i < size bars /\ bal (nb bars (lab s i)) s,
      forall s i i', i < dd s -> i' < dd s -> lab s i = lab s i' -> i = i',
      forall s b, b < size bars -> bal (nb bars b) s -> exists2 i, i < dd s & lab s i = b,
      forall b, b < size bars -> let p := nb bars b in
        [/\ b_start p <= b_end p <= K, b_start_ind p < dd (b_start p) /\ lab (b_start p) (b_start_ind p) = b &
            b_end_ind p < dd (b_end p) /\ lab (b_end p) (b_end_ind p) = b] &
      forall s i j, i < dd s -> j < dd s.+1 -> (lab s i == lab s.+1 j) = (piv s j == Some i)].

Definition lset (lab : nat -> nat -> nat) s i b : nat -> nat -> nat := fun s' i' => if (s' == s) && (i' == i) then b else lab s' i'.
Definition dset (dd : nat -> nat) s n : nat -> nat := fun s' => if s' == s then n else dd s'.

Section Step.
Variables (k : nat) (dd : nat -> nat) (piv : nat -> nat -> option nat) (bars : seq bar) (lab : nat -> nat -> nat).
Let j := dd k.+1.
Hypothesis after : forall s, k.+1 < s -> dd s = 0.
Hypothesis I : linv k.+1 dd piv bars lab.

Lemma linv_new : piv k j = None -> (forall s i, i < dd s -> s <= k.+1) ->
  linv k.+1 (dset dd k.+1 j.+1) piv (rcons bars (Bar k.+1 j k.+1 j)) (lset lab k.+1 j (size bars)).
Proof.
move=> pn le; case: I => h1 h2 h3 h4 h5.
have ndd s i : i < dset dd k.+1 j.+1 s -> (s = k.+1 /\ i = j) \/ (i < dd s /\ ((s == k.+1) && (i == j)) = false).
  rewrite /dset; case: (eqVneq s k.+1) => [->|ne] hi /=; last by right.
  by case: (eqVneq i j) => [->|ni]; [left|right; move: hi ni; rewrite /j; clear; lia].
have mono s i : i < dd s -> i < dset dd k.+1 j.+1 s.
  by rewrite /dset; case: eqP => [->|_] //; rewrite /j; clear; lia.
have nr b : b < size bars -> nb (rcons bars (Bar k.+1 j k.+1 j)) b = nb bars b by move=> h; rewrite nth_rcons h.
have nl : nb (rcons bars (Bar k.+1 j k.+1 j)) (size bars) = Bar k.+1 j k.+1 j by rewrite nth_rcons ltnn eqxx.
split.
- move=> s i /ndd[[-> ->]|[hi e]]; rewrite /lset ?eqxx /= ?e ?nl ?size_rcons.
    by split=> //; rewrite /bal /= leqnn.
  by have [a b] := h1 _ _ hi; rewrite nr //; split=> //; apply: ltnW.
- move=> s i i' /ndd[[-> ->]|[hi e]] /ndd[[e1 ->]|[hi' e']]; rewrite /lset ?e ?e' ?eqxx /= //.
  + by move=> h; have [a _] := h1 _ _ hi'; rewrite -h ltnn in a.
  + by rewrite e1 eqxx => h; rewrite e1 in hi; have [a _] := h1 _ _ hi; rewrite h ltnn in a.
  + exact: h2.
- move=> s b; rewrite size_rcons ltnS leq_eqVlt => /orP[/eqP ->|lb].
    rewrite nl /bal /= -eqn_leq => /eqP <-; exists j; first by rewrite /dset eqxx.
    by rewrite /lset !eqxx.
  rewrite nr // => /h3[] // i hi <-; exists i; first exact: mono.
  by rewrite /lset; case: (ndd _ _ (mono _ _ hi)) => [[_ e]|[_ ->]] //; case: andP => // -[/eqP es _]; rewrite e es ltnn in hi.
- move=> b; rewrite size_rcons ltnS leq_eqVlt => /orP[/eqP ->|lb].
    by rewrite nl /= /dset /lset !eqxx leqnn.
  have [a [x1 x2] [y1 y2]] := h4 b lb; rewrite nr //; split=> //; (split; first exact: mono).
    by rewrite /lset; case: andP => // -[/eqP e1 /eqP e2]; rewrite e1 e2 ltnn in x1.
  by rewrite /lset; case: andP => // -[/eqP e1 /eqP e2]; rewrite e1 e2 ltnn in y1.
- move=> s i jj /ndd[[-> ->]|[hi e]] /ndd[[e1 e1']|[hi' e']].
  + by move: e1; clear; lia.
  + by have := le _ _ hi'; clear; lia.
  + case: e1 => e1; rewrite {s}e1 in e hi *; rewrite e1' pn /lset !eqxx /= e.
    by apply/eqP => h; have [a _] := h1 _ _ hi; rewrite h ltnn in a.
  + by rewrite /lset e e'; apply: h5.
Qed.

Lemma linv_ext r : piv k j = Some r -> r < dd k -> (forall s i, i < dd s -> s <= k.+1) ->
  (forall j', j' < j -> piv k j' != Some r) ->
  let b := lab k r in let p := nb bars b in
  linv k.+1 (dset dd k.+1 j.+1) piv (set_nth b0 bars b (Bar (b_start p) (b_start_ind p) k.+1 j)) (lset lab k.+1 j b).
Proof.
move=> pr rk le np b p; case: I => h1 h2 h3 h4 h5.
have ndd s i : i < dset dd k.+1 j.+1 s -> (s = k.+1 /\ i = j) \/ (i < dd s /\ ((s == k.+1) && (i == j)) = false).
  rewrite /dset; case: (eqVneq s k.+1) => [->|ne] hi /=; last by right.
  by case: (eqVneq i j) => [->|ni]; [left|right; move: hi ni; rewrite /j; clear; lia].
have mono s i : i < dd s -> i < dset dd k.+1 j.+1 s.
  by rewrite /dset; case: eqP => [->|_] //; rewrite /j; clear; lia.
have [lb ab] := h1 _ _ rk; rewrite -/b -/p in lb ab.
have nj j' : j' < j -> lab k.+1 j' <> b.
  by move=> lj e; have := h5 _ _ _ rk lj; rewrite e eqxx => /esym; rewrite (negPf (np _ lj)).
have nab : ~~ bal p k.+1 by apply/negP => /(h3 _ _ lb)[i hi]; exact: nj.
have ep : b_end p = k by move: ab nab; rewrite /bal; clear; lia.
have sp : b_start p <= k by case/andP: ab.
set p' := Bar _ _ _ _; set bars' := set_nth _ _ _ _.
have sb : size bars' = size bars by rewrite size_set_nth; apply/maxn_idPr.
have nn c : nb bars' c = if c == b then p' else nb bars c by rewrite nth_set_nth.
have al c s : bal (nb bars' c) s = bal (nb bars c) s || ((c == b) && (s == k.+1)).
  rewrite nn; case: (eqVneq c b) => [->|_] /=; last by rewrite orbF.
  rewrite -/p /bal /= ep; move: sp; clear; lia.
split.
- move=> s i /ndd[[-> ->]|[hi e]]; rewrite /lset ?eqxx /= ?e sb al.
    by rewrite !eqxx orbT.
  by have [x ->] := h1 _ _ hi.
- move=> s i i' /ndd[[-> ->]|[hi e]] /ndd[[e1 ->]|[hi' e']]; rewrite /lset ?e ?e' ?eqxx /= //.
  + by move=> /esym h; case: (nj _ hi' h).
  + by rewrite e1 eqxx => h; rewrite e1 in hi h; case: (nj _ hi h).
  + exact: h2.
- move=> s c; rewrite sb al => lc /orP[/(h3 _ _ lc)[i hi <-]|/andP[/eqP -> /eqP ->]].
    exists i; first exact: mono.
    by rewrite /lset; case: andP => // -[/eqP es /eqP ei]; rewrite es ei ltnn in hi.
  by exists j; rewrite /dset /lset !eqxx.
- move=> c; rewrite sb => lc; rewrite nn; case: (eqVneq c b) => [->|_].
    have [a [x1 x2] [y1 y2]] := h4 b lb; rewrite -/p in a x1 x2 y1 y2; rewrite /=; split.
    + by move: sp; clear; lia.
    + split; first exact: mono.
      by rewrite /lset; case: andP => // -[/eqP e1 /eqP e2]; rewrite e1 e2 ltnn in x1.
    + by rewrite /dset /lset !eqxx.
  have [a [x1 x2] [y1 y2]] := h4 c lc; split=> //; (split; first exact: mono).
    by rewrite /lset; case: andP => // -[/eqP e1 /eqP e2]; rewrite e1 e2 ltnn in x1.
  by rewrite /lset; case: andP => // -[/eqP e1 /eqP e2]; rewrite e1 e2 ltnn in y1.
- move=> s i jj /ndd[[-> ->]|[hi e]] /ndd[[e1 e1']|[hi' e']].
  + by move: e1; clear; lia.
  + by have := le _ _ hi'; clear; lia.
  + case: e1 => e1; rewrite {s}e1 in e hi *; rewrite e1' pr /lset !eqxx /= e.
    by apply/eqP/eqP => [h|[<-]] //; congr Some; apply/esym; apply: h2 hi rk h.
  + by rewrite /lset e e'; apply: h5.
Qed.
End Step.

Lemma linv_eqd K dd dd' piv bars lab : dd =1 dd' -> linv K dd piv bars lab -> linv K dd' piv bars lab.
Proof.
move=> e [h1 h2 h3 h4 h5]; split.
- by move=> s i; rewrite -e; apply: h1.
- by move=> s i i'; rewrite -e; apply: h2.
- by move=> s b lb ab; have [i] := h3 _ _ lb ab; exists i; rewrite -?e.
- by move=> b lb /=; rewrite -!e; apply: h4.
- by move=> s i j; rewrite -!e; apply: h5.
Qed.
Lemma linv_mono K K' dd piv bars lab : K <= K' -> linv K dd piv bars lab -> linv K' dd piv bars lab.
Proof.
move=> le [h1 h2 h3 h4 h5]; split=> // b lb /=; have [h x y] := h4 b lb; split=> //; move: h le; clear; lia.
Qed.

Section Prog.
Local Open Scope ring_scope.
Variable F : fieldType.
Notation O := (ops_of F).
Notation svec := (svec F).
Notation cmat := (cmat F).
Variable d : nat -> nat.
Notation rep := (rep F d).
Variable dg : diagram F.
Notation nm := (nth (m0 F)).
Definition trunc k s := (if s <= k then d s else 0)%N.
Definition pivc (c : svec) : option nat := if c is (r, _) :: _ then Some r else None.

Lemma bar_cols p k cs piv bars lab : (forall i, (i < d k)%N -> p i = Some (lab k i)) -> size cs = d k.+1 ->
  (forall j, (j < d k.+1)%N -> piv k j = pivc (nth [::] cs j)) ->
  (forall j r, (j < d k.+1)%N -> piv k j = Some r -> (r < d k)%N) ->
  (forall j j' r, (j < d k.+1)%N -> (j' < d k.+1)%N -> piv k j = Some r -> piv k j' = Some r -> j = j') ->
  linv k (trunc k) piv bars lab -> forall n, (n <= d k.+1)%N ->
  exists bars' p2 lab', [/\ ofold (bar_step p k cs) (bars, fun _ => None) (iota 0 n) = Ok (bars', p2),
    linv k.+1 (dset (trunc k) k.+1 n) piv bars' lab', (forall i, (i < n)%N -> p2 i = Some (lab' k.+1 i)) &
    forall s i, (s <= k)%N -> lab' s i = lab s i].
Proof.
move=> hp sc hpv pb pin I; elim=> [|n IH] nd.
  exists bars, (fun _ => None), lab; split=> //; apply: (linv_eqd _ (linv_mono (leqnSn k) I)) => s.
  by rewrite /dset /trunc; case: eqP => // ->; rewrite ltnn.
have {IH} [bars1 [p1 [lab1 [e1 I1 h1 o1]]]] := IH (ltnW nd).
rewrite -addn1 iotaD add0n ofold_cat e1; cbn [obind iota ofold]; rewrite addn1 /bar_step.
rewrite (oget_nth [::]) ?sc //; cbn [obind].
have dn : dset (trunc k) k.+1 n k.+1 = n by rewrite /dset eqxx.
have le s i : (i < dset (trunc k) k.+1 n s)%N -> (s <= k.+1)%N.
  by rewrite /dset /trunc; case: eqP => [->|_] //; case: (leqP s k) => [h _|_ //]; apply: leqW.
have dd2 : dset (dset (trunc k) k.+1 n) k.+1 n.+1 =1 dset (trunc k) k.+1 n.+1 by move=> s; rewrite /dset; case: eqP.
have pn := hpv _ nd; case ec : (nth [::] cs n) pn => [|[r x] c] /= pn.
  exists (rcons bars1 (Bar k.+1 n k.+1 n)), (nset p1 n (size bars1)), (lset lab1 k.+1 n (size bars1)); split=> //.
  - apply: (linv_eqd dd2); have := linv_new I1; rewrite dn; apply=> //.
  - move=> i; rewrite ltnS leq_eqVlt /nset /lset eqxx /=; case: eqP => //= _; exact: h1.
  - by move=> s i sk; rewrite /lset; case: eqP sk => [->|_] /=; rewrite ?ltnn // => sk; apply: o1.
have rk := pb _ _ nd pn; rewrite /nget hp //=; rewrite -(o1 k r) //.
have rk' : (r < dset (trunc k) k.+1 n k)%N by rewrite /dset /trunc leqnn ltn_eqF.
have [lb _] : (lab1 k r < size bars1)%N /\ bal (nb bars1 (lab1 k r)) k by case: I1 => h _ _ _ _; apply: h.
rewrite (oget_nth b0) //; cbn [obind]; rewrite (oset_Ok b0) //; cbn [obind].
do 3!eexists; split; first by [].
- apply: (linv_eqd dd2); have := linv_ext I1; rewrite dn; apply=> //.
  move=> j' lj; apply/eqP => e; have := pin _ _ _ (ltn_trans lj nd) nd e pn; move: lj; clear; lia.
- by move=> i; rewrite ltnS leq_eqVlt /nset /lset eqxx /=; case: eqP => //= _; exact: h1.
- by move=> s i sk; rewrite /lset; case: eqP sk => [->|_] /=; rewrite ?ltnn // => sk; apply: o1.
Qed.

(** the map of an arrow seen from the left: rows are the left node, columns the right node *)
Definition nmx a b (v : arrow F a b) : 'M[F]_(a, b) := match v with Lft M => M | Rgt M => M^T end.
Lemma pivot_nmx a b (v : arrow F a b) : pivot_arrow v -> pivotmx (nmx v).
Proof.
case: v => M //= [h1 h2]; split=> [i j j'|i i' j]; rewrite !mxE; [exact: h2|exact: h1].
Qed.
Definition pivq (q : rep) (s j : nat) : option nat :=
  if insub j is Some jj then Option.map val [pick i | nmx (q s) i (jj : 'I_(d s.+1)) != 0] else None.

Lemma pivcE a b (B : cmat) (N : 'M[F]_(a, b)) (j : 'I_b) : den B N -> pivotmx N ->
  pivc (nth [::] (cols B) j) = Option.map val [pick i | N i j != 0].
Proof.
move=> [wf nr nc eM] [p1 p2].
have wj : sv_wf a (nth [::] (cols B) j).
  have /andP[/eqP sz /allP al] : cm_wf B := wf; rewrite -nr; apply: al; apply: mem_nth; rewrite sz nc; exact: ltn_ord.
have eN i : N i j = coef (nth [::] (cols B) j) i by rewrite -eM mxE.
case ec : (nth [::] (cols B) j) wj eN => [|[r x] c] wj eN /=.
  by case: pickP => //= i; rewrite eN coef_nil eqxx.
have rb : (r < a)%N by case/and3P: wj => _ /andP[].
have xn : x != 0 by case/and3P: wj => _ _ /andP[].
have nz : N (Ordinal rb) j != 0.
  by rewrite eN (@coef_head F (r, x) c) //; case/and3P: wj.
case: pickP => [i ni|/(_ (Ordinal rb))] /=; last by rewrite nz.
by rewrite (p2 _ _ _ ni nz).
Qed.
End Prog.
