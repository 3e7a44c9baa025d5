(** The chain complex with one column per interval: closed form of the constructor. *)
From mathcomp Require Import all_ssreflect all_algebra zify.
From Verif Require Import Outcome P_Outcome M_SparseVec M_ColMatrix S_Linalg S_Homology S_Induced M_Zigzag S_Zigzag
  S_ZigzagFilt M_ZigzagFilt P_Zig4.
Set Implicit Arguments.
Unset Strict Implicit.
Unset Printing Implicit Defensive.
Import Order.Theory.

(** counting and flattening *)
Section Fl.
Variables (B : Type) (f : nat -> seq B).
Definition fl n := flatten [seq f i | i <- iota 0 n].
Definition off n := sumn [seq size (f i) | i <- iota 0 n].
Lemma flS n : fl n.+1 = fl n ++ f n.
Proof. by rewrite /fl -{1}addn1 iotaD map_cat flatten_cat /= cats0. Qed.
Lemma offS n : off n.+1 = off n + size (f n).
Proof. by rewrite /off -{1}addn1 iotaD map_cat sumn_cat /= addn0. Qed.
Lemma size_fl n : size (fl n) = off n.
Proof. by elim: n => // n IH; rewrite flS offS size_cat IH. Qed.
Lemma off_le i j : i <= j -> off i <= off j.
Proof. by move=> /subnK <-; elim: (j - i) => // n IH; rewrite addSn offS; apply: leq_trans IH (leq_addr _ _). Qed.
Lemma nth_fl b n i m : i < n -> m < size (f i) -> nth b (fl n) (off i + m) = nth b (f i) m.
Proof.
elim: n => // n IH; rewrite ltnS leq_eqVlt flS nth_cat size_fl => /orP[/eqP ->|lt] lm.
  by rewrite ltnNge leq_addr /= addnC addnK.
by rewrite ifT ?IH //; apply: leq_trans (off_le lt); rewrite offS ltn_add2l.
Qed.
Lemma off_split n c : c < off n -> exists i m, [/\ i < n, m < size (f i) & c = off i + m].
Proof.
elim: n => // n IH; rewrite offS => lt; case: (ltnP c (off n)) => [/IH[i [m [a b e]]]|ge].
  by exists i, m; split=> //; apply: ltnW.
by exists n, (c - off n); rewrite subnKC //; split=> //; move: lt ge; clear; lia.
Qed.
Lemma off_inj i m i' m' : m < size (f i) -> m' < size (f i') -> off i + m = off i' + m' -> i = i' /\ m = m'.
Proof.
have W a p b q : p < size (f a) -> a < b -> off a + p < off b + q.
  move=> lp lt; apply: leq_trans (leq_addr _ _); apply: leq_trans (off_le lt); by rewrite offS ltn_add2l.
move=> lm lm' e; case: (ltngtP i i') => [lt|lt|ei].
- by have := W _ _ _ m' lm lt; rewrite e ltnn.
- by have := W _ _ _ m lm' lt; rewrite e ltnn.
- by split=> //; move: e; rewrite ei => /addnI.
Qed.
End Fl.
Lemma eq_off (B B' : Type) (f : nat -> seq B) (g : nat -> seq B') n : (forall i, i < n -> size (f i) = size (g i)) -> off f n = off g n.
Proof. by elim: n => // n IH h; rewrite !offS IH ?h // => i li; apply: h; apply: ltnW. Qed.

Lemma oget_mkseq (B : Type) (f : nat -> B) n k : k < n -> oget (mkseq f n) k = Ok (f k).
Proof. by move=> lt; rewrite (oget_nth (f k)) ?size_mkseq // nth_mkseq. Qed.
Lemma oset_mkseq (B : Type) (f : nat -> B) n k x : k < n -> oset (mkseq f n) k x = Ok (mkseq (fun i => if i == k then x else f i) n).
Proof.
move=> lt; rewrite /oset size_mkseq lt; congr Ok; apply: (@eq_from_nth _ x); rewrite size_set_nth !size_mkseq ?(maxn_idPr _) //.
by move=> i li; rewrite nth_set_nth /= !nth_mkseq.
Qed.
(** the next empty place is filled *)
Lemma oset_pad (B : Type) (l : seq B) m x r y i : size l = i -> oset (l ++ nseq m.+1 x ++ r) i y = Ok (rcons l y ++ nseq m x ++ r).
Proof.
move=> <-; rewrite /oset !size_cat /= ifT; last by rewrite size_nseq; lia.
by congr Ok; elim: l => //= a l ->.
Qed.

Section S.
Variable T : Type.
Variable disp : unit.
Variable A : orderType disp.
Variable a0 : A.
Notation ltv := (fun x y : A => (x < y)%O).
Notation iv := (A * A)%type.
Notation svec := (svec T).
Notation zdim := (M_ZigzagFilt.zdim T A).

(** processing of one dimension *)
Section Dim.
Variables (prev : option (seq iv * seq nat)) (xv : seq (seq iv)) (cs : seq svec) (corr : A -> svec -> svec).
Let n := size xv.
Notation ws i := (nth [::] xv i).
Hypothesis ne : forall i, i < n -> 0 < size (ws i).
Hypothesis sc : size cs = n.
Hypothesis Hc : forall i w, i < n -> List.In w (behead (ws i)) ->
  (if prev is Some (v1, e1) then correct_col ltv v1 e1 w.1 (nth [::] cs i) else Ok (nth [::] cs i)) = Ok (corr w.1 (nth [::] cs i)).

Definition ccopy i := [seq corr w.1 (nth [::] cs i) | w <- behead (ws i)].
Definition dstate i : zdim :=
  ZDim (cs ++ fl ccopy i)
       ([seq head (a0, a0) (ws j) | j <- iota 0 i] ++ nseq (n - i) (a0, a0) ++ fl (fun j => behead (ws j)) i)
       (iota 0 i ++ nseq (n - i) 0 ++ fl (fun j => nseq (size (ws j)).-1 j) i)
       ([seq n + off ccopy j | j <- iota 0 i] ++ nseq (n.+1 - i) 0).
Lemma size_ccopy i : size (ccopy i) = size (behead (ws i)).
Proof. by rewrite size_map. Qed.
Lemma copies i (s : zdim) l : i < n -> (exists r, zd_cs s = cs ++ r) -> size (zd_cs s) = size (zd_v s) ->
  (forall w, List.In w l -> List.In w (behead (ws i))) ->
  ofold (zcc_copy ltv prev i) s l =
  Ok (ZDim (zd_cs s ++ [seq corr w.1 (nth [::] cs i) | w <- l]) (zd_v s ++ l) (zd_ci s ++ nseq (size l) i) (zd_ex s)).
Proof.
elim: l s => [|w l IH] s li [r er] sz H /=; first by rewrite !cats0; case: s er sz.
rewrite /zcc_copy er (oget_nth [::]) ?size_cat ?sc; last by apply: leq_trans (leq_addr _ _).
rewrite nth_cat sc li; cbn [obind].
have -> : (if prev is Some p then let (v1, e1) := p in
      do wj <- oget (rcons (zd_v s) w) (n + size r); correct_col ltv v1 e1 wj.1 (nth [::] cs i)
      else Ok (nth [::] cs i)) = Ok (corr w.1 (nth [::] cs i)).
  rewrite -(Hc li (H w (or_introl erefl))); case: prev => // -[v1 e1].
  have -> : n + size r = size (zd_v s) by rewrite -sz er size_cat sc.
  by rewrite (oget_nth w) ?size_rcons // nth_rcons ltnn eqxx.
cbn [obind]; rewrite IH //=.
- by rewrite !cat_rcons.
- by exists (rcons r (corr w.1 (nth [::] cs i))); rewrite rcons_cat.
- by rewrite !size_rcons -er sz.
- by move=> w' hw; apply: H; right.
Qed.
Lemma cells i : i <= n -> ofold (zcc_cell ltv prev xv) (dstate 0) (iota 0 i) = Ok (dstate i).
Proof.
elim: i => // i IH li; rewrite -addn1 iotaD ofold_cat IH ?(ltnW li) //= addn1 /zcc_cell.
rewrite (oget_nth [::]) //; cbn [obind]; have := ne li; case ew : (ws i) => [|w l] // _.
have e0 : n - i = (n - i.+1).+1 by move: li; clear; lia.
rewrite add0n {1 2 3 4}/dstate e0.
have e1 : n.+1 - i = (n.+1 - i.+1).+1 by move: li; clear; lia.
rewrite /= oset_pad ?size_map ?size_iota //; cbn [obind]; rewrite oset_pad ?size_iota //; cbn [obind].
rewrite e1 -[_ ++ nseq _ 0]cats0 -catA oset_pad ?size_map ?size_iota //; cbn [obind].
rewrite copies //=; last first.
- by move=> w' h; rewrite ew.
- rewrite !size_cat size_rcons size_map size_iota size_nseq sc !size_fl (eq_off (g := fun j => behead (ws j))); last by move=> j _; apply: size_ccopy.
  by move: li; clear; lia.
- by eexists.
have si (B : Type) (g : nat -> B) : [seq g j | j <- iota 0 i.+1] = rcons [seq g j | j <- iota 0 i] (g i).
  by rewrite -{1}addn1 iotaD map_cat cats1.
rewrite /dstate !flS !si ew /= -!catA /ccopy ew /=; congr (Ok (ZDim _ _ _ _)).
- by rewrite -cat_cons -[0 :: iota 1 i]/(iota 0 i.+1) -addn1 iotaD /= cats1.
- rewrite cats0; congr (rcons _ _ ++ _); rewrite !size_cat size_rcons size_map size_iota size_nseq size_fl.
  rewrite (eq_off (g := fun j => behead (ws j)) (f := ccopy)); last by move=> j _; apply: size_ccopy.
  by move: li; clear; lia.
Qed.

End Dim.
End S.
