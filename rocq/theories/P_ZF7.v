(** The order of the events of simplices. *)
From mathcomp Require Import all_ssreflect all_algebra zify.
From Verif Require Import Outcome P_Outcome M_SparseVec M_ColMatrix M_Perm M_Homology S_Linalg S_Perm S_Homology S_Induced M_Zigzag S_Zigzag
  S_ZigzagFilt M_ZigzagFilt P_Perm P_Chain P_SparseVec P_SparseVec2 P_Reduce P_ColMatrix P_Betti P_ZF1 P_ZF2 P_ZF3 P_ZF4 P_ZF5 P_ZF6.
Set Implicit Arguments.
Unset Strict Implicit.
Unset Printing Implicit Defensive.
Import GRing.Theory Order.Theory.

Lemma ifbE (b x y : bool) : (if b then x else y) = b && x || ~~ b && y.
Proof. by case: b; rewrite ?orbF. Qed.

(** the lexicographic order *)
Fixpoint ltl (s t : seq nat) : bool :=
  match s, t with
  | x :: s', y :: t' => (x < y) || (x == y) && ltl s' t'
  | [::], _ :: _ => true
  | _, _ => false
  end.
Lemma ltl_irr s : ltl s s = false.
Proof. by elim: s => //= x s ->; rewrite ltnn eqxx. Qed.
Lemma ltl_trans s t u : ltl s t -> ltl t u -> ltl s u.
Proof.
elim: s t u => [|x s IH] [|y t] [|z u] //=.
move=> /orP[a|/andP[/eqP -> a]] /orP[b|/andP[/eqP <- b]]; rewrite ?a ?b ?(ltn_trans a b) //.
by rewrite eqxx (IH _ _ a b) orbT.
Qed.
Lemma ltl_total s t : s != t -> ~~ ltl s t -> ltl t s.
Proof.
elim: s t => [|x s IH] [|y t] //=; rewrite eqseq_cons negb_and negb_or -leqNgt; case: ltngtP => //= e n.
by apply: IH; case: (eqVneq x y) n => //; rewrite e eqxx.
Qed.
Lemma ltl_ntrans s t u : ~~ ltl s t -> ~~ ltl t u -> ~~ ltl s u.
Proof.
move=> a b; case: (eqVneq s t) b => [->//|n1] b; case: (eqVneq t u) a => [<-//|n2] a.
have c := ltl_total n1 a; have d := ltl_total n2 b; apply/negP => e.
by have := ltl_trans (ltl_trans e d) c; rewrite ltl_irr.
Qed.
Lemma ltl_asym s t : ltl s t -> ~~ ltl t s.
Proof. by move=> a; apply/negP => b; have := ltl_trans a b; rewrite ltl_irr. Qed.
Lemma ltl_sub s t : sorted gtn t -> size s < size t -> subseq s t -> ltl s t.
Proof.
elim: t s => [|y t IH] [|x s] //= pt lt; case: eqP => [->|_] h.
  by rewrite IH ?orbT //; apply: path_sorted pt.
have := allP (order_path_min (rev_trans ltn_trans) pt) x; by move=> -> //; apply: (mem_subseq h); rewrite mem_head.
Qed.
Lemma lex_loopE s t last : s != [::] -> t != [::] -> last = (size s < size t) -> lex_loop ltn last s t = ltl s t.
Proof.
elim: s t => [|x s IH] [|y t] // _ _ e; rewrite /lex_loop -/lex_loop.
case: (eqVneq x y) => [->|ne] /=; last by case: ltngtP ne.
rewrite ltnn eqxx /=; case: s IH e => [|x' s] IH; case: t => [|y' t] e; first [by rewrite e | exact: IH].
Qed.
Lemma lex_loopR s t last : s != [::] -> t != [::] -> last = (size t < size s) -> lex_loop (fun x y => y < x) last s t = ltl t s.
Proof.
elim: s t => [|x s IH] [|y t] // _ _ e; rewrite /lex_loop -/lex_loop.
case: (eqVneq x y) => [->|ne] /=; last by rewrite eq_sym (negbTE ne) orbF.
rewrite ltnn eqxx /=; case: s IH e => [|x' s] IH; case: t => [|y' t] e; first [by rewrite e | exact: IH].
Qed.
Lemma rev_ne (s : seq nat) k : size s = k.+1 -> rev s != [::].
Proof. by rewrite -size_rev; case: (rev s). Qed.
Lemma lex_cmpE i s j t : size s = i.+1 -> size t = j.+1 -> lex_cmp i s j t = ltl (rev s) (rev t).
Proof. by move=> si sj; apply: lex_loopE; rewrite ?(rev_ne si) ?(rev_ne sj) // !size_rev si sj. Qed.
Lemma rlex_cmpE i s j t : size s = i.+1 -> size t = j.+1 -> rlex_cmp i s j t = ltl (rev t) (rev s).
Proof. by move=> si sj; apply: lex_loopR; rewrite ?(rev_ne si) ?(rev_ne sj) // !size_rev si sj. Qed.

Section S.
Variable F : fieldType.
Variable disp : unit.
Variable A : orderType disp.
Variables a0 vmax : A.
Notation iv := (A * A)%type.
Notation event := (rfv A).
Notation ltv := (fun x y : A => (x < y)%O).
Variable C : seq (cmat F).
Variable val : seq (seq (seq iv)).
Hypothesis CW : chain_wf C.
Hypothesis C1 : 1 < size C.
Hypothesis FO : filtration_ok a0 C val.
Hypothesis nb0 : no_bd0 C.
Notation tot := (tot val).
Notation C2 := (C2 a0 C val).
Notation vv := (vv a0 val).
Notation ci := (ci val).
Notation Z2 := (Z2 a0 C val).
Variable srt : forall B : Type, (B -> B -> bool) -> seq B -> seq B.
Hypothesis SR : sorts srt.
Variable spx : seq (seq (seq nat)).
Hypothesis SO : simplices_ok C spx.
Definition sp k c := nth [::] (nth [::] spx k) (ci k c).
Notation lp := (spx_lp ltv a0 spx).
Notation le := (spx_le ltv spx).
Notation perms := (perms a0 C val srt lp).
Notation evL := (evL a0 C val perms).
Notation mkev := (mkev a0 val perms).

Lemma zspE k c : k < size C -> zsp spx Z2 k c = sp k c.
Proof. by move=> lk; rewrite /zsp nth_mkseq. Qed.
Lemma sp_ok k c : c < tot k -> sorted ltn (sp k c) /\ size (sp k c) = k.+1.
Proof. by move=> lc; case: SO => _ _ h _; apply: h; [exact: (tot_lt FO lc)|rewrite -(nnE FO); apply: (ci_lt FO)]. Qed.
Lemma sp_inj k c c' : c < tot k -> c' < tot k -> sp k c = sp k c' -> ci k c = ci k c'.
Proof.
move=> lc lc' /eqP; have lk := tot_lt FO lc; case: SO => h u _ _; rewrite /sp nth_uniq ?u ?h // -?(nnE FO) ?(ci_lt FO) //.
by move/eqP.
Qed.
Lemma spR k c : c < tot k -> size (rev (sp k c)) = k.+1.
Proof. by move=> lc; rewrite size_rev; have [] := sp_ok lc. Qed.
Lemma sp_face k a c : a < tot k -> c < tot k.+1 -> entry (bmx C2 k.+1) a c != 0%R -> ltl (rev (sp k a)) (rev (sp k.+1 c)).
Proof.
move=> la lc; rewrite (entry2 CW FO) //; case: ifP => [_ n0|]; last by rewrite eqxx.
have [s1 z1] := sp_ok la; have [s2 z2] := sp_ok lc; have lk := tot_lt FO lc.
apply: ltl_sub; rewrite ?size_rev ?z1 ?z2 //.
- by rewrite rev_sorted.
- rewrite subseq_rev; case: SO => _ _ _; apply=> //; rewrite -(nnE FO); exact: (ci_lt FO).
Qed.
Lemma lpE k c c' : c < tot k -> c' < tot k ->
  lp Z2 k c c' = if (vv k c).2 != (vv k c').2 then ((vv k c').2 < (vv k c).2)%O else ltl (rev (sp k c)) (rev (sp k c')).
Proof.
move=> lc lc'; have lk := tot_lt FO lc; rewrite /spx_lp !zvE // !zspE //.
by case: eqP => //= _; have [_ s] := sp_ok lc; have [_ s'] := sp_ok lc'; rewrite rlex_cmpE.
Qed.
Lemma lpw k : k < size C -> strict_weak (lp Z2 k) (iota 0 (tot k)).
Proof.
move=> lk.
have := @sw_val _ [orderType of A^d] [eqType of nat] (fun c => (vv k c).2)
  (fun c c' => if (vv k c).2 != (vv k c').2 then ((vv k c').2 < (vv k c).2)%O else ltl (rev (sp k c)) (rev (sp k c')))
  (fun c c' => ltl (rev (sp k c)) (rev (sp k c'))) (iota 0 (tot k)) (fun _ _ => erefl) _.
move=> H x y z xl yl zl; have lt c : List.In c (iota 0 (tot k)) -> c < tot k by move/In_mem; rewrite mem_iota.
rewrite !lpE ?lt //; apply: H => // a b c _ _ _ _ _; split.
- by rewrite ltl_irr.
- exact: ltl_trans.
- exact: ltl_ntrans.
Qed.
Lemma lpv k c c' : c < tot k -> c' < tot k -> ~~ lp Z2 k c' c -> ((vv k c').2 <= (vv k c).2)%O.
Proof. by move=> lc lc'; rewrite lpE //; case: eqP => [->//|_] /=; rewrite -leNgt. Qed.
Lemma copy_eq k c c' : c < tot k -> c' < tot k -> ci k c = ci k c' -> (vv k c).2 = (vv k c').2 -> c = c'.
Proof.
move=> lc lc'; have [i [m [li lm -> -> ->]]] := splitE FO lc; have [i' [m' [li' lm' -> -> ->]]] := splitE FO lc'.
move=> e; rewrite -e in lm' * => ev; congr copy_no.
have W a b : b < size (ivs val k i) -> a < b -> (ivn a0 val k i a).2 = (ivn a0 val k i b).2 -> False.
  move=> lb ab eab; have := lt_le_trans (iv_lt FO li ab lb) (iv_le FO li lb); by rewrite eab ltxx.
by case: (ltngtP m m') => // lt; exfalso; [apply: (W m m')|apply: (W m' m)].
Qed.
Lemma indE k c c' : c < tot k -> c' < tot k -> (vv k c).2 = (vv k c').2 ->
  (ip perms k c < ip perms k c') = ltl (rev (sp k c)) (rev (sp k c')).
Proof.
have PO := perms_fine FO SR lpw.
have W d d' : d < tot k -> d' < tot k -> (vv k d).2 = (vv k d').2 -> ip perms k d < ip perms k d' -> ltl (rev (sp k d)) (rev (sp k d')).
  move=> ld ld' ev lt; have lk := tot_lt FO ld; have [pe pw] := sorts_perm 0 SR (lpw lk).
  rewrite -permsE // in pw; have [P s] := pk_ok FO PO lk.
  move/(pairwiseP 0%N): pw => /(_ (ip perms k d) (ip perms k d')); rewrite !inE s !(ip_lt FO PO) //.
  move=> /(_ isT isT lt); rewrite -!/(pm perms k _) !(pm_ip FO PO) // lpE // ev eqxx /= => h.
  apply: ltl_total h; apply/eqP => /(congr1 (@rev _)); rewrite !revK => e.
  by have ed := copy_eq ld' ld (sp_inj ld' ld e) (esym ev); rewrite ed ltnn in lt.
move=> lc lc' ev; case: (ltngtP (ip perms k c) (ip perms k c')) => [lt|gt|e].
- by rewrite (W c c').
- by rewrite (negbTE (ltl_asym (W c' c lc' lc (esym ev) gt))).
- by rewrite (ip_inj FO PO lc lc' e) ltl_irr.
Qed.
Definition spe (e : event) := sp (z_dim e) (z_cind e).
Definition Rs (a b : event) :=
  if z_entry a && z_entry b then ltl (rev (spe a)) (rev (spe b))
  else if z_entry a (+) z_entry b then z_entry a else ltl (rev (spe b)) (rev (spe a)).
Lemma leE a b : a \in evL -> b \in evL ->
  le Z2 a b = if z_val a != z_val b then (z_val a < z_val b)%O else Rs a b.
Proof.
move=> /(memL FO)[k [c [ea [lc ->]]]] /(memL FO)[k' [c' [eb [lc' ->]]]].
have lk := tot_lt FO lc; have lk' := tot_lt FO lc'; rewrite /spx_le /Rs /spe /= !zspE //.
have [_ s] := sp_ok lc; have [_ s'] := sp_ok lc'.
case: eqP => //= ev; rewrite lex_cmpE // rlex_cmpE //; case: ea eb ev => -[] //= ev.
by case: eqP => // e; rewrite -e in lc' ev *; rewrite indE.
Qed.
Lemma lew : strict_weak (le Z2) evL.
Proof.
have H := @sw_val _ A [eqType of event] (fun e => z_val e)
  (fun a b => if z_val a != z_val b then (z_val a < z_val b)%O else Rs a b) Rs evL (fun _ _ => erefl) _.
move=> x y z xl yl zl; rewrite !leE -?In_mem //; apply: H => // a b c _ _ _ _ _; rewrite /Rs.
case: (z_entry a); case: (z_entry b); case: (z_entry c); rewrite ?ltl_irr /=; split=> //.
- exact: ltl_trans.
- exact: ltl_ntrans.
- by move=> h1 h2; exact: ltl_trans h2 h1.
- by move=> h1 h2; exact: ltl_ntrans h2 h1.
Qed.
Notation O := (ops_of F).
Theorem spx_barcode maxdim : (size C <= (dims_asked C maxdim).+1)%N ->
  exists bars evs, zz_barcode_spx O ltv a0 vmax srt spx C val maxdim = Ok bars /\
    zigzag_bars a0 C val vmax (dims_asked C maxdim) evs bars.
Proof.
apply: prep_barcode => //.
- exact: lpw.
- exact: lpv.
- exact: lew.
- move=> k a c la lc n0 e; rewrite leE ?mkevL //= e eqxx /= /Rs /= /spe /=; exact: sp_face.
- move=> k a c la lc n0 e; rewrite leE ?mkevL //= e eqxx /= /Rs /= /spe /=; exact: sp_face.
- by move=> a b ea eb e; rewrite /spx_le e eqxx /= ea (negbTE eb).
- by move=> a b ea eb e d; rewrite /spx_le e eqxx /= (negbTE ea) (negbTE eb) /= d eqxx.
- by move=> a b lt; rewrite /spx_le lt lt_eqF.
Qed.

(** any complex *)
Definition Rg (a b : event) :=
  if z_entry a && z_entry b then z_dim a < z_dim b
  else if z_entry a (+) z_entry b then z_entry a
  else if z_dim a == z_dim b then z_ind b < z_ind a else z_dim b < z_dim a.
Theorem gen_barcode maxdim : (size C <= (dims_asked C maxdim).+1)%N ->
  exists bars evs, zz_barcode O ltv a0 vmax srt C val maxdim = Ok bars /\
    zigzag_bars a0 C val vmax (dims_asked C maxdim) evs bars.
Proof.
apply: prep_barcode => //.
- move=> k lk x y z _ _ _; rewrite /gen_lp ltxx; split=> //.
  + by move=> h1 h2; apply: lt_trans h2 h1.
  + by rewrite -!leNgt => h1 h2; apply: le_trans h1 h2.
- by move=> k c c' lc lc'; rewrite /gen_lp !zvE ?(tot_lt FO lc) // -leNgt.
- apply: (@sw_val _ A [eqType of event] (fun e => z_val e) _ Rg) => // a b c _ _ _ _ _; rewrite /Rg.
  by case: (z_entry a); case: (z_entry b); case: (z_entry c) => /=; rewrite ?ifbE; split=> //; clear; lia.
- by move=> k a c la lc n0 e; rewrite /gen_le /= e eqxx /=.
- by move=> k a c la lc n0 e; rewrite /gen_le /= e eqxx /= gtn_eqF.
- by move=> a b ea eb e; rewrite /gen_le e eqxx /= ea (negbTE eb).
- by move=> a b ea eb e d; rewrite /gen_le e eqxx /= (negbTE ea) (negbTE eb) /= d eqxx.
- by move=> a b lt; rewrite /gen_le lt lt_eqF.
Qed.
End S.
