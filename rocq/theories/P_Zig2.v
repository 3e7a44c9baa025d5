(** Zigzag barcodes: update_bars follows the bars of barcode_from_barcode_form. *)
From mathcomp Require Import all_ssreflect all_fingroup all_algebra zify.
From Verif Require Import Outcome P_Outcome M_SparseVec M_Perm M_ColMatrix S_Linalg M_Fact S_Fact M_Quiver S_Quiver P_Quiver5 M_Zigzag.
Set Implicit Arguments.
Unset Strict Implicit.
Unset Printing Implicit Defensive.

Section S.
Variable F : fieldType.
Notation svec := (svec F).
Variables (A : Type) (vmax : A) (hd : nat) (fv : rfv A).
Notation zp := (zpair A).
Definition newz : zp := ZPair hd (z_cind fv) None (z_val fv) vmax (z_entry fv) true.
Definition killz (b : zp) : zp := ZPair (zp_dim b) (zp_birth_ind b) (Some (z_cind fv)) (zp_birth b) (z_val fv) (zp_birth_entry b) (z_entry fv).
Notation nz := (nth newz).

Lemma kill_ok (p : amap) (zb : seq zp) : (forall x, x \in p -> x.2 < size zb) ->
  exists zb', [/\ ofold (zz_kill fv) zb p = Ok zb', size zb' = size zb &
    forall b, b < size zb -> nz zb' b = if b \in [seq x.2 | x <- p] then killz (nz zb b) else nz zb b].
Proof.
elim: p zb => [|x p IH] zb H; first by exists zb.
cbn [ofold]; have lx := H x (mem_head _ _); rewrite /zz_kill (oget_nth newz) //; cbn [obind]; rewrite (oset_Ok newz) //; cbn [obind].
have sz : size (set_nth newz zb x.2 (killz (nz zb x.2))) = size zb by rewrite size_set_nth; apply/maxn_idPr.
have [|zb' [e s h]] := IH (set_nth newz zb x.2 (killz (nz zb x.2))).
  by move=> y yp; rewrite sz; apply: H; rewrite inE yp orbT.
exists zb'; split; [exact: e|by rewrite s|] => b lb; rewrite h ?sz // nth_setE /= inE.
by case: (eqVneq b x.2) => [->|ne] //=; case: ifP.
Qed.

Variables (cs : seq svec) (k dk dk1 : nat) (lab : nat -> nat) (pg : nmap).
Let p : amap := [seq (i, lab i) | i <- iota 0 dk].
Notation piv j := (pivc (nth [::] cs j)).
Hypothesis hp : forall i, i < dk -> pg i = Some (lab i).
Hypothesis sc : size cs = dk1.
Hypothesis pb : forall j r, j < dk1 -> piv j = Some r -> r < dk.
Hypothesis pin : forall j j' r, j < dk1 -> j' < dk1 -> piv j = Some r -> piv j' = Some r -> j = j'.
Definition hit (n r : nat) := has (fun j => piv j == Some r) (iota 0 n).
Definition hitb (n b : nat) := has (fun j => if piv j is Some r then lab r == b else false) (iota 0 n).

Lemma hitS n r : hit n.+1 r = hit n r || (piv n == Some r).
Proof. by rewrite /hit -addn1 iotaD has_cat /= orbF. Qed.
Lemma hitbS n r : hitb n.+1 r = hitb n r || (if piv n is Some x then lab x == r else false).
Proof. by rewrite /hitb -addn1 iotaD has_cat /= orbF. Qed.

Lemma map_iotaS (X : Type) (f : nat -> X) n : [seq f j | j <- iota 0 n.+1] = rcons [seq f j | j <- iota 0 n] (f n).
Proof. by rewrite -addn1 iotaD map_cat cats1. Qed.

Lemma follow (gb : seq bar) (zb : seq zp) n : size zb = size gb -> n <= dk1 -> (forall i, i < dk -> lab i < size gb) ->
  exists gb' p2, [/\ ofold (bar_step pg k cs) (gb, fun _ => None) (iota 0 n) = Ok (gb', p2),
    ofold (zz_bar_step vmax hd fv cs) (zb, p, [::]) (iota 0 n) =
      Ok (zb ++ nseq (size gb' - size gb) newz, [seq x <- p | ~~ hit n x.1], [seq (j, nget p2 j) | j <- iota 0 n]),
    size gb <= size gb',
    forall b, b < size gb -> b_start (nb gb' b) = b_start (nb gb b) /\ b_end (nb gb' b) = if hitb n b then k.+1 else b_end (nb gb b) &
    forall b, size gb <= b -> b < size gb' -> b_start (nb gb' b) = k.+1 /\ b_end (nb gb' b) = k.+1].
Proof.
move=> sz + hl; elim: n => [|n IH] nd.
  exists gb, (fun _ => None); split=> //; last by move=> b a b'; move: a b'; clear; lia.
  rewrite subnn cats0 /=; congr (Ok (_, _, _)); symmetry; rewrite (eq_filter (a2 := predT)) ?filter_predT //.
have {IH} [gb1 [p1 [e1 z1 le1 h1 n1]]] := IH (ltnW nd).
have E m (X : Type) (f : X -> nat -> outcome X) x : ofold f x (iota 0 m.+1) = obind (ofold f x (iota 0 m)) (fun y => f y m).
  by rewrite -addn1 iotaD add0n ofold_cat; case: (ofold _ _ _) => //= y; case: (f y m).
rewrite !E e1 z1; cbn [obind]; rewrite /bar_step /zz_bar_step (oget_nth [::]) ?sc //; cbn [obind].
have pn := @pb n; have hS := hitS n; have hbS := hitbS n.
have pinn := @pin n.
case ec : (nth [::] cs n) pn hS hbS pinn => [|[r x] c] pn hS hbS pinn; rewrite /= in pn hS hbS pinn.
  exists (rcons gb1 (Bar k.+1 n k.+1 n)), (nset p1 n (size gb1)); rewrite map_iotaS; split=> //.
  - rewrite size_rcons subSn // -addn1 nseqD catA cats1; congr (Ok (_, _, _)).
    + by apply: eq_filter => y; rewrite hS orbF.
    + rewrite /nget /nset eqxx size_cat size_nseq sz subnKC //; congr rcons.
      by apply/eq_in_map => j; rewrite mem_iota add0n => /andP[_ jn]; rewrite ltn_eqF.
  - by rewrite size_rcons; apply: leqW.
  - move=> b lb; rewrite nth_rcons (leq_trans lb le1) hbS orbF; exact: h1.
  - move=> b lb; rewrite size_rcons ltnS leq_eqVlt nth_rcons; case: (ltnP b (size gb1)) => h; first by move=> _; apply: n1.
    by rewrite orbF => ->.
have rk := pn r nd erefl.
have lr : lab r < size gb1 by apply: leq_trans (hl _ rk) le1.
have epg : nget pg r = lab r by rewrite /nget hp.
rewrite epg (oget_nth b0) //; cbn [obind]; rewrite (oset_Ok b0) //; cbn [obind].
have sg : size (set_nth b0 gb1 (lab r) (Bar (b_start (nb gb1 (lab r))) (b_start_ind (nb gb1 (lab r))) k.+1 n)) = size gb1.
  by rewrite size_set_nth; apply/maxn_idPr.
do 2!eexists; rewrite map_iotaS; split; first by []; rewrite ?sg //.
- congr (Ok (_, _, _)).
  + rewrite /aerase -filter_predI; apply: eq_filter => y; rewrite /predI /= hS negb_or andbC; congr (_ && _).
    by rewrite (inj_eq Some_inj) eq_sym.
  + congr rcons.
      by apply/eq_in_map => j; rewrite mem_iota add0n => /andP[_ jn]; rewrite /nget /nset ltn_eqF.
    rewrite /nget /nset eqxx /=; congr pair; rewrite /aget.
    rewrite (_ : [seq x0 <- [seq _ <- _ | _] | _] = [:: (r, lab r)]) //.
    rewrite -filter_predI /p filter_map (eq_in_filter (a2 := pred1 r)); last first.
      move=> i _ /=; case: eqP => //= ->; apply/hasPn => j; rewrite mem_iota => /andP[_ jn]; apply/eqP => ej.
      have := pinn j r nd (ltn_trans jn nd) erefl ej; move: jn; clear; lia.
    by rewrite filter_pred1_uniq ?iota_uniq ?mem_iota.
- move=> b lb; have [a b'] := h1 b lb; rewrite nth_setE hbS eq_sym; case: eqP => [e|ne].
    by rewrite e in a b' *; rewrite orbT.
  by rewrite orbF.
- move=> b lb lb'; rewrite nth_setE; case: eqP => [e|_]; last exact: n1.
  by move: lb (hl _ rk); rewrite e; clear; lia.
Qed.
End S.
