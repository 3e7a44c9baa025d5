(** barcode_equality is multiset equality of (birth, death, dimension). *)
From mathcomp Require Import all_ssreflect.
From Verif Require Import Outcome M_Persist.
Set Implicit Arguments.
Unset Strict Implicit.
Unset Printing Implicit Defensive.

Section B.
Variable V : eqType.
Definition key (p : ppair V) : V * V * nat := (pp_birth p, pp_death p, pp_dim p).
Lemma pp_eqE a b : pp_eq a b = (key a == key b).
Proof. by rewrite /pp_eq /key !xpair_eqE andbA. Qed.

Definition unm (ps : seq (ppair V)) (m : seq bool) := mask [seq ~~ b | b <- m] [seq key p | p <- ps].

Lemma find_match_some a ps m j i : find_match a ps m j = Some i -> size m = size ps ->
  exists j', [/\ i = j + j', size (set_nth false m j' true) = size m &
     perm_eq (unm ps m) (key a :: unm ps (set_nth false m j' true))].
Proof.
elim: ps m j => [|b ps IH] [|x m] j //=; case: ifP => [/andP[e /negbTE ->] [<-] _|_ H [s]].
  exists 0; rewrite addn0; split=> //=.
  by rewrite /unm /= -(eqP (etrans (esym (pp_eqE _ _)) e)).
have [j' [-> sz P]] := IH _ _ H s; exists j'.+1; rewrite addnS addSn; split=> //=; first by rewrite sz.
rewrite /unm /=; case: x => //=; move: P; rewrite /unm => P.
by rewrite -[X in perm_eq X _]/([:: key b] ++ _) (perm_trans (y := key b :: key a :: unm ps (set_nth false m j' true))) //=
  ?perm_cons // (perm_catCA [:: key b] [:: key a]).
Qed.
Lemma find_match_none a ps m j : find_match a ps m j = None -> size m = size ps -> key a \notin unm ps m.
Proof.
elim: ps m j => [|b ps IH] [|x m] j //=; case: ifP => // E H [s]; rewrite /unm /=.
case: x E => [_|]; first exact: IH H s.
by rewrite andbT pp_eqE /= inE negb_or => ->; apply: IH H s.
Qed.

Lemma loopE ps1 ps2 m : size m = size ps2 -> size ps1 = size (unm ps2 m) ->
  barcode_eq_loop ps1 ps2 m = perm_eq [seq key p | p <- ps1] (unm ps2 m).
Proof.
elim: ps1 m => [|a ps1 IH] m s s1 /=.
  by rewrite (size0nil (esym s1)).
case E: find_match => [j|].
  have [j' [-> sz P]] := find_match_some E s; rewrite add0n IH ?sz //; last first.
    by move: s1; rewrite (perm_size P) => -[].
  by rewrite (permPr P) perm_cons.
apply/esym/negbTE; apply: contra (find_match_none E s) => P.
by rewrite -(perm_mem P) mem_head.
Qed.

Lemma barcode_equalityE ps1 ps2 :
  barcode_equality ps1 ps2 = perm_eq [seq key p | p <- ps1] [seq key p | p <- ps2].
Proof.
rewrite /barcode_equality; case: eqP => /= [s|s]; last first.
  by apply/esym/negbTE; apply/negP => /perm_size; rewrite !size_map.
have U : unm ps2 (nseq (size ps1) false) = [seq key p | p <- ps2].
  by rewrite /unm map_nseq mask_true // size_map s.
by rewrite loopE ?size_nseq // U ?size_map.
Qed.
End B.
