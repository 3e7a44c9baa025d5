(** Model of include/filtration/filtration.hpp (sort permutations),
    include/chain/filtered_chain_complex.hpp, include/persistence/filtered_basis.hpp and
    include/persistence/barcode.hpp.
    Filtration values are an arbitrary type V with the comparison [ltv] the C++ operator< gives and a
    value [inf] for numeric_limits<T>::infinity(); floating point NaN is not modelled. *)
From mathcomp Require Import all_ssreflect.
From Verif Require Import Outcome M_SparseVec M_Perm M_ColMatrix M_Reduce M_Homology.
Set Implicit Arguments.
Unset Strict Implicit.
Unset Printing Implicit Defensive.

(** barcode.hpp 11-25: PersistencePair; death_ind = NO_IND is [None] *)
Record ppair (V : Type) := PPair {
  pp_dim : nat; pp_birth_ind : nat; pp_death_ind : option nat; pp_birth : V; pp_death : V }.

(** barcode.hpp 28: operator== compares birth, death and dim only *)
Definition pp_eq (V : eqType) (a b : ppair V) : bool :=
  [&& pp_birth a == pp_birth b, pp_death a == pp_death b & pp_dim a == pp_dim b].

(** barcode.hpp 46-73: barcode_equality.  The inner loop finds the first unmatched j with
    ps1[i] == ps2[j] and marks it. *)
Fixpoint find_match (V : eqType) (a : ppair V) (ps2 : seq (ppair V)) (matched : seq bool) (j : nat)
  : option nat :=
  match ps2, matched with
  | b :: ps2', m :: matched' =>
      if pp_eq a b && ~~ m then Some j else find_match a ps2' matched' j.+1
  | _, _ => None
  end.
Fixpoint barcode_eq_loop (V : eqType) (ps1 ps2 : seq (ppair V)) (matched : seq bool) : bool :=
  match ps1 with
  | [::] => true
  | a :: ps1' =>
      if find_match a ps2 matched 0 is Some j
      then barcode_eq_loop ps1' ps2 (set_nth false matched j true)
      else false
  end.
Definition barcode_equality (V : eqType) (ps1 ps2 : seq (ppair V)) : bool :=
  if size ps1 != size ps2 then false
  else barcode_eq_loop ps1 ps2 (nseq (size ps1) false).

Section Filtered.
Variable T : Type.
Variable O : fops T.
Variable V : Type.
Variables (ltv : V -> V -> bool) (inf v0 : V).

(** filtration.hpp 11-27: filtration_sortperm, via std::stable_sort *)
Definition filtration_sortperm (val : seq (seq V)) : seq (seq nat) :=
  [seq sortperm ltv v0 v | v <- val].

(** filtration.hpp 29-37: filtration_iperm *)
Definition filtration_iperm (perms : seq (seq nat)) : outcome (seq (seq nat)) :=
  omapm inv_perm perms.

(** filtered_chain_complex.hpp 10-13 *)
Record fcc := FCC { fc_val : seq (seq V); fc_C : seq (cmat T); fc_perm : seq (seq nat) }.

(** filtered_chain_complex.hpp 17-27; the argument C is ChainComplex(F.complex()) *)
Definition fcc_make (val : seq (seq V)) (C : seq (cmat T)) : outcome fcc :=
  let perms := filtration_sortperm val in
  do C' <- cc_ipermute_basis perms C;
  Ok (FCC val C' perms).

(** steps 1 and 2 of update_filtration, filtered_chain_complex.hpp 36-47 and
    filtered_basis.hpp 146-157.  In the former tmp is a vector<FT>, so indices pass through the
    filtration type; the model assumes that conversion is exact. *)
Definition update_perms (perm : seq (seq nat)) (newval : seq (seq V)) : outcome (seq (seq nat)) :=
  let perms := filtration_sortperm newval in
  do iperm <- filtration_iperm perm;
  ofold (fun ip k => do p <- oget perms k; do d <- oget ip k;
                     do d' <- apply_perm p d; oset ip k d')
        iperm (iota 0 (size iperm)).

(** filtered_chain_complex.hpp 35-58: FilteredChainComplex::update_filtration *)
Definition fcc_update (newval : seq (seq V)) (X : fcc) : outcome fcc :=
  do up <- update_perms (fc_perm X) newval;
  do C' <- cc_permute_basis up (fc_C X);
  Ok (FCC newval C' (filtration_sortperm newval)).

(** filtered_basis.hpp 14-27: ReducedFilteredChainComplex *)
Record rfcc := RFCC { rf_RC : rcc T; rf_val : seq (seq V); rf_perm : seq (seq nat) }.
Definition rfcc_make (opt : options) (X : fcc) : outcome rfcc :=
  do RC <- rcc_of O opt (fc_C X); Ok (RFCC RC (fc_val X) (fc_perm X)).

(** filtered_basis.hpp 145-169: ReducedFilteredChainComplex::update_filtration *)
Definition rfcc_update (newval : seq (seq V)) (X : rfcc) : outcome rfcc :=
  do up <- update_perms (rf_perm X) newval;
  do RC <- permute_basis O up (rf_RC X);
  Ok (RFCC RC newval (filtration_sortperm newval)).

(** filtered_basis.hpp 39-92: persistence_pairs(k, permuted).  maxdim is R.size()-1. *)
Definition ppair_of (X : rfcc) (k : nat) (permuted : bool) (i : nat) : outcome (seq (ppair V)) :=
  do Rk <- oget (rc_R (rf_RC X)) k;
  do c <- oget (cols Rk) i;
  if size c == 0 then
    do vk <- oget (rf_val X) k; do pk <- oget (rf_perm X) k; do pi <- oget pk i; do b <- oget vk pi;
    let bi := if permuted then i else pi in
    do e <- (if k == size (rc_R (rf_RC X)) - 1 then Ok None
             else do p <- oget (rc_p2c (rf_RC X)) k.+1; oget p i);
    match e with
    | None => Ok [:: PPair k bi None b inf]
    | Some j =>
        do vk1 <- oget (rf_val X) k.+1; do pk1 <- oget (rf_perm X) k.+1;
        do pj <- oget pk1 j; do d <- oget vk1 pj;
        Ok [:: PPair k bi (Some (if permuted then j else pj)) b d]
    end
  else Ok [::].
Definition persistence_pairs (X : rfcc) (k : nat) (permuted : bool) : outcome (seq (ppair V)) :=
  do Rk <- oget (rc_R (rf_RC X)) k;
  do l <- omapm (ppair_of X k permuted) (iota 0 (ncol Rk));
  Ok (flatten l).

(** filtered_basis.hpp 128-136: representative(p, permuted); std::find returns end() when absent,
    and then U[dim][n] is out of range *)
Definition representative (X : rfcc) (p : ppair V) (permuted : bool) : outcome (svec T) :=
  do Uk <- oget (rc_U (rf_RC X)) (pp_dim p);
  do v <- oget (cols Uk) (pp_birth_ind p);
  if permuted then Ok v
  else
    do pk <- oget (rf_perm X) (pp_dim p);
    do w <- oget (cols Uk) (index (pp_birth_ind p) pk);
    sv_permute pk w.

End Filtered.
