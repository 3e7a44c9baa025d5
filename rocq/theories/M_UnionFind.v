(** Model of include/persistence/union_find.hpp. *)
From mathcomp Require Import all_ssreflect.
From Verif Require Import Outcome M_SparseVec M_Perm M_ColMatrix M_Reduce M_Homology M_Persist.
Set Implicit Arguments.
Unset Strict Implicit.
Unset Printing Implicit Defensive.

(** 26-29: while (parent[root] != root) root = parent[root].  The fuel bounds the number of iterations. *)
Fixpoint uf_root (fuel : nat) (parent : seq nat) (root : nat) : outcome nat :=
  do p <- oget parent root;
  if p == root then Ok root
  else if fuel is f.+1 then uf_root f parent p else OutOfFuel.

(** 32-36: path compression *)
Fixpoint uf_compress (fuel : nat) (parent : seq nat) (i root : nat) : outcome (seq nat) :=
  do p <- oget parent i;
  if p == root then Ok parent
  else if fuel is f.+1 then do parent' <- oset parent i root; uf_compress f parent' p root else OutOfFuel.

(** 20-39: find_parent; the vector and the representative *)
Definition find_parent (parent : seq nat) (i : nat) : outcome (seq nat * nat) :=
  do r <- uf_root (size parent) parent i;
  do parent' <- uf_compress (size parent) parent i r;
  Ok (parent', r).

Section Pairs.
Variable V : Type.

(** 97-103, 106-112 and 235-240, 245-250: the bar at [dead] ends with edge k at value d, and its component goes to [live];
    [child] is the end of the edge in the dead component *)
Definition uf_merge (st : seq nat * seq (ppair V)) (live dead child k : nat) (d : V) : outcome (seq nat * seq (ppair V)) :=
  do b <- oget st.2 dead;
  do pairs <- oset st.2 dead (PPair (pp_dim b) (pp_birth_ind b) (Some k) (pp_birth b) d);
  do p1 <- oset st.1 dead live;
  do p2 <- oset p1 child live;
  Ok (p2, pairs).

Section Filtered.
Variable T : Type.
Variable inf : V.
(** float bi = pairs[pi].birth: the conversion to float, and its operator< *)
Variables (Fl : Type) (fl : V -> Fl) (ltf : Fl -> Fl -> bool).

(** 77-115: the loop over the columns from k on *)
Fixpoint uf_loop (N : nat) (vals1 : seq V) (cs : seq (svec T)) (k nfinite : nat) (st : seq nat * seq (ppair V)) :
  outcome (seq nat * seq (ppair V)) :=
  match cs with
  | [::] => Ok st
  | c :: cs' =>
      do e0 <- oget c 0; do e1 <- oget c 1;
      let i := e0.1 in let j := e1.1 in
      do fi <- find_parent st.1 i;
      do fj <- find_parent fi.1 j;
      let pi := fi.2 in let pj := fj.2 in
      if pi == pj then uf_loop N vals1 cs' k.+1 nfinite (fj.1, st.2)
      else
        do bi <- oget st.2 pi; do bj <- oget st.2 pj; do d <- oget vals1 k;
        do st' <- (if ltf (fl (pp_birth bi)) (fl (pp_birth bj))
                   then uf_merge (fj.1, st.2) pi pj j k d else uf_merge (fj.1, st.2) pj pi i k d);
        (* N - 1 is 2^64 - 1 when N = 0: never reached *)
        if nfinite.+2 == N then Ok st' else uf_loop N vals1 cs' k.+1 nfinite.+1 st'
  end.

(** 49-118: union_find_pairs(F).  F.complex() is in filtration order, F.vals() in the original one. *)
Definition union_find_pairs (X : fcc T V) : outcome (seq (ppair V)) :=
  do B <- oget (fc_C X) 1;
  do v0 <- (if nrow B is 0 then Ok [::] else oget (fc_val X) 0);
  do pairs <- omapm (fun k => do b <- oget v0 k; Ok (PPair 0 k None b inf)) (iota 0 (nrow B));
  do v1 <- (if ncol B is 0 then Ok [::] else oget (fc_val X) 1);
  do st <- uf_loop (nrow B) v1 (take (ncol B) (cols B)) 0 0 (iota 0 (nrow B), pairs);
  Ok st.2.
End Filtered.

(** 123-124 k_choose_2 *)
Definition k_choose_2 (k : nat) : nat := (k * k.-1) %/ 2.

(** 129-131 k_choose_2_inv: ceil((1 + sqrt(1 + 8 targ)) / 2), with the square root taken as exact: the smallest k with
    (2k-1)^2 >= 1 + 8 targ and k >= 1, which is what the formula gives over the reals.  The fuel is an upper bound. *)
Fixpoint kc2_search (fuel k targ : nat) : nat :=
  if fuel is f.+1 then if 1 + 8 * targ <= (2 * k - 1) ^ 2 then k else kc2_search f k.+1 targ else k.
Definition k_choose_2_inv (targ : nat) : nat := kc2_search targ.+1 1 targ.

(** 145-157 binom_to_inds.  The sums and differences are modulo 2^64 in C++; the final result is computed here without
    intermediate wrap-around *)
Definition binom_to_inds (k N : nat) : nat * nat :=
  let N2 := k_choose_2 N in
  let targ := N2 - k in
  let ub := k_choose_2_inv targ in
  let i := N - ub in
  (i, (k + k_choose_2 ub + i + 1) - N2).

(** largest r with r * r <= x *)
Fixpoint isqrt (x : nat) : nat :=
  if x is y.+1 then let r := isqrt y in if r.+1 * r.+1 <= x then r.+1 else r else 0.

Section Rips.
Variables (zero inf : V).

(** 207-258 *)
Fixpoint ruf_loop (N : nat) (vals : seq V) (inds : seq nat) (k nfinite : nat) (rank : seq nat)
  (st : seq nat * seq (ppair V)) : outcome (seq nat * seq (ppair V)) :=
  match inds with
  | [::] => Ok st
  | ei :: inds' =>
      let ij := binom_to_inds ei N in
      let i := ij.1 in let j := ij.2 in
      do fi <- find_parent st.1 i;
      do fj <- find_parent fi.1 j;
      let pi := fi.2 in let pj := fj.2 in
      if pi == pj then ruf_loop N vals inds' k.+1 nfinite rank (fj.1, st.2)
      else
        do ri <- oget rank pi; do rj <- oget rank pj; do d <- oget vals ei;
        do sr <- (if rj < ri then do st' <- uf_merge (fj.1, st.2) pi pj j k d; Ok (st', rank)
                  else do st' <- uf_merge (fj.1, st.2) pj pi i k d;
                       do rank' <- (if ri == rj then oset rank pj rj.+1 else Ok rank); Ok (st', rank'));
        if nfinite.+2 == N then Ok sr.1 else ruf_loop N vals inds' k.+1 nfinite.+1 sr.2 sr.1
  end.

(** 174-262: rips_union_find_pairs(inds, vals); the square root is taken as exact *)
Definition rips_union_find_pairs (inds : seq nat) (vals : seq V) : outcome (seq (ppair V)) :=
  let M := size inds in
  let N := (1 + isqrt (1 + 8 * M)) %/ 2 in
  let pairs := mkseq (fun k => PPair 0 k None zero inf) N in
  do st <- ruf_loop N vals inds 0 0 (nseq N 0) (iota 0 N, pairs);
  Ok st.2.
End Rips.
End Pairs.
