(** Model of include/zigzag/reduction.hpp: zigzag barcode of a chain complex whose cells enter and leave.
    An event (rfilt_val) is the entry or the removal of one cell.  Values are of an arbitrary type A (the template
    parameter T); [vmax] is std::numeric_limits<T>::max().  The opt_flag argument is not used by the code.
    maxdim: the code converts -1 to C.maxdim() - 1; the other negative values make the vectors' constructor throw and
    are not modelled. *)
From mathcomp Require Import all_ssreflect.
From Verif Require Import Outcome M_SparseVec M_Perm M_ColMatrix M_Reduce M_Homology M_Induced M_Fact M_Quiver.
Set Implicit Arguments.
Unset Strict Implicit.
Unset Printing Implicit Defensive.

Section Zigzag.
Variable T : Type.
Variable O : fops T.
Variable A : Type.
Variable vmax : A.
Notation svec := (svec T).
Notation cmat := (cmat T).
Notation p2c_t := (seq (option nat)).

(** zigzag/reduction.hpp 164-188: rfilt_val *)
Record rfv := RFV { z_dim : nat; z_ind : nat; z_cind : nat; z_val : A; z_entry : bool }.
(** zigzag/reduction.hpp 190-245: ZigzagPair; death_ind = NO_IND is None *)
Record zpair := ZPair { zp_dim : nat; zp_birth_ind : nat; zp_death_ind : option nat; zp_birth : A; zp_death : A;
                        zp_birth_entry : bool; zp_death_entry : bool }.

(** zigzag/reduction.hpp 65-94: reduce_column with any flag but extra_reduction_flag; [fuel] bounds the iterations of the
    while loop *)
Fixpoint zz_reduce (fuel : nat) (M U : seq svec) (p2c : p2c_t) (j : nat) : outcome (seq svec * seq svec * p2c_t * nat) :=
  if fuel is fuel'.+1 then
    do c <- oget M j;
    if c is [::] then Ok (M, U, p2c, j)                          (* M[j].nnz() == 0 *)
    else
      do (i, _) <- lastnz c;
      do e <- oget p2c i;
      if e is Some k0 then
        let swap := j < k0 in                                    (* k > j: switch to the column to the right *)
        do p2c' <- (if swap then oset p2c i (Some j) else Ok p2c);
        let j' := if swap then k0 else j in
        let k := if swap then j else k0 in
        do cj <- oget M j'; do (_, v) <- lastnz cj;              (* piv *)
        do ck <- oget M k; do (_, w) <- lastnz ck;
        do a <- odiv O v w;
        do M' <- oset M j' (axpy O (fopp O a) ck cj);
        do uj <- oget U j'; do uk <- oget U k;
        do U' <- oset U j' (axpy O (fopp O a) uk uj);
        zz_reduce fuel' M' U' p2c' j'
      else do p2c' <- oset p2c i (Some j); Ok (M, U, p2c', j)    (* new pivot *)
  else OutOfFuel.

(** zigzag/reduction.hpp 253-269: cycle_insertion_map(I, j); n = m - 1 wraps for empty I and the allocation throws *)
Definition cycle_insertion_map (Ix : seq nat) (j : nat) : outcome cmat :=
  if size Ix is n.+1 then
    Ok (CMat n.+1 n [seq sv_unit O (if nth 0 Ix k < j then k else k.+1) | k <- iota 0 n])
  else Throw.

(** zigzag/reduction.hpp 272-298: boundary_insertion_map(I, i, v) *)
Definition bim_step (Ix : seq nat) (i : nat) (v : svec) (s : seq svec * bool) (k : nat) : outcome (seq svec * bool) :=
  do x <- oget Ix k;
  if x < i then do cs <- oset s.1 k (sv_unit O k); Ok (cs, s.2)
  else
    do cs <- (if s.2 then Ok s.1 else oset s.1 k v);
    do cs' <- oset cs k.+1 (sv_unit O k);
    Ok (cs', true).
Definition boundary_insertion_map (Ix : seq nat) (i : nat) (v : svec) : outcome cmat :=
  let m := size Ix in
  do r <- ofold (bim_step Ix i v) (nseq m.+1 [::], false) (iota 0 m);
  do cs <- (if r.2 then Ok r.1 else oset r.1 m v);
  Ok (CMat m m.+1 cs).

(** zigzag/reduction.hpp 304-320: apply_basis *)
Definition apply_basis (X L P : cmat) (prev_dir dir : bool) : outcome cmat :=
  if ~~ prev_dir && ~~ dir then mul O (mul O (Ok L) (Ok P)) (Ok X)
  else if prev_dir && dir then mul O (mul O (Ok X) (Ok P)) (Ok L)
  else if ~~ prev_dir && dir then mul O (mul O (Ok X) (transpose P)) (l_inv O L)
  else mul O (mul O (l_inv O L) (transpose P)) (Ok X).

(** std::unordered_map<size_t, size_t> as an association list with distinct keys; operator[] of a missing key gives 0 (the
    entry it would insert is erased by the next statement) *)
Definition amap := seq (nat * nat).
Definition aget (p : amap) (i : nat) : nat := if [seq x <- p | x.1 == i] is x :: _ then x.2 else 0.
Definition aerase (p : amap) (i : nat) : amap := [seq x <- p | x.1 != i].

(** zigzag/reduction.hpp 346-374 and 379-405: the loop body over the columns of E (or of its transpose) *)
Definition zz_bar_step (hdim : nat) (fv : rfv) (cs : seq svec) (s : seq zpair * amap * amap) (j : nat)
  : outcome (seq zpair * amap * amap) :=
  let: (bars, p, p2) := s in
  do c <- oget cs j;
  if c is (r, _) :: _ then Ok (bars, aerase p r, rcons p2 (j, aget p r))
  else Ok (rcons bars (ZPair hdim (z_cind fv) None (z_val fv) vmax (z_entry fv) true), p, rcons p2 (j, size bars)).
(** zigzag/reduction.hpp 409-414: kill the bars left in piv_to_ind (they are distinct, so the iteration order of the hash
    table does not matter) *)
Definition zz_kill (fv : rfv) (bars : seq zpair) (x : nat * nat) : outcome (seq zpair) :=
  do b <- oget bars x.2;
  oset bars x.2 (ZPair (zp_dim b) (zp_birth_ind b) (Some (z_cind fv)) (zp_birth b) (z_val fv) (zp_birth_entry b) (z_entry fv)).
(** zigzag/reduction.hpp 327-418: update_bars; returns the bars and piv_to_ind after the swap *)
Definition update_bars (bars : seq zpair) (fv : rfv) (hdim : nat) (E : cmat) (p : amap) : outcome (seq zpair * amap) :=
  do E' <- (if z_entry fv then transpose E else Ok E);
  do r <- ofold (zz_bar_step hdim fv (cols E')) (bars, p, [::]) (iota 0 (ncol E'));
  let: (bars1, p1, p2) := r in
  do bars2 <- ofold (zz_kill fv) bars1 p1;
  Ok (bars2, p2).

(** zigzag/reduction.hpp 462-469: the local variables of zigzag_barcode_reduction *)
Record zstate := ZState { zs_F : rcc T; zs_bars : seq (seq zpair); zs_piv : seq amap; zs_L : seq cmat; zs_P : seq cmat;
                          zs_dir : seq bool }.

(** zigzag/reduction.hpp 495-506, 519-532, 556-567, 578-589: change of basis, factorization, bars, in homology dimension k *)
Definition zz_record (s : zstate) (F' : rcc T) (fv : rfv) (k : nat) (X : cmat) : outcome zstate :=
  do L <- oget (zs_L s) k; do P <- oget (zs_P s) k; do d <- oget (zs_dir s) k;
  do X' <- apply_basis X L P d (z_entry fv);
  do f <- (if z_entry fv then PLEU O X' else UELP O X');
  do bk <- oget (zs_bars s) k; do pk <- oget (zs_piv s) k;
  do r <- update_bars bk fv k (fE f) pk;
  do L' <- oset (zs_L s) k (fL f); do P' <- oset (zs_P s) k (fP f); do d' <- oset (zs_dir s) k (z_entry fv);
  do b' <- oset (zs_bars s) k r.1; do p' <- oset (zs_piv s) k r.2;
  Ok (ZState F' b' p' L' P' d').

(** std::lower_bound / std::upper_bound on a sorted vector *)
Definition lowb (Ix : seq nat) (i : nat) : nat := find (fun x => i <= x) Ix.
Definition uppb (Ix : seq nat) (i : nat) : nat := find (fun x => i < x) Ix.
Definition ins_at (Ix : seq nat) (i : nat) : seq nat := take (uppb Ix i) Ix ++ i :: drop (uppb Ix i) Ix.

Definition setI (X : rcc T) Ix := RCC (rc_U X) (rc_R X) Ix (rc_p2c X).

(** zigzag/reduction.hpp 475-535: entry of a cell; [zd] = maxdim + 1 *)
Definition zz_entry (zd : nat) (s : zstate) (fv : rfv) : outcome zstate :=
  let k := z_dim fv in let X := zs_F s in
  do Rk <- oget (rc_R X) k; do Uk <- oget (rc_U X) k; do pk <- oget (rc_p2c X) k;
  do r <- zz_reduce (nrow Rk).+2 (cols Rk) (cols Uk) pk (z_ind fv);
  let: (M, V, p, j) := r in
  do R' <- oset (rc_R X) k (CMat (nrow Rk) (ncol Rk) M);
  do U' <- oset (rc_U X) k (CMat (nrow Uk) (ncol Uk) V);
  do p' <- oset (rc_p2c X) k p;
  let X1 := RCC U' R' (rc_I X) p' in
  do c <- oget M j;
  if (k <= zd) && (0 < size c) then
    do (i, _) <- lastnz c;
    if k is k1.+1 then
      do I1 <- oget (rc_I X1) k1;
      do x <- oget I1 (lowb I1 i);                              (* *it, one past the end if i is above all *)
      if i != x then Throw
      else
        let I1' := take (lowb I1 i) I1 ++ drop (lowb I1 i).+1 I1 in
        do Ix <- oset (rc_I X1) k1 I1';
        let X2 := setI X1 Ix in
        do v <- find_preferred O X2 (sv_unit O i) k1;
        do B <- boundary_insertion_map I1' i (select v I1');
        zz_record s X2 fv k1 B
    else UB                                                     (* I[k-1] with k = 0 *)
  else if k < zd then
    do Ik <- oget (rc_I X1) k;
    let Ik' := ins_at Ik j in
    do Ix <- oset (rc_I X1) k Ik';
    do B <- cycle_insertion_map Ik' j;
    zz_record s (setI X1 Ix) fv k B
  else Ok (ZState X1 (zs_bars s) (zs_piv s) (zs_L s) (zs_P s) (zs_dir s)).

(** zigzag/reduction.hpp 593-594: clear column ind of R[dim] and U[dim] *)
Definition zz_clear (s : zstate) (fv : rfv) : outcome zstate :=
  let k := z_dim fv in let X := zs_F s in
  do Rk <- oget (rc_R X) k; do Uk <- oget (rc_U X) k;
  do M <- oset (cols Rk) (z_ind fv) [::]; do V <- oset (cols Uk) (z_ind fv) [::];
  do R' <- oset (rc_R X) k (CMat (nrow Rk) (ncol Rk) M);
  do U' <- oset (rc_U X) k (CMat (nrow Uk) (ncol Uk) V);
  Ok (ZState (RCC U' R' (rc_I X) (rc_p2c X)) (zs_bars s) (zs_piv s) (zs_L s) (zs_P s) (zs_dir s)).

(** zigzag/reduction.hpp 536-595: removal of a cell *)
Definition zz_removal (zd : nat) (s : zstate) (fv : rfv) : outcome zstate :=
  let k := z_dim fv in let X := zs_F s in
  do Rk <- oget (rc_R X) k;
  do c <- oget (cols Rk) (z_ind fv);
  do s' <-
   (if (k <= zd) && (0 < size c) then
      do (i, _) <- lastnz c;
      if k is k1.+1 then
        do v <- find_preferred O X (sv_unit O i) k1;
        do I1 <- oget (rc_I X) k1;
        do B <- boundary_insertion_map I1 i (select v I1);
        do Ix <- oset (rc_I X) k1 (ins_at I1 i);
        do pk <- oget (rc_p2c X) k; do pk' <- oset pk i None; do p' <- oset (rc_p2c X) k pk';
        zz_record s (RCC (rc_U X) (rc_R X) Ix p') fv k1 B
      else UB
    else if k < zd then
      do Ik <- oget (rc_I X) k;
      do B <- cycle_insertion_map Ik (z_ind fv);
      do Ix <- oset (rc_I X) k (take (size Ik).-1 Ik);
      zz_record s (setI X Ix) fv k B
    else Ok s);
  zz_clear s' fv.

(** homology/basis.hpp 49-61: ReducedChainComplex::initialize *)
Definition rcc_initialize (C : chain_complex T) : rcc T :=
  RCC [seq cm_identity O (ncol B) | B <- C] C (nseq (size C) [::]) [seq nseq (nrow B) None | B <- C].

(** zigzag/reduction.hpp 471-596: one event *)
Definition zz_step (zd : nat) (s : zstate) (fv : rfv) : outcome zstate :=
  if z_entry fv then zz_entry zd s fv else zz_removal zd s fv.
(** zigzag/reduction.hpp 458-469 *)
Definition zz_init (C : chain_complex T) (zd : nat) : zstate :=
  ZState (rcc_initialize C) (nseq zd [::]) (nseq zd [::]) (nseq zd (cm0 T)) (nseq zd (cm0 T)) (nseq zd false).
(** zigzag/reduction.hpp 440-600: zigzag_barcode_reduction; [maxdim] = None stands for -1 *)
Definition zz_dims (C : chain_complex T) (maxdim : option nat) : nat := if maxdim is Some d then d.+1 else (size C).-1.
Definition zigzag_barcode_reduction (C : chain_complex T) (evs : seq rfv) (maxdim : option nat) : outcome (seq (seq zpair)) :=
  let zd := zz_dims C maxdim in
  do s <- ofold (zz_step zd) (zz_init C zd) evs;
  Ok (zs_bars s).

End Zigzag.
