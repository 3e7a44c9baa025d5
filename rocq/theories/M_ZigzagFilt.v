(** Model of include/zigzag/zigzag_filtration.hpp: ZigzagFiltration values, the chain complex with one column for every
    interval of every cell, and the order in which the cells are processed.
    [C] is the chain complex of the underlying complex (ChainComplex<MT>(X)); val[k][i] lists the intervals of cell i of
    dimension k.  [ltv] is operator< of the value type and == its equality; NaN is not modelled.
    [srt] is std::sort: its result on elements that compare equal is not specified, so it is a parameter. *)
From mathcomp Require Import all_ssreflect.
From Verif Require Import Outcome M_SparseVec M_Perm M_ColMatrix M_Reduce M_Homology M_Zigzag.
Set Implicit Arguments.
Unset Strict Implicit.
Unset Printing Implicit Defensive.

Section ZF.
Variable T : Type.
Variable O : fops T.
Variable A : eqType.
Variables (ltv : A -> A -> bool) (v0 vmax : A).
Variable srt : forall B : Type, (B -> B -> bool) -> seq B -> seq B.
Notation svec := (svec T).
Notation cmat := (cmat T).
Notation iv := (A * A)%type.
Notation event := (rfv A).

(** zigzag_filtration.hpp 186-208: _correct_indices, one index: [v1] = val[k-1], [e1] = extra_cells[k-1], [b] the entry time
    of the column *)
Definition correct_ind (v1 : seq iv) (e1 : seq nat) (b : A) (i : nat) : outcome nat :=
  do v <- oget v1 i;
  if ltv v.2 b then
    do lo <- oget e1 i; do hi <- oget e1 i.+1;
    do r <- ofold (fun s i2 => if s is Some _ then Ok s                     (* break *)
                               else do w <- oget v1 i2; Ok (if ltv b w.2 then Some i2 else None))
                  None (iota lo (hi - lo));
    Ok (if r is Some i2 then i2 else i)
  else Ok i.
(** zigzag_filtration.hpp 191-208: _correct_indices on a column *)
Definition correct_col (v1 : seq iv) (e1 : seq nat) (b : A) (c : svec) : outcome svec :=
  do c' <- omapm (fun p : nat * T => do i <- correct_ind v1 e1 b p.1; Ok (i, p.2)) c;
  Ok (sv_sort c').

(** the variables changed while dimension k is processed: the columns of C[k], val[k], cind[k], extra_cells[k] *)
Record zdim := ZDim { zd_cs : seq svec; zd_v : seq iv; zd_ci : seq nat; zd_ex : seq nat }.

(** zigzag_filtration.hpp 248-260: one more copy of cell i; [prev] = (val[k-1], extra_cells[k-1]) if k > 0 *)
Definition zcc_copy (prev : option (seq iv * seq nat)) (i : nat) (s : zdim) (w : iv) : outcome zdim :=
  do c <- oget (zd_cs s) i;
  let v := rcons (zd_v s) w in
  do c' <- (if prev is Some (v1, e1) then do wj <- oget v (size (zd_cs s)); correct_col v1 e1 wj.1 c else Ok c);
  Ok (ZDim (rcons (zd_cs s) c') v (rcons (zd_ci s) i) (zd_ex s)).
(** zigzag_filtration.hpp 239-261: one cell; a cell without interval reads *begin() of an empty vector *)
Definition zcc_cell (prev : option (seq iv * seq nat)) (xv : seq (seq iv)) (s : zdim) (i : nat) : outcome zdim :=
  do ws <- oget xv i;
  if ws is w :: ws' then
    do v <- oset (zd_v s) i w; do ci <- oset (zd_ci s) i i; do ex <- oset (zd_ex s) i (size v);
    ofold (zcc_copy prev i) (ZDim (zd_cs s) v ci ex) ws'
  else UB.

(** ZigzagChainComplex (176-181), and the local variable extra_cells (226) *)
Record zcc := ZCC { zc_C : seq cmat; zc_v : seq (seq iv); zc_ci : seq (seq nat); zc_ex : seq (seq nat) }.
(** zigzag_filtration.hpp 231-263: one dimension.  The rows appended one dimension up, one for every copy, are appended
    together at the end (nothing reads them before). *)
Definition zcc_dim (val : seq (seq (seq iv))) (s : zcc) (k : nat) : outcome zcc :=
  do xv <- oget val k; let n := size xv in
  do Bk <- oget (zc_C s) k;
  do prev <- (if k is k1.+1 then do v1 <- oget (zc_v s) k1; do e1 <- oget (zc_ex s) k1; Ok (Some (v1, e1)) else Ok None);
  do d <- ofold (zcc_cell prev xv) (ZDim (cols Bk) (nseq n (v0, v0)) (nseq n 0) (nseq n.+1 0)) (iota 0 n);
  let new := size (zd_cs d) - size (cols Bk) in
  do C1 <- oset (zc_C s) k (CMat (nrow Bk) (ncol Bk + new) (zd_cs d));
  do C2 <- (if k.+1 < size val then do B1 <- oget C1 k.+1; oset C1 k.+1 (CMat (nrow B1 + new) (ncol B1) (cols B1)) else Ok C1);
  do ex <- oset (zd_ex d) n (size (zd_v d));
  do vs <- oset (zc_v s) k (zd_v d); do cis <- oset (zc_ci s) k (zd_ci d); do exs <- oset (zc_ex s) k ex;
  Ok (ZCC C2 vs cis exs).
(** zigzag_filtration.hpp 217-265: the constructor from a ZigzagFiltration *)
Definition zcc_make (C : seq cmat) (val : seq (seq (seq iv))) : outcome zcc :=
  let e (B : Type) := nseq (size C) ([::] : seq B) in
  ofold (zcc_dim val) (ZCC C (e _) (e _) (e _)) (iota 0 (size val)).

(** zigzag_filtration.hpp 326-352, 462-489: the events, two for every cell of the chain complex *)
Definition zz_dim_events (C' : seq cmat) (Z : zcc) (k : nat) (perm : seq nat) : outcome (seq event) :=
  do ip <- inv_perm perm;
  do Bk <- oget C' k; do vk <- oget (zc_v Z) k;
  do l <- omapm (fun i => do p <- oget ip i; do w <- oget vk i; Ok [:: RFV k p i w.1 true; RFV k p i w.2 false])
                (iota 0 (ncol Bk));
  Ok (flatten l).
(** zigzag_filtration.hpp 296-369, 437-512: prepare_ChainComplex, with the comparisons of the two versions as parameters:
    [lp k v i j] of cells i and j of dimension k with values v, [le] of two events *)
Definition zz_prepare (lp : zcc -> nat -> nat -> nat -> bool) (le : zcc -> event -> event -> bool)
  (C : seq cmat) (val : seq (seq (seq iv))) : outcome (seq cmat * seq event) :=
  do Z <- zcc_make C val;
  let perms := [seq srt (lp Z k) (iota 0 (size (nth [::] (zc_v Z) k))) | k <- iota 0 (size (zc_C Z))] in
  do C' <- cc_ipermute_basis perms (zc_C Z);
  do evs <- omapm (fun k => do p <- oget perms k; zz_dim_events C' Z k p) (iota 0 (size (zc_C Z)));
  Ok (C', srt (le Z) (flatten evs)).

Definition zv (Z : zcc) k i : iv := nth (v0, v0) (nth [::] (zc_v Z) k) i.
(** zigzag_filtration.hpp 312-316: any complex: by decreasing removal time *)
Definition gen_lp (Z : zcc) k i j : bool := ltv (zv Z k j).2 (zv Z k i).2.
(** zigzag_filtration.hpp 353-366 *)
Definition gen_le (_ : zcc) (a b : event) : bool :=
  if z_val a != z_val b then ltv (z_val a) (z_val b)
  else if z_entry a && z_entry b then z_dim a < z_dim b
  else if z_entry a (+) z_entry b then z_entry a
  else if z_dim a == z_dim b then z_ind b < z_ind a
  else z_dim b < z_dim a.

(** zigzag_filtration.hpp 386-407 lex_cmp and 410-430 rlex_cmp on the vertices of two (non-empty) simplices, last first;
    [di], [dj] are the dimensions passed *)
Fixpoint lex_loop (lt : nat -> nat -> bool) (last : bool) (s t : seq nat) : bool :=
  match s, t with
  | x :: s', y :: t' =>
      if x != y then lt x y
      else if s' is [::] then last else if t' is [::] then last else lex_loop lt last s' t'
  | _, _ => false
  end.
Definition lex_cmp (di : nat) (s : seq nat) (dj : nat) (t : seq nat) : bool :=
  lex_loop (fun x y => x < y) (di < dj) (rev s) (rev t).
Definition rlex_cmp (di : nat) (s : seq nat) (dj : nat) (t : seq nat) : bool :=
  lex_loop (fun x y => y < x) (dj < di) (rev s) (rev t).

(** the simplicial version; [spx] lists the simplices of every dimension *)
Section Simplicial.
Variable spx : seq (seq (seq nat)).
Definition zsp (Z : zcc) k c : seq nat := nth [::] (nth [::] spx k) (nth 0 (nth [::] (zc_ci Z) k) c).
(** zigzag_filtration.hpp 452-458 *)
Definition spx_lp (Z : zcc) k i j : bool :=
  if (zv Z k i).2 == (zv Z k j).2 then rlex_cmp k (zsp Z k j) k (zsp Z k i) else ltv (zv Z k j).2 (zv Z k i).2.
(** zigzag_filtration.hpp 493-507 *)
Definition spx_le (Z : zcc) (a b : event) : bool :=
  if z_val a != z_val b then ltv (z_val a) (z_val b)
  else if z_entry a && z_entry b then lex_cmp (z_dim a) (zsp Z (z_dim a) (z_cind a)) (z_dim b) (zsp Z (z_dim b) (z_cind b))
  else if z_entry a (+) z_entry b then z_entry a
  else if z_dim a == z_dim b then z_ind b < z_ind a
  else rlex_cmp (z_dim a) (zsp Z (z_dim a) (z_cind a)) (z_dim b) (zsp Z (z_dim b) (z_cind b)).
End Simplicial.

(** zigzag_filtration.hpp 514-526: barcode, for any complex and for a SimplicialComplex *)
Definition zz_barcode (C : seq cmat) val (maxdim : option nat) : outcome (seq (seq (zpair A))) :=
  do r <- zz_prepare gen_lp gen_le C val; zigzag_barcode_reduction O vmax r.1 r.2 maxdim.
Definition zz_barcode_spx (spx : seq (seq (seq nat))) (C : seq cmat) val (maxdim : option nat) : outcome (seq (seq (zpair A))) :=
  do r <- zz_prepare (spx_lp spx) (spx_le spx) C val; zigzag_barcode_reduction O vmax r.1 r.2 maxdim.
End ZF.
