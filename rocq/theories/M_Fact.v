(** Model of include/linalg/sparse_fact.hpp (sparse factorizations LEUP, PLEU, UELP, PUEL, LQU, UQL, the
    triangular commutation relations and inv), with the helpers of sparse_vector.hpp and col_matrix.hpp it uses. *)
From mathcomp Require Import all_ssreflect.
From Verif Require Import Outcome M_SparseVec M_Perm M_ColMatrix.
Set Implicit Arguments.
Unset Strict Implicit.
Unset Printing Implicit Defensive.

Section Fact.
Variable T : Type.
Variable O : fops T.
Notation svec := (svec T).
Notation cmat := (cmat T).

(** field inverse x.inv(): throws on zero (field.hpp) *)
Definition oinv (x : T) : outcome T := odiv O (f1 O) x.

(** sparse_vector.hpp 1083-1113: the merge loop of axpy(x, coeff, inds, tmp).  [y] is what is left of self
    (iterator i1), [x] what is left of x (iterator i2), [ii] the position in inds. *)
Fixpoint ai_main (fuel : nat) (coeff : seq T) (inds : seq nat) (ii : nat) (y x tmp : svec)
  : outcome (nat * svec * svec * svec) :=
  match y, x with
  | (k, w) :: y', (r, v) :: x' =>
      if ii < size inds then
        if fuel is fuel'.+1 then
          let ri := nth 0 inds ii in
          if (ii < k) && (ri < r) then ai_main fuel' coeff inds ii.+1 y x tmp
          else if (k == ii) && (ri < r) then ai_main fuel' coeff inds ii.+1 y' x (rcons tmp (k, w))
          else if (ii < k) && (ri == r) then
            do c <- oget coeff ii;
            let val := fmul O c v in
            ai_main fuel' coeff inds ii.+1 y x' (if is0 O val then tmp else rcons tmp (ii, val))
          else if (k == ii) && (r == ri) then
            do c <- oget coeff ii;
            let val := fadd O (fmul O c v) w in
            ai_main fuel' coeff inds ii.+1 y' x' (if is0 O val then tmp else rcons tmp (k, val))
          else Throw
        else OutOfFuel
      else Ok (ii, y, x, tmp)
  | _, _ => Ok (ii, y, x, tmp)
  end.

(** sparse_vector.hpp 1120-1128: the loop over what is left of x *)
Fixpoint ai_tail (fuel : nat) (coeff : seq T) (inds : seq nat) (ii : nat) (x tmp : svec) : outcome svec :=
  match x with
  | [::] => Ok tmp
  | (r, v) :: x' =>
      if ii < size inds then
        if fuel is fuel'.+1 then
          if nth 0 inds ii < r then ai_tail fuel' coeff inds ii.+1 x tmp
          else do c <- oget coeff ii; ai_tail fuel' coeff inds ii.+1 x' (rcons tmp (ii, fmul O c v))
        else OutOfFuel
      else Ok tmp
  end.

(** sparse_vector.hpp 1061-1130: y.axpy(x, coeff, inds, tmp); the loops advance ii at every step, so
    size inds steps suffice *)
Definition axpy_inds (x : svec) (coeff : seq T) (inds : seq nat) (y : svec) : outcome svec :=
  if x is [::] then Ok y else
  do r <- ai_main (size inds) coeff inds 0 y x [::];
  let: (ii, y', x', tmp) := r in
  ai_tail (size inds) coeff inds ii x' (tmp ++ y').

(** sparse_vector.hpp 1138-1147: scale_inplace(coeff vector) *)
Definition sv_scale_by (coeff : seq T) (v : svec) : outcome svec :=
  omapm (fun p : nat * T => do c <- oget coeff p.1; Ok (p.1, fmul O p.2 c)) v.
(** col_matrix.hpp 870-875: row_scale *)
Definition row_scale (coeff : seq T) (A : cmat) : outcome cmat :=
  do cs <- ofold (fun cs j => do c <- oget cs j; do c' <- sv_scale_by coeff c; oset cs j c')
                 (cols A) (iota 0 (ncol A));
  Ok (CMat (nrow A) (ncol A) cs).
(** col_matrix.hpp 878-883: col_inv_scale *)
Definition col_inv_scale (coeff : seq T) (A : cmat) : outcome cmat :=
  do cs <- ofold (fun cs j => do c <- oget cs j; do a <- oget coeff j; do b <- oinv a;
                              oset cs j (scale_inplace O b c))
                 (cols A) (iota 0 (ncol A));
  Ok (CMat (nrow A) (ncol A) cs).
(** col_matrix.hpp 841-851: J_conjugation_inplace / J_conjugation *)
Definition J_conj (A : cmat) : outcome cmat := J_right (J_left A).

(** sparse_fact.hpp 17-22: SparseFact *)
Record fact := Fact { fL : cmat; fE : cmat; fU : cmat; fP : cmat }.

(** std::map<size_t, std::vector<size_t>> *)
Definition pmap := nat -> option (seq nat).
Definition pset (p : pmap) (r : nat) (l : option (seq nat)) : pmap := fun r' => if r' == r then l else p r'.
(** operator[] creates an empty vector when the key is absent *)
Definition pget (p : pmap) (r : nat) : seq nat := odflt [::] (p r).

(** sparse_fact.hpp 52-56: update_pivot *)
Definition update_pivot (E : seq svec) (p : pmap) (j i0 : nat) : outcome pmap :=
  do c <- oget E j;
  Ok (if (split_lb c i0).2 is (r, _) :: _ then pset p r (Some (rcons (pget p r) j)) else p).
(** sparse_fact.hpp 59-67: delete_pivot ([rem] removes the first occurrence) *)
Definition delete_pivot (E : seq svec) (p : pmap) (j i0 : nat) : outcome pmap :=
  do c <- oget E j;
  Ok (if (split_lb c i0).2 is (r, _) :: _ then pset p r (Some (rem j (pget p r))) else p).
(** sparse_fact.hpp 70-76: get_pivots *)
Definition get_pivots (A : cmat) : outcome pmap :=
  ofold (fun p j => update_pivot (cols A) p j 0) (fun _ => None) (iota 0 (ncol A)).

(** the variables of LEUP_inplace: columns of E, U, L, P, then pivs, coeff, p2c and j (sparse_fact.hpp 84-93) *)
Record lstate := LState { sE : seq svec; sU : seq svec; sL : seq svec; sP : seq svec;
                          spivs : seq nat; scoef : seq T; sp2c : pmap; sj : nat }.

(** std::swap(col[j1], col[j2]) *)
Definition swap_nth (cs : seq svec) (j k : nat) : outcome (seq svec) :=
  do cj <- oget cs j; do ck <- oget cs k; do cs1 <- oset cs j ck; oset cs1 k cj.

(** sparse_fact.hpp 122-126: the loop over the other columns with pivot i.  The vector p2c[i] is not touched by
    update_pivot(.., i+1), which only writes to keys > i. *)
Definition leup_elim (m i j : nat) (a11 : T) (s : seq svec * pmap) (jj : nat) : outcome (seq svec * pmap) :=
  let: (E, p) := s in
  do cjj <- oget E jj; do cj <- oget E j;
  do c <- odiv O (getval O cjj i) a11;
  do E1 <- oset E jj (axpy_range O (fopp O c) cj i.+1 m cjj);
  do p1 <- update_pivot E1 p jj i.+1;
  Ok (E1, p1).

(** sparse_fact.hpp 95-138: one iteration of while (i < m && j < n).  i is incremented in both branches, so the
    loop is a for loop over i < m whose body does nothing once j = n. *)
Definition leup_step (m n : nat) (s : lstate) (i : nat) : outcome lstate :=
  let j := sj s in
  if j < n then
    if sp2c s i is Some l then
      do j2 <- oget l 0;
      do sw <- (if j2 != j then
                  do p1 <- delete_pivot (sE s) (sp2c s) j i;
                  do E1 <- swap_nth (sE s) j j2;
                  do p2 <- update_pivot E1 p1 j2 i;
                  do P1 <- swap_nth (sP s) j j2;
                  Ok (E1, P1, p2)
                else Ok (sE s, sP s, sp2c s));
      let: (E1, P1, p2) := sw in
      do uj <- oget (sU s) j; do ej <- oget E1 j;
      do uj' <- axpy_inds ej (scoef s) (spivs s) uj;
      do U1 <- oset (sU s) j uj';
      let a11 := getval O ej i in
      do ainv <- oinv a11;
      do r <- ofold (leup_elim m i j a11) (E1, p2) (behead (pget p2 i));
      let: (E2, p3) := r in
      let p4 := pset p3 i None in
      do li <- oget (sL s) i; do ej2 <- oget E2 j;
      do L1 <- oset (sL s) i (axpy_range O ainv ej2 i.+1 m li);
      do E3 <- oset E2 j [:: (i, a11)];
      Ok (LState E3 U1 L1 P1 (rcons (spivs s) i) (rcons (scoef s) ainv) p4 j.+1)
    else Ok s
  else Ok s.

(** sparse_fact.hpp 141-147: the remaining columns *)
Definition leup_rest (coeff : seq T) (pivs : seq nat) (s : seq svec * seq svec) (j : nat)
  : outcome (seq svec * seq svec) :=
  let: (E, U) := s in
  do uj <- oget U j; do ej <- oget E j;
  do uj' <- axpy_inds ej coeff pivs uj;
  do U1 <- oset U j uj'; do E1 <- oset E j [::];
  Ok (E1, U1).

(** sparse_fact.hpp 79-152: LEUP_inplace *)
Definition LEUP_inplace (f : fact) : outcome fact :=
  let m := nrow (fE f) in let n := ncol (fE f) in
  do p <- get_pivots (fE f);
  do s <- ofold (leup_step m n)
        (LState (cols (fE f)) (cols (fU f)) (cols (fL f)) (cols (fP f)) [::] [::] p 0) (iota 0 m);
  do r <- ofold (leup_rest (scoef s) (spivs s)) (sE s, sU s) (iota (sj s) (n - sj s));
  let: (E1, U1) := r in
  do P <- transpose (CMat (nrow (fP f)) (ncol (fP f)) (sP s));
  Ok (Fact (CMat (nrow (fL f)) (ncol (fL f)) (sL s)) (CMat m n E1)
           (CMat (nrow (fU f)) (ncol (fU f)) U1) P).

(** sparse_fact.hpp 154-172: LEUP *)
Definition LEUP (A : cmat) : outcome fact :=
  LEUP_inplace (Fact (cm_identity O (nrow A)) A (cm_identity O (ncol A)) (cm_identity O (ncol A))).

(** sparse_fact.hpp 175-204: PLEU *)
Definition PLEU (A : cmat) : outcome fact :=
  do At <- transpose A;
  do f <- LEUP At;
  do E <- transpose (fE f); do P <- transpose (fP f);
  do U <- transpose (fL f); do L <- transpose (fU f);     (* after std::swap(F.L, F.U) *)
  Ok (Fact L E U P).

(** sparse_fact.hpp 207-237: UELP *)
Definition UELP (A : cmat) : outcome fact :=
  do Aj <- J_conj A;
  do f <- LEUP Aj;
  do E <- J_conj (fE f); do P <- J_conj (fP f);
  do U <- J_conj (fL f); do L <- J_conj (fU f);           (* after std::swap(F.L, F.U) *)
  Ok (Fact L E U P).

(** sparse_fact.hpp 240-276: PUEL *)
Definition PUEL (A : cmat) : outcome fact :=
  do Aj <- J_conj A; do Ajt <- transpose Aj;
  do f <- LEUP Ajt;
  let tj X := do Y <- transpose X; J_conj Y in
  do E <- tj (fE f); do P <- tj (fP f); do U <- tj (fU f); do L <- tj (fL f);
  Ok (Fact L E U P).

(** sparse_fact.hpp 284-288: pivot_ind; NO_IND is None *)
Definition pivot_ind (c : svec) : option nat := if c is (i, _) :: _ then Some i else None.

(** sparse_fact.hpp 291-309: extract_row_scale: the row coefficients (the unit matrix it leaves is only used for
    its pivot indices, which do not change) *)
Definition row_coeffs (E : cmat) : outcome (seq T) :=
  ofold (fun co j => do c <- oget (cols E) j;
                     if c is (i, v) :: _ then oset co i v else Ok co)
        (nseq (nrow E) (f1 O)) (iota 0 (ncol E)).

(** sparse_fact.hpp 335-338: one column of Ltilde *)
Fixpoint commute_col (idx : seq (option nat)) (c : svec) : outcome svec :=
  match c with
  | [::] => Ok [::]
  | (i, v) :: c' =>
      do o <- oget idx i;
      if o is Some k then do r <- commute_col idx c'; Ok ((k, v) :: r) else Ok [::]
  end.
(** sparse_fact.hpp 330-339: the loop over the columns of EL, which breaks at the first NO_IND *)
Fixpoint commute_loop (idx : seq (option nat)) (L : cmat) (ells : seq nat) (Lt_ : seq svec) : outcome (seq svec) :=
  match ells with
  | [::] => Ok Lt_
  | l :: ells' =>
      do o <- oget idx l;
      if o is Some k then
        do c <- oget (cols L) l;
        do r <- commute_col idx c;
        do Lt1_ <- oset Lt_ k r;
        commute_loop idx L ells' Lt1_
      else Ok Lt_
  end.
(** sparse_fact.hpp 312-349: EL_L_commute *)
Definition EL_L_commute (E L : cmat) : outcome cmat :=
  do coeff <- row_coeffs E;
  do idx <- omapm (fun j => do c <- oget (cols E) j; Ok (pivot_ind c)) (iota 0 (ncol E));
  do Lt_ <- commute_loop idx L (iota 0 (ncol E)) (cols (cm_identity O (nrow E)));
  do L1 <- row_scale coeff (CMat (nrow E) (nrow E) Lt_);
  col_inv_scale coeff L1.

(** sparse_fact.hpp 352-355: L_EL_commute *)
Definition L_EL_commute (L E : cmat) : outcome cmat :=
  let tj X := do Y <- transpose X; J_conj Y in
  do E' <- tj E; do L' <- tj L; do R <- EL_L_commute E' L'; tj R.
(** sparse_fact.hpp 359-362: U_EU_commute *)
Definition U_EU_commute (U E : cmat) : outcome cmat :=
  do E' <- transpose E; do U' <- transpose U; do R <- EL_L_commute E' U'; transpose R.
(** sparse_fact.hpp 366-369: EU_U_commute *)
Definition EU_U_commute (E U : cmat) : outcome cmat :=
  do E' <- J_conj E; do U' <- J_conj U; do R <- EL_L_commute E' U'; J_conj R.

(** sparse_fact.hpp 383-414: the while loop of CU_inplace on column j.  [b] is the iterator piv = first entry
    of index >= b; [found] is found_pivot; [p2c] has size m, -1 is None.  Each step moves b past one row. *)
Fixpoint cu_col (fuel : nat) (C U : seq svec) (p2c : seq (option nat)) (j b : nat) (found : bool)
  : outcome (seq svec * seq svec * seq (option nat)) :=
  do cj <- oget C j;
  if (split_lb cj b).2 is (i0, v) :: _ then
    if fuel is fuel'.+1 then
      do q <- oget p2c i0;
      if q is Some k then
        do ck <- oget C k; do uj <- oget U j; do uk <- oget U k;
        do C1 <- oset C j (axpy O (fopp O v) ck cj);
        do U1 <- oset U j (axpy O (fopp O v) uk uj);
        cu_col fuel' C1 U1 p2c j i0 found               (* piv = lower_bound(i0) *)
      else if ~~ found then
        do p1 <- oset p2c i0 (Some j);
        do vi <- oinv v;
        do C1 <- oset C j (scale_inplace O vi cj);
        do uj <- oget U j;
        do U1 <- oset U j (scale_inplace O vi uj);
        cu_col fuel' C1 U1 p1 j i0.+1 true              (* ++piv *)
      else cu_col fuel' C U p2c j i0.+1 found           (* ++piv *)
    else OutOfFuel
  else Ok (C, U, p2c).
(** sparse_fact.hpp 373-418: CU_inplace *)
Definition CU_inplace (C U : cmat) : outcome (cmat * cmat) :=
  do r <- ofold (fun s j => let: (C1, U1, p) := s in cu_col (nrow C).+1 C1 U1 p j 0 false)
                (cols C, cols U, nseq (nrow C) None) (iota 0 (ncol C));
  let: (C1, U1, _) := r in
  Ok (CMat (nrow C) (ncol C) C1, CMat (nrow U) (ncol U) U1).
(** sparse_fact.hpp 421-435, 437-455: LQU_inplace, LQU.  F.P is default constructed (0 x 0). *)
Definition LQU (A : cmat) : outcome fact :=
  do r <- CU_inplace A (cm_identity O (ncol A));
  let: (C, U0) := r in
  do U <- u_inv O U0;
  do Ct <- transpose C;
  do r2 <- CU_inplace Ct (cm_identity O (nrow A));
  let: (Q, L0) := r2 in
  do L1 <- u_inv O L0;
  do E <- transpose Q; do L <- transpose L1;
  Ok (Fact L E U (CMat 0 0 [::])).
(** sparse_fact.hpp 457-468: UQL *)
Definition UQL (A : cmat) : outcome fact :=
  do Aj <- J_conj A;
  do f <- LQU Aj;
  do E <- J_conj (fE f); do L <- J_conj (fU f); do U <- J_conj (fL f);
  Ok (Fact L E U (fP f)).
(** sparse_fact.hpp 473-479: inv *)
Definition fact_inv (A : cmat) : outcome cmat :=
  do f <- LQU A;
  do Ui <- u_inv O (fU f); do Et <- transpose (fE f); do X <- gemm O Ui Et;
  do Li <- l_inv O (fL f); gemm O X Li.

End Fact.
