(** Model of include/quiver/sparse.hpp: barcode of a type-A quiver representation (a Diagram of ColumnMatrices).
    The two OpenMP tasks that type_A_dq_common spawns (twice) touch disjoint ranges of [facts] and [mats]; they are run here
    one after the other, in the order given by a schedule [sch j0 j1] (true: left task first).  Finer interleavings are
    not modelled. *)
From mathcomp Require Import all_ssreflect.
From Verif Require Import Outcome M_SparseVec M_Perm M_ColMatrix M_Fact.
Set Implicit Arguments.
Unset Strict Implicit.
Unset Printing Implicit Defensive.

Section Quiver.
Variable T : Type.
Variable O : fops T.
Notation cmat := (cmat T).
Notation fact := (fact T).

(** multigraph/diagram.hpp 12-36: Diagram (elist: (src, targ); edata: one matrix per edge); node data is not used *)
Record diagram := Dgm { elist : seq (nat * nat); edata : seq cmat }.
Definition nedge (dg : diagram) : nat := size (edata dg).

(** quiver/sparse.hpp 15-18: is_left_arrow *)
Definition is_left_arrow (e : nat * nat) : bool := e.2 < e.1.
Definition left_at (dg : diagram) (j : nat) : outcome bool := do e <- oget (elist dg) j; Ok (is_left_arrow e).

(** a default constructed ColumnMatrix / SparseFact *)
Definition cm0 : cmat := CMat 0 0 [::].
Definition fact0 : fact := Fact cm0 cm0 cm0 cm0.

(** the vectors facts and mats *)
Definition qstate := (seq fact * seq cmat)%type.
Definition mul (A B : outcome cmat) : outcome cmat := do a <- A; do b <- B; gemm O a b.
Definition idm (A : cmat) : cmat := cm_identity O (nrow A).
Definition setL (f : fact) X := Fact X (fE f) (fU f) (fP f).
Definition setE (f : fact) X := Fact (fL f) X (fU f) (fP f).
Definition setU (f : fact) X := Fact (fL f) (fE f) X (fP f).
Definition setP (f : fact) X := Fact (fL f) (fE f) (fU f) X.

(** quiver/sparse.hpp 20-48: pass_UP_right *)
Definition pass_UP_right (dg : diagram) (s : qstate) (i : nat) : outcome qstate :=
  let: (facts, mats) := s in
  do l1 <- left_at dg i.+1; do l0 <- left_at dg i; do f <- oget facts i; do A <- oget mats i.+1;
  do A' <- (if l1 then
              if l0 then mul (mul (Ok (fU f)) (Ok (fP f))) (Ok A)
              else mul (mul (u_inv O (fU f)) (transpose (fP f))) (Ok A)
            else
              if l0 then mul (mul (Ok A) (transpose (fP f))) (u_inv O (fU f))
              else mul (mul (Ok A) (Ok (fP f))) (Ok (fU f)));
  do mats' <- oset mats i.+1 A';
  do facts' <- oset facts i (setP (setU f (idm (fU f))) (idm (fP f)));
  Ok (facts', mats').

(** quiver/sparse.hpp 50-74: pass_P_right *)
Definition pass_P_right (dg : diagram) (facts : seq fact) (i : nat) : outcome (seq fact) :=
  do l1 <- left_at dg i.+1; do l0 <- left_at dg i; do f <- oget facts i; do f1 <- oget facts i.+1;
  do E' <- (if l1 then
              if l0 then mul (Ok (fP f)) (Ok (fE f1)) else mul (transpose (fP f)) (Ok (fE f1))
            else
              if l0 then mul (Ok (fE f1)) (transpose (fP f)) else mul (Ok (fE f1)) (Ok (fP f)));
  do facts1 <- oset facts i.+1 (setE f1 E');
  oset facts1 i (setP f (idm (fP f))).

(** quiver/sparse.hpp 76-100: pass_L_left; called with i > 0 *)
Definition pass_L_left (dg : diagram) (facts : seq fact) (i : nat) : outcome (seq fact) :=
  do l0 <- left_at dg i.-1; do l1 <- left_at dg i; do f0 <- oget facts i.-1; do f <- oget facts i;
  do L' <- (if l0 then
              if l1 then mul (Ok (fL f0)) (EL_L_commute O (fE f0) (fL f))
              else mul (Ok (fL f0)) (do X <- l_inv O (fL f); EL_L_commute O (fE f0) X)
            else
              if l1 then mul (do X <- l_inv O (fL f); L_EL_commute O X (fE f0)) (Ok (fL f0))
              else mul (L_EL_commute O (fL f) (fE f0)) (Ok (fL f0)));
  do facts1 <- oset facts i.-1 (setL f0 L');
  oset facts1 i (setL f (idm (fL f))).

(** is_left_arrow(dgm.elist[j]) ? LEUP(A) : PUEL(A) *)
Definition fact_EL (l : bool) (A : cmat) : outcome fact := if l then LEUP O A else PUEL O A.
(** is_left_arrow(dgm.elist[j]) ? PLEU(A) : UELP(A) *)
Definition fact_EU (l : bool) (A : cmat) : outcome fact := if l then PLEU O A else UELP O A.

(** facts[j] = fact_EL/EU(mats[j]) *)
Definition fact_at (fct : bool -> cmat -> outcome fact) (dg : diagram) (s : qstate) (j : nat) : outcome qstate :=
  let: (facts, mats) := s in
  do l <- left_at dg j; do A <- oget mats j; do f <- fct l A; do facts' <- oset facts j f; Ok (facts', mats).

(** quiver/sparse.hpp 102-123: type_A_leftright_sweep1 *)
Definition leftright_sweep1 (dg : diagram) (s : qstate) (j0 j1 : nat) : outcome qstate :=
  do s0 <- fact_at fact_EL dg s j0;
  ofold (fun s j => do s' <- pass_UP_right dg s j.-1; fact_at fact_EL dg s' j) s0 (iota j0.+1 (j1 - j0)).
(** quiver/sparse.hpp 125-139: type_A_leftright_sweep2 (j = j1, ..., j0+1) *)
Definition leftright_sweep2 (dg : diagram) (facts : seq fact) (j0 j1 : nat) : outcome (seq fact) :=
  ofold (pass_L_left dg) facts (rev (iota j0.+1 (j1 - j0))).

(** mats[j] = facts[j].E for all j *)
Definition dump_E (facts : seq fact) : seq cmat := [seq fE f | f <- facts].

(** quiver/sparse.hpp 141-162: barcode_form_leftright *)
Definition barcode_form_leftright (dg : diagram) : outcome (seq cmat) :=
  let m := nedge dg in
  do s <- leftright_sweep1 dg (nseq m fact0, edata dg) 0 m.-1;
  Ok (dump_E s.1).

(** quiver/sparse.hpp 164-191: pass_PL_left; called with i > 0 *)
Definition pass_PL_left (dg : diagram) (s : qstate) (i : nat) : outcome qstate :=
  let: (facts, mats) := s in
  do l0 <- left_at dg i.-1; do l1 <- left_at dg i; do f <- oget facts i; do A <- oget mats i.-1;
  do A' <- (if l0 then
              if l1 then mul (mul (Ok A) (Ok (fP f))) (Ok (fL f))
              else mul (mul (Ok A) (transpose (fP f))) (l_inv O (fL f))
            else
              if l1 then mul (mul (l_inv O (fL f)) (transpose (fP f))) (Ok A)
              else mul (mul (Ok (fL f)) (Ok (fP f))) (Ok A));
  do mats' <- oset mats i.-1 A';
  do facts' <- oset facts i (setP (setL f (idm (fL f))) (idm (fP f)));
  Ok (facts', mats').

(** quiver/sparse.hpp 193-218: pass_P_left; called with i > 0 *)
Definition pass_P_left (dg : diagram) (facts : seq fact) (i : nat) : outcome (seq fact) :=
  do l0 <- left_at dg i.-1; do l1 <- left_at dg i; do f <- oget facts i; do f0 <- oget facts i.-1;
  do E' <- (if l0 then
              if l1 then mul (Ok (fE f0)) (Ok (fP f)) else mul (Ok (fE f0)) (transpose (fP f))
            else
              if l1 then mul (transpose (fP f)) (Ok (fE f0)) else mul (Ok (fP f)) (Ok (fE f0)));
  do facts1 <- oset facts i.-1 (setE f0 E');
  oset facts1 i (setP f (idm (fP f))).

(** quiver/sparse.hpp 220-241: pass_U_right *)
Definition pass_U_right (dg : diagram) (facts : seq fact) (i : nat) : outcome (seq fact) :=
  do l0 <- left_at dg i; do l1 <- left_at dg i.+1; do f <- oget facts i; do f1 <- oget facts i.+1;
  do U' <- (if l0 then
              if l1 then mul (U_EU_commute O (fU f) (fE f1)) (Ok (fU f1))
              else mul (Ok (fU f1)) (do X <- u_inv O (fU f); EU_U_commute O (fE f1) X)
            else
              if l1 then mul (do X <- u_inv O (fU f); U_EU_commute O X (fE f1)) (Ok (fU f1))
              else mul (Ok (fU f1)) (EU_U_commute O (fE f1) (fU f)));
  do facts1 <- oset facts i.+1 (setU f1 U');
  oset facts1 i (setU f (idm (fU f))).

(** quiver/sparse.hpp 243-257: type_A_rightleft_sweep2 (j = j0, ..., j1-1) *)
Definition rightleft_sweep2 (dg : diagram) (facts : seq fact) (j0 j1 : nat) : outcome (seq fact) :=
  ofold (pass_U_right dg) facts (iota j0 (j1 - j0)).
(** quiver/sparse.hpp 259-276: type_A_rightleft_sweep1 (j = j1-1, ..., j0) *)
Definition rightleft_sweep1 (dg : diagram) (s : qstate) (j0 j1 : nat) : outcome qstate :=
  do s0 <- fact_at fact_EU dg s j1;
  ofold (fun s j => do s' <- pass_PL_left dg s j.+1; fact_at fact_EU dg s' j) s0 (rev (iota j0 (j1 - j0))).

(** quiver/sparse.hpp 278-298: barcode_form_rightleft *)
Definition barcode_form_rightleft (dg : diagram) : outcome (seq cmat) :=
  let m := nedge dg in
  do s <- rightleft_sweep1 dg (nseq m fact0, edata dg) 0 m.-1;
  do facts <- rightleft_sweep2 dg s.1 0 m.-1;
  Ok (dump_E facts).

(** quiver/sparse.hpp 321-368: type_A_dq_common; [EL] and [EU] are the two recursive calls *)
Definition dq_common (sch : nat -> nat -> bool) (EL EU : qstate -> nat -> nat -> outcome qstate) (dg : diagram) (s : qstate)
  (j0 j1 : nat) : outcome (qstate * nat) :=
  let j2 := (j0 + j1)./2 in let j0b := j2.-1 in let j1a := j2.+1 in
  do s2 <- (if sch j0 j1 then do s1 <- EL s j0 j0b; EU s1 j1a j1 else do s1 <- EU s j1a j1; EL s1 j0 j0b);
  do s3 <- pass_PL_left dg s2 j1a;
  do s4 <- pass_UP_right dg s3 j0b;
  do s5 <- fact_at (fun l A => if l then LQU O A else UQL O A) dg s4 j2;
  do f1 <- pass_U_right dg s5.1 j2;
  do f2 <- pass_L_left dg f1 j2;
  do f4 <- (if sch j0 j1 then do f3 <- leftright_sweep2 dg f2 j0 j0b; rightleft_sweep2 dg f3 j1a j1
            else do f3 <- rightleft_sweep2 dg f2 j1a j1; leftright_sweep2 dg f3 j0 j0b);
  Ok ((f4, s5.2), j2).

(** facts[j] = fct(facts[j].E) *)
Definition refact (fct : bool -> cmat -> outcome fact) (dg : diagram) (facts : seq fact) (j : nat) : outcome (seq fact) :=
  do l <- left_at dg j; do f <- oget facts j; do f' <- fct l (fE f); oset facts j f'.

(** quiver/sparse.hpp 371-407 and 409-444: type_A_dq_EU, type_A_dq_EL (mutually recursive; [fuel] bounds the depth) *)
Fixpoint dq_EU (sch : nat -> nat -> bool) (fuel : nat) (dg : diagram) (s : qstate) (j0 j1 : nat) : outcome qstate :=
  if j1 - j0 < 4 then
    do s1 <- rightleft_sweep1 dg s j0 j1;
    do f <- rightleft_sweep2 dg s1.1 j0 j1;
    Ok (f, s1.2)
  else if fuel is fuel'.+1 then
    do r <- dq_common sch (dq_EL sch fuel' dg) (dq_EU sch fuel' dg) dg s j0 j1;
    let: (s1, j2) := r in
    do f1 <- ofold (fun facts j => do facts' <- refact fact_EU dg facts j; pass_P_left dg facts' j)
                   s1.1 (rev (iota j0.+1 (j2 - j0)));
    do l <- left_at dg j0; do f <- oget f1 j0;
    do A <- (if l then gemm O (fL f) (fE f) else gemm O (fE f) (fL f));
    do f' <- fact_EU l A;
    do f2 <- oset f1 j0 f';
    do f3 <- rightleft_sweep2 dg f2 j0 j1;
    Ok (f3, s1.2)
  else OutOfFuel
with dq_EL (sch : nat -> nat -> bool) (fuel : nat) (dg : diagram) (s : qstate) (j0 j1 : nat) : outcome qstate :=
  if j1 - j0 < 4 then
    do s1 <- leftright_sweep1 dg s j0 j1;
    do f <- leftright_sweep2 dg s1.1 j0 j1;
    Ok (f, s1.2)
  else if fuel is fuel'.+1 then
    do r <- dq_common sch (dq_EL sch fuel' dg) (dq_EU sch fuel' dg) dg s j0 j1;
    let: (s1, j2) := r in
    do f1 <- ofold (fun facts j => do facts' <- refact fact_EL dg facts j; pass_P_right dg facts' j)
                   s1.1 (iota j2 (j1 - j2));
    do l <- left_at dg j1; do f <- oget f1 j1;
    do A <- (if l then gemm O (fE f) (fU f) else gemm O (fU f) (fE f));
    do f' <- fact_EL l A;
    do f2 <- oset f1 j1 f';
    do f3 <- leftright_sweep2 dg f2 j0 j1;
    Ok (f3, s1.2)
  else OutOfFuel.

(** quiver/sparse.hpp 446-482: barcode_form_divide_conquer with omp_get_max_threads() = nthreads; nlevels <= 1 means
    nthreads < 4 *)
Definition barcode_form_divide_conquer (nthreads : nat) (sch : nat -> nat -> bool) (dg : diagram) : outcome (seq cmat) :=
  let m := nedge dg in
  if (m < 5) || (nthreads < 4) then barcode_form_leftright dg else
  do r <- dq_common sch (dq_EL sch m dg) (dq_EU sch m dg) dg (nseq m fact0, edata dg) 0 m.-1;
  Ok (dump_E r.1.1).

(** quiver/sparse.hpp 488-497: struct bar *)
Record bar := Bar { b_start : nat; b_start_ind : nat; b_end : nat; b_end_ind : nat }.

(** std::map<size_t, size_t>; operator[] on a missing key yields 0 *)
Definition nmap := nat -> option nat.
Definition nset (p : nmap) (i v : nat) : nmap := fun i' => if i' == i then Some v else p i'.
Definition nget (p : nmap) (i : nat) : nat := odflt 0 (p i).

(** quiver/sparse.hpp 534-546 and 553-566: the loop body over the columns of mat[k] (or of its transpose) *)
Definition bar_step (p : nmap) (k : nat) (cs : seq (svec T)) (s : seq bar * nmap) (j : nat) : outcome (seq bar * nmap) :=
  let: (bars, p2) := s in
  do c <- oget cs j;
  if c is (r, _) :: _ then
    let pi := nget p r in
    do b <- oget bars pi;
    do bars' <- oset bars pi (Bar (b_start b) (b_start_ind b) k.+1 j);
    Ok (bars', nset p2 j pi)
  else Ok (rcons bars (Bar k.+1 j k.+1 j), nset p2 j (size bars)).

(** quiver/sparse.hpp 528-572: one edge *)
Definition bar_edge (dg : diagram) (mat : seq cmat) (s : seq bar * nmap) (k : nat) : outcome (seq bar * nmap) :=
  let: (bars, p) := s in
  do l <- left_at dg k; do A <- oget mat k;
  do B <- (if l then Ok A else transpose A);
  ofold (bar_step p k (cols B)) (bars, fun _ => None) (iota 0 (ncol B)).

(** quiver/sparse.hpp 499-576: barcode_from_barcode_form *)
Definition barcode_from_barcode_form (mat : seq cmat) (dg : diagram) : outcome (seq bar) :=
  do l <- left_at dg 0; do A <- oget mat 0;
  let n := if l then nrow A else ncol A in
  do r <- ofold (bar_edge dg mat) ([seq Bar 0 i 0 i | i <- iota 0 n], fun i => if i < n then Some i else None)
                (iota 0 (nedge dg));
  Ok r.1.

(** persistence/barcode.hpp 11-30: PersistencePair<size_t> *)
Record ppair := PPair { p_dim : nat; p_birth_ind : nat; p_death_ind : nat; p_birth : nat; p_death : nat }.
(** quiver/sparse.hpp 578-588: bars_to_pairs *)
Definition bars_to_pairs (bars : seq bar) (hdim : nat) : seq ppair :=
  [seq PPair hdim (b_start_ind b) (b_end_ind b) (b_start b) (b_end b) | b <- bars].

(** quiver/sparse.hpp 608-654: barcode with the flags divide_conquer (the default), leftward, rightward *)
Definition finish (dg : diagram) (hdim : nat) (mats : outcome (seq cmat)) : outcome (seq ppair) :=
  do ms <- mats; do bars <- barcode_from_barcode_form ms dg; Ok (bars_to_pairs bars hdim).
Definition barcode_dc (nthreads : nat) (sch : nat -> nat -> bool) (dg : diagram) (hdim : nat) :=
  finish dg hdim (barcode_form_divide_conquer nthreads sch dg).
Definition barcode_leftward (dg : diagram) (hdim : nat) := finish dg hdim (barcode_form_rightleft dg).
Definition barcode_rightward (dg : diagram) (hdim : nat) := finish dg hdim (barcode_form_leftright dg).

(** Diagram<NT, std::vector<TM>>: one matrix per homology dimension on every edge *)
Record mdiagram := MDgm { melist : seq (nat * nat); medata : seq (seq cmat) }.
(** quiver/sparse.hpp 657-675: extract_dimension (the iterations of the parallel for write different edges) *)
Definition extract_dimension (D : mdiagram) (k : nat) : outcome diagram :=
  do r <- ofold (fun (acc : seq (nat * nat) * seq cmat) i => do e <- oget (melist D) i; do ms <- oget (medata D) i; do A <- oget ms k;
                   Ok (rcons acc.1 e, rcons acc.2 A)) ([::], [::]) (iota 0 (size (medata D)));
  Ok (Dgm r.1 r.2).
(** quiver/sparse.hpp 677-690: barcode in all dimensions; [alg] is the single-dimension barcode selected by the flags *)
Definition barcode_all (alg : diagram -> nat -> outcome (seq ppair)) (D : mdiagram) : outcome (seq ppair) :=
  do e0 <- oget (medata D) 0;
  ofold (fun pairs k => do dk <- extract_dimension D k; do pk <- alg dk k; Ok (pairs ++ pk)) [::] (iota 0 (size e0)).

End Quiver.
