(** Model of include/homology/parallel.hpp: divide and conquer reduction, with and without OpenMP tasks. *)
From mathcomp Require Import all_ssreflect.
From Verif Require Import Outcome M_SparseVec M_Perm M_ColMatrix M_Reduce.
Set Implicit Arguments.
Unset Strict Implicit.
Unset Printing Implicit Defensive.

(** std::unordered_map<size_t, size_t> from pivots to columns.  Keys are only ever added when absent (38-49). *)
Definition map_t := seq (nat * nat).
Definition mfind (p : map_t) (i : nat) : option nat := if [seq x.2 | x <- p & x.1 == i] is k :: _ then Some k else None.
Definition mput (p : map_t) (i k : nat) : map_t := (i, k) :: p.

(** ** Tasks sharing a vector of columns *)
Section Prog.
Variables (C R : Type).

(** A task: return, fail, read a column of the shared matrix, write one, or (#pragma omp task twice, then taskwait) run
    two tasks and go on with what they returned. *)
Inductive prog : Type :=
| Ret of R
| Err of outcome unit
| Rd of nat & (C -> prog)
| Wr of nat & C & prog
| Fork of prog & prog & (R -> R -> prog).

Definition lift (A : Type) (x : outcome A) (k : A -> prog) : prog :=
  match x with Ok a => k a | Throw => Err Throw | UB => Err UB | OutOfFuel => Err OutOfFuel end.

(** One step of some task of the program; any running task may be the one to move. *)
Inductive step : seq C * prog -> seq C * prog -> Prop :=
| step_rd M j k c : oget M j = Ok c -> step (M, Rd j k) (M, k c)
| step_rd_ub M j k : oget M j = UB -> step (M, Rd j k) (M, Err UB)
| step_wr M j c p M' : oset M j c = Ok M' -> step (M, Wr j c p) (M', p)
| step_wr_ub M j c p : oset M j c = UB -> step (M, Wr j c p) (M, Err UB)
| step_left M p q k M' p' : step (M, p) (M', p') -> step (M, Fork p q k) (M', Fork p' q k)
| step_right M p q k M' q' : step (M, q) (M', q') -> step (M, Fork p q k) (M', Fork p q' k)
| step_join M a b k : step (M, Fork (Ret a) (Ret b) k) (M, k a b).

(** executions of n steps *)
Inductive exec : nat -> seq C * prog -> seq C * prog -> Prop :=
| exec0 c : exec 0 c c
| execS n c c' c'' : exec n c c' -> step c' c'' -> exec n.+1 c c''.

(** the accesses (write?, column) the running tasks are about to make *)
Fixpoint next_acc (p : prog) : seq (bool * nat) :=
  match p with
  | Ret _ | Err _ => [::]
  | Rd j _ => [:: (false, j)]
  | Wr j _ _ => [:: (true, j)]
  | Fork p q _ => next_acc p ++ next_acc q
  end.
(** a data race: two tasks that run at the same time are about to access the same column, one of them to write *)
Fixpoint race (p : prog) : bool :=
  match p with
  | Fork p q _ => [|| race p, race q | has (fun x => has (fun y => (x.2 == y.2) && (x.1 || y.1)) (next_acc q)) (next_acc p)]
  | _ => false
  end.

(** one task after the other, left first; with the number of steps *)
Fixpoint run (p : prog) (M : seq C) : outcome (seq C * R * nat) :=
  match p with
  | Ret r => Ok (M, r, 0)
  | Err e => do _ <- e; UB
  | Rd j k => do c <- oget M j; do (M', r, n) <- run (k c) M; Ok (M', r, n.+1)
  | Wr j c p' => do M1 <- oset M j c; do (M', r, n) <- run p' M1; Ok (M', r, n.+1)
  | Fork p q k => do (M1, a, n1) <- run p M; do (M2, b, n2) <- run q M1; do (M3, r, n3) <- run (k a b) M2;
                  Ok (M3, r, (n1 + n2 + n3).+1)
  end.
End Prog.
Arguments Ret {C R}.
Arguments Err {C R}.

Section Par.
Variable T : Type.
Variable O : fops T.
Notation cols_t := (seq (svec T)).
(** std::tuple of the map and the vector of nonzero columns *)
Notation res := (map_t * seq nat)%type.
Notation prg := (prog (svec T) res).

(** 167-187 reduce_column_standard(M, j, p2c, tmp), then the rest [k] of the task.  M[j] is read once per iteration: no
    other task may write it (which is proved).  The fuel bounds the number of eliminations. *)
Fixpoint p_col (fuel j : nat) (p : map_t) (k : map_t -> prg) : prg :=
  if fuel is f.+1 then
    Rd j (fun c => if c is [::] then k p else
      lift (lastnz c) (fun iv => let: (i, v) := iv in
        if mfind p i is Some l then
          Rd l (fun cl => lift (lastnz cl) (fun iw => lift (odiv O v iw.2) (fun a =>
            Wr j (axpy O (fopp O a) cl c) (p_col f j p k))))
        else k (mput p i j)))
  else Err OutOfFuel.

(** 248-252 and 305-308: reduce the columns of a list one after the other, collecting the nonzero ones *)
Fixpoint p_cols (fuel : nat) (l : seq nat) (p : map_t) (nz : seq nat) (k : res -> prg) : prg :=
  if l is j :: l' then
    p_col fuel j p (fun p' => Rd j (fun c => p_cols fuel l' p' (if c is [::] then nz else rcons nz j) k))
  else k (p, nz).

(** 238-255 reduce_block_sequential(M, j0, j1) *)
Definition p_block (fuel j0 j1 : nat) (k : res -> prg) : prg := p_cols fuel (iota j0 (j1 - j0)) [::] [::] k.

(** 269-311 reduce_block_dq(M, j0, j1, max_block_size, level, max_depth); d is max_depth + 1 - level *)
Fixpoint p_dq (fuel mbs d j0 j1 : nat) : prg :=
  if d is d'.+1 then
    if j1 - j0 < mbs then p_block fuel j0 j1 Ret
    else
      let j2 := (j0 + j1) %/ 2 in
      Fork (p_dq fuel mbs d' j0 j2) (p_dq fuel mbs d' j2 j1) (fun a b => p_cols fuel b.2 a.1 a.2 Ret)
  else p_block fuel j0 j1 Ret.

(** 315-344 reduce_matrix(M, divide_conquer_flag): the parallel region, with max_block_size = 256 and max_depth = 2 in the
    source *)
Definition dq_prog (mbs max_depth : nat) (M : cmat T) : prg := p_dq (nrow M).+2 mbs max_depth.+1 0 (ncol M).

(** 338-343 (and 149-154): the return vector.  [en] lists the map in the order of its iterator. *)
Definition fill_p2c (m : nat) (en : map_t) : outcome (seq (option nat)) :=
  ofold (fun v x => oset v x.1 (Some x.2)) (nseq m None) en.

(** 352-384 partial_reduce_parallel(M, block_size): the iterations of the loop in parallel.  For block_size > n the bound
    n - block_size is 2^64 + n - block_size, and the first block already reaches past the columns. *)
Fixpoint ppr_blocks (fuel blocks b bs : nat) : prg :=
  if blocks is blocks'.+1 then
    Fork (p_block fuel (b * bs) (b.+1 * bs) Ret) (ppr_blocks fuel blocks' b.+1 bs) (fun _ _ => Ret ([::], [::]))
  else Ret ([::], [::]).
(** number of j = 0, bs, 2 bs, ... below x *)
Definition nblocks (x bs : nat) : nat := (x + bs - 1) %/ bs.
Definition ppr_prog (M : cmat T) (bs : nat) : prg :=
  if bs is 0 then if ncol M is 0 then Ret ([::], [::]) else Err OutOfFuel
  else ppr_blocks (nrow M).+2 (if bs <= ncol M then nblocks (ncol M - bs) bs else 1) 0 bs.

(** 28-51 reduce_column_standard(M, U, j, p2c, tmp) *)
Fixpoint colmU (fuel : nat) (M U : cols_t) (p : map_t) (j : nat) : outcome (cols_t * cols_t * map_t) :=
  if fuel is f.+1 then
    do c <- oget M j;
    if c is [::] then Ok (M, U, p)
    else
      do (i, v) <- lastnz c;
      if mfind p i is Some k then
        do ck <- oget M k;
        do (_, w) <- lastnz ck;
        do a <- odiv O v w;
        do M' <- oset M j (axpy O (fopp O a) ck c);
        do uj <- oget U j; do uk <- oget U k;
        do U' <- oset U j (axpy O (fopp O a) uk uj);
        colmU f M' U' p j
      else Ok (M, U, mput p i j)
  else OutOfFuel.

(** 74-77 and 127-130 *)
Definition colsU (fuel : nat) (M U : cols_t) (l : seq nat) (p : map_t) (nz : seq nat) : outcome (cols_t * cols_t * map_t * seq nat) :=
  ofold (fun st j => do (M', U', p') <- colmU fuel st.1.1.1 st.1.1.2 st.1.2 j;
                     do c <- oget M' j;
                     Ok (M', U', p', if c is [::] then st.2 else rcons st.2 j)) (M, U, p, nz) l.

(** 95-134 reduce_block_dq(M, U, j0, j1, max_block_size): no tasks.  [dep] bounds the depth of the recursion. *)
Fixpoint dqU (fuel mbs dep : nat) (M U : cols_t) (j0 j1 : nat) : outcome (cols_t * cols_t * map_t * seq nat) :=
  if j1 - j0 < mbs then colsU fuel M U (iota j0 (j1 - j0)) [::] [::]
  else if dep is dep'.+1 then
    let j2 := (j0 + j1) %/ 2 in
    do (M1, U1, p, nz1) <- dqU fuel mbs dep' M U j0 j2;
    do (M2, U2, _, nz2) <- dqU fuel mbs dep' M1 U1 j2 j1;
    colsU fuel M2 U2 nz2 p nz1
  else OutOfFuel.

(** 138-156 reduce_matrix(M, U, divide_conquer_flag): max_block_size = 1024 in the source *)
Definition reduce_dqU (mbs : nat) (en : map_t -> map_t) (M U : cmat T) : outcome (cmat T * cmat T * seq (option nat)) :=
  do (R, U', p, _) <- dqU (nrow M).+2 mbs (ncol M).+1 (cols M) (cols U) 0 (ncol M);
  do v <- fill_p2c (nrow M) (en p);
  Ok (CMat (nrow M) (ncol M) R, CMat (nrow U) (ncol U) U', v).
End Par.
