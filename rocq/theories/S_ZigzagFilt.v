(** Specification vocabulary for zigzag filtrations: cells of a complex that are present during one or more closed
    intervals.  Nothing here mentions the algorithm. *)
From mathcomp Require Import all_ssreflect all_algebra.
From Verif Require Import Outcome M_SparseVec M_ColMatrix S_Linalg S_Homology S_Induced M_Zigzag S_Zigzag.
Set Implicit Arguments.
Unset Strict Implicit.
Unset Printing Implicit Defensive.
Import GRing.Theory Order.Theory.

(** events can be compared for equality *)
Definition rfv_tup (A : Type) (e : rfv A) := (z_dim e, z_ind e, z_cind e, z_val e, z_entry e).
Definition tup_rfv (A : Type) (t : nat * nat * nat * A * bool) : rfv A :=
  let: (d, i, c, v, b) := t in RFV d i c v b.
Lemma rfv_tupK (A : Type) : cancel (@rfv_tup A) (@tup_rfv A).
Proof. by case. Qed.
Definition rfv_eqMixin (A : eqType) := CanEqMixin (@rfv_tupK A).
Canonical rfv_eqType (A : eqType) := EqType (rfv A) (rfv_eqMixin A).

(** std::sort: when the comparison is a strict weak order on the elements, the result is a permutation of the list in which
    no element is less than an earlier one *)
Definition strict_weak (B : Type) (lt : B -> B -> bool) (l : seq B) : Prop :=
  forall x y z, List.In x l -> List.In y l -> List.In z l ->
  [/\ ~~ lt x x, lt x y -> lt y z -> lt x z & ~~ lt x y -> ~~ lt y z -> ~~ lt x z].
Definition sorts (srt : forall B : Type, (B -> B -> bool) -> seq B -> seq B) : Prop :=
  forall (B : Type) (lt : B -> B -> bool) (l : seq B), strict_weak lt l ->
  pairwise (fun x y => ~~ lt y x) (srt B lt l) /\
  exists2 p, perm_eq p (iota 0 (size l)) & forall x0, srt B lt l = [seq nth x0 l i | i <- p].

Section S.
Variable F : fieldType.
Variable disp : unit.
Variable A : orderType disp.
Variable a0 : A.
Variable C : seq (cmat F).
Variable val : seq (seq (seq (A * A))).
Notation event := (rfv A).
Notation iv := (A * A)%type.

(** the intervals of cell i of dimension k *)
Definition ivs (k i : nat) : seq iv := nth [::] (nth [::] val k) i.
Definition ivn (k i m : nat) : iv := nth (a0, a0) (ivs k i) m.
Definition inside (x y : iv) : bool := (y.1 <= x.1)%O && (x.2 <= y.2)%O.

(** a zigzag filtration: every cell has intervals, which are disjoint and increasing; every interval of a cell lies in an
    interval of each of its faces.  The last two conditions are demands of the code: the first interval lies in the first
    interval of the face, and a later one starts strictly before the interval of the face that contains it ends (unless that is
    the first). *)
Definition filtration_ok : Prop :=
  [/\ size val = size C, forall k, (k < size C)%N -> size (nth [::] val k) = ncell C k,
      forall k i, (k < size C)%N -> (i < ncell C k)%N ->
        [/\ (0 < size (ivs k i))%N, forall m, (m < size (ivs k i))%N -> ((ivn k i m).1 <= (ivn k i m).2)%O &
            forall m, (m.+1 < size (ivs k i))%N -> ((ivn k i m).2 < (ivn k i m.+1).1)%O] &
      forall k i j, (k.+1 < size C)%N -> (j < ncell C k.+1)%N -> entry (bmx C k.+1) i j != 0%R ->
        forall m, (m < size (ivs k.+1 j))%N -> exists2 m', (m' < size (ivs k i))%N &
        [/\ inside (ivn k.+1 j m) (ivn k i m'), m = 0%N -> m' = 0%N & (0 < m')%N -> ((ivn k.+1 j m).1 < (ivn k i m').2)%O]].

(** the same without the demands of the code *)
Definition filtration_valid : Prop :=
  [/\ size val = size C, forall k, (k < size C)%N -> size (nth [::] val k) = ncell C k,
      forall k i, (k < size C)%N -> (i < ncell C k)%N ->
        [/\ (0 < size (ivs k i))%N, forall m, (m < size (ivs k i))%N -> ((ivn k i m).1 <= (ivn k i m).2)%O &
            forall m, (m.+1 < size (ivs k i))%N -> ((ivn k i m).2 < (ivn k i m.+1).1)%O] &
      forall k i j, (k.+1 < size C)%N -> (j < ncell C k.+1)%N -> entry (bmx C k.+1) i j != 0%R ->
        forall m, (m < size (ivs k.+1 j))%N -> exists2 m', (m' < size (ivs k i))%N & inside (ivn k.+1 j m) (ivn k i m')].

(** [spx] lists the simplices of every dimension, as increasing lists of vertices; the faces of a simplex are among its
    subsets *)
Definition simplices_ok (spx : seq (seq (seq nat))) : Prop :=
  let simplex k i := nth [::] (nth [::] spx k) i in
  [/\ forall k, (k < size C)%N -> size (nth [::] spx k) = ncell C k,
      forall k, uniq (nth [::] spx k),
      forall k i, (k < size C)%N -> (i < ncell C k)%N -> sorted ltn (simplex k i) /\ size (simplex k i) = k.+1 &
      forall k i j, (k.+1 < size C)%N -> (j < ncell C k.+1)%N -> entry (bmx C k.+1) i j != 0%R ->
        subseq (simplex k i) (simplex k.+1 j)].

(** The number the program gives to interval m of cell i: the cell itself for its first interval; the further intervals of
    all cells are numbered after the cells *)
Definition copy_no (k i m : nat) : nat :=
  if m is m'.+1 then (size (nth [::] val k) + sumn [seq (size (ivs k i')).-1 | i' <- iota 0 i] + m')%N else i.

(** cell i of dimension k enters at the beginning of its interval m, and leaves at its end *)
Definition cell_events (k i m : nat) : seq event :=
  [:: RFV k i (copy_no k i m) (ivn k i m).1 true; RFV k i (copy_no k i m) (ivn k i m).2 false].
Definition all_events : seq event :=
  flatten [seq flatten [seq flatten [seq cell_events k i m | m <- iota 0 (size (ivs k i))]
                       | i <- iota 0 (size (nth [::] val k))] | k <- iota 0 (size val)].
(** the events in the order of time; at the same time cells enter before others leave *)
Definition time_ordered (evs : seq event) : Prop :=
  perm_eq evs all_events /\
  pairwise (fun a b => (z_val a < z_val b)%O || (z_val a == z_val b) && (z_entry b ==> z_entry a)) evs.

(** cell i of dimension k is present after the events: an interval has begun that has not ended *)
Definition alive (evs : seq event) k i : bool :=
  has (fun e => [&& z_entry e, at_cell k i e &
                    ~~ has (fun f => [&& ~~ z_entry f, z_dim f == k & z_cind f == z_cind e]) evs]) evs.

Local Open Scope ring_scope.
(** S_Zigzag.zigzag_intervals for a sequence X t of sets of cells *)
Definition zigzag_intervals_of (X : nat -> nat -> nat -> bool) (evs : seq event) (k : nat) (ps : seq (nat * option nat)) : Prop :=
  exists (d : nat -> nat) (Z : forall t, 'M[F]_(ncell C k, d t)) (lab : nat -> nat -> nat),
  [/\ forall t, (t <= size evs)%N -> basis_in (X t) (Z t),
      forall t, (t <= size evs)%N ->
        [/\ forall x, (x < d t)%N -> (lab t x < size ps)%N /\ lives (nth (0, None)%N ps (lab t x)) t,
            forall x y, (x < d t)%N -> (y < d t)%N -> lab t x = lab t y -> x = y &
            forall b, (b < size ps)%N -> lives (nth (0, None)%N ps b) t -> exists2 x, (x < d t)%N & lab t x = b],
      forall t e, (t < size evs)%N ->
        if z_entry (nth e evs t)
        then forall x, homologous_in (X t.+1) (col x (Z t)) (\sum_(y < d t.+1 | lab t.+1 y == lab t x) col y (Z t.+1))
        else forall x, homologous_in (X t) (col x (Z t.+1)) (\sum_(y < d t | lab t y == lab t.+1 x) col y (Z t)) &
      forall b, (b < size ps)%N -> let p := nth (0, None)%N ps b in
        (p.1 < size evs)%N /\ if p.2 is Some e then (p.1 < e < size evs)%N else True].
Lemma zigzag_intervals_same evs k ps :
  zigzag_intervals C evs k ps = zigzag_intervals_of (fun t => present (take t evs)) evs k ps.
Proof. by []. Qed.

(** [bars] are the barcodes, in dimensions below n, of the sequence of subcomplexes that arises when the cells enter and
    leave in the order [evs], which is an order of time *)
Definition zigzag_bars (vmax : A) (n : nat) (evs : seq event) (bars : seq (seq (zpair A))) : Prop :=
  let X t := alive (take t evs) in
  [/\ time_ordered evs,
      forall t k i j, entry (bmx C k.+1) i j != 0 -> X t k.+1 j -> X t k i,
      size bars = n &
      forall k, (k < n)%N -> exists ps,
        [/\ zigzag_intervals_of X evs k ps, size (nth [::] bars k) = size ps &
            forall b z0, (b < size ps)%N -> reports vmax evs k (nth (0%N, None) ps b) (nth z0 (nth [::] bars k) b)]].
End S.
