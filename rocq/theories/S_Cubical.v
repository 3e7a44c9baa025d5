(** Specification vocabulary for cubical complexes. *)
From mathcomp Require Import all_ssreflect all_algebra.
From Verif Require Import Outcome M_Cubical.
Set Implicit Arguments.
Unset Strict Implicit.
Unset Printing Implicit Defensive.
Import GRing.Theory.

(** the ends of the i-th interval of a cube *)
Definition lo (s : seq nat) i := nth 0 s (2 * i).
Definition hi (s : seq nat) i := nth 0 s (2 * i).+1.

(** D intervals, each a point or of length one *)
Definition is_cube D (s : seq nat) : Prop :=
  size s = (2 * D)%N /\ forall i, i < D -> lo s i <= hi s i <= (lo s i).+1.

(** the number of intervals that are not points *)
Definition dim_of D (s : seq nat) : nat := count (fun i => lo s i != hi s i) (iota 0 D).

(** t is a cube inside s: a face of any dimension *)
Definition is_subcube D (t s : seq nat) : Prop :=
  is_cube D t /\ forall i, i < D -> lo s i <= lo t i /\ hi t i <= hi s i.

(** s with interval i replaced by the point x *)
Definition at_point (s : seq nat) i x : seq nat := take (2 * i) s ++ [:: x; x] ++ drop (2 * i).+2 s.

(** the coefficient of t in the boundary of s: along the j-th nondegenerate direction, (-1)^j times upper end minus
    lower end *)
Definition bd_coef D (t s : seq nat) : int :=
  (\sum_(0 <= i < D | lo s i != hi s i) (-1) ^+ dim_of i s *
     ((t == at_point s i (hi s i))%:R - (t == at_point s i (lo s i))%:R))%R.

(** every complex that a sequence of public calls can produce *)
Inductive cc_built : ccx -> Prop :=
| ccb_new m : cc_built (cc_new m)
| ccb_add X s X' r : cc_built X -> cc_add X s = Ok (X', r) -> cc_built X'
| ccb_add_recursive X s X' r : cc_built X -> cc_add_recursive X s = Ok (X', r) -> cc_built X'
| ccb_set_dimension X m X' : cc_built X -> cc_set_dimension X m = Ok X' -> cc_built X'
| ccb_skeleton X k X' : cc_built X -> cc_skeleton X k = Ok X' -> cc_built X'
| ccb_generate n X : cc_generate n = Ok X -> cc_built X.

(** find_idx(s) returns an index *)
Definition ccontains (X : ccx) (s : seq nat) : Prop := exists i, cc_find X s = Ok (Some i).

(** the i-th cube of dimension k is s *)
Definition ccell_is (X : ccx) (k i : nat) (s : seq nat) : Prop :=
  exists2 n, cc_ncell X k = Ok n & i < n /\ cc_cube X k i = Ok s.

(** no index changes and nothing disappears *)
Definition cpreserves (X X' : ccx) : Prop :=
  forall t i, size t = (2 * cc_maxdim X)%N -> cc_find X t = Ok (Some i) -> cc_find X' t = Ok (Some i).

(** all faces of codimension one are there *)
Definition chas_faces (X : ccx) (s : seq nat) : Prop :=
  forall i, i < cc_maxdim X -> lo s i != hi s i ->
    ccontains X (at_point s i (lo s i)) /\ ccontains X (at_point s i (hi s i)).
