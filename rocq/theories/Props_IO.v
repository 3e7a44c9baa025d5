(** C34: what is written to a file and read back. *)
From Coq Require Import ZArith.
From mathcomp Require Import all_ssreflect all_algebra zify.
From Verif Require Import Outcome P_Outcome M_SparseVec M_ColMatrix M_CSC M_Field M_Simplicial M_IO S_Simplicial S_IO P_Field P_Simplicial P_ScOps P_ScBuild P_ScBoundary P_IO P_IO2 Props_Simplicial.
Set Implicit Arguments.
Unset Strict Implicit.
Unset Printing Implicit Defensive.
Delimit Scope Z_scope with Z.

Section Helpers.
Definition Z_eqMixin := EqMixin (fun x y => Z.eqb_spec x y).
Canonical Z_eqType := EqType Z Z_eqMixin.

Lemma int_okP z : reflect (is_int z) (int_ok z).
Proof. by apply: (iffP andP) => -[/Z.leb_spec0 h1 /Z.ltb_spec0 h2]; split. Qed.
Lemma ind_okP n : reflect (below31 n) (ind_ok n).
Proof. by apply: (iffP (int_okP _)); rewrite /is_int /below31 => h; lia. Qed.

Lemma decZ_int (T : eqType) (of_int : Z -> T) (g : Z -> T) z : is_int z -> of_int z = g z -> val_ok decZ of_int g z.
Proof.
move=> /int_okP h e; split; try exact: decZ_notin.
by exists z => //; have := @stoi_decZ z [::] isT; rewrite cats0 h.
Qed.

Lemma vmap_id (T : eqType) (g : T -> T) (cs : seq (svec T)) : (forall c p, List.In c cs -> List.In p c -> g p.2 = p.2) -> map (vmap g) cs = cs.
Proof.
move=> h; rewrite -[RHS]map_id; apply: List.map_ext_in => c /h {}h.
by rewrite /vmap -[RHS]map_id; apply: List.map_ext_in => -[i x] /h /= ->.
Qed.

Lemma cm_eta (T : Type) (A : cmat T) : CMat (nrow A) (ncol A) (cols A) = A. Proof. by case: A. Qed.

Lemma read_write (T U : eqType) (prn : T -> seq nat) (of_int : Z -> U) (g : T -> U) (A : cmat T) rest : size (cols A) = ncol A ->
  below31 (nrow A) -> below31 (ncol A) -> entries A (fun i x => below31 i /\ val_ok prn of_int g x) ->
  exists2 s, write_mat prn A = Ok s & read_mat of_int (open_stream (s ++ rest)) = Ok (map_entries g A, open_stream rest).
Proof.
move=> sA /ind_okP m /ind_okP n h; apply: read_matE => // v p /In_mem vi /In_mem pi.
by have [/ind_okP] := h v p vi pi.
Qed.

Lemma read_write_big (T U : eqType) (prn : T -> seq nat) (of_int : Z -> U) (g : T -> U) (A : cmat T) rest : size (cols A) = ncol A ->
  entries A (fun i x => val_ok prn of_int g x) -> ~ (below31 (nrow A) /\ below31 (ncol A) /\ entries A (fun i _ => below31 i)) ->
  exists2 s, write_mat prn A = Ok s & read_mat of_int (open_stream (s ++ rest)) = Throw.
Proof.
move=> sA h n; apply: (read_mat_throw (g := g)) => // [v p /In_mem vi /In_mem pi|]; first exact: h vi pi.
apply/negP => /and3P [/ind_okP m /ind_okP n' /allP al]; apply: n; do 2 split=> //.
by move=> c p /In_mem /al /allP al' /In_mem /al' /ind_okP.
Qed.
End Helpers.

(** A matrix of ints with dimensions and indices below 2^31 comes back as it was, whatever follows in the file. *)
Theorem C34_matrix_int (A : cmat Z) rest : size (cols A) = ncol A -> below31 (nrow A) -> below31 (ncol A) ->
  entries A (fun i x => below31 i /\ is_int x) ->
  exists2 s, write_mat decZ A = Ok s & read_mat id (open_stream (s ++ rest)) = Ok (A, open_stream rest).
Proof.
move=> sA m n h; have [|s E R] := read_write (g := id) (of_int := id) rest sA m n (prn := decZ).
- by move=> c p ci pi; have [h1 h2] := h c p ci pi; split=> //; exact: decZ_int.
exists s => //; rewrite R /map_entries; have := @vmap_id _ id (cols A); rewrite /vmap => ->//.
by rewrite cm_eta.
Qed.

(** The same for matrices over ModP<int, P> whose stored values are reduced. *)
Theorem C34_matrix_modp (P : Z) (A : cmat Z) rest : (1 < P < 2 ^ 31)%Z -> size (cols A) = ncol A -> below31 (nrow A) -> below31 (ncol A) ->
  entries A (fun i x => below31 i /\ (0 <= x < P)%Z) ->
  exists2 s, write_mat decZ A = Ok s & read_mat (modp_make P) (open_stream (s ++ rest)) = Ok (A, open_stream rest).
Proof.
move=> [P1 P2] sA m n h; have [|s E R] := read_write (g := modp_make P) (of_int := modp_make P) rest sA m n (prn := decZ).
- move=> c p ci pi; have [h1 h2] := h c p ci pi; split=> //; apply: decZ_int => //; rewrite /is_int.
  by case: h2 => a b; split; [apply: Z.le_trans a | exact: Z.lt_trans b P2].
exists s => //; rewrite R /map_entries; have := @vmap_id _ (modp_make P) (cols A); rewrite /vmap => ->; first by rewrite cm_eta.
move=> c p ci pi; have [_ h2] := h c p ci pi; rewrite make_ok //; [exact: Z.mod_small | case: h2 => a b; split; last exact: Z.lt_trans b P2; apply: Z.le_trans a; apply/Z.opp_nonpos_nonneg; apply: Z.lt_le_incl; exact: Z.lt_trans P1].
Qed.

(** A matrix over Rational<int> comes back with every denominator dropped: n/d is read as n. *)
Theorem C34_matrix_rational (A : cmat (Z * Z)) rest : size (cols A) = ncol A -> below31 (nrow A) -> below31 (ncol A) ->
  entries A (fun i x => [/\ below31 i, is_int x.1 & is_int x.2]) ->
  exists2 s, write_mat prn_rat A = Ok s &
             read_mat rat_int (open_stream (s ++ rest)) = Ok (map_entries (fun x => (x.1, 1%Z)) A, open_stream rest).
Proof.
move=> sA m n h; apply: (read_write (T := prod_eqType Z_eqType Z_eqType) (U := prod_eqType Z_eqType Z_eqType)) => // c p ci pi.
have [h1 h2 h3] := h c p ci pi; split=> //.
split; try by rewrite /prn_rat mem_cat inE !negb_or !decZ_notin.
by exists p.2.1 => //; rewrite /prn_rat stoi_decZ //; move/int_okP: h2 => ->.
Qed.

(** So it comes back as it was exactly when every value is an integer. *)
Theorem C34_matrix_rational_iff (A : cmat (Z * Z)) : map_entries (fun x => (x.1, 1%Z)) A = A <-> entries A (fun _ x => x.2 = 1%Z).
Proof.
rewrite /map_entries; split=> [|h].
  case: A => m n cs /= -[e] c p ci pi; move: e ci pi; elim: cs => //= c' cs IH [e1 e2] [<-|ci]; last exact: IH.
  move=> pi; move: e1 pi; clear; elim: c' => //= q c IH [e1 e2] [<-|]; last exact: IH.
  by rewrite -e1.
have := @vmap_id (prod_eqType Z_eqType Z_eqType) (fun x => (x.1, 1%Z)) (cols A); rewrite /vmap => ->; first exact: cm_eta.
by move=> c [i [a b]] ci pi /=; have /= -> := h c _ ci pi.
Qed.

(** A dimension or an index from 2^31 on cannot be read back: the reader throws. *)
Theorem C34_matrix_big (A : cmat Z) rest : size (cols A) = ncol A -> entries A (fun _ x => is_int x) ->
  ~ (below31 (nrow A) /\ below31 (ncol A) /\ entries A (fun i _ => below31 i)) ->
  exists2 s, write_mat decZ A = Ok s & read_mat id (open_stream (s ++ rest)) = Throw.
Proof.
move=> sA h; apply: (read_write_big (g := id)) => // c p ci pi; apply: decZ_int => //; exact: h ci pi.
Qed.

(** Reading a matrix, whatever the file contains, returns or throws. *)
Theorem C34_matrix_any (T : Type) (of_int : Z -> T) (file : seq nat) : returns_or_throws (read_mat of_int (open_stream file)).
Proof. by case: read_mat (safe_read_mat of_int (open_stream file)) => [a| | |] // _; [left; exists a | right]. Qed.

(** ** maps *)
Lemma read_matsS fuel io : read_mats fuel.+1 io =
    if s_eof io then Ok [::] else do (A, io') <- read_mat id io; do As <- read_mats fuel io'; Ok (A :: As).
Proof. by []. Qed.

Lemma read_mats_throw (f : seq (cmat Z)) s fuel : (forall A, List.In A f -> size (cols A) = ncol A /\ entries A (fun _ x => is_int x)) ->
  omapm (write_mat decZ) f = Ok s -> size f < fuel -> read_mats fuel (open_stream (flatten s)) = Throw.
Proof.
elim: f s fuel => [|A f IH] s [|fuel] h //; first by move=> [<-].
have [sA ha] := h A (or_introl erefl); have E := write_matE decZ sA.
cbn [omapm]; rewrite E; cbn [obind]; case W: (omapm _ f) => [ss| | |] //; cbn [obind]; move=> -[<-] lf; rewrite read_matsS.
have ha' (v : seq (nat * Z)) p : v \in cols A -> p \in v -> val_ok decZ id id p.2.
  by move=> /In_mem vi /In_mem pi; apply: decZ_int => //; exact: ha vi pi.
rewrite [s_eof _]/= [flatten (_ :: _)]/=.
have [/and3P [m n /allP al]|nb] := boolP [&& ind_ok (nrow A), ind_ok (ncol A) & all (fun v : svec Z => all (fun p : nat * Z => ind_ok p.1) v) (cols A)].
  have [v p vi pi|s' E' R] := @read_matE _ _ decZ id id A (flatten ss) sA m n; first by split; [exact: (allP (al v vi)) | exact: ha' vi pi].
  move: E' R; rewrite E => -[<-] ->; cbn [obind]; rewrite (IH ss) // => B Bi; apply: h; by right.
by have [s' E' R] := @read_mat_throw _ _ decZ id id A (flatten ss) sA ha' nb; move: E' R; rewrite E => -[<-] ->.
Qed.

(** No CellularMap can be loaded again: for every map, loading what save wrote throws. *)
Theorem C34_map (f : seq (cmat Z)) : (forall A, List.In A f -> size (cols A) = ncol A /\ entries A (fun _ x => is_int x)) ->
  exists2 s, write_map f = Ok s & load_map s = Throw.
Proof.
move=> h; rewrite /write_map; have [ms E] : exists ms, omapm (write_mat decZ) f = Ok ms.
  elim: f h => [|A f IH] h /=; first by eexists.
  have [sA _] := h A (or_introl erefl); rewrite write_matE //; cbn [obind].
  by have [|ms ->] := IH; [move=> B Bi; apply: h; right | eexists].
rewrite E; eexists; first by [].
rewrite /load_map getline_hit //; apply: (read_mats_throw h E).
have : size f <= size (flatten ms).
  elim: f ms E {h} => [|A f IH] ms /=; first by [].
  case W: (write_mat decZ A) => [w| | |] //; cbn [obind]; case: (omapm _ f) IH => [ms'| | |] // /(_ _ erefl) h [<-] /=.
  rewrite size_cat; move: W; rewrite /write_mat; case: (omapm _ _) => [cs| | |] //= [<-]; by move: h; clear; rewrite /=; lia.
by move=> l; rewrite !size_cat /=; move: l; clear; lia.
Qed.

(** ** complexes *)

(** Loading any file returns a complex (with all the properties of C23) or throws. *)
Theorem C34_complex_any (file : seq nat) : returns_or_throws (load_complex file) /\ forall X, load_complex file = Ok X -> built X.
Proof.
rewrite /load_complex; case G: getline => [io line].
have [|//|ls ->] := @getlines_total ch_nl (size file).+2 io line.
  move: G; rewrite /getline /=; case: ltnP => h [<- _] /=; last by lia.
  by rewrite size_drop; lia.
cbn [obind]; have [sf bl] := load_any_ok ls (built_new 0); split=> //.
by case: ofold sf => [Y| | |] // _; [left; exists Y | right].
Qed.

(** A complex whose simplices are sorted, with vertices below 2^31, comes back with the same simplices under the same
    indices and the same boundaries. *)
Theorem C34_complex X : built X -> (forall s, s != [::] -> contains X s -> sorted leq s /\ forall x, x \in s -> below31 x) ->
  exists2 f, save_complex X = Ok f & exists Y,
   [/\ load_complex f = Ok Y, built Y, forall k i s, cell_is X k i s <-> cell_is Y k i s,
       forall s, sc_find X s = sc_find Y s &
       forall k i s, cell_is X k.+1 i s -> sc_boundary Y k.+1 i = sc_boundary X k.+1 i].
Proof.
move=> /built_inv [cl iv _] h; have [s si|f E [Y L ivY]] := @load_save_sorted cl X iv.
  have s0 := cell_list_nonnil iv si; have [|so sv] := h s s0.
    by apply/(contains_iff iv s0); rewrite -(mem_cell_list iv s0).
  by rewrite so andbT; apply/allP => x /sv /ind_okP.
exists f => //; exists Y; split=> //.
- exact: (C34_complex_any f).2 L.
- by move=> k i s; rewrite (cell_is_iff _ _ _ iv) (cell_is_iff _ _ _ ivY).
- have [_ _ _ _ T] := iv; have [_ _ _ _ TY] := ivY; case=> [|a s]; first by rewrite (find_nil T) (find_nil TY).
  by rewrite (find_ok T) // (find_ok TY).
- by move=> k i s /(cell_is_iff _ _ _ iv) [li _]; rewrite (boundary_ok iv li) (boundary_ok ivY li).
Qed.

(** In general, with vertices below 2^31, loading gives what adding all simplices to an empty complex gives (each one
    sorted): the same as the union with the empty complex. *)
Theorem C34_complex_general X : built X -> (forall s x, s != [::] -> contains X s -> x \in s -> below31 x) ->
  exists2 f, save_complex X = Ok f & exists Y, [/\ load_complex f = Ok Y, sc_union (sc_new 0) X = Ok Y &
    forall t, t != [::] -> contains Y t <-> exists2 s, s != [::] /\ contains X s & t = sort leq s].
Proof.
move=> b h; have [cl iv d0] := built_inv b; have [s si|f E L] := @load_save_ok cl X iv.
  have s0 := cell_list_nonnil iv si; apply/allP => x xs; apply/ind_okP; apply: (h s x s0) => //.
  by apply/(contains_iff iv s0); rewrite -(mem_cell_list iv s0).
exists f => //; have [Y [clY [E1 [ivY _] _ ct]]] := add_all_ok iv (inv_new 0).
exists Y; split; [by rewrite L | by rewrite /sc_union | move=> t t0].
rewrite (contains_iff ivY t0) ct // in_nil /=; split=> [/mapP [s si ->]|[s [s0 /(contains_iff iv s0) si] ->]].
  have s0 := cell_list_nonnil iv si; exists s => //; split=> //; apply/(contains_iff iv s0); by rewrite -(mem_cell_list iv s0).
by apply: map_f; rewrite (mem_cell_list iv s0).
Qed.

(** A vertex number from 2^31 on cannot be read back. *)
Theorem C34_complex_big X s x : built X -> s != [::] -> contains X s -> x \in s -> ~ below31 x ->
  exists2 f, save_complex X = Ok f & load_complex f = Throw.
Proof.
move=> /built_inv [cl iv _] s0 /(contains_iff iv s0) si xs nb; eexists; first exact: save_complexE iv.
rewrite load_savedE; apply: (@load_big _ (sc_new 0, fun _ => [::])); first exact: inv_new.
  by apply/allP => t; exact: cell_list_nonnil iv.
apply/negP => /allP /(_ s); rewrite (mem_cell_list iv s0) => /(_ si) /allP /(_ x xs) /ind_okP; exact: nb.
Qed.

(** a directed edge comes back reversed *)
Definition ex_directed : scx := Eval vm_compute in ex_of (sc_add_directed_recursive (sc_new 0) [:: 1; 0]).
Theorem C34_directed : built ex_directed /\ exists2 f, save_complex ex_directed = Ok f & exists Y,
  [/\ load_complex f = Ok Y, contains ex_directed [:: 1; 0], ~ contains Y [:: 1; 0] & contains Y [:: 0; 1]].
Proof.
have E : sc_add_directed_recursive (sc_new 0) [:: 1; 0] = Ok (ex_directed, [:: (0, 0); (0, 1); (1, 0)]) by vm_compute.
split; first exact: built_add_directed_recursive (built_new 0) E.
eexists; first by vm_compute.
eexists; split; [by vm_compute | by exists 0 | by case | by exists 0].
Qed.

(** a 3 x 3 matrix with an empty column and a negative entry, its file, and the complex of a triangle with a tail *)
Definition ex_mat : cmat Z := CMat 3 3 [:: [:: (0, (-12)%Z); (2, 1%Z)]; [::]; [:: (1, 7%Z)]].
Theorem C34_nonvacuous :
  [/\ size (cols ex_mat) = ncol ex_mat, below31 (nrow ex_mat) /\ below31 (ncol ex_mat),
      entries ex_mat (fun i x => below31 i /\ is_int x), built ex_complex &
      forall s, s != [::] -> contains ex_complex s -> sorted leq s /\ forall x, x \in s -> below31 x].
Proof.
have [_ _ b _ _] := C23_nonvacuous; split=> //.
- by move=> c p /= [<-|[<-|[<-|//]]] //= [<-|] //=; case=> // <-.
- move=> s s0 cs; have [cl iv _] := built_inv b; move/(contains_iff iv s0): cs => si.
  have [_ _ _ Ci _] := iv; have lk : (size s).-1 < 3.
    by rewrite ltnNge; apply/negP => le; rewrite Ci in si.
  have [n N [li S]] : cell_is ex_complex (size s).-1 (index s (cl (size s).-1)) s.
    by apply/(cell_is_iff _ _ _ iv); rewrite index_mem nth_index.
  move: lk n N li S; clear; move: (index _ _) => i; move: (size s).-1 => k; move: i k.
  move=> i [|[|[|//]]] _ n [<-] /=; move: i => [|[|[|[|//]]]] //= _ [<-]; split=> // x; rewrite !inE;
    (repeat case/orP); by move/eqP=> ->.
Qed.

(** the text of that matrix: "ColumnMatrix", "3,3", "0:-12,2:1,", "", "1:7," *)
Theorem C34_text : write_mat decZ ex_mat = Ok (hdr_matrix ++ [:: 10; 51; 44; 51; 10; 48; 58; 45; 49; 50; 44; 50; 58; 49; 44; 10; 10; 49; 58; 55; 44; 10]).
Proof. by vm_compute. Qed.

(** hypotheses of the negative theorems: half as 1 x 1 matrix, and a complex with a large vertex *)
Theorem C34_nonvacuous_big (n : nat) : exists X, [/\ built X, contains X [:: n] & n \in [:: n]].
Proof.
have [h _ _ _ _] := C23_defined [:: n] (built_new 0) (built_new 0); have [[X [r E]] _ _ _] := h isT.
exists X; have b := built_add (built_new 0) E; split; [exact: b | | exact: mem_head].
have [ct _ _ _] := @C23_add _ [:: n] _ _ (built_new 0) isT E; apply/ct => //; right; split=> // j.
Qed.
