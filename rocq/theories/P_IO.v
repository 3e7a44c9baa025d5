(** Decimal printing and parsing, lines and tokens, matrices. *)
From Coq Require Import ZArith.
From mathcomp Require Import all_ssreflect zify.
From Verif Require Import Outcome P_Outcome M_SparseVec M_ColMatrix M_Field M_Simplicial M_IO.
Set Implicit Arguments.
Unset Strict Implicit.
Unset Printing Implicit Defensive.

(** ** decimal numbers *)
Lemma dec_loop_spec fuel n : n < fuel -> [/\ all is_digit (dec_loop fuel n), digits_val (dec_loop fuel n) = n & dec_loop fuel n <> [::]].
Proof.
elim: fuel n => [//|f IH] n; rewrite ltnS => nf; cbn [dec_loop]; have [l|l] := ltnP n 10.
  by split=> //=; [rewrite andbT /is_digit; lia | rewrite /digits_val /=; lia].
have q : n %/ 10 < f by apply: leq_trans nf; rewrite ltn_Pdiv //; lia.
have [a v ne] := IH _ q; have r := ltn_pmod n (isT : 0 < 10); split.
- by rewrite all_rcons a andbT /is_digit; move: r; lia.
- rewrite /digits_val -cats1 foldl_cat -/(digits_val _) v /= addKn mulnC; exact: esym (divn_eq n 10).
- by case: (dec_loop _ _).
Qed.

Lemma dec_spec n : [/\ all is_digit (dec n), digits_val (dec n) = n & dec n <> [::]].
Proof. exact: dec_loop_spec. Qed.

Definition no_digit (s : seq nat) : bool := if s is c :: _ then ~~ is_digit c else true.

Lemma digits_cat d s : all is_digit d -> no_digit s -> digits (d ++ s) = d.
Proof.
move=> a n; elim: d a => [|c d IH] /=; last by move=> /andP [-> /IH ->].
by case: s n => //= c s /negbTE ->.
Qed.

(** stoi on a written number *)
Lemma stoi_dec n s : no_digit s -> stoi (dec n ++ s) = if int_ok (Z.of_nat n) then Ok (Z.of_nat n) else Throw.
Proof.
move=> ns; have [a v ne] := dec_spec n; have := digits_cat a ns; rewrite /stoi.
case e: (dec n) a v ne => [//|c d] /= /andP [dc a] v _.
have -> : is_space c = false by move: dc; rewrite /is_digit /is_space /ch_0; lia.
have [h1 h2] : c == ch_minus = false /\ c == ch_plus = false.
  by move: dc; rewrite /is_digit /ch_0 /ch_minus /ch_plus; clear; split; lia.
by rewrite h1 h2 /= dc => ->; rewrite -[c :: d]/([:: c] ++ d) v.
Qed.

Lemma stoi_decZ z s : no_digit s -> stoi (decZ z ++ s) = if int_ok z then Ok z else Throw.
Proof.
move=> ns; rewrite /decZ; case: Z.ltb_spec => h; last first.
  by rewrite stoi_dec // Z2Nat.id.
have [a v ne] := dec_spec (Z.to_nat (- z)); have := digits_cat a ns; rewrite /stoi /= => ->.
have -> : match dec (Z.to_nat (- z)) with [::] => Throw | _ :: _ =>
     let v := Z.of_nat (digits_val (dec (Z.to_nat (- z)))) in let z0 := Z.opp v in if int_ok z0 then Ok z0 else Throw end =
   (let z0 := Z.opp (Z.of_nat (digits_val (dec (Z.to_nat (- z))))) in if int_ok z0 then Ok z0 else Throw).
  by case: (dec _) ne.
by cbv zeta; rewrite v Z2Nat.id; [rewrite Z.opp_involutive | lia].
Qed.

Lemma dec_notin c n : ~~ is_digit c -> c \notin dec n.
Proof. by move=> nc; have [a _ _] := dec_spec n; apply/negP => /(allP a); rewrite (negbTE nc). Qed.
Lemma decZ_notin c z : ~~ is_digit c -> c != ch_minus -> c \notin decZ z.
Proof. by move=> nc nm; rewrite /decZ; case: ifP => _; rewrite ?inE ?negb_or ?nm /= dec_notin. Qed.

(** ** lines *)
Lemma getline_hit delim a b line : delim \notin a -> getline delim (open_stream (a ++ delim :: b)) line = (open_stream b, a).
Proof.
move=> na; rewrite /getline /= index_cat (negbTE na) /= eqxx addn0 size_cat /=.
by rewrite -[X in X < _]addn0 ltn_add2l /= take_size_cat // -cat_rcons drop_size_cat // size_rcons.
Qed.
Lemma getline_end delim a line : delim \notin a -> getline delim (open_stream a) line = (Stream [::] true (a == [::]), a).
Proof. by move=> na; rewrite /getline /= index_mem (negbTE na). Qed.

Lemma getlines_step f delim s token : getlines f.+1 delim s token =
  let: (s', token') := getline delim s token in
    if s_fail s' then Ok [::] else do r <- getlines f delim s' token'; Ok (token' :: r).
Proof. by []. Qed.

Lemma getlinesE delim ts : all (fun t => delim \notin t) ts -> forall fuel token, size ts < fuel ->
  getlines fuel delim (open_stream (flatten [seq t ++ [:: delim] | t <- ts])) token = Ok ts.
Proof.
elim: ts => [|t ts IH] a [|fuel] token //= lf; rewrite -/(getlines fuel.+1 _ _ _) ?getlines_step.
move/andP: a => [nt a]; rewrite -catA /= getline_hit //= IH //.
Qed.

Lemma split_onE delim ts : all (fun t => delim \notin t) ts -> split_on delim (flatten [seq t ++ [:: delim] | t <- ts]) = Ok ts.
Proof.
move=> a; apply: getlinesE => //; rewrite -addn2.
have : size ts <= size (flatten [seq t ++ [:: delim] | t <- ts]).
  by elim: ts {a} => //= t ts IH; rewrite !size_cat /=; lia.
lia.
Qed.

(** ** matrices *)
Section M.
Variables (T T' : eqType) (prn : T -> seq nat) (of_int : Z -> T') (g : T -> T').

(** what the printed value must satisfy *)
Definition val_ok (x : T) : Prop :=
  [/\ ch_comma \notin prn x, ch_nl \notin prn x & exists2 z, stoi (prn x) = Ok z & of_int z = g x].

Definition ind_ok (i : nat) : bool := int_ok (Z.of_nat i).

Lemma to_size_nat i : to_size (Z.of_nat i) = i.
Proof. by rewrite /to_size; case: Z.ltb_spec => h; lia. Qed.

Lemma read_pairE i x : ind_ok i -> val_ok x -> read_pair of_int (dec i ++ ch_colon :: prn x) = Ok (i, g x).
Proof.
move=> hi [_ nl [z E <-]]; rewrite /read_pair getline_hit; last exact: dec_notin.
have := @stoi_dec i [::] isT; rewrite cats0 => ->; rewrite -/(ind_ok i) hi; cbn [obind].
by rewrite getline_end // E /= to_size_nat.
Qed.

Lemma read_pair_throw i x : ~~ ind_ok i -> read_pair of_int (dec i ++ ch_colon :: prn x) = Throw.
Proof.
move=> hi; rewrite /read_pair getline_hit; last exact: dec_notin.
by have := @stoi_dec i [::] isT; rewrite cats0 => ->; rewrite -/(ind_ok i) (negbTE hi).
Qed.

Definition vmap (v : svec T) : svec T' := [seq (p.1, g p.2) | p <- v].
Definition vtokens (v : svec T) : seq (seq nat) := [seq dec p.1 ++ ch_colon :: prn p.2 | p <- v].

Lemma write_vecE v : write_vec prn v = flatten [seq t ++ [:: ch_comma] | t <- vtokens v] ++ [:: ch_nl].
Proof. by rewrite /write_vec /vtokens -map_comp; congr (flatten _ ++ _); apply: eq_map => p /=; rewrite -catA. Qed.

Lemma vtokens_comma v : (forall p, p \in v -> val_ok p.2) -> all (fun t => ch_comma \notin t) (vtokens v).
Proof.
move=> h; apply/allP => t /mapP [p /h [h1 h2 _] ->]; rewrite mem_cat inE !negb_or h1 /= andbT.
by rewrite dec_notin.
Qed.
Lemma vtokens_nl v : (forall p, p \in v -> val_ok p.2) -> ch_nl \notin flatten [seq t ++ [:: ch_comma] | t <- vtokens v].
Proof.
move=> h; apply/negP => /flattenP [t /mapP [u /mapP [p /h [_ h2 _] ->] ->]].
by rewrite !mem_cat !inE (negbTE h2) (negbTE (@dec_notin ch_nl p.1 isT)).
Qed.
Lemma vtokens_size v : [seq t <- vtokens v | 0 < size t] = vtokens v.
Proof. by apply/all_filterP/allP => t /mapP [p _ ->]; rewrite size_cat /= addnS. Qed.

Lemma read_vecE v : (forall p, p \in v -> ind_ok p.1 /\ val_ok p.2) ->
  read_vec of_int (flatten [seq t ++ [:: ch_comma] | t <- vtokens v]) = Ok (vmap v).
Proof.
move=> h; rewrite /read_vec split_onE; last by apply: vtokens_comma => p /h [].
cbn [obind]; rewrite vtokens_size /vtokens; elim: v h => //= p v IH h.
have [h1 h2] := h p (mem_head _ _); rewrite read_pairE //= IH // => q qi; apply: h; by rewrite inE qi orbT.
Qed.

Lemma read_vec_throw v : (forall p, p \in v -> val_ok p.2) -> ~~ all (fun p : nat * T => ind_ok p.1) v ->
  read_vec of_int (flatten [seq t ++ [:: ch_comma] | t <- vtokens v]) = Throw.
Proof.
move=> h n; rewrite /read_vec split_onE; last exact: vtokens_comma.
cbn [obind]; rewrite vtokens_size /vtokens; elim: v h n => //= p v IH h; rewrite negb_and.
have [i|i] := boolP (ind_ok p.1) => /= n; last by rewrite read_pair_throw.
by rewrite read_pairE //=; [rewrite IH // => q qi; apply: h; rewrite inE qi orbT | apply: h; exact: mem_head].
Qed.

Lemma read_colsS n io line : read_cols of_int n.+1 io line =
    let: (io, line) := getline ch_nl io line in
    do v <- read_vec of_int line; do (vs, io) <- read_cols of_int n io line; Ok (v :: vs, io).
Proof. by []. Qed.

Lemma read_colsE (cs : seq (svec T)) rest line : (forall (v : seq (nat * T)) p, v \in cs -> p \in v -> ind_ok p.1 /\ val_ok p.2) ->
  read_cols of_int (size cs) (open_stream (flatten [seq write_vec prn v | v <- cs] ++ rest)) line = Ok (map vmap cs, open_stream rest).
Proof.
elim: cs line => [|v cs IH] line h //; rewrite [size _]/= read_colsS.
have hv p : p \in v -> ind_ok p.1 /\ val_ok p.2 by apply: h; exact: mem_head.
rewrite /= write_vecE -!catA /= getline_hit; last by apply: vtokens_nl => p /hv [].
rewrite read_vecE //; cbn [obind]; rewrite IH //.
by move=> w p wi; apply: h; rewrite inE wi orbT.
Qed.

Lemma read_cols_throw (cs : seq (svec T)) rest line : (forall (v : seq (nat * T)) p, v \in cs -> p \in v -> val_ok p.2) ->
  ~~ all (fun v : svec T => all (fun p : nat * T => ind_ok p.1) v) cs ->
  read_cols of_int (size cs) (open_stream (flatten [seq write_vec prn v | v <- cs] ++ rest)) line = Throw.
Proof.
elim: cs line => [|v cs IH] line h //=; rewrite negb_and.
have hv p : p \in v -> val_ok p.2 by apply: h; exact: mem_head.
rewrite -/(read_cols of_int (size cs).+1 _ _) write_vecE -!catA /= getline_hit; last exact: vtokens_nl.
have [i|i] := boolP (all _ v) => /= n; last by rewrite read_vec_throw.
rewrite read_vecE; last by move=> p pi; split; [exact: (allP i) | exact: hv].
cbn [obind]; rewrite IH // => w p wi; by apply: h; rewrite inE wi orbT.
Qed.

Lemma write_matE (A : cmat T) : size (cols A) = ncol A ->
  write_mat prn A = Ok (hdr_matrix ++ ch_nl :: dec (nrow A) ++ ch_comma :: dec (ncol A) ++ ch_nl :: flatten [seq write_vec prn v | v <- cols A]).
Proof.
move=> s; rewrite /write_mat (omapm_Ok_eq (g := fun j => write_vec prn (nth [::] (cols A) j))).
  cbn [obind]; have -> : [seq write_vec prn (nth [::] (cols A) j) | j <- iota 0 (ncol A)] = [seq write_vec prn v | v <- cols A] => //.
  apply: (@eq_from_nth _ [::]); rewrite !size_map size_iota // => j lj.
  by rewrite (nth_map 0) ?size_iota // nth_iota // (nth_map [::]) // s.
by move=> j; rewrite mem_iota add0n => /= lj; rewrite (oget_nth [::]) ?s.
Qed.

Lemma read_mat_head (A : cmat T) s rest : write_mat prn A = Ok s -> size (cols A) = ncol A ->
  read_mat of_int (open_stream (s ++ rest)) =
  if ind_ok (nrow A) && ind_ok (ncol A) then
    do (cs, io) <- read_cols of_int (ncol A) (open_stream (flatten [seq write_vec prn v | v <- cols A] ++ rest)) (dec (nrow A) ++ ch_comma :: dec (ncol A));
    Ok (CMat (nrow A) (ncol A) cs, io)
  else Throw.
Proof.
move=> + sA; rewrite write_matE // => -[<-].
have -> : (hdr_matrix ++ ch_nl :: dec (nrow A) ++ ch_comma :: dec (ncol A) ++ ch_nl :: flatten [seq write_vec prn v | v <- cols A]) ++ rest =
  hdr_matrix ++ ch_nl :: (dec (nrow A) ++ ch_comma :: dec (ncol A)) ++ ch_nl :: (flatten [seq write_vec prn v | v <- cols A] ++ rest).
  by rewrite -!catA /= -!catA /= -!catA.
rewrite /read_mat getline_hit // getline_hit; last first.
  by rewrite mem_cat inE !negb_or !dec_notin.
rewrite getline_hit; last exact: dec_notin.
have := @stoi_dec (nrow A) [::] isT; rewrite cats0 -/(ind_ok (nrow A)) => ->; case: (ind_ok (nrow A)) => //; cbn [obind].
rewrite getline_end; last exact: dec_notin.
have := @stoi_dec (ncol A) [::] isT; rewrite cats0 -/(ind_ok (ncol A)) => ->; case: (ind_ok (ncol A)) => //; cbn [obind].
have -> : Z.ltb (Z.of_nat (ncol A)) 0 = false by apply/Z.ltb_ge; lia.
by rewrite Nat2Z.id to_size_nat.
Qed.

Lemma read_matE (A : cmat T) rest : size (cols A) = ncol A -> ind_ok (nrow A) -> ind_ok (ncol A) ->
  (forall (v : seq (nat * T)) p, v \in cols A -> p \in v -> ind_ok p.1 /\ val_ok p.2) ->
  exists2 s, write_mat prn A = Ok s & read_mat of_int (open_stream (s ++ rest)) = Ok (CMat (nrow A) (ncol A) (map vmap (cols A)), open_stream rest).
Proof.
move=> sA im inn h; have E := write_matE sA; eexists; first exact: E.
by rewrite (read_mat_head _ E) // im inn -sA read_colsE.
Qed.

Lemma read_mat_throw (A : cmat T) rest : size (cols A) = ncol A ->
  (forall (v : seq (nat * T)) p, v \in cols A -> p \in v -> val_ok p.2) ->
  ~~ [&& ind_ok (nrow A), ind_ok (ncol A) & all (fun v : svec T => all (fun p : nat * T => ind_ok p.1) v) (cols A)] ->
  exists2 s, write_mat prn A = Ok s & read_mat of_int (open_stream (s ++ rest)) = Throw.
Proof.
move=> sA h n; have E := write_matE sA; eexists; first exact: E.
rewrite (read_mat_head _ E) //; move: n; rewrite andbA; case: (ind_ok _ && ind_ok _) => //= n.
by rewrite -sA read_cols_throw.
Qed.
End M.

(** ** any contents *)
Lemma getlines_total delim fuel s token : size (s_rest s) + 1 < fuel + (s_eof s || s_fail s) -> 0 < fuel ->
  exists r, getlines fuel delim s token = Ok r.
Proof.
elim: fuel s token => [//|f IH] s token lf _; rewrite getlines_step /getline.
case b: (s_eof s || s_fail s) lf => lf; first by exists [::].
have [h|h] := ltnP (index delim (s_rest s)) (size (s_rest s)) => /=.
  have [||r ->] := IH (open_stream (drop (index delim (s_rest s)).+1 (s_rest s))) (take (index delim (s_rest s)) (s_rest s)).
  - by rewrite /= size_drop; move: h lf; clear; lia.
  - by move: h lf; clear; lia.
  - by eexists.
case: eqP => [_|ne]; first by eexists.
have [||r ->] := IH (Stream [::] true false) (s_rest s).
- by rewrite /=; move: lf; clear; lia.
- by move: lf ne; case: (s_rest s) => //= *; lia.
- by eexists.
Qed.

Lemma split_on_total delim s : exists r, split_on delim s = Ok r.
Proof. by apply: getlines_total => //=; lia. Qed.

(** a computation that returns or throws: it does not touch memory it may not touch and it ends *)
Definition safe (A : Type) (r : outcome A) : Prop := match r with Ok _ | Throw => True | _ => False end.
Lemma safe_bind (A B : Type) (r : outcome A) (f : A -> outcome B) : safe r -> (forall a, r = Ok a -> safe (f a)) -> safe (obind r f).
Proof. by case: r => //= a _; apply. Qed.
Lemma safe_omapm (A B : Type) (f : A -> outcome B) s : (forall a, safe (f a)) -> safe (omapm f s).
Proof. by move=> h; elim: s => //= a s IH; apply: safe_bind => // b _; apply: safe_bind. Qed.
Lemma safe_stoi s : safe (stoi s).
Proof.
rewrite /stoi; case: (match drop_space s with [::] => _ | _ => _ end) => neg s2.
by case: (digits s2) => //= c d; case: ifP.
Qed.
Lemma safe_split delim s : safe (split_on delim s).
Proof. by have [r ->] := split_on_total delim s. Qed.

Lemma safe_read_pair (T : Type) (of_int : Z -> T) s : safe (read_pair of_int s).
Proof.
rewrite /read_pair; case: getline => iss token; apply: safe_bind => [|i _]; first exact: safe_stoi.
by case: getline => iss' token'; apply: safe_bind => [|v _] //; exact: safe_stoi.
Qed.
Lemma safe_read_vec (T : Type) (of_int : Z -> T) s : safe (read_vec of_int s).
Proof. by apply: safe_bind => [|ts _]; [exact: safe_split | apply: safe_omapm => t; exact: safe_read_pair]. Qed.
Lemma safe_read_cols (T : Type) (of_int : Z -> T) n io line : safe (read_cols of_int n io line).
Proof.
elim: n io line => //= n IH io line; case: getline => io' line'; apply: safe_bind => [|v _]; first exact: safe_read_vec.
by apply: safe_bind => [|[vs io2] _].
Qed.
Lemma safe_read_mat (T : Type) (of_int : Z -> T) io : safe (read_mat of_int io).
Proof.
rewrite /read_mat; case: getline => io1 l1; case: getline => io2 l2; case: getline => i3 l3.
apply: safe_bind => [|m _]; first exact: safe_stoi.
case: getline => i4 l4; apply: safe_bind => [|n _]; first exact: safe_stoi.
case: ifP => // _; by apply: safe_bind => [|[vs io5] _] //; exact: safe_read_cols.
Qed.
Lemma safe_read_simplex s : safe (read_simplex s).
Proof.
apply: safe_bind => [|ts _]; first exact: safe_split.
by apply: safe_omapm => t; apply: safe_bind => //; exact: safe_stoi.
Qed.
