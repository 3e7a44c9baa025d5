(** Model of the text files: ColumnMatrix::write/read (col_matrix.hpp 90-110, 1024-1049), SparseVector::write and
    SparseVector(std::string) (sparse_vector.hpp 179-189, 1187-1194), nzpair(std::string) (abstract_vector.hpp 19-26),
    CellularMap::save and CellularMap(fname) (cell_map.hpp 36-49, 104-116), SimplicialComplex::save and
    SimplicialComplex(fname) (simplicial_complex.hpp 308-323, 595-608), write_simplex/read_simplex (util/simplex.hpp 94-117), and
    of the parts of the standard library they use.
    A character is its code.  A file is the list of its characters; opening, reading and writing it does not fail.  int has
    32 bits, size_t has 64. *)
From Coq Require Import ZArith.
From mathcomp Require Import all_ssreflect all_algebra.
From Verif Require Import Outcome M_SparseVec M_ColMatrix M_Field M_Simplicial.
Set Implicit Arguments.
Unset Strict Implicit.
Unset Printing Implicit Defensive.

Definition ch_nl : nat := 10.
Definition ch_comma : nat := 44.
Definition ch_minus : nat := 45.
Definition ch_plus : nat := 43.
Definition ch_slash : nat := 47.
Definition ch_0 : nat := 48.
Definition ch_colon : nat := 58.
Definition is_digit (c : nat) : bool := ch_0 <= c < ch_0 + 10.
Definition is_space (c : nat) : bool := (c == 32) || (9 <= c <= 13).

(** "ColumnMatrix", "CellularMap", "SimplicialComplex" *)
Definition hdr_matrix : seq nat := [:: 67; 111; 108; 117; 109; 110; 77; 97; 116; 114; 105; 120].
Definition hdr_map : seq nat := [:: 67; 101; 108; 108; 117; 108; 97; 114; 77; 97; 112].
Definition hdr_complex : seq nat := [:: 83; 105; 109; 112; 108; 105; 99; 105; 97; 108; 67; 111; 109; 112; 108; 101; 120].

(** ** Standard library *)

(** operator<< of an unsigned integer: decimal digits, no leading zeros *)
Fixpoint dec_loop (fuel n : nat) : seq nat :=
  if fuel is f.+1 then (if n < 10 then [:: ch_0 + n] else rcons (dec_loop f (n %/ 10)) (ch_0 + n %% 10)) else [::].
Definition dec (n : nat) : seq nat := dec_loop n.+1 n.
(** operator<< of an int *)
Definition decZ (z : Z) : seq nat := if Z.ltb z 0 then ch_minus :: dec (Z.to_nat (- z)) else dec (Z.to_nat z).

(** an input stream: what is left, eofbit, failbit *)
Record stream := Stream { s_rest : seq nat; s_eof : bool; s_fail : bool }.
Definition open_stream (s : seq nat) : stream := Stream s false false.

(** std::getline(s, line, delim): when the stream is not good only failbit is set and line keeps its value; otherwise
    characters up to delim (extracted, not stored) or the end of the stream (eofbit; failbit if there was no character) *)
Definition getline (delim : nat) (s : stream) (line : seq nat) : stream * seq nat :=
  if s_eof s || s_fail s then (Stream (s_rest s) (s_eof s) true, line)
  else let i := index delim (s_rest s) in
       if i < size (s_rest s) then (Stream (drop i.+1 (s_rest s)) false false, take i (s_rest s))
       else (Stream [::] true (s_rest s == [::]), s_rest s).

(** while (getline(s, token, delim)) collect token; every pass but the last consumes a character, so fuel (size of the
    rest) + 2 suffices *)
Fixpoint getlines (fuel delim : nat) (s : stream) (token : seq nat) : outcome (seq (seq nat)) :=
  if fuel is f.+1 then
    let: (s', token') := getline delim s token in
    if s_fail s' then Ok [::] else do r <- getlines f delim s' token'; Ok (token' :: r)
  else OutOfFuel.
Definition split_on (delim : nat) (s : seq nat) : outcome (seq (seq nat)) := getlines (size s).+2 delim (open_stream s) [::].

(** the leading digits *)
Fixpoint digits (s : seq nat) : seq nat := if s is c :: s' then (if is_digit c then c :: digits s' else [::]) else [::].
Definition digits_val (s : seq nat) : nat := foldl (fun a c => 10 * a + (c - ch_0)) 0 s.
Fixpoint drop_space (s : seq nat) : seq nat := if s is c :: s' then (if is_space c then drop_space s' else s) else [::].
(** std::stoi: leading white space, an optional sign, at least one digit; anything may follow.  Throws when there is no
    number or it does not fit into an int. *)
Definition stoi (s : seq nat) : outcome Z :=
  let s1 := drop_space s in
  let: (neg, s2) := match s1 with
                    | c :: s' => if c == ch_minus then (true, s') else if c == ch_plus then (false, s') else (false, s1)
                    | [::] => (false, s1) end in
  let d := digits s2 in
  if d is [::] then Throw
  else let v := Z.of_nat (digits_val d) in let z := if neg then Z.opp v else v in
       if int_ok z then Ok z else Throw.
(** conversion of an int to size_t: a negative value wraps around *)
Definition to_size (z : Z) : nat := if Z.ltb z 0 then Z.to_nat (2 ^ 64 + z) else Z.to_nat z.

Section M.
Variable T : Type.
(** operator<< of the value type, and its constructor from int *)
Variable prn : T -> seq nat.
Variable of_int : Z -> T.

(** sparse_vector.hpp 1187-1194 *)
Definition write_vec (v : svec T) : seq nat :=
  flatten [seq dec p.1 ++ ch_colon :: prn p.2 ++ [:: ch_comma] | p <- v] ++ [:: ch_nl].
(** col_matrix.hpp 1024-1031 *)
Definition write_mat (A : cmat T) : outcome (seq nat) :=
  do cs <- omapm (fun j => do c <- oget (cols A) j; Ok (write_vec c)) (iota 0 (ncol A));
  Ok (hdr_matrix ++ ch_nl :: dec (nrow A) ++ ch_comma :: dec (ncol A) ++ ch_nl :: flatten cs).

(** abstract_vector.hpp 19-26 *)
Definition read_pair (str : seq nat) : outcome (nat * T) :=
  let: (iss, token) := getline ch_colon (open_stream str) [::] in
  do i <- stoi token;
  let: (_, token) := getline ch_nl iss token in
  do v <- stoi token;
  Ok (to_size i, of_int v).
(** sparse_vector.hpp 179-189 *)
Definition read_vec (line : seq nat) : outcome (svec T) :=
  do ts <- split_on ch_comma line;
  omapm read_pair [seq t <- ts | 0 < size t].
(** col_matrix.hpp 102-105 *)
Fixpoint read_cols (n : nat) (io : stream) (line : seq nat) : outcome (seq (svec T) * stream) :=
  if n is n'.+1 then
    let: (io, line) := getline ch_nl io line in
    do v <- read_vec line;
    do (vs, io) <- read_cols n' io line;
    Ok (v :: vs, io)
  else Ok ([::], io).
(** col_matrix.hpp 90-106 read; col.resize(n) throws when n does not fit (std::length_error), which only a negative count does *)
Definition read_mat (io : stream) : outcome (cmat T * stream) :=
  let: (io, line) := getline ch_nl io [::] in
  let: (io, line) := getline ch_nl io line in
  let: (iss, token) := getline ch_comma (open_stream line) [::] in
  do m <- stoi token;
  let: (_, token) := getline ch_nl iss token in
  do n <- stoi token;
  if Z.ltb n 0 then Throw else
  do (cs, io) <- read_cols (Z.to_nat n) io line;
  Ok (CMat (to_size m) (Z.to_nat n) cs, io).
End M.

(** field.hpp 485-488: operator<< of a Rational *)
Definition prn_rat (x : Z * Z) : seq nat := decZ x.1 ++ ch_slash :: decZ x.2.

(** ** Maps *)
(** cell_map.hpp 104-116 *)
Definition write_map (f : seq (cmat Z)) : outcome (seq nat) :=
  do ms <- omapm (write_mat decZ) f; Ok (hdr_map ++ ch_nl :: flatten ms).
(** cell_map.hpp 36-49: while (!file.eof()) read one more matrix *)
Fixpoint read_mats (fuel : nat) (io : stream) : outcome (seq (cmat Z)) :=
  if fuel is f.+1 then
    if s_eof io then Ok [::]
    else do (A, io') <- read_mat id io; do As <- read_mats f io'; Ok (A :: As)
  else OutOfFuel.
Definition load_map (file : seq nat) : outcome (seq (cmat Z)) :=
  let: (io, _) := getline ch_nl (open_stream file) [::] in read_mats (size file).+2 io.

(** ** Complexes *)
(** util/simplex.hpp 94-101 *)
Definition write_simplex (s : seq nat) : seq nat := flatten [seq dec x ++ [:: ch_comma] | x <- s] ++ [:: ch_nl].
(** util/simplex.hpp 103-117 *)
Definition read_simplex (line : seq nat) : outcome (seq nat) :=
  do ts <- split_on ch_comma line;
  omapm (fun t => do z <- stoi t; Ok (to_size z)) [seq t <- ts | 0 < size t].
(** simplicial_complex.hpp 595-608 *)
Definition save_complex (X : scx) : outcome (seq nat) :=
  do ls <- omapm (fun dim => do n <- sc_ncell X dim;
                             omapm (fun i => do s <- sc_simplex X dim i; Ok (write_simplex s)) (iota 0 n)) (iota 0 (sc_dims X));
  Ok (hdr_complex ++ ch_nl :: flatten (flatten ls)).
(** simplicial_complex.hpp 308-323 *)
Definition load_complex (file : seq nat) : outcome scx :=
  let: (io, line) := getline ch_nl (open_stream file) [::] in
  do ls <- getlines (size file).+2 ch_nl io line;
  ofold (fun X l => do s <- read_simplex l; do (X', _) <- sc_add X s; Ok X') (sc_new 0) ls.
