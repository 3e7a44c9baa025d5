(** Correctness of the divide and conquer reduction. *)
From mathcomp Require Import all_ssreflect all_algebra zify.
From Verif Require Import Outcome P_Outcome M_SparseVec M_Perm M_ColMatrix M_Reduce M_Parallel
  S_Linalg P_SparseVec P_Pairing P_Reduce P_Tasks.
Set Implicit Arguments.
Unset Strict Implicit.
Unset Printing Implicit Defensive.
Import GRing.Theory.
Local Open Scope ring_scope.

Lemma mfind_put p i k i' : mfind (mput p i k) i' = if i == i' then Some k else mfind p i'.
Proof. by rewrite /mfind /mput /=; case: (i =P i'). Qed.

Section P.
Variable F : fieldType.
Notation O := (ops_of F).
Notation svec := (svec F).
Notation res := (map_t * seq nat)%type.
Notation prg := (prog svec res).

(** ** The sequential core *)
Section Core.
Implicit Types (S : pred nat).
Variables (m n mu : nat) (M0 : 'M[F]_(m, n)) (U0 : 'M[F]_(mu, n)).

Definition glob (R U : seq svec) : Prop :=
  [/\ size R = n /\ size U = n, all (sv_wf m) R, all (sv_wf mu) U &
      exists V : 'M[F]_n, [/\ upper V, diag1 V, mxc m n R = M0 *m V & mxc mu n U = U0 *m V]].

Definition pinv (S : pred nat) (R : seq svec) (p : map_t) : Prop :=
  uniq (unzip1 p) /\ forall i k, mfind p i = Some k <-> S k /\ last_ind (nth [::] R k) = Some i.

Definition same (S : pred nat) (R R' : seq svec) : Prop := forall k, ~~ S k -> nth [::] R' k = nth [::] R k.

Lemma pinv_same S (S' : pred nat) R R' p : (forall k, S k -> ~~ S' k) -> same S' R R' -> pinv S R p -> pinv S R' p.
Proof. by move=> dj sm [u H]; split=> // i k; rewrite H; split=> -[Sk]; rewrite (sm k (dj k Sk)). Qed.

Lemma pinv_ext S (S' : pred nat) R p : (forall k, nth [::] R k <> [::] -> S k = S' k) -> pinv S R p -> pinv S' R p.
Proof.
move=> e [u H]; split=> // i k; rewrite H; split=> -[Sk L]; split=> //; move: Sk; rewrite e // => E; by rewrite E in L.
Qed.

Lemma colmU_spec S fuel R U p j : (j < n)%N -> (forall k, S k -> (k < j)%N) -> glob R U -> pinv S R p ->
  (if last_ind (nth [::] R j) is Some i then (i.+2 <= fuel)%N else (0 < fuel)%N) ->
  exists R' U' p', [/\ colmU O fuel R U p j = Ok (R', U', p'), glob R' U', pinv (predU1 j S) R' p', same (pred1 j) R R' & same (pred1 j) U U'].
Proof.
move=> jn Sj; elim: fuel R U p => [|fuel IH] R U p G P Hf.
  by move: Hf; case: (last_ind _).
have [[sR sU] WR WU [V [Vu Vd RV UV]]] := G; have [up Hp] := P.
have jR : (j < size R)%N by rewrite sR.
have jU : (j < size U)%N by rewrite sU.
have Wc : sv_wf m (nth [::] R j) by apply: nth_wf.
rewrite /= (oget_nth [::] jR); cbn [obind].
case: (altP (nth [::] R j =P [::])) => [E|/eqP ne].
  rewrite E; exists R, U, p; split=> //; apply: pinv_ext P => k /= nk; case: eqP => // ek; by rewrite ek in nk.
have [i [v [Ln Li im cv vn]]] := lastnz_spec Wc ne.
have -> X Y : (if nth [::] R j is [::] then X else Y) = Y :> outcome (seq svec * seq svec * map_t).
  by case: (nth [::] R j) ne.
rewrite Ln; cbn [obind].
case Ep: (mfind p i) => [k|]; last first.
  exists R, U, (mput p i j); split=> //; split.
    rewrite /mput /= up andbT; apply/negP => /mapP [x xp e1].
    have : mfind p i <> None by rewrite /mfind; have : x \in [seq y <- p | y.1 == i] by [rewrite mem_filter -e1 eqxx]; case: (filter _ _).
    by rewrite Ep.
  move=> i' k'; rewrite mfind_put; case: eqP => [<-|ni].
    split=> [[<-]|[/= /orP [/eqP ->//|Sk] L]]; first by rewrite /= eqxx.
    by have : mfind p i = Some k' by [apply/Hp]; rewrite Ep.
  rewrite Hp; split=> [[Sk L]|[/= /orP [/eqP e1|//] L]]; first by split=> //=; rewrite Sk orbT.
  by move: L; rewrite e1 Li => -[] /ni.
have [Sk Lk] := (Hp i k).1 Ep; have kj := Sj k Sk.
have kR : (k < size R)%N by lia.
have kU : (k < size U)%N by lia.
have Wk : sv_wf m (nth [::] R k) by apply: nth_wf.
have nek : nth [::] R k <> [::] by move=> E; move: Lk; rewrite E.
have [i2 [w [Ln2 Li2 _ cw wn]]] := lastnz_spec Wk nek.
have Ei : i2 = i by move: Li2; rewrite Lk => -[].
subst i2; rewrite (oget_nth [::] kR); cbn [obind]; rewrite Ln2; cbn [obind]; rewrite /odiv is0E (negbTE wn); cbn [obind].
rewrite (oset_Ok [::]) //; cbn [obind]; rewrite (oget_nth [::] jU) (oget_nth [::] kU); cbn [obind]; rewrite (oset_Ok [::]) //; cbn [obind].
have kn : (k < n)%N by lia.
pose kO := Ordinal kn; pose jO := Ordinal jn.
have sm (A : seq svec) c : same (pred1 j) A (set_nth [::] A j c).
  by move=> k' /= nk; rewrite nth_set_nth /= (negbTE nk).
pose R1 := set_nth [::] R j (axpy O (- (v / w)) (nth [::] R k) (nth [::] R j)).
pose U1 := set_nth [::] U j (axpy O (- (v / w)) (nth [::] U k) (nth [::] U j)).
have G1 : glob R1 U1.
  split.
  - by rewrite !size_set_nth sR sU; split; apply/maxn_idPr.
  - by apply: set_nth_wf => //; apply: sv_wf_axpy => //.
  - by apply: set_nth_wf => //; apply: sv_wf_axpy; apply: nth_wf.
  - exists (V *m colop kO jO (- (v / w))); split.
    + by apply: upper_mul => //; apply: upper_colop.
    + by apply: diag1_mul => //; [apply: upper_colop | apply: diag1_colop].
    + by rewrite mulmxA -RV -(mxc_colop m kO jO).
    + by rewrite mulmxA -UV -(mxc_colop mu kO jO).
have P1 : pinv S R1 p by apply: pinv_same (sm _ _) P => k' Sk' /=; have := Sj k' Sk'; rewrite neq_ltn => ->.
have [|R' [U' [p' [E G' P' s1 s2]]]] := IH R1 U1 p G1 P1.
  rewrite nth_set_nth /= eqxx.
  case L': (last_ind _) => [i'|]; last by move: Hf; rewrite Li; lia.
  have := elim_last Wc Wk Li Lk; rewrite cv cw => /(_ _ L').
  by move: Hf; rewrite Li; lia.
exists R', U', p'; split; [exact: E|by []|by []| |].
- by move=> k' nk; rewrite s1 // sm.
- by move=> k' nk; rewrite s2 // sm.
Qed.

Lemma colsU_spec l S R U p nz : sorted ltn l -> all (fun j => (j < n)%N) l -> (forall k, S k -> all (fun j => (k < j)%N) l) ->
  glob R U -> pinv S R p ->
  exists R' U' p', let nz' := nz ++ [seq j <- l | size (nth [::] R' j) != 0%N] in
    [/\ colsU O m.+2 R U l p nz = Ok (R', U', p', nz'), glob R' U', pinv (fun k => S k || (k \in l)) R' p', same (fun k => k \in l) R R' & same (fun k => k \in l) U U'].
Proof.
elim: l S R U p nz => [|j l IH] S R U p nz so al Sl G P.
  exists R, U, p; rewrite cats0; split=> //; by apply: pinv_ext P => k _; rewrite in_nil orbF.
move: al => /= /andP [jn al].
have [||R1 [U1 [p1 [E1 G1 P1 s1 s1']]]] := @colmU_spec S m.+2 R U p j jn _ G P.
- by move=> k Sk; have /= /andP [] := Sl k Sk.
- case L: (last_ind _) => [i|] //; have [_ WR _ _] := G; have := last_ind_lt (nth_wf j WR) L; lia.
have jl : all (fun j' => (j < j')%N) l by exact: order_path_min ltn_trans so.
have jnl : j \notin l by apply/negP => jl'; have /allP /(_ j jl') := jl; rewrite ltnn.
have [[sR1 _] _ _ _] := G1.
have [||R' [U' [p' [E2 G2 P2 s2 s2']]]] := IH (predU1 j S) R1 U1 p1 (if nth [::] R1 j is [::] then nz else rcons nz j) _ al _ G1 P1.
- exact: path_sorted so.
- by move=> k /= /orP [/eqP ->//|Sk]; have /= /andP [] := Sl k Sk.
exists R', U', p'; cbv zeta; split=> //.
- rewrite /colsU; cbn [ofold]; rewrite /= in E1 *; rewrite E1; cbn [obind]; rewrite (oget_nth [::]) ?sR1 //; cbn [obind].
  rewrite -/(colsU O m.+2 R1 U1 l p1 _) E2; congr (Ok (_, _, _, _)).
  by rewrite (s2 j jnl) /=; case: (nth [::] R1 j) => [|x y] //=; rewrite cat_rcons.
- by apply: pinv_ext P2 => k _ /=; rewrite inE orbCA orbA.
- by move=> k; rewrite inE negb_or => /andP [nk nl]; rewrite s2 // s1.
- by move=> k; rewrite inE negb_or => /andP [nk nl]; rewrite s2' // s1'.
Qed.

(** what reducing the block [j0, j1) leaves *)
Definition blk (j0 j1 : nat) (k : nat) : bool := (j0 <= k < j1)%N.
Definition bdone j0 j1 (R U R' U' : seq svec) (p : map_t) (nz : seq nat) : Prop :=
  [/\ glob R' U', pinv (blk j0 j1) R' p, nz = [seq j <- iota j0 (j1 - j0) | size (nth [::] R' j) != 0%N],
      same (blk j0 j1) R R' & same (blk j0 j1) U U'].

Lemma block_spec j0 j1 R U : (j0 <= j1)%N -> (j1 <= n)%N -> glob R U ->
  exists R' U' p nz, colsU O m.+2 R U (iota j0 (j1 - j0)) [::] [::] = Ok (R', U', p, nz) /\ bdone j0 j1 R U R' U' p nz.
Proof.
move=> l01 l1n G.
have bE k : (k \in iota j0 (j1 - j0)) = blk j0 j1 k by rewrite mem_iota subnKC.
have [||||R' [U' [p' [E G' P s1 s2]]]] := @colsU_spec (iota j0 (j1 - j0)) pred0 R U [::] [::] _ _ _ G.
- exact: iota_ltn_sorted.
- by apply/allP => k; rewrite bE => /andP [_ h]; exact: leq_trans l1n.
- by [].
- by split=> // i k; split=> // -[].
exists R', U', p', [seq j <- iota j0 (j1 - j0) | size (nth [::] R' j) != 0%N]; split=> //; split=> //.
- by apply: pinv_ext P => k _; rewrite /= bE.
- by move=> k nk; apply: s1; rewrite bE.
- by move=> k nk; apply: s2; rewrite bE.
Qed.

Lemma merge_spec j0 j2 j1 R U R1 U1 p1 nz1 R2 U2 p2 nz2 : (j0 <= j2)%N -> (j2 <= j1)%N -> (j1 <= n)%N ->
  bdone j0 j2 R U R1 U1 p1 nz1 -> bdone j2 j1 R1 U1 R2 U2 p2 nz2 ->
  exists R' U' p nz, colsU O m.+2 R2 U2 nz2 p1 nz1 = Ok (R', U', p, nz) /\ bdone j0 j1 R U R' U' p nz.
Proof.
move=> l02 l21 l1n [G1 P1 e1 s1 s1'] [G2 P2 e2 s2 s2'].
have dj k : blk j0 j2 k -> ~~ blk j2 j1 k by rewrite /blk; lia.
have P1' := pinv_same dj s2 P1.
have in2 k : (k \in nz2) = blk j2 j1 k && (size (nth [::] R2 k) != 0%N).
  by rewrite e2 mem_filter mem_iota subnKC // andbC.
have [|||R' [U' [p [E G P s3 s3']]]] := @colsU_spec nz2 (blk j0 j2) R2 U2 p1 nz1 _ _ _ G2 P1'.
- by rewrite e2; apply: sorted_filter; [exact: ltn_trans|exact: iota_ltn_sorted].
- by apply/allP => k; rewrite in2 /blk; lia.
- by move=> k /andP [_ h]; apply/allP => j; rewrite in2 /blk => /andP [/andP [h2 _] _]; exact: leq_trans h h2.
exists R', U', p, (nz1 ++ [seq j <- nz2 | size (nth [::] R' j) != 0%N]); split=> //; split=> //.
- apply: pinv_ext P => k nk; rewrite in2; case: (boolP (blk j2 j1 k && _)) => [h|nh].
    by move: h; rewrite orbT /blk; lia.
  rewrite orbF; rewrite negb_and in nh; case/orP: nh => nh; first by move: nh; rewrite /blk; lia.
  case: nk; rewrite s3; first by apply/nilP; rewrite /nilp; rewrite negbK in nh.
  by rewrite in2 negb_and negbK; rewrite negbK in nh; rewrite nh orbT.
- have -> : iota j0 (j1 - j0) = iota j0 (j2 - j0) ++ iota j2 (j1 - j2).
    by rewrite -[X in _ ++ iota X _](subnKC l02) -iotaD; congr iota; lia.
  rewrite filter_cat; congr cat.
    rewrite e1; apply: eq_in_filter => k; rewrite mem_iota subnKC // => h; have nb := dj k h.
    by rewrite s3 ?s2 // in2 negb_and nb.
  rewrite e2 -filter_predI; apply: eq_in_filter => k; rewrite mem_iota subnKC // => h /=.
  case h2: (size (nth [::] R2 k) != 0%N); rewrite ?andbT ?andbF //.
  by rewrite s3 ?h2 // in2 h2 andbF.
- move=> k nk; rewrite s3 ?s2 ?s1 //; [| |rewrite in2 negb_and; apply/orP; left]; by move: nk; rewrite /blk; lia.
- move=> k nk; rewrite s3' ?s2' ?s1' //; [| |rewrite in2 negb_and; apply/orP; left]; by move: nk; rewrite /blk; lia.
Qed.

Lemma dqU_spec mbs dep R U j0 j1 : (1 < mbs)%N -> (j0 <= j1)%N -> (j1 <= n)%N -> (j1 - j0 <= dep.+1)%N -> glob R U ->
  exists R' U' p nz, dqU O m.+2 mbs dep R U j0 j1 = Ok (R', U', p, nz) /\ bdone j0 j1 R U R' U' p nz.
Proof.
move=> mb; elim: dep R U j0 j1 => [|dep IH] R U j0 j1 l01 l1n ld G; rewrite /=.
  by have -> : (j1 - j0 < mbs)%N by [lia]; exact: block_spec.
case: ifP => lt; first exact: block_spec.
set j2 := ((j0 + j1) %/ 2)%N.
have [h1 h2 h3] : [/\ (j0 < j2)%N, (j2 < j1)%N & (j2 + j2 <= j0 + j1)%N].
  have := leq_trunc_div (j0 + j1) 2; have := ltn_ceil (j0 + j1) (isT : (0 < 2)%N); rewrite -/j2; move: lt mb; move: (j2) => x; clear.
  by move=> lt mb a b; split; move: lt mb a b; lia.
have [|||R1 [U1 [p1 [nz1 [E1 B1]]]]] := IH R U j0 j2 _ _ _ G; try by move: ld h1 h2 h3; clear -l1n; lia.
have [G1 _ _ _ _] := B1.
have [|||R2 [U2 [p2 [nz2 [E2 B2]]]]] := IH R1 U1 j2 j1 _ _ _ G1; try by move: ld h1 h2 h3; clear -l1n; lia.
rewrite E1; cbn [obind]; rewrite E2; cbn [obind].
by apply: merge_spec B1 B2 => //; exact: ltnW.
Qed.
End Core.

(** ** The tasks, run one after the other, do the same *)
Lemma p_col_run fuel R U p j R' U' p' : colmU O fuel R U p j = Ok (R', U', p') ->
  exists n0, forall k : map_t -> prg, run (p_col O fuel j p k) R = do (M, r, n) <- run (k p') R'; Ok (M, r, (n0 + n)%N).
Proof.
elim: fuel R U => [|f IH] R U //; cbn [colmU]; case Ec: (oget R j) => [c| | |] //; cbn [obind].
case: (@nilP _ c) => [E0|ne].
  rewrite E0 => -[<- _ <-]; exists 1%N => k; cbn [p_col run]; rewrite Ec; cbn [obind]; rewrite E0.
  by case: (run _ _) => [[[? ?] ?]| | |].
have nc A (X Y : A) : (if c is [::] then X else Y) = Y by case: (c) ne.
rewrite nc; case El: (lastnz c) => [[i v]| | |] //; cbn [obind].
case Ef: (mfind p i) => [l|]; last first.
  move=> [<- _ <-]; exists 1%N => k; cbn [p_col run]; rewrite Ec; cbn [obind]; rewrite nc El; cbn [lift]; rewrite Ef.
  by case: (run _ _) => [[[? ?] ?]| | |].
case Ek: (oget R l) => [ck| | |] //; cbn [obind]; case El2: (lastnz ck) => [[i2 w]| | |] //; cbn [obind].
case Ea: (odiv O v w) => [a| | |] //; cbn [obind].
case Es: (oset R j _) => [M1| | |] //; cbn [obind]; case: (oget U j) => // uj; case: (oget U l) => // uk; cbn [obind].
case: (oset U j _) => // U1; cbn [obind] => /IH [n0 H]; exists n0.+3 => k.
cbn [p_col run]; rewrite Ec; cbn [obind]; rewrite nc El; cbn [lift]; rewrite Ef; cbn [run]; rewrite Ek; cbn [obind]; rewrite El2; cbn [lift snd].
by rewrite Ea; cbn [lift run]; rewrite Es; cbn [obind]; rewrite H; case: (run _ _) => [[[? ?] ?]| | |].
Qed.

Lemma p_cols_run fuel l R U p nz R' U' p' nz' : colsU O fuel R U l p nz = Ok (R', U', p', nz') ->
  exists n0, forall l2 (k : res -> prg), run (p_cols O fuel (l ++ l2) p nz k) R =
    do (M, r, n) <- run (p_cols O fuel l2 p' nz' k) R'; Ok (M, r, (n0 + n)%N).
Proof.
elim: l R U p nz => [|j l IH] R U p nz.
  by move=> [<- _ <- <-]; exists 0%N => l2 k /=; case: (run _ _) => [[[? ?] ?]| | |].
rewrite /colsU; cbn [ofold]; case E1: (colmU _ _ _ _ _ _) => [[[R1 U1] p1]| | |] //; cbn [obind].
case Ec: (oget R1 j) => [c| | |] //; cbn [obind]; rewrite -/(colsU O fuel R1 U1 l p1 _) => /IH [n0 H].
have [n1 H1] := p_col_run E1; exists (n1 + n0.+1)%N => l2 k /=; rewrite H1 /= Ec /= H.
by case: (run _ _) => [[[a b] c']| | |] //=; rewrite !addnS addSn addnA.
Qed.

(** ** Footprints *)
Notation fits := (@fits svec res).
Definition in_blk j0 j1 (r : res) : Prop := all (fun x => blk j0 j1 x.2) r.1 /\ all (blk j0 j1) r.2.

Lemma mfind_in (Q : pred nat) p i k : all (fun x : nat * nat => Q x.2) p -> mfind p i = Some k -> Q k.
Proof.
rewrite /mfind => A; case E: (filter _ p) => [|x l] //= [<-].
have : x \in [seq y <- p | y.1 == i] by rewrite E mem_head.
by rewrite mem_filter => /andP [_ xp]; have /allP := A; exact.
Qed.

Lemma fits_lift A (S : pred nat) Q (x : outcome A) (k : A -> prg) : (forall a, fits S Q (k a)) -> fits S Q (lift x k).
Proof. by move=> H; case: x => [a| | |] /=; [exact: H| | |]; exact: fits_err. Qed.

Lemma p_col_fits (S : pred nat) Q fuel j p (k : map_t -> prg) : S j -> all (fun x : nat * nat => S x.2) p ->
  (forall p', all (fun x : nat * nat => S x.2) p' -> fits S Q (k p')) -> fits S Q (p_col O fuel j p k).
Proof.
move=> Sj; elim: fuel p => [|f IH] p Sp H /=; first exact: fits_err.
apply: fits_rd => // c; case E: c => [|x y]; first exact: H.
rewrite -E; apply: fits_lift => -[i v]; case Ef: (mfind p i) => [l|]; last by apply: H; rewrite /= Sj.
apply: fits_rd; first exact: mfind_in Ef.
by move=> cl; apply: fits_lift => iw; apply: fits_lift => a; apply: fits_wr => //; exact: IH.
Qed.

Lemma p_cols_fits (S : pred nat) Q fuel l p nz (k : res -> prg) : all S l -> all (fun x : nat * nat => S x.2) p -> all S nz ->
  (forall r, all (fun x : nat * nat => S x.2) r.1 /\ all S r.2 -> fits S Q (k r)) -> fits S Q (p_cols O fuel l p nz k).
Proof.
elim: l p nz => [|j l IH] p nz /= Sl Sp Sn H; first exact: H.
move: Sl => /andP [Sj Sl]; apply: p_col_fits => // p' Sp'; apply: fits_rd => // c.
by apply: IH => //; case: c => // *; rewrite all_rcons Sj.
Qed.

Lemma p_block_fits fuel j0 j1 (k : res -> prg) Q : (j0 <= j1)%N -> (forall r, in_blk j0 j1 r -> fits (blk j0 j1) Q (k r)) ->
  fits (blk j0 j1) Q (p_block O fuel j0 j1 k).
Proof. by move=> l01 H; apply: p_cols_fits => //; apply/allP => i; rewrite mem_iota subnKC. Qed.

Lemma p_dq_fits fuel mbs d j0 j1 : (j0 <= j1)%N -> fits (blk j0 j1) (in_blk j0 j1) (p_dq O fuel mbs d j0 j1).
Proof.
elim: d j0 j1 => [|d IH] j0 j1 l01 /=.
  by apply: p_block_fits => // r h; exact: fits_ret.
case: ifP => _; first by apply: p_block_fits => // r h; exact: fits_ret.
set j2 := ((j0 + j1) %/ 2)%N.
have [h1 h2] : (j0 <= j2)%N /\ (j2 <= j1)%N.
  by rewrite /j2 leq_divRL // muln2 -addnn leq_add2l l01 -ltnS ltn_divLR // muln2 -addnn; split=> //; move: l01; clear; lia.
have s1 j : blk j0 j2 j -> blk j0 j1 j by rewrite /blk; lia.
have s2 j : blk j2 j1 j -> blk j0 j1 j by rewrite /blk; lia.
apply: (@fits_fork _ _ _ (blk j0 j2) (blk j2 j1)) (IH _ _ h1) (IH _ _ h2) _ => //.
  by move=> j; rewrite /blk; lia.
move=> a b [a1 a2] [b1 b2]; apply: p_cols_fits.
- by apply: sub_all b2.
- by apply: sub_all a1 => x; exact: s1.
- by apply: sub_all a2.
- by move=> r h; exact: fits_ret.
Qed.

(** ** The result *)
Section Run.
Variables (m n mu : nat) (M0 : 'M[F]_(m, n)) (U0 : 'M[F]_(mu, n)).
Lemma p_dq_run mbs d R U j0 j1 : (j0 <= j1)%N -> (j1 <= n)%N -> glob M0 U0 R U ->
  exists R' U' p nz k, run (p_dq O m.+2 mbs d j0 j1) R = Ok (R', (p, nz), k) /\ bdone M0 U0 j0 j1 R U R' U' p nz.
Proof.
elim: d R U j0 j1 => [|d IH] R U j0 j1 l01 l1n G; cbn [p_dq].
  have [R' [U' [p [nz [E B]]]]] := block_spec l01 l1n G; have [k /(_ [::]) H] := p_cols_run E; rewrite cats0 in H.
  by exists R', U', p, nz, k; rewrite /p_block H /= addn0.
case: ifP => _.
  have [R' [U' [p [nz [E B]]]]] := block_spec l01 l1n G; have [k /(_ [::]) H] := p_cols_run E; rewrite cats0 in H.
  by exists R', U', p, nz, k; rewrite /p_block H /= addn0.
set j2 := ((j0 + j1) %/ 2)%N.
have [h1 h2] : (j0 <= j2)%N /\ (j2 <= j1)%N.
  by rewrite /j2 leq_divRL // muln2 -addnn leq_add2l l01 -ltnS ltn_divLR // muln2 -addnn; split=> //; move: l01; clear; lia.
have [R1 [U1 [p1 [nz1 [k1 [E1 B1]]]]]] := IH R U j0 j2 h1 (leq_trans h2 l1n) G.
have [G1 _ _ _ _] := B1.
have [R2 [U2 [p2 [nz2 [k2 [E2 B2]]]]]] := IH R1 U1 j2 j1 h2 l1n G1.
have [R' [U' [p [nz [E B]]]]] := merge_spec h1 h2 l1n B1 B2; have [k /(_ [::]) H] := p_cols_run E; rewrite cats0 in H.
do 5 eexists; split; last exact: B.
by cbv zeta; cbn [run]; rewrite E1; cbn [obind]; rewrite E2; cbn [obind fst snd]; rewrite H; cbn [obind run].
Qed.

Lemma bdone_reduced R U R' U' p nz : bdone M0 U0 0 n R U R' U' p nz -> reduced (mxc m n R').
Proof.
move=> [[_ WR _ _] [_ P] _ _ _] i j j' /(last_ind_low i (nth_wf j WR)) L /(last_ind_low i (nth_wf j' WR)) L'.
have h : mfind p i = Some (j : nat) by apply/P; rewrite /blk ltn_ord.
have h' : mfind p i = Some (j' : nat) by apply/P; rewrite /blk ltn_ord.
by apply: val_inj; move: h; rewrite h' => -[].
Qed.

(** the return vector does not depend on the order in which the map is read *)
Lemma fill_spec (p en : map_t) : uniq (unzip1 p) -> all (fun x : nat * nat => (x.1 < m)%N) p -> perm_eq en p ->
  exists2 v, fill_p2c m en = Ok v & size v = m /\ forall i, (i < m)%N -> nth None v i = mfind p i.
Proof.
move=> u lt pe.
have ue : uniq (unzip1 en) by rewrite (perm_uniq (perm_map fst pe)).
have le : all (fun x : nat * nat => (x.1 < m)%N) en by rewrite (perm_all _ pe).
have fe i : mfind en i = mfind p i.
  rewrite /mfind; have pf := perm_filter (fun x : nat * nat => x.1 == i) pe.
  have : (size [seq x <- p | x.1 == i] <= 1)%N.
    rewrite size_filter -(count_map fst (pred1 i)); have := count_uniq_mem i u; rewrite /unzip1 => ->; exact: leq_b1.
  case E: [seq x <- p | x.1 == i] pf => [|x [|y l]] // pf _; first by rewrite (perm_nilP pf).
  by rewrite (perm_small_eq _ pf).
have H (l : map_t) v0 : size v0 = m -> uniq (unzip1 l) -> all (fun x : nat * nat => (x.1 < m)%N) l ->
  exists2 v, ofold (fun v x => oset v x.1 (Some x.2)) v0 l = Ok v &
    size v = m /\ forall i, (i < m)%N -> nth None v i = if mfind l i is Some k then Some k else nth None v0 i.
  elim: l v0 => [|x l IH] v0 s0; first by exists v0.
  move=> /= /andP [nx ul] /andP [lx al]; rewrite (oset_Ok None) ?s0 //; cbn [obind].
  have [|v Ev [sv Hv]] := IH (set_nth None v0 x.1 (Some x.2)) _ ul al.
    by rewrite size_set_nth s0; apply/maxn_idPr.
  exists v => //; split=> // i li; rewrite Hv // nth_set_nth /=.
  rewrite [in RHS](_ : x :: l = mput l x.1 x.2) ?mfind_put; last by case: (x).
  rewrite eq_sym; case: eqP => [e1|_] //; rewrite /mfind.
  case E: [seq y <- l | y.1 == i] => [|y l'] //=.
  have : y \in [seq y <- l | y.1 == i] by rewrite E mem_head.
  by rewrite mem_filter => /andP [/eqP e2 yl]; case/negP: nx; rewrite e1 -e2; apply: map_f.
have [v Ev [sv Hv]] := H en (nseq m None) (size_nseq _ _) ue le; exists v => //; split=> // i li.
by rewrite Hv // fe nth_nseq li; case: (mfind p i).
Qed.

Lemma bdone_keys R U R' U' p nz : bdone M0 U0 0 n R U R' U' p nz -> uniq (unzip1 p) /\ all (fun x : nat * nat => (x.1 < m)%N) p.
Proof.
move=> [[_ WR _ _] [u P] _ _ _]; split=> //; apply/allP => x xp.
have : mfind p x.1 <> None.
  by rewrite /mfind; have : x \in [seq y <- p | y.1 == x.1] by [rewrite mem_filter eqxx]; case: (filter _ _).
case E: (mfind p x.1) => [k|] // _; have [_ L] := (P _ _).1 E; exact: last_ind_lt (nth_wf _ WR) L.
Qed.
End Run.
End P.
