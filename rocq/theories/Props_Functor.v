(** C44: from diagrams of spaces to barcodes: Chain, Hom and barcode (multigraph/functors.hpp, quiver/sparse.hpp).
    The specification is in S_Functor.v.  [ordn], [orde] are the orders in which the iterations of the parallel loops over
    nodes and edges run; [sch], [nthreads] the schedule and thread count of the divide and conquer barcode. *)
From mathcomp Require Import all_ssreflect all_fingroup all_algebra zify.
From Verif Require Import Outcome P_Outcome M_SparseVec M_Perm M_ColMatrix M_CSC M_Reduce M_Homology M_Induced M_Simplicial M_SimplicialMap
  S_Linalg S_Homology S_Induced S_Simplicial S_SimplicialMap P_SparseVec P_Inv P_ScBuild P_ScBoundary P_SimplicialMap
  P_Induced M_Fact S_Fact P_Den P_Reduce M_Quiver S_Quiver P_Quiver7
  M_Functor S_Functor P_Functor Props_Simplicial Props_ScBoundary Props_SimplicialMap Props_Quiver.
Set Implicit Arguments.
Unset Strict Implicit.
Unset Printing Implicit Defensive.
Import GRing.Theory.
Local Open Scope ring_scope.

Section F.
Variable F : fieldType.
Notation O := (ops_of F).
Notation cdgm := (dgm (seq (cmat F)) (seq (cmat F))).
Implicit Types D : cdgm.

(** Hom(D, k) and then barcode, by any of the algorithms, is the interval decomposition of the homology of the diagram:
    arrows in both directions, any order of the loop iterations, any number of threads *)
Theorem C44_barcode m D k ordn orde nthreads sch : (0 < m)%N -> path_of_chains m D -> (k < size (nodeC D 0))%N ->
  perm_eq ordn (iota 0 m.+1) -> perm_eq orde (iota 0 m) ->
  exists HD, [/\ Hom O k ordn orde D = Ok HD,
    exists2 ps, barcode_dc O nthreads sch (quiver_of HD) k = Ok ps & homology_intervals m k D ps,
    exists2 ps, barcode_rightward O (quiver_of HD) k = Ok ps & homology_intervals m k D ps &
    exists2 ps, barcode_leftward O (quiver_of HD) k = Ok ps & homology_intervals m k D ps].
Proof.
move=> m0 pth kC pn pe; have dq := denq_Hom pth kC.
eexists; split; first exact: (Hom_ok pth pn pe kC).
- have [ps e h] := C43_divide_conquer k nthreads sch m0 dq; exists ps => //; exact: to_homology_intervals.
- have [ps e h] := C43_rightward k m0 dq; exists ps => //; exact: to_homology_intervals.
- have [ps e h] := C43_leftward k m0 dq; exists ps => //; exact: to_homology_intervals.
Qed.

(** the order of the iterations does not matter *)
Theorem C44_order m D k ordn orde ordn' orde' : path_of_chains m D -> (k < size (nodeC D 0))%N ->
  perm_eq ordn (iota 0 m.+1) -> perm_eq orde (iota 0 m) -> perm_eq ordn' (iota 0 m.+1) -> perm_eq orde' (iota 0 m) ->
  Hom O k ordn orde D = Hom O k ordn' orde' D.
Proof. by move=> pth kC pn pe pn' pe'; rewrite (Hom_ok pth pn pe kC) (Hom_ok pth pn' pe' kC). Qed.

(** the pairs count the zigzag ranks on homology, and are determined by them *)
Theorem C44_zigzag_rank m k D ps s n : path_of_chains m D -> (k < size (nodeC D 0))%N -> homology_intervals m k D ps -> (n + s <= m)%N ->
  hzrank D k s n = count (fun p => (p_birth p <= s)%N && (n + s <= p_death p)%N) ps.
Proof. exact: hzrank_count. Qed.
Theorem C44_unique m k D ps ps' : path_of_chains m D -> (k < size (nodeC D 0))%N ->
  homology_intervals m k D ps -> homology_intervals m k D ps' ->
  perm_eq [seq (p_birth p, p_death p) | p <- ps] [seq (p_birth p, p_death p) | p <- ps'].
Proof.
move=> pth kC h h'.
have R qs : homology_intervals m k D qs -> all (fun p => p_birth p <= p_death p <= m)%N qs.
  by move=> [d [Z [lab [_ _ _ hp]]]]; apply/(all_nthP (PPair 0 0 0 0 0)) => b lb; have [] := hp b lb.
apply: (counts_perm (R _ h) (R _ h')) => s t st tm.
have := hzrank_count (s := s) (n := (t - s)%N) pth kC h; have := hzrank_count (s := s) (n := (t - s)%N) pth kC h'.
by rewrite subnK // => /(_ tm) e /(_ tm); rewrite e.
Qed.

(** in particular the pairs alive at node i are as many as the Betti number of its complex *)
Theorem C44_betti m k D ps i : path_of_chains m D -> (k < size (nodeC D 0))%N -> homology_intervals m k D ps -> (i <= m)%N ->
  count (fun p => alive p i) ps = (\rank (cycles (nodeC D i) k) - \rank (boundaries (nodeC D i) k))%N.
Proof. by move=> pth kC h im; have := hzrank_count (s := i) (n := 0) pth kC h im; rewrite /hzrank /= => ->. Qed.

(** when all edges from s to n + s point right, the zigzag rank is the rank of the composite chain map on homology *)
Lemma hreach_right D k s n (W : 'M[F]_(ncell (nodeC D s) k)) m : path_of_chains m D -> (k < size (nodeC D 0))%N -> (n + s <= m)%N ->
  (forall j, (s <= j < n + s)%N -> edge_at D j = (j, j.+1)) -> (boundaries (nodeC D s) k <= W)%MS ->
  (hreach n W :=: W *m (compF D k s n)^T + boundaries (nodeC D (n + s)) k)%MS.
Proof.
move=> pth kC + + BW; elim: n => [|n IH] nm H.
  rewrite /= trmx1 mulmx1; apply: eqmx_sym; apply/eqmxP; by rewrite addsmx_sub submx_refl BW addsmxSl.
have {}IH : (hreach n W :=: W *m (compF D k s n)^T + boundaries (nodeC D (n + s)) k)%MS.
  by apply: IH (ltnW nm) _ => j /andP[a b]; apply: H; rewrite a addSn ltnS ltnW.
have e := H (n + s)%N; rewrite leq_addl addSn ltnSn in e; have {}e := e isT.
rewrite /= /hpush e eqxx.
have cm : chain_map (nodeC D (n + s)) (nodeC D (n + s).+1) (edgeF D (n + s)).
  have [_ _ _ _ h] := pth; case: (h (n + s)%N nm) => -[e' cm] //; move: e'; rewrite e => -[]; clear; lia.
have s0 : (k < size (nodeC D (n + s)))%N by rewrite (path_size pth) // ltnW.
have mb := map_boundaries cm s0.
rewrite trmx_mul mulmxA; set f := (fmx _ _ _ _)^T in mb *.
apply/eqmxP/andP; split; rewrite addsmx_sub addsmxSr andbT.
  apply: submx_trans (_ : ((W *m (compF D k s n)^T + boundaries (nodeC D (n + s)) k)%MS *m f <= _)%MS).
    by apply: submxMr; rewrite IH.
  by rewrite addsmxMr addsmx_sub addsmxSl (submx_trans mb (addsmxSr _ _)).
apply: submx_trans (addsmxSl _ _); apply: submxMr; rewrite IH; exact: addsmxSl.
Qed.
Theorem C44_composite_rank m k D s n : path_of_chains m D -> (k < size (nodeC D 0))%N -> (n + s <= m)%N ->
  (forall j, (s <= j < n + s)%N -> edge_at D j = (j, j.+1)) ->
  hzrank D k s n = hom_rank (compF D k s n).
Proof.
move=> pth kC nm H; have sm : (s <= m)%N by apply: leq_trans nm; rewrite leq_addl.
have cw : chain_wf (nodeC D s) by have [_ _ _ c _] := pth; exact: c.
have s0 : (k < size (nodeC D s))%N by rewrite (path_size pth).
have BK : (boundaries (nodeC D s) k <= cycles (nodeC D s) k)%MS.
  by rewrite /boundaries genmxE /cycles sub_kermx -trmx_mul bd_bd1 // trmx0.
rewrite /hzrank (hreach_right pth kC nm H BK) (hreach_right pth kC nm H (submx_refl _)) /hom_rank.
suff sB : (boundaries (nodeC D s) k *m (compF D k s n)^T <= boundaries (nodeC D (n + s)) k)%MS by rewrite (addsmx_idPr sB).
elim: n nm H => [|n IH] nm H; first by rewrite trmx1 mulmx1.
have e := H (n + s)%N; rewrite leq_addl addSn ltnSn in e; have {}e := e isT.
have cm : chain_map (nodeC D (n + s)) (nodeC D (n + s).+1) (edgeF D (n + s)).
  have [_ _ _ _ h] := pth; case: (h (n + s)%N nm) => -[e' cm] //; move: e'; rewrite e => -[]; clear; lia.
have s1 : (k < size (nodeC D (n + s)))%N by rewrite (path_size pth) // ltnW.
rewrite /= trmx_mul mulmxA; apply: submx_trans (map_boundaries cm s1); apply: submxMr; apply: IH (ltnW nm) _.
by move=> j /andP[a b]; apply: H; rewrite a addSn ltnS ltnW.
Qed.

(** Hom(D, topd) and barcode in all dimensions *)
Theorem C44_all_dimensions m D topd ordn orde nthreads sch (K := if topd then size (nodeC D 0) else (size (nodeC D 0)).-1) :
  (0 < m)%N -> path_of_chains m D -> (0 < K)%N -> perm_eq ordn (iota 0 m.+1) -> perm_eq orde (iota 0 m) ->
  exists HD pss, [/\ Hom_all O topd ordn orde D = Ok HD, size pss = K,
    barcode_all (barcode_dc O nthreads sch) (mquiver_of HD) = Ok (flatten pss) &
    forall k, (k < K)%N -> homology_intervals m k D (nth [::] pss k)].
Proof.
move=> m0 pth K0 pn pe; have dq := denqs_Hom pth topd.
have [pss [s e h]] := C43_all_dimensions nthreads sch m0 dq.
eexists; exists pss; split; [exact: (Hom_all_ok pth pn pe K0)|exact: s|exact: e|move=> k kK].
apply: (to_homology_intervals pth); last exact: h.
by apply: leq_trans kK _; rewrite /K; case: (topd) => //; exact: leq_pred.
Qed.
(** without topd, complexes with vertices only have no dimension to compute *)
Theorem C44_no_dimension m D ordn orde : path_of_chains m D -> size (nodeC D 0) = 1%N -> Hom_all O false ordn orde D = Throw.
Proof. by move=> pth; exact: (Hom_all_none pth). Qed.

(** ** simplicial complexes *)
Let conv (z : int) : F := z%:~R.

(** between complexes of the same dimension, the inclusion is a chain map too *)
Lemma inclusion_chain_map X Y Fs C (D : seq (cmat F)) : built X -> built Y -> sc_dims X = sc_dims Y -> sc_inclusion X Y = Ok Fs ->
  sc_chain conv X = Ok C -> sc_chain conv Y = Ok D -> chain_map C D (chain_of conv Fs).
Proof.
move=> bX bY dXY E EC ED; have dd : (sc_dims X <= sc_dims Y)%N by rewrite dXY.
have cm := C27_inclusion_commutes bX bY dd E EC ED; move: bX bY => /built_inv [cl iv d0] /built_inv [clY ivY dY].
have [EF sub] := sc_incl_inv iv ivY dd E.
move: EC ED cm; rewrite (chain_ok F iv d0) (chain_ok F ivY dY) => -[<-] [<-] cm; split.
- by rewrite !size_map !size_iota.
- by rewrite EF !size_map !size_iota.
- move=> k; rewrite size_map size_iota => lk; rewrite !ncell_chain -?dXY // EF !nth_imat //; split=> //.
  rewrite /cm_wf /= size_map eqxx all_map; apply/allP => s si.
  by rewrite /= /sv_wf /= !andbT index_mem (sub _ _ si) /= oner_neq0.
- by move=> k; rewrite size_map size_iota => lk; exact: cm.
- move=> z _; rewrite /cycle; have -> : bd [seq bmat F clY k | k <- iota 0 (sc_dims Y)] 0 = 0; last by rewrite mul0mx.
  apply/matrixP => i j; rewrite !mxE; move: (nat_of_ord i) (nat_of_ord j) => a b.
  by rewrite bmx_chain //= nth_nseq; case: ifP => _; rewrite coef_nil.
Qed.

(** a path of simplicial complexes of the same dimension, every edge a SimplicialMap of a vertex map or an inclusion *)
Definition map_between (X Y : scx) (Fs : seq (cmat int)) : Prop :=
  (exists f0, simplicial_map X Y f0 = Ok Fs) \/ sc_inclusion X Y = Ok Fs.
Definition path_of_complexes (m : nat) (DX : dgm scx (seq (cmat int))) : Prop :=
  let X i := nth (sc_new 0) (d_node DX) i in
  [/\ size (d_node DX) = m.+1, size (d_edata DX) = m, size (d_elist DX) = m,
      forall i, (i <= m)%N -> [/\ built (X i), nondegenerate (X i) & sc_dims (X i) = sc_dims (X 0%N)] &
      forall j, (j < m)%N ->
        (nth (0, 0)%N (d_elist DX) j = (j, j.+1) /\ map_between (X j) (X j.+1) (nth [::] (d_edata DX) j)) \/
        (nth (0, 0)%N (d_elist DX) j = (j.+1, j) /\ map_between (X j.+1) (X j) (nth [::] (d_edata DX) j))].

Theorem C44_chain m DX ordn orde : path_of_complexes m DX -> perm_eq ordn (iota 0 m.+1) -> perm_eq orde (iota 0 m) ->
  exists D, [/\ ChainFunctor conv ordn orde DX = Ok D, path_of_chains m D,
    forall i, (i <= m)%N -> sc_chain conv (nth (sc_new 0) (d_node DX) i) = Ok (nodeC D i) /\ size (nodeC D i) = sc_dims (nth (sc_new 0) (d_node DX) 0%N) &
    d_elist D = d_elist DX /\ forall j, (j < m)%N -> edgeF D j = chain_of conv (nth [::] (d_edata DX) j)].
Proof.
move=> [s1 s2 s3 hn he] pn pe; set X := fun i => nth (sc_new 0) (d_node DX) i in hn he.
pose CN i := okd [::] (sc_chain conv (X i)).
have CE i : (i <= m)%N -> [/\ sc_chain conv (X i) = Ok (CN i), size (CN i) = sc_dims (X 0%N) & chain_wf (CN i)].
  by move=> im; have [b n dm] := hn i im; have [C [e sC w _ _]] := C24_chain F b n; rewrite /CN /conv e /= sC dm.
exists (Diagram (mkseq CN m.+1) (mkseq (fun j => chain_of conv (nth [::] (d_edata DX) j)) m) (d_elist DX)).
have nE i : (i <= m)%N -> nth [::] (mkseq CN m.+1) i = CN i by move=> im; rewrite nth_mkseq.
split.
- rewrite /ChainFunctor (@functorE _ _ _ _ _ _ (sc_new 0) [::] _ _ _ _ _ CN (fun j => chain_of conv (nth [::] (d_edata DX) j))) ?s1 ?s2 ?s3 //.
    by move=> i im; have [e _ _] := CE i im.
  by move=> j jm; case: (he j jm) => -[-> _] /=; split=> //=; rewrite ltnS ?(ltnW jm).
- split; rewrite ?size_mkseq //; first by move=> i im; rewrite /nodeC; cbn [d_node]; rewrite nE //; case: (CE i im).
  move=> j jm; rewrite /nodeC /edgeF /edge_at; cbn [d_node d_edata d_elist]; rewrite !nE ?(ltnW jm) // nth_mkseq //.
  have [b n dm] := hn _ (ltnW jm); have [b' n' dm'] := hn _ jm; have [e _ _] := CE _ (ltnW jm); have [e' _ _] := CE _ jm.
  case: (he j jm) => -[-> mb]; [left|right]; split=> //; case: mb => [[f0 mb]|mb].
  + exact: (C27_chain_map b b' (etrans dm (esym dm')) mb e e').
  + exact: (inclusion_chain_map b b' (etrans dm (esym dm')) mb e e').
  + exact: (C27_chain_map b' b (etrans dm' (esym dm)) mb e' e).
  + exact: (inclusion_chain_map b' b (etrans dm' (esym dm)) mb e' e).
- by move=> i im; rewrite /nodeC; cbn [d_node]; rewrite nE //; case: (CE i im).
- by split=> // j jm; rewrite /edgeF /= nth_mkseq.
Qed.

(** so the whole pipeline Chain, Hom, barcode works on such diagrams, in every dimension of the complexes *)
Theorem C44_simplicial m DX k ordn orde ordn' orde' nthreads sch : (0 < m)%N -> path_of_complexes m DX ->
  (k < sc_dims (nth (sc_new 0) (d_node DX) 0%N))%N ->
  perm_eq ordn (iota 0 m.+1) -> perm_eq orde (iota 0 m) -> perm_eq ordn' (iota 0 m.+1) -> perm_eq orde' (iota 0 m) ->
  exists D HD ps, [/\ ChainFunctor conv ordn orde DX = Ok D, path_of_chains m D, Hom O k ordn' orde' D = Ok HD,
    barcode_dc O nthreads sch (quiver_of HD) k = Ok ps & homology_intervals m k D ps].
Proof.
move=> m0 pX kX pn pe pn' pe'; have [D [e pth hn _]] := C44_chain pX pn pe.
have kC : (k < size (nodeC D 0))%N by have [_ ->] := hn 0%N (leq0n _).
have [HD [eH [ps eb hb] _ _]] := C44_barcode nthreads sch m0 pth kC pn' pe'.
by exists D, HD, ps.
Qed.
End F.

(** the path 0-1-2 included in the triangle's boundary, the edge 0-1 folded onto it from the other side *)
Definition ex_circle : scx := if sc_add_recursive ex_fpath [:: 0; 2]%N is Ok (X, _) then X else sc_new 0.
Definition ex_incl : seq (cmat int) := okd [::] (sc_inclusion ex_fpath ex_circle).
Definition ex_fold : seq (cmat int) := okd [::] (simplicial_map ex_edge ex_circle [:: 2; 1]%N).
Definition ex_dgm : dgm scx (seq (cmat int)) :=
  Diagram [:: ex_fpath; ex_circle; ex_edge] [:: ex_incl; ex_fold] [:: (0, 1); (2, 1)]%N.
Notation Qf := rat_fieldType.
Definition ex_pipeline (k : nat) : outcome (seq (nat * nat)) :=
  do D <- ChainFunctor (fun z : int => z%:~R : Qf) [:: 2; 0; 1]%N [:: 1; 0]%N ex_dgm;
  do HD <- Hom (ops_of Qf) k [:: 1; 0; 2]%N [:: 0; 1]%N D;
  exbars (barcode_dc (ops_of Qf) 8 (fun _ _ => true) (quiver_of HD) k).
Theorem C44_nonvacuous :
  [/\ path_of_complexes 2 ex_dgm, exists D : dgm (seq (cmat Qf)) (seq (cmat Qf)), path_of_chains 2 D,
      ex_pipeline 0 = Ok [:: (0, 2)]%N & ex_pipeline 1 = Ok [:: (1, 1)]%N].
Proof.
have [bP bE nP _ _] := C27_nonvacuous.
have nE : nondegenerate ex_edge.
  have [X [r E]] : exists X r, sc_add_recursive (sc_new 0) [:: 0; 1]%N = Ok (X, r) by vm_compute; do 2 eexists.
  have -> : ex_edge = X by rewrite /ex_edge E.
  exact: (@C24_nondegenerate_add_recursive _ [:: 0; 1]%N _ _ (built_new 0) (@C24_nondegenerate_new 0) isT isT E).
have [bC nC] : built ex_circle /\ nondegenerate ex_circle.
  have [X [r E]] : exists X r, sc_add_recursive ex_fpath [:: 0; 2]%N = Ok (X, r) by vm_compute; do 2 eexists.
  have -> : ex_circle = X by rewrite /ex_circle E.
  by split; [apply: built_add_recursive E|exact: (@C24_nondegenerate_add_recursive _ [:: 0; 2]%N _ _ bP nP isT isT E)].
have pX : path_of_complexes 2 ex_dgm.
  split; [by []|by []|by []| |].
    by move=> [|[|[|i]]] // _; split=> //; vm_compute.
  move=> [|[|j]] // _; [left|right]; split=> //.
    by right; rewrite /= /ex_incl; vm_compute.
  by left; exists [:: 2; 1]%N; rewrite /= /ex_fold; vm_compute.
split; [exact: pX| |vm_compute; reflexivity|vm_compute; reflexivity].
have [D [_ h _ _]] := C44_chain Qf pX (perm_refl (iota 0 3)) (perm_refl (iota 0 2)).
by exists D.
Qed.
