# Formal model of CompTop/BATS in Rocq (Coq 8.16.1)

## Layout (rocq/theories)

* `Outcome.v`      – `outcome A := Ok a | Throw | UB | OutOfFuel`: what a C++ call can do.
* `M_*.v`          – models: computable Gallina, no proofs, every definition cites file:lines of /repo.
* `S_*.v`          – specifications, independent of the models' helpers (mathcomp matrices, ranks,
                     sets, plain functions).
* `P_*.v`          – proofs.
* `Props_*.v`      – the property theorems (names `Cnn_*`).
* `Ex_*.v`         – concrete non-trivial instances of the hypotheses (non-vacuity), witnesses of faults.

The algebraic models are parametric in a record `fops T` of field operations, exactly as the C++ is
templated over the value type.  Theorems instantiate it with an arbitrary mathcomp `fieldType`, so
the specification side uses mathcomp's matrices (`'M[F]_(m,n)`, `*m`, `\rank`, `unitmx`).  `ModP` and
`Rational` are modelled separately at machine level and shown to be such fields.

Loops become structural recursion or explicit fuel; exhausting the fuel is the distinct outcome
`OutOfFuel` which the theorems exclude.  Out-of-range accesses, signed overflow and dereferenced end
iterators are the outcome `UB`; C++ exceptions are `Throw`.

## Trusted base

* Coq 8.16.1's kernel (with `vm_compute` in some concrete examples).
* The reading of the C++ in the `M_*.v` files.  Nothing is extracted or run against the C++.
* `Print Assumptions` on the theorems lists no axiom of logic (no classical axiom, no functional
  extensionality, no choice).  What it lists are constants that mathcomp and Coq's ssreflect plugin
  seal behind module signatures and for which the library itself gives the (transparent) implementation:
  `BigOp.bigop/bigopE`, `Finite.EnumDef.*`, `SubsetDef.*`, `CardDef.*`, `FinfunDef.*`, `SetDef.*`, `Imset.*`,
  `FinTuple.*`, `PermDef.*`, `generic_quotient.{Pi,MPi,Repr}.*`, `ssrunder.Under_rel.*`.  vcheck prints them
  as `library_axioms`.
* No axioms, `Variable`/`Hypothesis` outside sections, functors, module types or disabled checks here.

## Simplifications made everywhere

* `size_t` indices are unbounded naturals (no 2^64 overflow), except where the overflow is the point.
* `std::sort` is modelled as a stable sort; `std::lower_bound` as a linear scan (same result on sorted data).
* Hash maps and ordered maps are functions or association lists.
* Real filtration values are elements of an arbitrary total order (no NaN).
* Not modelled: floating point arithmetic, memory allocation, performance, timing, random generation,
  printing for humans, Python bindings.

## Per-property plan

See properties.jsonl for the statements, MANIFEST.json for theorem names.

| id | modelled | proof |
|----|----------|-------|
| C01,C02,C03 | ModP on Z with 32-bit int/unsigned conversions | modular arithmetic, search argument for inv; false parts of the code proved as counterexamples |
| C04 | Rational over a w-bit signed integer type, overflow is UB | gcd invariants |
| C05,C06 | SparseVector as a list of (index,value) | induction on the merge |
| C07-C12 | ColumnMatrix as list of columns | denotation into mathcomp matrices; wrong operators proved wrong |
| C13 | reduce_matrix_standard with fuel | invariant + measure (pivot strictly decreases) |
| C14,C15,C16 | ReducedChainComplex constructors | rank of lower-left submatrices; lock-step simulation for compression |
| C17 | reduce_matrix_extra | refuted by witness |
| C18 | reduce_block_dq, partial_reduce_parallel as programs of a task language (fork/join, one column = one cell) with small-step interleaving semantics; accesses are sequentially consistent, which is what C++ gives to race-free programs, and absence of races is proved; reduce_matrix(M,U,dq) sequential | disjoint footprints => every schedule ends in the result of the sequential run after the same number of steps, then the invariant of C13/C15 |
| C19 | permute_matrices + update_reduction2 | factorisation invariant, C15 |
| C20 | find_preferred_representative, get_preferred_representative, chain_preferred_representative | representatives modulo boundaries; refutation after compression by witness |
| C21 | induced_map | the matrix of the map on homology in the two bases, identity, composition, rank |
| C22 | persistence_pairs | counting + rank of lower-left submatrices |
| C23,C24,C28 | SimplicialComplex with trie, Filtration | invariant over operation lists |
| C25 | CubicalComplex with its trie: add, add_recursive, set_dimension, skeleton, generate_cube, boundary_csc, ChainComplex(X) | invariant over operation lists; cubes as lists of intervals, boundary by induction on the intervals |
| C26 | LightSimplicialComplex: keys, find/add/add_recursive, boundaries, ChainComplex; the index type has W values, the read of `_offset[-1]` is a parameter (undefined, or any number) | positional notation, invariant over operation lists; overflow, vertex range and strict-standard faults proved |
| C27 | SimplicialMap(X,Y,f0), SimplicialMap(X,Y), CubicalMap(X,Y), CellularMap::identity, ChainMap(CellularMap) | sign of the sorting permutation is alternating under face deletion (P_Sign); columns as delta functions |
| C29,C30,C31,C32 | util functions | induction, bijections on inversion sets |
| C33 | union_find_pairs, rips_union_find_pairs, binom_to_inds (square roots exact, float conversion a parameter) | forest invariant with path compression; stages of the graph against ranks; refuted where the code mixes orders |
| C34 | text writers/parsers over character lists, `getline`/`stoi` semantics, 32-bit int | round trip by induction on decimal printing and on tokens/lines; int and ModP matrices and sorted complexes come back; rationals lose denominators; CellularMap files never load; numbers >= 2^31 throw; every file either loads or throws |
| C35 | update_filtration | refutation witnesses |
| C36 | update_basis_general with insert_rows, insert_columns, perm_to_the_end, extension_perm; W = number of values of size_t, the read past the end in insert_rows is a parameter | the factorisation R = B U carried through permuting, erasing and inserting entry by entry; faults (added vertices, maxdim 0, other characteristics, past-the-end read) proved |
| C37 | remove_extra_cycles, to/from_hom_basis | factorisation invariant |
| C38 | sparsify_basis, coeff_intersection | factorisation invariant; refutations by witness |
| C39 | SparseTrie::operator= and the implicit SimplicialComplex::operator= | trie invariant; dangling pointer as a flag on the node |
| C40 | FlagComplex, FlagFiltration, its _extension and Complete variants, Rips complexes and filtrations; distances a parameter, std::sort a stable sort by operator< | the recursion is a run over an explicit list of simplices; invariant of the edge loop: neighbour lists = graph so far, values = last edge inside the simplex |
| C41 | CSCMatrix: constructor, getval, submatrix, block_select, gemm, sum on the three arrays | arrays = concatenated columns (pack); sort_sum_reduce from C31 |
| C42 | sparse_fact.hpp in full (LEUP ... UQL, inv, the four commutations, CU_inplace), axpy with an index list, row_scale, col_inv_scale | loop invariant of the elimination (L E' U P = A with pivot bookkeeping); transposition/reversal reduce the variants to LEUP; a loop rule for CU_inplace |
| C43 | quiver/sparse.hpp: the pass_* operations, both sweeps in both directions, divide and conquer (mutual recursion with fuel, either order of the two OpenMP tasks per level), barcode_from_barcode_form, bars_to_pairs, extract_dimension, barcode (M_Quiver) | the factors stored on the edges describe the diagram after base changes at the nodes (P_Quiver1-4, 8, 9: edge states with the triangular/permutation factors still to be passed on; a pivot matrix factored again keeps its inner triangular factor trivial); bars as a label invariant and rescaling (P_Quiver5-6); zigzag ranks are counted by the decomposition, hence uniqueness (P_Quiver7) |
| C44 | multigraph/functors.hpp: ChainFunctor, Hom(D,k), Hom(D,topd) (M_Functor.v), the parallel loops in an arbitrary order of iterations, composed with the models of C21, C24, C27 and C43 | the loops fill the target diagram independently of the order; induced maps give a representation isomorphic to homology; interval decomposition transported to cycles; zigzag ranks on chain level by pushing spaces through homology bases |
| C45 | DGVectorSpace, ReducedDGVectorSpace, their filtered versions and the DG induced map (M_DG.v); update_basis(_general) of DG classes and FilteredDGVectorSpace::update_filtration are not modelled | degree +1 differentials are anti-transposes of degree -1 ones after sorting; pivots of an anti-transpose are the reflected pivots, so pairs agree; updates keep an R=DU invariant; induced maps by reduction to C21 on the complex extended by a zero group; counterexamples for degree +1 over F2 |
| C46 | zigzag_barcode_reduction with reduce_column (without extra_reduction_flag), the two insertion maps, apply_basis, update_bars, ReducedChainComplex::initialize (M_Zigzag.v); hash maps of pivots as association lists; std::numeric_limits max is a parameter | invariant per event: restricted to the present cells R = D U with U upper triangular, p2c the pivots, I the homology basis; recorded matrices are the maps induced by inclusion; the sweep of PLEU/UELP factors leaves pivot matrices after pushing upper triangular factors back (P_Zig1), and update_bars follows the bars of the C43 decomposition (P_Zig2, P_Zig9) |
| C47 | M_ZigzagFilt: ZigzagChainComplex constructor with _correct_indices, prepare_ChainComplex (generic, simplicial with lex_cmp/rlex_cmp), barcode; std::sort is a parameter that satisfies its contract | closed form of the constructor (P_ZF2-3); the complex of copies is a chain complex that maps onto the original one (P_ZF4); for a sorted event list the copies present are isomorphic to the subcomplex alive (P_ZF1, P_ZF5); both comparison pairs are strict weak orders with face/coface compatibility (P_ZF6-7); C46 on the permuted complex, transported back |
| C48 | M_Extension: lower_star_filtration (simplicial, 2d/3d cubical), extend_zigzag_filtration, lower_star_backwards | max/min folds characterised by t <= / <= t (P_Ext1); the filtration is the constructor fb_vals of S_Filtration (Filtration(C, vals) with aligned values), so C28 applies; the zigzag values meet filtration_ok, so C47 applies |
| C49 | `M_Nerve`: nerve.hpp (recursive intersection), neighborhood.hpp (matrix and radius versions), dowker.hpp (edge parameters, flag edges, Dowker/Witness filtrations, strong witness complex, get_m, the in-place shift with its wrong loop bound), rips_cover.hpp, dowker_cover.hpp | `P_Nerve`, `Props_Nerve`, `Props_Witness`: the insertion order of the nerve is a list in reverse lexicographic order closed under faces, so each sc_add succeeds; the filtrations through a general flag-of-a-graph lemma on C40; witness complex by induction over dimension; the shift by an exact state invariant |
| C50 | `M_Landmark`: landmark.hpp (all greedy loops with fuel, first maximum, the unset last Hausdorff distance, approx_center) and enclosing_radius | `Props_Landmark`: the distance vector is characterised by comparisons with every threshold; loop invariant carries Hausdorff and farthest-point facts for every prefix; pigeonhole for the factor two; cone through C40's Rips theorem |
| C51 | M_Cover: cover.hpp (uniform_interval_cover over rationals with a parameter for the conversion of negative values; coordinate_projection not modelled), inclusion.hpp, set_union/set_intersection, firstk (any permutation partial_sort may leave), Nerve and Rips of functors.hpp with any order of the parallel iterations | loop invariants on the covers; the diagram after k rounds in closed form; C27_defined for the edges, with P_Dims for the dimensions of the complexes; then C44_simplicial for the pipeline |
| C52 | M_Poly: polynomial.hpp (printing excluded) and extended_euclidean of pid.hpp, generic in the operators, instantiated for int (unbounded, truncated division) and polynomials; Smith form and rcf.hpp not modelled | each operation equals the coefficient list of the mathcomp polynomial; loop invariant and degree drop for divrem; invariant (Bezout rows, determinant (-1)^i) for Euclid; companionmxK of mathcomp |
| C53 | M_Zoo: zigzag_zoo.hpp (get_dM_ZZ_inds, the two Sets constructions, DiscreteMorozovZigzag), Diagram set_node/set_edge; value type abstract, eta a parameter, printing excluded | loop invariants for the preallocated diagram (first 2t-1 nodes filled); greedy order from C50, Rips functor from C51 |
| C54 | M_MayerVietoris: mayer_vietoris.hpp and get_simplices(dim) | the matrix is J D P_A (J transpose of the inclusion of Y, D the boundary of X, P_A the diagonal projection); connecting-map property, well-definedness and exactness by matrix algebra from closure of A and B under faces |
| C55 | M_Product: product_paths and TriangulatedProduct | the recursion adds the staircases (induction on the fuel), every chain is inside a staircase and every staircase is a chain; refutations by computation |
| C56 | M_Grid: all of grid.hpp for SimplicialComplex | chains of a unit box are the subsequences of its maximal chains (coded by corner bits, closed finite check), loops by induction, C23/C25 for the insertions |
| C57 | complex/cell_complex.hpp: the four arrays, reserve, add, add_vertex(s), counts, boundary_csc (through the CSC constructor) and boundary; not modelled: reserve(dim, k) (capacity only) | M_Cell, Props_Cell: an invariant relates the arrays to the list of boundaries given so far (pointer array = prefix sums, index/coefficient arrays = concatenation) for every history of calls; the matrix is then the column-wise sort of that list |
