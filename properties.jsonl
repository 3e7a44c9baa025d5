{"id": "C01", "title": "ModP<IntT,P> is the prime field F_P", "statement": "For an odd prime P with (P-1)^2 below 2^31, the values 0..P-1 of ModP<int,P> with its +, +=, -, -=, unary minus, *, *=, / , /= and inv() form the field with P elements: every operation returns a canonical residue and agrees with arithmetic modulo P without overflow; inv() terminates for every nonzero element and x*inv(x)=1; dividing by zero throws; comparisons are exact. The compile-time primality check accepts exactly the primes. For larger P multiplying P-1 by itself overflows.", "quantifier": "every prime P with (P-1)^2 < 2^31, every pair of field elements", "why_tests_cant": "The claim covers every prime modulus and every pair of residues; inv() is an unbounded search loop whose termination depends on primality.", "anchors": ["include/linalg/field.hpp: ModP, ff_inv, ModP::inv"]}
{"id": "C02", "title": "The ModP constructor is right only for integers >= -P", "statement": "ModP<int,P>(v) is the canonical residue of v modulo P exactly for the ints v >= -P: for every odd prime P and every int v < -P the stored value is a wrong residue (because v + P is computed as unsigned), so that ModP(v) + ModP(-v-1) differs from ModP(-1).", "quantifier": "every int v and modulus P", "why_tests_cant": "The constructor adds an unsigned P to a signed value, so the failure only shows for values below -P.", "anchors": ["include/linalg/field.hpp: ModP::ModP(IntT)"]}
{"id": "C03", "title": "ModP<IntT,2> arithmetic, comparisons and assignment", "statement": "The parity of ModP<int,2> values follows arithmetic mod 2 for +, -, *, /, inv; == and != between elements are equality of parity and its complement; dividing by an even value throws. == against an int compares parities, but != against an int other than 0 and 1 is always true, so both can hold; assignment from an int leaves the object unchanged.", "quantifier": "every element and every int", "why_tests_cant": "Needs every int, and tests typically only compare with 0 and 1.", "anchors": ["include/linalg/field.hpp: ModP<IntT,2>"]}
{"id": "C04", "title": "Rational is the field of rationals in lowest terms", "statement": "Rational values built from n/d with d != 0 are kept in lowest terms with positive denominator; +, -, *, /, inv, unary minus and comparisons agree with exact rational arithmetic whenever no machine overflow happens (in particular if numerators and denominators are at most m with 2m^2 in range); == decides equality of the rational numbers; division by zero throws. Rational(n,0) is accepted and stored as 0/0, Rational(0,0) is undefined, and x /= x stores 1/d instead of 1.", "quantifier": "all pairs of rationals (machine overflow excluded)", "why_tests_cant": "Equality-by-representation is only right if normal form is an invariant of every operation sequence.", "anchors": ["include/linalg/field.hpp: Rational"]}
{"id": "C05", "title": "SparseVector::axpy computes y + a*x", "statement": "For sorted sparse vectors, y.axpy(a,x) leaves y sorted by index without duplicate indices, with entry i equal to y_i + a*x_i for every i, and if x and y store no zeros and a != 0 (or a = 0) the result stores no zeros. The ranged variant does the same for x restricted to [first,last).", "quantifier": "all fields, all sorted sparse vectors, all coefficients", "why_tests_cant": "The three-way merge has many interleavings of index patterns; cancellation depends on values.", "anchors": ["include/linalg/sparse_vector.hpp: SparseVector::axpy"]}
{"id": "C06", "title": "SparseVector lookups, dot product, scaling and index selection", "statement": "v[i] returns the stored entry or zero; v*w is the dot product; v*a is the scalar multiple; v[inds] with sorted inds selects entries inds[0],inds[1],... renumbered 0,1,...; v+w is the sum; clear_zeros keeps the vector's value; two vectors without stored zeros are == exactly when all their entries agree.", "quantifier": "all sorted sparse vectors, scalars and index sets", "why_tests_cant": "Quantifies over all vectors and index sets.", "anchors": ["include/linalg/sparse_vector.hpp: getval, operator*, operator[], operator+, operator=="]}
{"id": "C07", "title": "Matrix-vector and matrix-matrix products are the linear-algebra products", "statement": "A*x and A*B of ColumnMatrix denote the products of the denoted matrices, with sorted columns; A+B denotes the sum; identity is neutral; products are associative.", "quantifier": "all conforming column matrices over any field", "why_tests_cant": "For all sizes and contents.", "anchors": ["include/linalg/col_matrix.hpp: gemv, operator*, operator+, identity"]}
{"id": "C08", "title": "What matrix difference computes", "statement": "operator-(A,B) on ColumnMatrix returns the matrix B - A, sorted and without stored zeros, for all A and B of equal shape; hence it returns A - B exactly when 2(A-B)=0 (always in characteristic 2, and otherwise only when A=B): over any other field subtraction has the wrong sign.", "quantifier": "all conforming column matrices over any field", "why_tests_cant": "A test over F2 (the usual test field) cannot see a sign error.", "anchors": ["include/linalg/col_matrix.hpp: ColumnMatrix::operator-"]}
{"id": "C09", "title": "Transpose", "statement": "A.T() denotes the transpose with sorted columns, and A.T().T() equals A.", "quantifier": "all column matrices with sorted columns", "why_tests_cant": "All shapes, including empty rows and columns.", "anchors": ["include/linalg/col_matrix.hpp: transpose, T"]}
{"id": "C10", "title": "Triangular solves and inverses", "statement": "For U upper triangular, u_solve(U,y) either returns x with U*x = y or throws, and it throws only if some diagonal entry of U is zero; u_inv(U) of an invertible upper triangular matrix is a two-sided inverse; for L lower triangular with nonzero diagonal l_solve(L,y) returns x with L*x=y and l_inv(L) is a two-sided inverse. l_solve does not check the diagonal: there is a singular lower triangular L and a y for which it returns, without throwing, a vector that is not a solution.", "quantifier": "all square triangular matrices over any field and all right-hand sides", "why_tests_cant": "Backward substitution walks iterators over a vector mutated by axpy; correctness is an invariant of every step.", "anchors": ["include/linalg/col_matrix.hpp: u_solve, l_solve, u_inv, l_inv"]}
{"id": "C11", "title": "Row and column permutations", "statement": "permute_rows(p) moves row i to row p[i]; ipermute_cols(p) puts old column p[i] at position i; permute_cols(p) moves column i to p[i]; each of the two column permutations undoes the other; insert_column(i,v) makes v column i and keeps the other columns in order. insert_column(i) (zero column) does not: it leaves columns before i, drops column i to the last place and puts the zero column last but one.", "quantifier": "all permutations and matrices", "why_tests_cant": "In-place cycle-following swaps must terminate and be right for every permutation.", "anchors": ["include/linalg/col_matrix.hpp: permute_rows, permute_cols, ipermute_cols, insert_column", "include/util/permutation.hpp: apply_perm_swap, apply_iperm_swap"]}
{"id": "C12", "title": "Block extraction and assignment", "statement": "block(i0,i1,j0,j1) is the submatrix; set_block(i0,i1,j0,j1,B) writes B into that block (so that block() returns B afterwards) and leaves everything else unchanged except that it also erases row i1 of columns j0..j1-1: there is a matrix of which it destroys an entry outside the block.", "quantifier": "all matrices and index ranges", "why_tests_cant": "Off-by-one on a range boundary only shows for particular sparsity patterns.", "anchors": ["include/linalg/sparse_vector.hpp: block, set_block", "include/linalg/col_matrix.hpp: block, set_block"]}
{"id": "C13", "title": "Standard reduction factorises the matrix", "statement": "reduce_matrix(M,U) terminates on every matrix; on return (with U initially the identity) R = M*U, U is upper triangular with ones on the diagonal, the last nonzero indices of the nonzero columns of R are pairwise distinct, and the returned pivot map sends i to j exactly when column j of R has last nonzero i. A column-count mismatch throws.", "quantifier": "every matrix over every field, with sorted nonzero entries", "why_tests_cant": "Termination and the loop invariant range over all matrices.", "anchors": ["include/homology/reduction.hpp: reduce_matrix_standard"]}
{"id": "C14", "title": "Betti numbers are n_k - rank B_k - rank B_{k+1}", "statement": "For any chain complex, hdim(k) of ReducedChainComplex equals the number of k-cells minus the ranks of the two adjacent boundary matrices, whichever of the documented algorithm/optimisation options is used (standard, clearing, compression, with or without basis).", "quantifier": "every chain complex over every field and every option combination", "why_tests_cant": "All complexes times all options.", "anchors": ["include/homology/basis.hpp: ReducedChainComplex, hdim", "include/homology/reduction.hpp: extract_basis_indices"]}
{"id": "C15", "title": "Pivot pairing depends only on the matrix", "statement": "Any two reductions R = M*V with V invertible upper triangular and R reduced have the same pivots: the pivot map returned is determined by the ranks of lower-left submatrices of M, so every algorithm returns the same persistence pairs.", "quantifier": "every matrix over every field, every admissible sequence of left-to-right column operations", "why_tests_cant": "Quantifies over all operation sequences.", "anchors": ["include/homology/reduction.hpp", "include/homology/parallel.hpp"]}
{"id": "C16", "title": "Clearing and compression do not change the pivots", "statement": "For consecutive boundary matrices with B_k*B_{k+1}=0, reducing B_k after clearing the columns that are pivots of B_{k+1}, or reducing B_{k+1} after zeroing rows that are nonzero columns of reduced B_k, yields exactly the pivots of the plain reduction; with clearing the recorded basis still satisfies R = B*U with U invertible upper triangular.", "quantifier": "all chain complexes over any field", "why_tests_cant": "Depends on B*B=0 for all complexes.", "anchors": ["include/homology/reduction.hpp: reduce_matrix_clearing, reduce_matrix_compression, get_clearing_inds, get_compression_inds"]}
{"id": "C17", "title": "Extra reduction produces a reduced matrix when no single-entry columns arise", "statement": "reduce_matrix(M, extra_reduction_flag) returns a reduced matrix R = M*V and exactly the pivots of the standard algorithm for every matrix M no combination of whose columns has exactly one nonzero entry; in particular for every chain complex with zero boundary in dimension 0, cancelling edge ends and nonzero boundaries of positive-dimensional cells (every simplicial or cubical complex). It is wrong for general matrices: there is a chain complex (a CW sphere) for which it reports different Betti numbers.", "quantifier": "every matrix", "why_tests_cant": "Only columns with a single nonzero expose the boundary error of the loop.", "anchors": ["include/homology/reduction.hpp: reduce_matrix_extra"]}
{"id": "C18", "title": "Divide-and-conquer and block-parallel reduction under every schedule", "statement": "reduce_matrix with the divide-and-conquer flag ends, for every interleaving of the OpenMP tasks it spawns, at the same matrix and the same pivots, with no data race and no bad access on the way; the matrix is reduced and equals M*V with V upper unitriangular; the pivot vector returned is the one of the sequential algorithm, in whatever order the unordered_map is iterated. The version carrying a basis U (sequential recursion) returns R=M*V, U*V with the same pivots. partial_reduce_parallel has a schedule-independent result R=M*V whose full blocks are reduced when 0 < block_size <= ncol; with block_size > ncol it has undefined behaviour.", "quantifier": "every matrix over every field, every block size and depth, every schedule of the spawned tasks, every iteration order of the hash map", "why_tests_cant": "Schedules and hash orders cannot be enumerated by tests.", "anchors": ["include/homology/parallel.hpp: reduce_block_dq, reduce_matrix, partial_reduce_parallel"]}
{"id": "C19", "title": "Updating a factorisation after a permutation or a new filtration", "statement": "Starting from R = B*U, after permuting the basis and calling update_reduction2 the result again satisfies R' = B'*U' for the permuted boundary B', with U' upper triangular invertible, R' reduced and the pivots those of B'. After any sequence of ReducedFilteredChainComplex::update_filtration calls the homology indices, pivots and persistence pairs are those of a construction with the last values.", "quantifier": "every chain complex, field, permutation per dimension, every sequence of filtration values", "why_tests_cant": "All histories of updates.", "anchors": ["include/homology/basis.hpp: permute_matrices, update_reduction2"]}
{"id": "C20", "title": "Homology representatives", "statement": "With any option that keeps a basis, the reported representatives (columns U[k][j], j in I[k]) are cycles and every k-cycle is homologous to exactly one combination of them. With the standard or clearing option, chain_preferred_representative(c,k) terminates and returns a chain homologous to c, the same one for all chains homologous to c, and a combination of the representatives if c is a cycle. With the compression option it does not: the boundary of a triangle is sent to a chain that is not a cycle.", "quantifier": "all chain complexes over any field, all cycles", "why_tests_cant": "Linear independence modulo boundaries is a statement about all linear combinations.", "anchors": ["include/homology/basis.hpp: get_preferred_representative, find_preferred_representative"]}
{"id": "C21", "title": "Induced maps on homology are functorial and well defined", "statement": "For a chain map F: C -> D between complexes reduced with a basis (D with the standard or clearing option), induced_map(F,C,D,k) returns the one matrix M such that F takes each representative of C to a chain homologous to the combination of representatives of D in the corresponding column of M; identity maps give identity matrices, compositions give products, and the rank of M does not depend on the options used on either side.", "quantifier": "all chain complexes and chain maps", "why_tests_cant": "For all chain maps.", "anchors": ["include/homology/induced_map.hpp: induced_map"]}
{"id": "C22", "title": "Persistence pairs and barcode", "statement": "For every filtered chain complex and every reduction option: each k-cell is exactly one of a birth in persistence_pairs(k) or a death in persistence_pairs(k-1); birth and death values are those of the reported cells (infinity exactly when there is no death cell), and birth <= death when the filtration is by subcomplexes; the number of pairs with birth <= s and death > t equals the rank of the map H_k(K_s) -> H_k(K_t); representative(p) is a cycle containing the birth cell and no cell later than it.", "quantifier": "all filtered chain complexes", "why_tests_cant": "For all filtrations and all s<=t.", "anchors": ["include/persistence/filtered_basis.hpp: persistence_pairs"]}
{"id": "C23", "title": "SimplicialComplex: closure under faces, unique stable indices, defined calls", "statement": "For every complex obtained by any sequence of constructor, add, add_directed, add_recursive, add_directed_recursive, simplicial_union, union_add and intersection calls: every further call is defined (only the empty simplex is refused, by an exception); find_idx(s) = i exactly when s is the i-th stored simplex of its dimension and NO_IND otherwise, so each simplex is stored once; with a simplex all its nonempty subsequences are stored; add_directed adds s exactly when its codimension-one faces are stored, returns its index or NO_IND, changes nothing else and never changes an index; add_recursive adds exactly the subsequences of the sorted s and returns exactly the new cells; union, union_add, intersection and get_indices have the expected contents (unions sort the vertices of directed simplices).", "quantifier": "all call histories and all vertex lists (sorted or not, with or without repetition)", "why_tests_cant": "All histories of insertions, with the trie creating intermediate nodes.", "anchors": ["include/complex/simplicial_complex.hpp: _add_unsafe, _add_recursive, add*, find_idx, get_simplex, simplicial_union, union_add, intersection, get_indices", "include/util/trie.hpp: insert, get, count"]}
{"id": "C24", "title": "Simplicial boundaries: faces with signs, square zero, well formed chain complex", "statement": "For every complex built by the API: boundary(k,i) lists the find_idx indices of the k+1 faces of simplex i in increasing order, the face without vertex j with sign (-1)^(k+1-j); boundary_csc(k) has one row per (k-1)-simplex, one column per k-simplex, column i being boundary(k,i); consecutive boundary matrices multiply to zero over every field. If no simplex repeats a vertex, ChainComplex(X) is a well formed chain complex (sorted columns, no zeros, conforming sizes, product zero) whose edges' ends cancel and whose cells of positive dimension have nonzero boundary. A complex with a repeated vertex yields a column with a repeated row index.", "quantifier": "all complexes from all call sequences, all fields", "why_tests_cant": "All complexes and call orders.", "anchors": ["include/complex/simplicial_complex.hpp: boundary, boundary_csc, _add_unsafe, _add_recursive", "include/linalg/csc_matrix.hpp", "include/chain/chain_complex.hpp"]}
{"id": "C25", "title": "Cubical complexes are closed, indexed and have boundaries that square to zero", "statement": "For every CubicalComplex of ambient dimension D>0 produced by the public calls (constructor, add, add_recursive, set_dimension, skeleton, generate_cube): every call is defined (what is not a cube of dimension D is refused with an exception); find_idx and get_cube are inverse, so a cube has exactly one index and it never changes; with a cube the complex contains all subcubes; add adds exactly when the codimension-one faces are present; add_recursive adds exactly the subcubes and reports every new cell once; skeleton(k) keeps exactly the cubes of dimension <= k; generate_cube(n) is the full grid; the entries of boundary_csc are the signed incidence numbers, consecutive boundaries multiply to zero over every field, and ChainComplex(X) is a well formed chain complex. (A 0-dimensional complex silently stays empty and find_idx accepts prefixes of stored cubes.)", "quantifier": "all ambient dimensions, all finite sequences of public calls, all cubes, all fields", "why_tests_cant": "The sequences of calls, the dimensions and the cubes are unbounded; a test checks one complex.", "anchors": ["include/complex/cubical_complex.hpp: CubicalComplex::{reserve,is_valid_cube,cube_dim,_add_unsafe,add_safe,add,add_recursive,_add_unsafe_recursive,find_idx,ncells,set_dimension,get_cube,get_cubes,skeleton,boundary_csc,generate_cube}", "include/chain/chain_complex.hpp: ChainComplex(CpxT)"]}
{"id": "C26", "title": "LightSimplicialComplex is a simplicial complex while n^(maxdim+1) fits the index type", "statement": "For a LightSimplicialComplex(n, k) with n^(k+1) at most the number of index values: simplex_key and key_to_simplex are inverse bijections; find_idx, get_simplex and indices agree and indices never change; add adds exactly the given simplex (faces unchecked) and add_recursive exactly its missing subsequences, listing each new cell once; boundaries are the sorted face indices with sign (-1)^j and throw when a face is missing; boundary matrices of a closed complex compose to zero and give a well formed ChainComplex. Above the bound two simplices share a key. Every boundary reads _offset[-1], which the C++ standard leaves undefined.", "quantifier": "all n, k, index widths, all sequences of calls, all simplices", "why_tests_cant": "A numeric encoding and an incremental structure, for all n, k and all histories.", "anchors": ["include/complex/light_simplicial_complex.hpp: LightSimplicialComplex, simplex_boundary_iterator", "include/chain/chain_complex.hpp: ChainComplex"]}
{"id": "C27", "title": "Simplicial maps induce chain maps", "statement": "SimplicialMap(X, Y, f0) of a vertex map f0 (defined on the vertices of X, Y at least of the dimension of X) returns exactly when the image of every simplex without repeated vertices is in Y and throws otherwise; the column of a simplex is zero if its image is degenerate and otherwise the sorted image with the sign of the sorting permutation. Over every field the matrices commute with the boundary matrices, composing vertex maps multiplies matrices (and the maps induced on homology), the identity gives identity matrices. Inclusions of simplicial and cubical complexes throw exactly when a cell is missing and otherwise are chain maps. (A target of smaller dimension makes the constructor read past the end of an array.)", "quantifier": "all complexes and all simplicial vertex maps", "why_tests_cant": "All maps, including orientation-reversing and collapsing ones.", "anchors": ["include/complex/simplicial_map.hpp"]}
{"id": "C28", "title": "Filtration sublevel sets", "statement": "Every Filtration over a SimplicialComplex that public calls can build has exactly one value per simplex. add(t,s) stores t for s when s or all its faces are there (overwriting an earlier value, nothing else changes); when a face is missing the value is written outside the vector. add_recursive(t,s) gives t to s and to the missing faces only; adding a new simplex no earlier than its faces keeps the values monotone, but adding a simplex that is there overwrites its value and can break monotonicity. union_add takes over the values of the second filtration. sublevelset(a) is a complex containing exactly the simplices all of whose faces have value at most a, hence exactly the simplices with value at most a for a monotone filtration of sorted simplices; a simplex entering before a face is silently left out.", "quantifier": "all value types with a comparison, all sequences of calls (Filtration(), Filtration(C), add, add_directed, add_recursive, union_add), all simplices, thresholds", "why_tests_cant": "All histories.", "anchors": ["include/filtration/filtration.hpp"]}
{"id": "C29", "title": "Permutation utilities", "statement": "sortperm returns a permutation of the positions that lists the values in nondecreasing order, equal values in order of position; inv_perm returns the two-sided inverse; apply_perm and apply_iperm_swap move the entry at p[i] to i, apply_perm_swap moves the entry at i to p[i]; perm_inversions counts inversions and perm_sign is the sign of the permutation; partial_perm, find_perm_from_vector (ranks), perm_to_the_end and extension_perm return what their names say.", "quantifier": "all vectors over all totally ordered types, all permutations, all data types", "why_tests_cant": "All permutations; in-place cycle following.", "anchors": ["include/util/permutation.hpp"]}
{"id": "C30", "title": "Kendall-tau distance", "statement": "Kendall_tau(v) is the number of inversions of v for every vector (duplicates, empty included); Kendall_tau(p,q) is the number of pairs ordered differently by the permutations p and q.", "quantifier": "all vectors; all pairs of permutations of equal length", "why_tests_cant": "All vectors.", "anchors": ["include/util/permutation.hpp: Kendall_tau"]}
{"id": "C31", "title": "Sorted-range utilities", "statement": "On strictly sorted ranges intersect_sorted returns the set intersection in order and has_intersect_sorted decides whether it is empty; intersect_sorted_lt / has_intersect_sorted_lt restrict this to values below maxval, except that when both ranges start with the same value v >= maxval the result is [v]; find_sorted_lt returns the position of the last entry below v and has undefined behaviour when the first entry is not below v; sorted_complement is the complement in 0..n-1 in increasing order; sort_sum_reduce leaves the entries before offset alone and replaces the rest by the strictly sorted, zero-free list with the same coefficient sums, and reads out of bounds on an empty range; simplex_sign sorts the vertices and returns the sign of the sorting permutation, 0 exactly when a vertex repeats.", "quantifier": "all sorted vectors, all values, all coefficient fields", "why_tests_cant": "All inputs.", "anchors": ["include/util/sorted.hpp"]}
{"id": "C32", "title": "barcode_equality is multiset equality", "statement": "barcode_equality(a,b) returns true exactly when the two lists of pairs are equal as multisets of (dim,birth,death), whatever their order and their cell indices.", "quantifier": "all barcodes", "why_tests_cant": "Greedy matching must be right for all orders and duplicates.", "anchors": ["include/persistence/barcode.hpp"]}
{"id": "C33", "title": "Union-find persistence agrees with the reduction", "statement": "For a filtered complex whose vertices and edges were added in filtration order, and values that stay distinct as float, union_find_pairs returns one bar per vertex, the number of bars born by s and alive after t is the rank of H_0(K_s) -> H_0(K_t), and the barcode equals dimension 0 of the matrix reduction with every option. rips_union_find_pairs on N >= 1 points returns, at every threshold, exactly one live bar per connected component of the graph of short pairs; the edge numbering is a bijection with the pairs i < j. Without those conditions the claim is false: refuted when edges are not in filtration order, when float conversion identifies births, for an edge with zero boundary (reads past the end), and for zero points.", "quantifier": "all chain complexes of the kind simplicial complexes give, all fields, ordered value types, thresholds; all point counts, edge orders and lengths", "why_tests_cant": "All graphs; union-find forest with path compression must terminate.", "anchors": ["include/persistence/union_find.hpp"]}
{"id": "C34", "title": "Save/load round trips", "statement": "Writing a matrix over int or ModP and reading it back yields an equal matrix when dimensions and indices are below 2^31 (otherwise reading throws); a matrix over Rational comes back with every denominator replaced by 1. A saved SimplicialComplex whose simplices are sorted and whose vertex numbers are below 2^31 loads to a complex with the same simplices, indices and boundaries; in general loading gives the union of the empty complex with the saved one (directed simplices come back sorted), and a vertex number from 2^31 on makes loading throw. No saved CellularMap can be loaded: loading always throws. Reading any file contents either returns (a complex built by the API) or throws.", "quantifier": "all matrices, complexes and maps", "why_tests_cant": "All contents, including empty columns, negative and non-integer values.", "anchors": ["include/linalg/col_matrix.hpp: save, read", "include/linalg/sparse_vector.hpp: write", "include/complex/cell_map.hpp", "include/complex/simplicial_complex.hpp: save"]}
{"id": "C35", "title": "What FilteredChainComplex::update_filtration does", "statement": "FilteredChainComplex::update_filtration(newval) gives the matrices of a fresh construction with newval whenever the change of order in each dimension is an involution; in general it moves sorted cell j to position u(j) where u(j) is the old position of the cell that belongs at j (the inverse of the reordering needed), and there is a filtered complex on which matrices and barcode are wrong.", "quantifier": "all filtered complexes and all new values", "why_tests_cant": "Composition direction of permutations only matters for non-involutive permutations.", "anchors": ["include/chain/filtered_chain_complex.hpp: update_filtration", "include/chain/chain_complex.hpp: permute_basis, ipermute_basis"]}
{"id": "C36", "title": "General basis updates give the reduction of the new complex", "statement": "Given a reduction R = B U of a chain complex and a description of how a new complex arises by deleting, reordering and adding cells, update_basis_general yields in every dimension the pivots and homology indices of a fresh reduction of the new complex, and R = B'U with U invertible upper triangular. Found false, and proved so, when vertices are added (U[0] becomes singular), when maxdim is 0 (reads R[1]), outside characteristic 2 (added cells get boundary coefficients 1), and by the language rule when rows are inserted before stored entries (reads past the end).", "quantifier": "all fields, all complexes with at least two dimensions and no boundary in dimension 0, all deletions, reorderings and additions, all previous reductions", "why_tests_cant": "All histories of additions, deletions and reorderings.", "anchors": ["include/homology/basis.hpp: update_basis_general", "include/linalg/col_matrix.hpp: insert_rows, insert_columns", "include/linalg/sparse_vector.hpp: insert_rows", "include/filtration/update_information.hpp: Update_info"]}
{"id": "C37", "title": "Removing extra cycles and the homology-revealing basis", "statement": "remove_extra_cycles(R, U), for R = B U with U invertible upper triangular, returns an upper triangular U' with the same diagonal and R = B U'; in each column of U' at most one entry above the diagonal, the topmost one, can stand in the row of a zero column of R (it is not always removed, contrary to the doc comment). A ReducedChainComplex on which remove_extra_cycles was called still has the same generators and reduced matrices, its representatives are still cycles forming a basis of homology, and chain_preferred_representative still returns a homologous chain that is a combination of them. to_hom_basis and from_hom_basis are mutually inverse.", "quantifier": "all fields, matrices with R = B U, chain complexes, dimensions, chains", "why_tests_cant": "All matrices; the loop re-reads iterators after each column operation.", "anchors": ["include/homology/reduction.hpp: remove_extra_cycles", "include/homology/basis.hpp: remove_extra_cycles, to_hom_basis, from_hom_basis"]}
{"id": "C38", "title": "Sparsifying the basis", "statement": "sparsify_basis(R, U), for R = B U with U invertible upper triangular, when it stays in bounds, returns R', U' with R' = B U' and U' upper triangular with the same diagonal. It does not keep R reduced, and it can read before the beginning of a column; both happen on reductions of small graphs.", "quantifier": "all fields, all orders of the coefficient map, all matrices with R = B U", "why_tests_cant": "All matrices; whether the heuristics fire depends on coefficient counts.", "anchors": ["include/homology/reduction.hpp: sparsify_basis", "include/linalg/sparse_vector.hpp: coeff_intersection", "include/homology/basis.hpp: sparsify_basis"]}
{"id": "C39", "title": "Copy assignment of SimplicialComplex", "statement": "X = Y makes X equal to Y when Y has a simplex or X has none. When X has simplices and Y has none (e.g. X = SimplicialComplex()), the assignment completes but leaves the trie of X dangling: every later lookup, insertion or assignment on X is undefined behaviour.", "quantifier": "all complexes built by the API", "why_tests_cant": "The fault depends on the history of both objects and shows up only in later calls.", "anchors": ["include/util/trie.hpp: operator=", "include/complex/simplicial_complex.hpp: SimplicialComplex, ~SimplicialComplex"]}
{"id": "C40", "title": "Flag and Vietoris-Rips complexes and filtrations", "statement": "For a simple graph on the vertices 0..n-1 (no loops, no repeated edges), FlagComplex and FlagFiltration give exactly the cliques with at most maxdim+1 vertices (edges are there even for maxdim 0): in FlagFiltration a vertex gets t0 and every other simplex the largest value of one of its edges, which is monotone when t0 is a lower bound. RipsComplex gives exactly the vertex sets with all pairwise distances at most rmax, RipsFiltration assigns the diameter, and the sublevel set at a of the filtration is the Rips complex with parameter a. FlagFiltration_extension gives the same filtration and, for every simplex, the position of an edge whose value is the value of the simplex (undefined behaviour for maxdim 0). CompleteFlagFiltration (maxdim >= 2, sorted edges) gives the same filtration but returns an empty complex beside it. An endpoint outside 0..n-1 is undefined behaviour; an odd edge list throws.", "quantifier": "all numbers of vertices, all simple edge lists in any order, all values of a totally ordered type, all distance functions, thresholds and maxdim", "why_tests_cant": "The simplices are produced by a recursion over sorted neighbour lists that are updated edge by edge: that each clique is added exactly when its last edge arrives, after all of its faces, is a statement about every graph and every order of the edges.", "anchors": ["include/filtration/flag.hpp: FlagFiltration, FlagFiltration_extension, CompleteFlagFiltration, filtered_edge, add_dimension_recursive_flag", "include/topology/flag.hpp: FlagComplex", "include/topology/rips.hpp: RipsComplex, RipsFiltration, RipsFiltration_extension, rips_edges, rips_filtration_edges", "include/util/sorted.hpp: intersect_sorted, intersect_sorted_lt, sort_into"]}
{"id": "C41", "title": "CSCMatrix: construction, access, submatrix, product and sum", "statement": "Constructing a CSCMatrix from consistent arrays keeps every entry and sorts each column by row. getval(i,j) is the entry (0 if not stored). submatrix(rind, cind) with distinct rows has the entries A[rind[i], cind[j]]. operator* is the matrix product and sum(alpha, A, B) is alpha*A+B, with sorted columns and no stored zeros, provided every result column receives at least one term; a column receiving none is undefined behaviour. block_select ignores which columns are requested and takes the first ones.", "quantifier": "all sizes, all matrices given by consistent arrays over any field, all index lists", "why_tests_cant": "The in-place accumulation shares one pair of arrays over all columns; correctness depends on every earlier column, and the fault appears exactly for columns that receive no term.", "anchors": ["include/linalg/csc_matrix.hpp: CSCMatrix, getval, submatrix, block_select, gemm, sum", "include/util/sorted.hpp: sort_sum_reduce", "include/util/permutation.hpp: partial_perm, fill_sortperm, apply_perm"]}
{"id": "C42", "title": "Sparse factorizations LEUP, PLEU, UELP, PUEL, LQU, UQL, inv and the triangular commutation relations", "statement": "For every matrix A over a field, LEUP/PLEU/UELP/PUEL return without error factors whose product in the stated order is A, with L, U unit lower/upper triangular, P a permutation matrix and E a pivot matrix of the promised staircase shape; LQU/UQL return triangular invertible factors and a 0/1 pivot matrix with product A; the number of nonzero columns of the E factor is the rank of A; inv(A) is the inverse of every invertible A. EL_L_commute, L_EL_commute, U_EU_commute, EU_U_commute return, for a pivot matrix E of the matching shape and a triangular matrix T, a triangular matrix R (same diagonal properties) with R E = E T (resp. T E = E R).", "quantifier": "all matrices of all sizes over any field; all triangular matrices and all staircase pivot matrices", "why_tests_cant": "The pivot bookkeeping (a map from rows to columns maintained under swaps and eliminations) and the specialised axpy with an index list are only correct under invariants relating every stage of the elimination; tests sample a few random matrices.", "anchors": ["include/linalg/sparse_fact.hpp: LEUP, PLEU, UELP, PUEL, LQU, UQL, inv, EL_L_commute, L_EL_commute, U_EU_commute, EU_U_commute, CU_inplace", "include/linalg/sparse_vector.hpp: axpy(x, coeff, inds, tmp)", "include/linalg/col_matrix.hpp: row_scale, col_inv_scale, J_conjugation"]}
{"id": "C43", "title": "Barcode of a type-A quiver representation", "statement": "For every diagram of matrices on a path of nodes (arrows in either direction, any dimensions including 0, at least one edge), barcode() with each of the three algorithms (divide and conquer for any number of threads and any order of the spawned tasks, leftward, rightward) returns the interval decomposition of the representation: there are bases of all node spaces in which every arrow maps basis vectors to basis vectors of the same bar or to zero, bars are alive exactly on their reported interval and birth/death indices locate their basis vectors. The number of bars covering [s,t] is the zigzag rank between nodes s and t (the rank of the composite map when all arrows agree), so the multiset of intervals is unique and all algorithms agree; the all-dimensions barcode concatenates the decompositions of every dimension. A diagram without edges is undefined behaviour.", "quantifier": "every field, every number of nodes, every dimension vector, every arrow orientation, all matrices, every thread count and every order of the two tasks at each level", "why_tests_cant": "the result is determined only up to isomorphism and tests only sample a few orientations, sizes, and schedules; correctness needs an invariant about base changes over every edge", "anchors": ["include/quiver/sparse.hpp: barcode, barcode_form_leftright, barcode_form_rightleft, barcode_form_divide_conquer, type_A_dq_common, type_A_dq_EL, type_A_dq_EU, barcode_from_barcode_form, bars_to_pairs, extract_dimension", "include/multigraph/diagram.hpp: Diagram"]}
{"id": "C44", "title": "Zigzag pipeline: chain functor, homology functor, barcode", "statement": "For a diagram of chain complexes on a path (arrows in either direction, equal dimensions), Hom(D, k) followed by barcode() by any algorithm returns the interval decomposition of the homology of the diagram: there are cycles in every complex, one for each pair alive there, whose classes are a basis of H_k, and every chain map sends the cycle of a pair to a cycle homologous to that of the same pair or, where the pair is not alive, to a boundary. The number of pairs covering [s,t] is the rank of the zigzag between nodes s and t on homology (the rank of the composite map when all arrows point right), so the pairs alive at a node count its Betti number and the intervals are unique. The order of the iterations of the parallel loops over nodes and edges does not change the result. Hom(D, topd) does this for all dimensions (including the top one iff topd) and throws if there is no dimension to compute. Chain(D) of a path of simplicial complexes of equal dimension, with SimplicialMaps or inclusions on the edges, is such a diagram.", "quantifier": "every field, every path length and arrow orientation, every chain complexes and chain maps (every built simplicial complexes and maps), every dimension, every order of loop iterations, every thread count", "why_tests_cant": "relates the output to homology up to isomorphism for all diagrams and all schedules; tests compare a few barcodes", "anchors": ["include/multigraph/functors.hpp: ChainFunctor, Hom(D,k), Hom(D,topd)", "include/multigraph/diagram.hpp: Diagram, set_node, set_edge", "include/quiver/sparse.hpp: barcode", "include/homology/induced_map.hpp: induced_map"]}
{"id": "C45", "title": "DG vector spaces: homology and cohomology agree", "statement": "For a complex given by its boundary matrices, DGVectorSpace in degree -1 or +1, plain or augmented, is a differential complex, and reducing it with any of the offered options gives the (reduced) Betti numbers. The filtered versions report, for every filtration, persistence pairs whose counts are the persistent Betti numbers; degree +1 reports exactly the pairs of degree -1 in reverse order, and degree -1 without augmentation those of the ReducedFilteredChainComplex. update_filtration, any number of times, leaves the indices, pivots and pairs of a fresh construction. Induced maps are right in degree -1; in degree +1 they are wrong (0 for an isomorphism) or read out of bounds.", "quantifier": "every field, complex, degree, augmentation, reduction option, filtration (ties included), thresholds and sequence of updates", "why_tests_cant": "the equality of the homology and cohomology pairings is a duality statement about every reduction order; tests compare a few complexes", "anchors": ["include/dgvs/dgvs.hpp:DGVectorSpace", "include/dgvs/filtered_dgvs.hpp:FilteredDGVectorSpace", "include/homology/dgbasis.hpp:ReducedDGVectorSpace", "include/persistence/filtered_dgbasis.hpp:ReducedFilteredDGVectorSpace", "include/homology/induced_map.hpp:induced_map"]}
{"id": "C46", "title": "Zigzag barcodes are the interval decomposition of zigzag homology", "statement": "Give zigzag_barcode_reduction a chain complex over a field whose 0-cells have no boundary and a list of events in which every cell enters at most once, after its faces, and leaves after its cofaces, the cells of one dimension leaving in the order of decreasing index. With maxdim = -1, or any maxdim that reaches the dimension below the top one, the function returns normally, and the bars of every dimension k are the interval decomposition of the zigzag of homology spaces H_k of the cells present after each event (all maps induced by inclusion, forwards for an entry and backwards for a removal): there are bases of all these spaces, one vector for each bar alive, such that every inclusion sends the vector of a bar to the vector of the same bar or to 0. Every bar carries the cell, the value and the kind (entry or removal) of the events at which it is born and dies, and infinite bars carry no death. With a smaller maxdim the function can read the last entry of an empty column.", "quantifier": "every field, chain complex, list of events of any length, homology dimension", "why_tests_cant": "the statement is about the existence of compatible bases along every sequence of insertions and deletions; tests compare a few barcodes", "anchors": ["include/zigzag/reduction.hpp:zigzag_barcode_reduction", "include/zigzag/reduction.hpp:reduce_column", "include/zigzag/reduction.hpp:cycle_insertion_map", "include/zigzag/reduction.hpp:boundary_insertion_map", "include/zigzag/reduction.hpp:apply_basis", "include/zigzag/reduction.hpp:update_bars", "include/homology/basis.hpp:initialize"]}
{"id": "C47", "title": "Barcodes of zigzag filtrations with re-entering cells are the interval decomposition of the sequence of subcomplexes in time", "statement": "For a ZigzagFiltration (every cell is present on one or more disjoint closed intervals, each inside an interval of every face) on any complex, barcode(F, maxdim) terminates without fault and returns, for every dimension asked for, exactly the interval decomposition of the zigzag of homology groups of the subcomplexes of the ORIGINAL complex that are alive as time passes (entries before removals at equal times), with birth/death values and cell numbers of the corresponding entry/removal events - for the generic and for the simplicial version, although internally every interval of a cell becomes a separate cell and the basis is permuted. Exceptions (reads out of range): a cell whose first interval lies in a later interval of a face, a later interval that starts exactly when the face's interval ends, complexes with vertices only, cells without interval.", "quantifier": "all fields, all complexes of dimension >= 1, all filtrations with any number of intervals per cell, all totally ordered values with ties, every behaviour of std::sort allowed by its contract", "why_tests_cant": "the processing order depends on ties and on the unspecified order of equal elements; correctness is a statement about homology of every subcomplex in the sequence", "anchors": ["include/zigzag/zigzag_filtration.hpp: ZigzagFiltration, ZigzagChainComplex, _correct_indices, prepare_ChainComplex, lex_cmp, rlex_cmp, barcode"]}
{"id": "C48", "title": "Extending a function on vertices gives the sublevel-set filtration, its zigzag and its gradient", "statement": "lower_star_filtration(X, f0) gives every simplex (cube) the largest value at one of its vertices and, for simplices, the first vertex that has it: the result is a filtration (no cell before its faces) and its sublevel set at any level a has exactly the cells of X all of whose vertices have value at most a. extend_zigzag_filtration(f0, X, eps) gives every cell the interval of exactly the times t at which every vertex v satisfies f0(v)-eps <= t <= f0(v)+eps, throws exactly when some cell has no such time, and its result meets the preconditions of the zigzag barcode, which is then the interval decomposition of the zigzag of subcomplexes. lower_star_backwards adds the derivative of each finite birth and death to the derivative at its critical vertex and to nothing else. Exception: with floating point values that are not positive, numeric_limits::min() makes the zigzag extension use a wrong maximum: entry times are late, or the call throws although every cell has a time.", "quantifier": "all complexes the API builds, all functions on the vertices with values in a total order, all monotone shifts x-eps, x+eps, all levels, all gradients and pair lists of the documented shape", "why_tests_cant": "the claim is about every level set of every complex with ties between vertex values; tests with positive data never meet the wrong initial maximum", "anchors": ["include/filtration/extension.hpp: extend_filtration, lower_star_filtration, lower_star_backwards, max_cube_val", "include/zigzag/extension.hpp: simplex_extrema, extend_zigzag_filtration"]}
{"id": "C49", "title": "Nerves, Dowker filtrations, filtrations over covers and witness complexes are what their definitions say", "statement": "Nerve(cover, dmax) returns a complex whose vertices are all indices of the cover and whose larger simplices are exactly the index sets of at most dmax+1 elements (edges always) whose cover sets have a common element; with neighborhoods(pdist, eps) it is the Dowker complex of the matrix. DowkerFiltration(pdist, rmax, dmax) returns the flag filtration whose sublevel set at a < rmax consists of the sets of rows that pairwise have a common column within a, dowker_edge_param(pdist, i, j) being the smallest such parameter. RipsFiltration and DowkerFiltration over a cover join two points exactly when some cover set contains both and the value is below rmax; with a cover set that has every point the cover changes nothing. WitnessComplex(X, L, dist, dmax) has exactly the sets of at most dmax+1 landmarks all of whose subsets of two or more elements are the nearest landmarks of some point. Limits shown of the code: witness_edge_param (WitnessFiltration, lazy WitnessComplex) accesses the matrix out of bounds whenever there are more points than landmarks, get_m skips ties and zeros, dmax = 0 still adds edges, neighborhoods(X, Y, dist, r) leaves the entry of every point empty.", "quantifier": "all covers, matrices of any totally ordered values, radii, dimensions, neighbour lists", "why_tests_cant": "The simplices of a nerve or a witness complex are found by recursive set intersection over every subset of the cover; tests compare a few small covers and cannot settle that no simplex is missed or invented for arbitrary covers and matrices.", "anchors": ["include/topology/nerve.hpp: Nerve, add_dimension_recursive_nerve", "include/topology/neighborhood.hpp: neighborhoods", "include/topology/dowker.hpp: dowker_edge_param, DowkerFiltration, flag_filtration_edges, witness_edge_param, get_m, WitnessComplex, WitnessFiltration", "include/topology/rips_cover.hpp: rips_filtration_edges, RipsFiltration", "include/topology/dowker_cover.hpp: dowker_filtration_edges, DowkerFiltration"]}
{"id": "C50", "title": "Greedy landmarks are farthest points with the right Hausdorff distances; hausdorff_landmarks covers and separates; the enclosing radius makes the Rips complex a cone", "statement": "greedy_landmarks_hausdorff(D, dist, i0, k) returns max(k,1) indices, the first i0 and each later one a point farthest from the earlier ones, and hds[j] is the Hausdorff distance of the first j+1 landmarks to the data; distances never increase; in a metric space the last one is at most twice the radius of any cover by k points. The full version returns as many indices as points with right distances (a permutation when the points differ; the matrix version agrees on symmetric matrices). greedy_landmarks returns the same first k landmarks (k <= n different points). hausdorff_landmarks(D, r, dist, i0) returns a set containing i0, within r of every point and r-separated. approx_center returns a point whose largest distance to the first k+1 landmarks is smallest. enclosing_radius(D) is the smallest largest row entry, and RipsComplex at or above it is a cone. Limits: greedy_landmarks never returns when all points coincide and k > 2; hausdorff_landmarks never returns for r below all distances; with duplicate points an index repeats.", "quantifier": "all finite data sets, seeds, numbers of landmarks and radii; distances in any totally ordered type (the factor-two bound: any ordered domain)", "why_tests_cant": "Optimality (no cover by k points is twice as good), termination and the Hausdorff property range over all point sets and all competing sets; a test only samples them.", "anchors": ["include/topology/landmark.hpp: greedy_landmarks, hausdorff_landmarks, greedy_landmarks_hausdorff, approx_center", "include/topology/metric.hpp: enclosing_radius"]}
{"id": "C51", "title": "Covers, diagrams of subsets, and the Nerve and Rips functors", "statement": "landmark_cover puts every point into exactly k sets, those of landmarks no farther than any landmark left out; landmark_eps_cover puts point i into set j exactly when its distance to landmark j is below the least distance plus eps, so it covers for eps > 0 and is empty for eps = 0; uniform_interval_cover (exact arithmetic, wrapping conversion) puts a point into set j exactly when it lies in the j-th of the overlapping intervals, and covers every point; bivariate_cover returns exactly the nonempty pairwise intersections with two index maps that are simplicial maps of the nerves; vertex_inclusion_map sends each element to its position in the larger set; linear_subset_union_diagram is the zigzag of sets and unions of neighbours with inclusions; linear_cover_intersection_diagram records wrong targets for its odd edges; the Nerve and Rips functors succeed on diagrams of cover maps / inclusions (for dmax >= 1), give the nerves / Rips complexes of the nodes and the simplicial maps of the edge data, independently of the schedule of the parallel loops, and Rips with per-node radii throws exactly when a radius decreases along an edge; the pipeline union diagram, Rips, Chain, Hom, barcode always returns the zigzag barcode.", "quantifier": "for every list of sets or cover, every distance function and number of points, radii, dimensions, tie-breaking of partial_sort, and every order of the parallel iterations", "why_tests_cant": "the sets, distances and schedules are unbounded, and the correctness of the maps (that they are simplicial, that every point is covered) is a statement about every simplex and point", "anchors": ["include/topology/cover.hpp: landmark_cover, landmark_eps_cover, bivariate_cover, uniform_interval_cover, get_subset", "include/topology/inclusion.hpp: vertex_inclusion_map, linear_subset_union_diagram, linear_cover_intersection_diagram", "include/util/set.hpp: set_union, set_intersection", "include/util/permutation.hpp: firstk", "include/multigraph/functors.hpp: Nerve, Rips"]}
{"id": "C52", "title": "UnivariatePolynomial is the ring of polynomials over the field, with Euclidean division, gcd, extended Euclid, companion and characteristic matrix", "statement": "A UnivariatePolynomial built from any coefficients stores them without leading zeros, and for polynomials over a field +, +=, -, -=, unary minus, *, monomial, ==, comparison with a scalar and evaluation at a field element give exactly the coefficients (values) of the mathematical result. Division with remainder by a nonzero polynomial terminates and returns the unique q, r with p = q*d + r and deg r < deg d; gcd terminates and returns a greatest common divisor. extended_euclidean(a, b), on ints (truncated division, no overflow) and on polynomials, terminates for all a, b (zeros and negatives included) and returns x, y, g, w, z with x*a + y*b = g, a = g*w, b = g*z and x*w + y*z = 1, so g divides both and every common divisor divides g. p(A)v is the sum of c_k A^k v. The companion matrix of a monic polynomial of positive degree has that characteristic polynomial; characteristic_matrix(A) is xI - A for a square A and throws otherwise. Division by the zero polynomial reads the back of an empty vector; companion_matrix throws for a polynomial that is not monic, is undefined for the constant 1, and stores explicit zeros.", "quantifier": "every field, every coefficient list, every pair of polynomials or integers, every square matrix and vector", "why_tests_cant": "Termination and the degree bound of the division depend on exact cancellation of leading terms for every pair; sign corrections of extended Euclid depend on the parity of the number of steps.", "anchors": ["include/linalg/polynomial.hpp: UnivariatePolynomial, characteristic_matrix", "include/linalg/pid.hpp: extended_euclidean"]}
{"id": "C53", "title": "Discrete Morozov and oscillating Rips zigzags contain the landmark sets and parameters of their definition", "statement": "For a nonempty data set with a nonnegative distance that is 0 on the diagonal: OscillatingRipsZigzagSets(D, dist, rho, eta) with eta <= rho returns a diagram of 2n-1 sets where node 2t is the set of the first t+1 greedy landmarks with parameter eta*e_t, node 2t+1 is the set of the first t+2 with parameter rho*e_t (e_t the Hausdorff distance of the first t+1 landmarks), and edges go 2t -> 2t+1 <- 2t+2 carrying the vertex inclusions; it throws when eta > rho. DiscreteMorozovZigzagSets does the same for the subsequence of landmark indices selected by get_dM_ZZ_inds (0 is kept, and i is kept exactly when its distance is at most eta times that of the last kept index), with parameters rho*e. When multiplication is monotone the parameter never decreases along an edge, so DiscreteMorozovZigzag returns the zigzag of the Rips complexes of these sets at these parameters with the maps induced by the inclusions, whatever the order of the parallel loops. When points coincide the Morozov construction can run past the end of the landmark list.", "quantifier": "all data sets (finite, nonempty) with any distance into a total order, all multipliers, all orders of the parallel loops", "why_tests_cant": "the selected subsequence depends on all distances; index arithmetic of the zigzag must be right for every length, and every schedule of the parallel loops", "anchors": ["include/topology/zigzag_zoo.hpp: get_dM_ZZ_inds, DiscreteMorozovZigzagSets, OscillatingRipsZigzagSets, DiscreteMorozovZigzag", "include/multigraph/diagram.hpp: set_node, set_edge"]}
{"id": "C54", "title": "mayer_vietoris_boundary is the connecting map of the Mayer-Vietoris sequence", "statement": "For simplicial complexes A, B, X = A union B and Y = A intersect B, mayer_vietoris_boundary(A, X, Y, k) returns a matrix with one row per k-simplex of Y and one column per (k+1)-simplex of X. Over every field: it takes a cycle z of X to the boundary of the part of z on A, which is a cycle of Y; homologous cycles have homologous images; a cycle of X has a null-homologous image exactly when it is a sum of a cycle of A and a cycle of B (exactness at H(X)); a chain of Y bounds both in A and in B exactly when it is homologous to the image of a cycle of X (exactness at H(Y)). The columns are not sorted in general, although ColumnMatrix requires it.", "quantifier": "all simplicial complexes the API can build (directed simplices included), all dimensions with k+1 within X and k within Y, all fields, all chains", "why_tests_cant": "exactness is a statement about all cycles of all pairs of complexes; signs and restrictions must be right for every simplex and every insertion order", "anchors": ["include/topology/mayer_vietoris.hpp: mayer_vietoris_boundary", "include/complex/simplicial_complex.hpp: get_simplices, find_idx"]}
{"id": "C55", "title": "TriangulatedProduct is the staircase triangulation of the product", "statement": "For simplicial complexes X, Y whose simplices are listed in increasing order and n larger than every vertex of X, TriangulatedProduct(X, Y, maxdim, n) terminates without error and returns a complex whose simplices are exactly the images under (i,j) -> i + n j of the chains (strictly increasing sequences in the product order) of sx x sy, for simplices sx of X and sy of Y with dim sx + dim sy <= maxdim. Without the cut-off, a chain is a simplex of TriangulatedProduct(X, Y) exactly when both projections are simplices, provided the vertices of X are below X.ncells(0). Two limits: maxdim does not give the maxdim-skeleton of the product (diagonals of larger cells are missing), and with the default n a complex X with vertices not 0..ncells(0)-1 has colliding product vertices.", "quantifier": "all pairs of simplicial complexes the API can build with sorted simplices, all maxdim, all n above the vertices of X", "why_tests_cant": "the path recursion must enumerate exactly the maximal chains of every pair of simplices of every dimension; the set of simplices is a statement about all complexes", "anchors": ["include/complex/simplicial_complex.hpp: TriangulatedProduct, product_paths, prod_ind"]}
{"id": "C56", "title": "Freudenthal triangulations and cubical complexes of grids have exactly the advertised cells", "statement": "Freudenthal(m,n), Freudenthal(n1,n2,n3) and the sub-box variant terminate without error for positive sizes and contain exactly the simplices that are the row-major images of strictly increasing chains (product order) of grid points inside a unit square/cube of the (sub-)grid; the sub-box variant also contains the squares parallel to the axes. Cube(m,n), Cube(n1,n2,n3) and the sub-box variant contain exactly the unit cubes of the (sub-)grid and their faces. Freudenthal(X,n1,n2,n3) of any 3-dimensional cubical complex contains exactly the chains inside a cube of X, so triangulating Cube(n1,n2,n3) gives the simplices of Freudenthal(n1,n2,n3). The row-major number is injective on the grid. Limits: a grid with one layer in some direction gives a complex with no simplex at all (not even vertices), and the documented row-major formula is not the one used.", "quantifier": "all grid sizes >= 1, all sub-boxes with positive upper ends, all 3-dimensional cubical complexes the API can build", "why_tests_cant": "the cell set must be right for every size and every sub-box, including degenerate slices, and for every cubical complex", "anchors": ["include/topology/grid.hpp: Freudenthal, Cube, rowmajor::get_idx"]}
{"id": "C57", "title": "Cell complexes: indices, counts and boundary matrices", "statement": "For any sequence of calls add(boundary, coeff, k), add_vertex() and add_vertices(n) on a CellComplex(m): the sequence succeeds exactly when every call for k > 0 passes as many coefficients as boundary cells (otherwise an assertion stops it); afterwards maxdim() is the largest of m and the dimensions used, ncells(k) counts the cells of dimension k added, and add(b, c, k) returns the index of the new cell in its dimension. boundary(k), for 1 <= k <= maxdim(), is a matrix with ncells(k-1) rows and ncells(k) columns whose column j holds exactly the entries given for the j-th k-cell, sorted by row; over a field, entry (i,j) is the sum of the coefficients given for i. Exceptions: boundary indices are not checked (a boundary naming a cell that does not exist is stored and gives a matrix entry outside the rows), boundary(0) and boundary(k) above maxdim() read out of range, add_vertices(n) returns the new number of vertices, not an index, and boundary(k, row, col) is declared but has no definition.", "quantifier": "all initial dimensions, all finite histories of calls with any boundaries, coefficients and dimensions, all dimensions k, all target fields", "why_tests_cant": "the arrays of all earlier cells must survive every later call, including calls that enlarge the dimension; only an invariant over all histories shows that no column is lost or shifted", "anchors": ["include/complex/cell_complex.hpp: CellComplex::add, add_vertex, add_vertices, maxdim, ncells, boundary_csc, boundary"]}
