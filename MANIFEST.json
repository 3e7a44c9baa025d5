{
 "claims": [
  {
   "property": "C01",
   "status": "proved",
   "theorems": [
    "C01_isprime",
    "C01_ring",
    "C01_inv",
    "C01_div",
    "C01_compare",
    "C01_overflow",
    "C01_nonvacuous",
    "C01_is_Fp"
   ],
   "note": "Model M_Field.v (32-bit int, unsigned conversions); C01_is_Fp gives the isomorphism with mathcomp's 'F_p."
  },
  {
   "property": "C02",
   "status": "proved",
   "theorems": [
    "C02_make",
    "C02_additive_fails",
    "C02_witness"
   ],
   "note": "The intended claim (every int) is false of the code; the exact domain of correctness is proved."
  },
  {
   "property": "C03",
   "status": "proved",
   "theorems": [
    "C03_field",
    "C03_compare_int",
    "C03_incoherent",
    "C03_assign_noop",
    "C03_nonvacuous"
   ],
   "note": "Coherence with ints is false of the code; the exact behaviour is proved."
  },
  {
   "property": "C04",
   "status": "proved",
   "theorems": [
    "C04_make",
    "C04_ops",
    "C04_defined",
    "C04_compare",
    "C04_zero_denominator",
    "C04_self_division",
    "C04_nonvacuous"
   ],
   "note": "Signed integer type of any width w, overflow is UB."
  },
  {
   "property": "C05",
   "status": "proved",
   "theorems": [
    "C05_axpy",
    "C05_axpy_range"
   ],
   "note": "axpy for sorted vectors over every field; ranged variant for well formed vectors"
  },
  {
   "property": "C06",
   "status": "proved",
   "theorems": [
    "C06_getval",
    "C06_dot",
    "C06_scale",
    "C06_add",
    "C06_clear_zeros",
    "C06_select",
    "C06_eq"
   ],
   "note": ""
  },
  {
   "property": "C07",
   "status": "proved",
   "theorems": [
    "C07_gemv",
    "C07_gemm",
    "C07_add",
    "C07_identity",
    "C07_assoc"
   ],
   "note": ""
  },
  {
   "property": "C08",
   "status": "proved",
   "theorems": [
    "C08_sub",
    "C08_sub_right_iff"
   ],
   "note": "proves what operator- does; the intended claim (A-B) is false in odd characteristic"
  },
  {
   "property": "C09",
   "status": "proved",
   "theorems": [
    "C09_transpose"
   ],
   "note": ""
  },
  {
   "property": "C10",
   "status": "proved",
   "theorems": [
    "C10_u_solve",
    "C10_u_inv",
    "C10_l_solve",
    "C10_l_inv",
    "C10_l_solve_refuted"
   ],
   "note": ""
  },
  {
   "property": "C11",
   "status": "proved",
   "theorems": [
    "C11_permute_rows",
    "C11_ipermute_cols",
    "C11_permute_cols",
    "C11_cols_inverse",
    "C11_insert_column",
    "C11_insert_zero_column",
    "C11_insert_zero_column_refuted"
   ],
   "note": ""
  },
  {
   "property": "C12",
   "status": "proved",
   "theorems": [
    "C12_block",
    "C12_set_block",
    "C12_set_block_refuted"
   ],
   "note": ""
  },
  {
   "property": "C13",
   "status": "proved",
   "theorems": [
    "C13_standard_reduction",
    "C13_from_identity",
    "C13_no_basis",
    "C13_mismatch"
   ],
   "note": ""
  },
  {
   "property": "C14",
   "status": "proved",
   "theorems": [
    "C14_betti"
   ],
   "note": ""
  },
  {
   "property": "C15",
   "status": "proved",
   "theorems": [
    "C15_pairing_unique",
    "C15_same_pivots"
   ],
   "note": ""
  },
  {
   "property": "C16",
   "status": "proved",
   "theorems": [
    "C16_options_agree",
    "C16_clearing_basis"
   ],
   "note": ""
  },
  {
   "property": "C17",
   "status": "proved",
   "theorems": [
    "C17_extra_refuted",
    "C17_extra_cells",
    "C17_extra_matrix"
   ],
   "note": "False for arbitrary matrices (C17_extra_refuted: a CW sphere gets wrong Betti numbers, because columns with a single entry are skipped); true for complexes of cells with nonzero boundaries (C17_extra_cells) and any matrix with no single-entry combination of columns (C17_extra_matrix)."
  },
  {
   "property": "C18",
   "status": "proved",
   "theorems": [
    "C18_tasks",
    "C18_basis",
    "C18_partial_reduce",
    "C18_partial_reduce_ub",
    "C18_nonvacuous"
   ],
   "note": "Task language with small-step interleaving semantics; a column is one memory cell, accessed atomically, which the proved absence of races justifies."
  },
  {
   "property": "C19",
   "status": "proved",
   "theorems": [
    "C19_update_reduction2",
    "C19_permute_basis",
    "C19_permute_vs_fresh",
    "C19_update_filtration"
   ],
   "note": ""
  },
  {
   "property": "C20",
   "status": "proved",
   "theorems": [
    "C20_representatives",
    "C20_preferred",
    "C20_compression_refuted"
   ],
   "note": "chain_preferred_representative is right for the standard and clearing options and wrong after a reduction with the compression option"
  },
  {
   "property": "C21",
   "status": "proved",
   "theorems": [
    "C21_induced",
    "C21_identity",
    "C21_composition",
    "C21_rank",
    "C21_nonvacuous"
   ],
   "note": ""
  },
  {
   "property": "C22",
   "status": "proved",
   "theorems": [
    "C22_persistent_betti",
    "C22_pbet_quotient",
    "C22_partition",
    "C22_values",
    "C22_representative"
   ],
   "note": ""
  },
  {
   "property": "C23",
   "status": "proved",
   "theorems": [
    "C23_defined",
    "C23_find",
    "C23_dimension",
    "C23_closed",
    "C23_add_directed",
    "C23_add",
    "C23_add_directed_recursive",
    "C23_add_recursive",
    "C23_union",
    "C23_union_add",
    "C23_intersection",
    "C23_get_indices",
    "C23_empty_simplex",
    "C23_degenerate",
    "C23_nonvacuous"
   ],
   "note": "Model in M_Simplicial.v (trie, arrays, face sorting). 'built' in S_Simplicial.v is the set of complexes the public calls produce. Quirks shown: find_idx of the empty simplex is 0; repeated vertices are accepted."
  },
  {
   "property": "C24",
   "status": "proved",
   "theorems": [
    "C24_boundary",
    "C24_matrix",
    "C24_square",
    "C24_chain",
    "C24_nondegenerate_new",
    "C24_nondegenerate_add",
    "C24_nondegenerate_add_recursive",
    "C24_nonvacuous",
    "C24_degenerate"
   ],
   "note": "alt_alt: the alternating face sum applied twice is zero. C24_chain provides the hypotheses chain_wf and cells_like of C14-C22."
  },
  {
   "property": "C25",
   "status": "proved",
   "theorems": [
    "C25_defined",
    "C25_find",
    "C25_dimension",
    "C25_closed",
    "C25_add",
    "C25_add_recursive",
    "C25_skeleton",
    "C25_generate",
    "C25_boundary",
    "C25_square",
    "C25_chain",
    "C25_dim0",
    "C25_prefix",
    "C25_nonvacuous"
   ],
   "note": "C25_dim0 and C25_prefix are the two faults found; everything else is stated for ambient dimension > 0 where the code needs it."
  },
  {
   "property": "C26",
   "status": "proved",
   "theorems": [
    "C26_key",
    "C26_key_onto",
    "C26_too_large",
    "C26_find",
    "C26_cell",
    "C26_find_defined",
    "C26_new",
    "C26_add",
    "C26_add_unsafe",
    "C26_faces",
    "C26_add_recursive",
    "C26_boundary",
    "C26_matrix",
    "C26_square",
    "C26_chain",
    "C26_undefined",
    "C26_vertex_range",
    "C26_bound_tight",
    "C26_overflow",
    "C26_nonvacuous"
   ],
   "note": "Proved for a machine where the out-of-bounds read of _offset[-1] yields some number (any number: its value is multiplied into a quantity never used); by the letter of the standard every boundary is undefined (C26_undefined). The bound n^(k+1) <= W is tight (C26_bound_tight)."
  },
  {
   "property": "C27",
   "status": "proved",
   "theorems": [
    "C27_defined",
    "C27_columns",
    "C27_small_target",
    "C27_edge_to_point",
    "C27_commutes",
    "C27_chain_map",
    "C27_compose",
    "C27_homology",
    "C27_identity",
    "C27_inclusion",
    "C27_cubical_inclusion",
    "C27_inclusion_commutes",
    "C27_cubical_commutes",
    "C27_nonvacuous"
   ],
   "note": "all complexes reachable through the API, all vertex maps, every field; C27_small_target/C27_edge_to_point: defect, out-of-bounds read of Y.ncells(k) when dim X > dim Y"
  },
  {
   "property": "C28",
   "status": "proved",
   "theorems": [
    "C28_aligned",
    "C28_of",
    "C28_add_directed",
    "C28_add_directed_missing",
    "C28_add",
    "C28_add_missing",
    "C28_add_recursive",
    "C28_add_recursive_monotone",
    "C28_add_monotone",
    "C28_union_add",
    "C28_union_add_undirected",
    "C28_sublevelset",
    "C28_sublevelset_monotone",
    "C28_overwrite_breaks",
    "C28_nonvacuous"
   ],
   "note": "Includes negative results: UB when a face is missing, overwriting, dropped simplices in sublevel sets. update_filtration and the (C, vals) constructor store any values and are outside."
  },
  {
   "property": "C29",
   "status": "proved",
   "theorems": [
    "C29_sortperm",
    "C29_inv_perm",
    "C29_apply",
    "C29_apply_gather",
    "C29_sign",
    "C29_inversions",
    "C29_partial_perm",
    "C29_find_perm",
    "C29_perm_to_the_end",
    "C29_perm_to_the_end1",
    "C29_extension",
    "C29_nonvacuous",
    "C29_nonvacuous2"
   ],
   "note": "std::sort is modelled as a stable sort"
  },
  {
   "property": "C30",
   "status": "proved",
   "theorems": [
    "C30_kendall",
    "C30_kendall2",
    "C30_nonvacuous"
   ],
   "note": ""
  },
  {
   "property": "C31",
   "status": "proved",
   "theorems": [
    "C31_intersect",
    "C31_intersect_lt",
    "C31_intersect_lt_wrong",
    "C31_find_lt",
    "C31_complement",
    "C31_sort_sum_reduce",
    "C31_sort_sum_reduce_empty",
    "C31_simplex_sign",
    "C31_nonvacuous",
    "C31_nonvacuous2",
    "C31_nonvacuous3"
   ],
   "note": "the statement includes three faults of the code, proved as such"
  },
  {
   "property": "C32",
   "status": "proved",
   "theorems": [
    "C32_barcode_equality"
   ],
   "note": ""
  },
  {
   "property": "C33",
   "status": "proved",
   "theorems": [
    "C33_union_find",
    "C33_agrees",
    "C33_simplicial",
    "C33_binom",
    "C33_rips",
    "C33_rips_empty",
    "C33_order_refuted",
    "C33_float_refuted",
    "C33_loop_ub",
    "C33_nonvacuous"
   ],
   "note": "Forest invariant with path compression; termination included. Float conversion and comparison are parameters, assumed strictly monotone on the values; the square roots in k_choose_2_inv and rips are taken as exact. The conditions on insertion order are necessary: C33_order_refuted."
  },
  {
   "property": "C34",
   "status": "proved",
   "theorems": [
    "C34_matrix_int",
    "C34_matrix_modp",
    "C34_matrix_rational",
    "C34_matrix_rational_iff",
    "C34_matrix_big",
    "C34_matrix_any",
    "C34_map",
    "C34_complex",
    "C34_complex_general",
    "C34_complex_big",
    "C34_complex_any",
    "C34_directed",
    "C34_nonvacuous",
    "C34_text",
    "C34_nonvacuous_big"
   ],
   "note": "Files are lists of characters; opening/writing does not fail. Refutes the naive claim for rationals, CellularMap and directed complexes."
  },
  {
   "property": "C35",
   "status": "proved",
   "theorems": [
    "C35_update_involution",
    "C35_update_effect",
    "C35_update_refuted"
   ],
   "note": "The documented intent (same as a fresh construction) is false: C35_update_refuted. ReducedFilteredChainComplex::update_filtration is right: C19_update_filtration."
  },
  {
   "property": "C36",
   "status": "proved",
   "theorems": [
    "C36_update",
    "C36_again",
    "C36_fresh",
    "C36_vertex_singular",
    "C36_maxdim0",
    "C36_not_char2",
    "C36_insert_past_end",
    "C36_nonvacuous"
   ],
   "note": "Proved for update_basis_general with standard reduction, given information that describes the change (S_UpdateGen.describes: all coefficients of added cells are 1). Four failures are proved beside it."
  },
  {
   "property": "C37",
   "status": "proved",
   "theorems": [
    "C37_remove_extra_cycles",
    "C37_leftover",
    "C37_rcc",
    "C37_hom_basis",
    "C37_nonvacuous"
   ],
   "note": "C37_leftover refutes the doc comment; rcc-level theorems for the clearing and standard reductions with basis"
  },
  {
   "property": "C38",
   "status": "proved",
   "theorems": [
    "C38_sparsify",
    "C38_not_reduced",
    "C38_out_of_bounds"
   ],
   "note": "the two refutations are witnesses over F2"
  },
  {
   "property": "C39",
   "status": "proved",
   "theorems": [
    "C39_assign",
    "C39_assign_empty",
    "C39_nonvacuous"
   ],
   "note": "operator= of the trie deletes children and does not reset the pointer when the source has none; the class has a user-declared destructor, so X = SimplicialComplex() uses this copy assignment."
  },
  {
   "property": "C40",
   "status": "proved",
   "theorems": [
    "C40_flag_filtration",
    "C40_flag_monotone",
    "C40_flag_complex",
    "C40_flag_complex_odd",
    "C40_rips_filtration_matrix",
    "C40_rips_filtration_data",
    "C40_rips_complex_matrix",
    "C40_rips_complex_data",
    "C40_rips_sublevelset_matrix",
    "C40_rips_sublevelset_data",
    "C40_flag_out_of_range",
    "C40_flag_extension",
    "C40_flag_extension_dim0",
    "C40_complete_flag",
    "C40_nonvacuous",
    "C40_extension_nonvacuous",
    "C40_quirks"
   ],
   "note": "Values are an arbitrary totally ordered type (double without NaN); the distance function is a parameter."
  },
  {
   "property": "C41",
   "status": "proved",
   "theorems": [
    "C41_make",
    "C41_getval",
    "C41_submatrix",
    "C41_block_select",
    "C41_gemm",
    "C41_gemm_empty",
    "C41_axpy",
    "C41_sum",
    "C41_sum_empty",
    "C41_nonvacuous"
   ],
   "note": "trilu is not modelled. Values in any field."
  },
  {
   "property": "C42",
   "status": "proved",
   "theorems": [
    "C42_LEUP",
    "C42_PLEU",
    "C42_UELP",
    "C42_PUEL",
    "C42_LQU",
    "C42_UQL",
    "C42_inv",
    "C42_rank",
    "C42_EL_L",
    "C42_L_EL",
    "C42_U_EU",
    "C42_EU_U",
    "C42_nonvacuous"
   ],
   "note": ""
  },
  {
   "property": "C43",
   "status": "proved",
   "theorems": [
    "C43_rightward",
    "C43_leftward",
    "C43_divide_conquer",
    "C43_zigzag_rank",
    "C43_unique",
    "C43_composite_rank",
    "C43_agree",
    "C43_all_dimensions",
    "C43_all_dimensions_sequential",
    "C43_no_edges",
    "C43_every_diagram",
    "C43_nonvacuous"
   ],
   "note": "The two OpenMP tasks of every level are run in either order; finer interleavings are not modelled (they touch disjoint vector elements)."
  },
  {
   "property": "C44",
   "status": "proved",
   "theorems": [
    "C44_barcode",
    "C44_order",
    "C44_zigzag_rank",
    "C44_unique",
    "C44_betti",
    "C44_composite_rank",
    "C44_all_dimensions",
    "C44_no_dimension",
    "C44_chain",
    "C44_simplicial",
    "C44_nonvacuous"
   ],
   "note": "Iterations of the parallel loops are atomic and run in an arbitrary order (they write disjoint slots); equal dimensions of the complexes are assumed, as the code documents."
  },
  {
   "property": "C45",
   "status": "proved",
   "theorems": [
    "C45_persistent_betti",
    "C45_pairs_agree",
    "C45_same_as_chain_complex",
    "C45_hdim",
    "C45_hdim_filtered",
    "C45_is_differential",
    "C45_degree",
    "C45_hdim_above",
    "C45_update_filtration",
    "C45_induced_hom",
    "C45_induced_coh_wrong",
    "C45_induced_coh_refuted",
    "C45_nonvacuous"
   ],
   "note": "Refuted for degree +1 induced maps (C45_induced_coh_wrong, C45_induced_coh_refuted), for hdim and is_differential past the ends."
  },
  {
   "property": "C46",
   "status": "proved",
   "theorems": [
    "zigzag_barcode",
    "zigzag_barcode_example",
    "zigzag_small_maxdim_refuted"
   ],
   "note": "Model M_Zigzag.v, specification S_Zigzag.v (cells present, cycles and boundaries among them, intervals). zigzag_barcode_example: the hypotheses hold for a triangle filled in turn by two 2-cells, with the computed bars. zigzag_small_maxdim_refuted: the bound on maxdim is needed. The extra_reduction_flag variant of reduce_column and the construction of the event list (ZigzagFiltration, ZigzagChainComplex) are not part of this claim."
  },
  {
   "property": "C47",
   "status": "proved",
   "theorems": [
    "zigzag_filtration_barcode",
    "zigzag_filtration_barcode_spx",
    "zigzag_filtration_example",
    "msort_sorts",
    "zigzag_filtration_later_face_refuted",
    "zigzag_filtration_touching_refuted",
    "zigzag_filtration_degenerate_refuted"
   ],
   "note": "specification in S_ZigzagFilt.v; std::sort is a parameter constrained by its contract; doubles are a total order (no NaN)"
  },
  {
   "property": "C48",
   "status": "proved",
   "theorems": [
    "C48_extend_zigzag",
    "C48_zigzag_barcode",
    "C48_lower_star",
    "C48_lower_star_sublevelset",
    "C48_lower_star_cubes2",
    "C48_lower_star_cubes3",
    "C48_lower_star_backwards",
    "C48_negative_values",
    "C48_nonvacuous",
    "C48_nonvacuous2"
   ],
   "note": "Values in any orderType (NaN excluded); the gradient in any abelian group (exact arithmetic). numeric_limits min/max are parameters lo, hi: the zigzag theorems need lo <= f0 <= hi, C48_negative_values shows what happens otherwise. LowerStarFiltration (star.hpp) and extend_levelset cannot be instantiated and are not modelled; the cubical overload of extend_zigzag_filtration is not modelled."
  },
  {
   "property": "C49",
   "status": "proved",
   "theorems": [
    "C49_nerve",
    "C49_nerve_quirks",
    "C49_neighborhoods",
    "C49_dowker_nerve",
    "C49_neighborhoods_radius",
    "C49_dowker_param",
    "C49_dowker_filtration",
    "C49_rips_cover",
    "C49_dowker_cover",
    "C49_cover_trivial",
    "C49_witness_complex",
    "C49_get_m",
    "C49_get_m_ties",
    "C49_witness_param_ub",
    "C49_witness_filtration_ub",
    "C49_witness_param",
    "C49_witness_filtration",
    "C49_example",
    "C49_dowker_example",
    "C49_witness_example"
   ],
   "note": "Values are any totally ordered type with a largest element (NaN not modelled). Distances enter as a function of two indices; the k-nearest-neighbour lists of WitnessComplex are an input (distinct entries, at least dmax+1). StrictRipsCoverFiltration is not covered. The out-of-bounds access of witness_edge_param is proved as UB of the model."
  },
  {
   "property": "C50",
   "status": "proved",
   "theorems": [
    "C50_greedy_k",
    "C50_hausdorff_mono",
    "C50_hausdorff_unique",
    "C50_greedy",
    "C50_greedy_distinct",
    "C50_greedy_permutation",
    "C50_greedy_landmarks",
    "C50_greedy_diverges",
    "C50_hausdorff_landmarks",
    "C50_hausdorff_diverges",
    "C50_matrix",
    "C50_approx_center",
    "C50_enclosing_radius",
    "C50_enclosing_cone",
    "C50_two_approximation",
    "C50_example",
    "C50_example_hypotheses",
    "C50_repeats"
   ],
   "note": "Distances enter as a function of two indices (the metrics themselves are not modelled); NaN and rounding are not modelled. random_landmarks is not covered. Divergence is OutOfFuel for every amount of fuel."
  },
  {
   "property": "C51",
   "status": "proved",
   "theorems": [
    "C51_set_union",
    "C51_set_intersection",
    "C51_vertex_inclusion",
    "C51_vertex_inclusion_outside",
    "C51_union_diagram",
    "C51_union_diagram_empty",
    "C51_intersection_diagram",
    "C51_intersection_diagram_wrong",
    "C51_landmark_cover",
    "C51_landmark_cover_large",
    "C51_eps_cover",
    "C51_eps_covers",
    "C51_eps_zero",
    "C51_bivariate",
    "C51_bivariate_maps",
    "C51_nerve_map",
    "C51_nerve_functor",
    "C51_nerve_functor_dmax0",
    "C51_rips_functor",
    "C51_rips_functor_var",
    "C51_rips_decreasing",
    "C51_rips_union",
    "C51_rips_zigzag",
    "C51_interval_undefined",
    "C51_interval_cover",
    "C51_interval_covers",
    "C51_interval_example",
    "C51_cover_examples",
    "C51_rips_example",
    "C51_rips_example_hyps"
   ],
   "note": "Findings: linear_cover_intersection_diagram (inclusion.hpp 53) adds its edges to node i instead of i1 (C51_intersection_diagram, _wrong); uniform_interval_cover converts -1.0 to size_t for the smallest point, undefined behaviour in every call (C51_interval_undefined), the other interval theorems assume the conversion wraps; with dmax = 0 the Nerve functor can fail on a cover map (C51_nerve_functor_dmax0)."
  },
  {
   "property": "C52",
   "status": "proved",
   "theorems": [
    "C52_make",
    "C52_const",
    "C52_identity",
    "C52_monomial",
    "C52_add",
    "C52_sub",
    "C52_opp",
    "C52_mul",
    "C52_eval",
    "C52_eq",
    "C52_eq_scalar",
    "C52_divrem",
    "C52_division",
    "C52_divide_by_zero",
    "C52_gcd",
    "C52_euclid_int",
    "C52_euclid_poly",
    "C52_apply",
    "C52_companion",
    "C52_companion_refuses",
    "C52_companion_one",
    "C52_companion_stored_zeros",
    "C52_characteristic",
    "C52_characteristic_refuses"
   ],
   "note": "over any mathcomp field; results are stated as equality with the coefficient list of the mathcomp polynomial. int is modelled as unbounded integers. smith_normal_form, smith_factorization and rcf.hpp are not modelled."
  },
  {
   "property": "C53",
   "status": "proved",
   "theorems": [
    "C53_indices",
    "C53_morozov",
    "C53_oscillating",
    "C53_oscillating_refuses",
    "C53_morozov_rips",
    "C53_coincident"
   ],
   "note": "T is an abstract total order with a multiplication, as exact arithmetic (no rounding, no NaN); eta of get_dM_ZZ_inds, which contains a square root, is a parameter. C53_coincident: two coincident points make DiscreteMorozovZigzagSets read past the end of the landmarks (undefined behaviour); C53_morozov is therefore stated for different points."
  },
  {
   "property": "C54",
   "status": "proved",
   "theorems": [
    "C54_defined",
    "C54_connecting",
    "C54_homology",
    "C54_exact_X",
    "C54_exact_Y",
    "C54_union_inter",
    "C54_unsorted"
   ],
   "note": "The matrix is read as the sum of its stored entries. C54_unsorted: a circle cut into two arcs where a column comes out with decreasing indices (a defect: SparseVector requires sorted indices; with BATS_DEBUG the constructor throws)."
  },
  {
   "property": "C55",
   "status": "proved",
   "theorems": [
    "C55_product",
    "C55_full",
    "C55_edge",
    "C55_skeleton",
    "C55_collision"
   ],
   "note": "C55_skeleton and C55_collision exhibit the two limits by running the model."
  },
  {
   "property": "C56",
   "status": "proved",
   "theorems": [
    "C56_Freudenthal2",
    "C56_Freudenthal3",
    "C56_FreudenthalBox",
    "C56_Cube2",
    "C56_Cube3",
    "C56_CubeBox",
    "C56_cubical",
    "C56_same",
    "C56_index",
    "C56_thin",
    "C56_examples"
   ],
   "note": "Size 0 (size_t wrap of n-1) is outside the theorems; the model returns UB there."
  },
  {
   "property": "C57",
   "status": "proved",
   "theorems": [
    "C57_defined",
    "C57_counts",
    "C57_boundary",
    "C57_range",
    "C57_matrix",
    "C57_examples"
   ],
   "note": "Every history of public calls is covered by an inductive type of operations; the boundary goes through the modelled CSCMatrix constructor (sorting every column) and the conversion to ColumnMatrix. Findings (proved): boundary indices not validated (example), boundary(0)/above maxdim() undefined behaviour."
  }
 ]
}