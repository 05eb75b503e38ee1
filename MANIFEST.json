{
 "claims": [
  {
   "property": "C01",
   "status": "proved",
   "theorems": [
    "C01_fresh_bijective",
    "C01_views_inside_and_injective",
    "C01_static_extents",
    "C01_default"
   ],
   "note": ""
  },
  {
   "property": "C02",
   "status": "proved",
   "theorems": [
    "C02_to_idx_of_position",
    "C02_to_idx_on_views"
   ],
   "note": ""
  },
  {
   "property": "C03",
   "status": "proved",
   "theorems": [
    "C03_call_is_scalar_product",
    "C03_flag_hypothesis_met"
   ],
   "note": ""
  },
  {
   "property": "C04",
   "status": "proved",
   "theorems": [
    "C04_inverse_two_sided",
    "C04_compose_monoid",
    "C04_compose_pointwise",
    "C04_apply_action",
    "C04_builders",
    "C04_is_valid_exact",
    "C04_is_valid_out_of_range_refuted",
    "C04_cycle_large_shift_refuted"
   ],
   "note": "Statement names the two corner cases where the code misbehaves; both have _refuted witnesses."
  },
  {
   "property": "C05",
   "status": "proved",
   "theorems": [
    "C05_encode_decode",
    "C05_encode_rank_9_refuted"
   ],
   "note": "Rank >= 9 is proved to be undefined (C05_encode_rank_9_refuted)."
  },
  {
   "property": "C06",
   "status": "proved",
   "theorems": [
    "C06_permuted_view_elements",
    "C06_permuted_view_is_truthful",
    "C06_permuting_composes",
    "C06_transpose_twice",
    "C06_transposed_view"
   ],
   "note": ""
  },
  {
   "property": "C07",
   "status": "proved",
   "theorems": [
    "C07_slice_compiles_iff",
    "C07_slice_selects"
   ],
   "note": ""
  },
  {
   "property": "C08",
   "status": "proved",
   "theorems": [
    "C08_slices_compose"
   ],
   "note": ""
  },
  {
   "property": "C09",
   "status": "proved",
   "theorems": [
    "C09_accepted_slice_inside",
    "C09_check_exact",
    "C09_minus_one_range_refuted"
   ],
   "note": "The one degenerate range is excluded by hypothesis and refuted by witness."
  },
  {
   "property": "C10",
   "status": "proved",
   "theorems": [
    "C10_slice_stride_order",
    "C10_views_separated"
   ],
   "note": ""
  },
  {
   "property": "C11",
   "status": "proved",
   "theorems": [
    "C11_slice_flags_truthful",
    "C11_views_flags_meaning"
   ],
   "note": ""
  },
  {
   "property": "C12",
   "status": "proved",
   "theorems": [
    "C12_is_contiguous_right",
    "C12_is_contiguous_exact",
    "C12_is_strided_1d_right",
    "C12_is_strided_1d_complete",
    "C12_declared_contiguous_answers_true",
    "C12_is_contiguous_negative_stride_refuted",
    "C12_is_strided_1d_refuted",
    "C12_is_contiguous_unit_extent_refuted",
    "C12_contiguous_with_min_stride_2_refuted"
   ],
   "note": "Exactness under the stated conditions; four _refuted witnesses on reachable layouts outside them."
  },
  {
   "property": "C13",
   "status": "proved",
   "theorems": [
    "C13_checked_access_exact"
   ],
   "note": ""
  },
  {
   "property": "C14",
   "status": "proved",
   "theorems": [
    "C14_for_each",
    "C14_for_each_calls",
    "C14_order_determined",
    "C14_zero_extent",
    "C14_for_each_static",
    "C14_static_argument_order_refuted"
   ],
   "note": ""
  },
  {
   "property": "C15",
   "status": "proved",
   "theorems": [
    "C15_iteration",
    "C15_fresh_memory_order",
    "C15_zero_extent_diverges_refuted",
    "C15_iterator_arithmetic",
    "C15_iterator_at"
   ],
   "note": ""
  },
  {
   "property": "C16",
   "status": "proved",
   "theorems": [
    "C16_assign",
    "C16_source_kept",
    "C16_shape_mismatch",
    "C16_views_usable"
   ],
   "note": ""
  },
  {
   "property": "C17",
   "status": "proved",
   "theorems": [
    "C17_linear",
    "C17_linear_c_order",
    "C17_overlap_refuted"
   ],
   "note": ""
  },
  {
   "property": "C18",
   "status": "proved",
   "theorems": [
    "C18_block_layout",
    "C18_block_layout_steps",
    "C18_step_one_roomy",
    "C18_block_copy",
    "C18_device_assign",
    "C18_unit_extent_refuted",
    "C18_large_refuted"
   ],
   "note": ""
  },
  {
   "property": "C19",
   "status": "proved",
   "theorems": [
    "C19_fill",
    "C19_fill_matrix",
    "C19_conditions",
    "C19_negative_stride_refuted",
    "C19_zero_extent_refuted"
   ],
   "note": ""
  },
  {
   "property": "C20",
   "status": "proved",
   "theorems": [
    "C20_elementwise_self",
    "C20_self_assign",
    "C20_transpose_in_place_refuted",
    "C20_shift_refuted",
    "C20_assign_expr",
    "C20_compound",
    "C20_compound_scalar"
   ],
   "note": ""
  },
  {
   "property": "C21",
   "status": "proved",
   "theorems": [
    "C21_equality",
    "C21_views",
    "C21_reflexive",
    "C21_symmetric",
    "C21_transitive",
    "C21_after_assign"
   ],
   "note": ""
  },
  {
   "property": "C22",
   "status": "proved",
   "theorems": [
    "C22_fold",
    "C22_any",
    "C22_all",
    "C22_sum",
    "C22_product",
    "C22_frobenius",
    "C22_max",
    "C22_min",
    "C22_empty_max_refuted",
    "C22_int_pow",
    "C22_max_nan",
    "C22_min_nan"
   ],
   "note": ""
  },
  {
   "property": "C23",
   "status": "proved",
   "theorems": [
    "C23_value",
    "C23_shape_check",
    "C23_elementwise",
    "C23_matrix_scalar",
    "C23_array_scalar",
    "C23_algebra",
    "C23_local",
    "C23_slice",
    "C23_typing",
    "C23_rank",
    "C23_mixed_refuted"
   ],
   "note": ""
  },
  {
   "property": "C24",
   "status": "proved",
   "theorems": [
    "C24_reshape",
    "C24_declared_contiguous",
    "C24_checked_contiguous",
    "C24_standard_policies",
    "C24_basic_policy",
    "C24_element_order",
    "C24_flatten",
    "C24_reported",
    "C24_same_values",
    "C24_flatten_transposed_refuted",
    "C24_static_extents_refuted"
   ],
   "note": "C and Fortran policies for all shapes; policies carrying a stride order of another rank are refuted by witness."
  },
  {
   "property": "C25",
   "status": "proved",
   "theorems": [
    "C25_accepted",
    "C25_elements",
    "C25_contiguous",
    "C25_listing_order"
   ],
   "note": ""
  },
  {
   "property": "C26",
   "status": "proved",
   "theorems": [
    "C26_add_dims",
    "C26_usable",
    "C26_strided_refuted"
   ],
   "note": "Elements for every layout; usability excludes strided_1d with larger stride (refuted)."
  },
  {
   "property": "C27",
   "status": "proved",
   "theorems": [
    "C27_is_square",
    "C27_is_diagonal",
    "C27_is_diagonal_exact",
    "C27_diagonal",
    "C27_diag",
    "C27_eye",
    "C27_trace",
    "C27_trace_integers",
    "C27_dagger",
    "C27_vstack",
    "C27_vstack_mismatch"
   ],
   "note": ""
  },
  {
   "property": "C28",
   "status": "proved",
   "theorems": [
    "C28_rank1",
    "C28_rank2",
    "C28_rank3",
    "C28_reported",
    "C28_reported_three",
    "C28_reported_rank3",
    "C28_reported_refuted",
    "C28_empty_list_refuted"
   ],
   "note": "Contents for all rectangular lists of ranks 1 to 3; C28_reported and C28_reported_rank3 say exactly which lists are reported; C28_reported_three: up to three rows the check is complete; C28_reported_refuted: from four rows on it is not; C28_empty_list_refuted. std::minmax_element is modelled as in libstdc++ (its use with == has no defined result by the standard)."
  },
  {
   "property": "C29",
   "status": "proved",
   "theorems": [
    "C29_heap_handles",
    "C29_swap"
   ],
   "note": "All histories of a program of any number of variables, by simulation with a machine that has no memory management."
  },
  {
   "property": "C30",
   "status": "proved",
   "theorems": [
    "C30_sso_values",
    "C30_all_released",
    "C30_trivial_types",
    "C30_stack_copy",
    "C30_stack_lifetime",
    "C30_self_assign_refuted",
    "C30_self_assign_objects_refuted",
    "C30_move_small_refuted",
    "C30_stack_assign_refuted",
    "C30_complex_zero_refuted"
   ],
   "note": "All histories of the statements the code gets right; the excluded statements are each refuted by witness."
  },
  {
   "property": "C31",
   "status": "proved",
   "theorems": [
    "C31_shared_handles",
    "C31_released_with_last_owner",
    "C31_control_pair_refuted",
    "C31_self_move_refuted",
    "C31_moved_from_refuted"
   ],
   "note": "All histories without self-moves of a shared heap handle and without reading moved-from shared handles (both refuted by witness); the leak of the deleter argument is C31_control_pair_refuted."
  },
  {
   "property": "C32",
   "status": "proved",
   "theorems": [
    "C32_bucket",
    "C32_multi_bucket",
    "C32_bucket_queries",
    "C32_no_waste",
    "C32_oversize_refuted"
   ],
   "note": "All histories, all addresses the system may choose. Oversized requests: C32_oversize_refuted."
  },
  {
   "property": "C33",
   "status": "proved",
   "theorems": [
    "C33_mallocator",
    "C33_segregator",
    "C33_small_and_big",
    "C33_leak_check",
    "C33_stats",
    "C33_stats_zero_refuted",
    "C33_stats_empty_refuted",
    "C33_leak_empty_refuted"
   ],
   "note": "stats::allocate_zero does not zero, stats with size 0 is undefined, leaks of empty blocks are not seen: the three _refuted theorems."
  },
  {
   "property": "C34",
   "status": "proved",
   "theorems": [
    "C34_classes",
    "C34_order",
    "C34_orbits",
    "C34_inverses",
    "C34_one_way_refuted",
    "C34_excursion_refuted"
   ],
   "note": "Every shape of rank 1-15, list of maps and depth. Limits of the grouping: C34_one_way_refuted, C34_excursion_refuted."
  },
  {
   "property": "C35",
   "status": "proved",
   "theorems": [
    "C35_init",
    "C35_init_symmetric",
    "C35_init_parallel",
    "C35_symmetrize",
    "C35_fixed_point",
    "C35_symmetric_unchanged",
    "C35_idempotent",
    "C35_layout_refuted"
   ],
   "note": "Values over any type with the stated laws (exact arithmetic for the mean of equal numbers). Layouts other than C order: C35_layout_refuted."
  },
  {
   "property": "C36",
   "status": "proved",
   "theorems": [
    "C36_chunks",
    "C36_scatter",
    "C36_gather",
    "C36_round_trip",
    "C36_order_refuted",
    "C36_local_extent_refuted",
    "C36_empty_refuted",
    "C36_gather_mismatch_refuted",
    "C36_scatter_assign",
    "C36_gather_assign",
    "C36_round_trip_assign",
    "C36_self_assign_refuted",
    "C36_gather_view_refuted"
   ],
   "note": "Scatter, gather, all_gather and the round trip for any number of ranks, any shape, C-like orders (dim 0 slowest), views or arrays as targets; C36_scatter_assign, C36_gather_assign and C36_round_trip_assign include the resizing done by the assignment (or construction) on every rank. Refuted without the side conditions: C36_order_refuted, C36_local_extent_refuted, C36_empty_refuted, C36_gather_mismatch_refuted, C36_self_assign_refuted, C36_gather_view_refuted. MPI collectives are modelled by their standard semantics; counts are ints."
  },
  {
   "property": "C37",
   "status": "proved",
   "theorems": [
    "C37_reduce",
    "C37_broadcast",
    "C37_reduce_assign"
   ],
   "note": "reduce / all_reduce in place or not, for every associative commutative op and any bracketing/order MPI may choose; C37_reduce_assign includes the resizing done by the assignment on every rank; broadcast with resizing."
  },
  {
   "property": "C38",
   "status": "proved",
   "theorems": [
    "C38_read",
    "C38_exact",
    "C38_write",
    "C38_minus_one_refuted",
    "C38_negative_step_refuted",
    "C38_real_to_complex_refuted"
   ],
   "note": "C38_read, C38_write and C38_exact relate the file selection to the in-memory slice for every data-set shape and every slice with positive steps and explicit ends. Refuted outside: C38_minus_one_refuted, C38_negative_step_refuted, C38_real_to_complex_refuted. HDF5 hyperslab semantics are modelled as the contract."
  },
  {
   "property": "C39",
   "status": "proved",
   "theorems": [
    "C39_strings",
    "C39_embedded_nul_refuted"
   ],
   "note": "Round trip for every list of NUL-free strings; C39_embedded_nul_refuted."
  },
  {
   "property": "C40",
   "status": "proved",
   "theorems": [
    "C40_substitution",
    "C40_partly_bound",
    "C40_all_bound",
    "C40_in_steps",
    "C40_function",
    "C40_curried",
    "C40_temporary_refuted",
    "C40_duplicate_refuted",
    "C40_parameter_refuted",
    "C40_capture_refuted"
   ],
   "note": "All expression trees and bindings, by induction on the tree, with references and object lifetimes modelled. Refuted outside the stated conditions: C40_temporary_refuted, C40_duplicate_refuted, C40_parameter_refuted, C40_capture_refuted."
  },
  {
   "property": "C41",
   "status": "proved",
   "theorems": [
    "C41_fill",
    "C41_check",
    "C41_repeated_refuted",
    "C41_aliasing_refuted",
    "C41_vectors"
   ],
   "note": "Every rank, shape, layout, expression. C41_repeated_refuted: (i_, j_, j_, k_, l_) is accepted; C41_aliasing_refuted: a(i_,j_) << a(j_,i_)."
  },
  {
   "property": "C42",
   "status": "proved",
   "theorems": [
    "C42_sum",
    "C42_value",
    "C42_lazy_sum",
    "C42_empty_domain",
    "C42_empty_no_value",
    "C42_extra_binding_refuted",
    "C42_literal_refuted"
   ],
   "note": "Every expression and all finite domains. C42_extra_binding_refuted and C42_literal_refuted show where the library deviates."
  },
  {
   "property": "C43",
   "status": "proved",
   "theorems": [
    "C43_gemm",
    "C43_conj_refused",
    "C43_views",
    "C43_matmul",
    "C43_gemm_generic",
    "C43_matmul_generic",
    "C43_generic_beta_refuted",
    "C43_strided_refuted",
    "C43_reversed_refuted",
    "C43_empty_refuted",
    "C43_mismatch",
    "C43_matmul_mismatch",
    "C43_stack_matrix_refuted"
   ],
   "note": "Every ring, extents and leading dimension that fit int. BLAS itself is modelled by the reference implementation. Refuted outside: C43_generic_beta_refuted, C43_strided_refuted, C43_reversed_refuted, C43_empty_refuted; C43_stack_matrix_refuted: with a matrix of compile-time extents on the left, debug builds stop unless the product has those extents. Device branches are not modelled."
  },
  {
   "property": "C44",
   "status": "proved",
   "theorems": [
    "C44_gemv",
    "C44_matvecmul",
    "C44_gemv_generic",
    "C44_generic_beta_refuted",
    "C44_no_columns_refuted",
    "C44_reversed_refuted",
    "C44_mismatch",
    "C44_matvecmul_mismatch"
   ],
   "note": "Refuted outside the stated conditions: C44_generic_beta_refuted, C44_no_columns_refuted, C44_reversed_refuted."
  },
  {
   "property": "C45",
   "status": "proved",
   "theorems": [
    "C45_ger",
    "C45_outer_product",
    "C45_order_refuted",
    "C45_reversed_refuted",
    "C45_empty_refuted",
    "C45_mismatch"
   ],
   "note": "Refuted outside the stated conditions: C45_order_refuted, C45_reversed_refuted, C45_empty_refuted."
  },
  {
   "property": "C46",
   "status": "proved",
   "theorems": [
    "C46_dot",
    "C46_dot_generic",
    "C46_reversed_refuted",
    "C46_empty_refuted",
    "C46_mismatch",
    "C46_dot_expressions",
    "C46_nda_dot",
    "C46_smallest_refuted"
   ],
   "note": "Refuted outside the stated conditions: C46_reversed_refuted, C46_empty_refuted."
  },
  {
   "property": "C47",
   "status": "proved",
   "theorems": [
    "C47_determinant",
    "C47_inverse_in_place",
    "C47_inverse",
    "C47_unique",
    "C47_failure_keeps",
    "C47_failure_keeps_refuted"
   ],
   "note": "For n <= 3 unconditional; for n >= 4 under the promises of getrf and getri (shown satisfiable over every field by an implementation). C47_determinant says it with determinants. Found: the 2x2 inverse interchanges the diagonal before it throws (C47_failure_keeps_refuted)."
  },
  {
   "property": "C48",
   "status": "proved",
   "theorems": [
    "C48_determinant_in_place",
    "C48_determinant",
    "C48_not_square"
   ],
   "note": "Over every commutative ring, for every library that keeps the promise of getrf; both storage orders; copies of expressions; empty and non-square matrices."
  },
  {
   "property": "C49",
   "status": "proved",
   "theorems": [
    "C49_cross_product",
    "C49_antisymmetric",
    "C49_bilinear",
    "C49_orthogonal",
    "C49_lagrange",
    "C49_mismatch"
   ],
   "note": "Every commutative ring."
  },
  {
   "property": "C50",
   "status": "proved",
   "theorems": [
    "C50_batch_is_loop",
    "C50_batch",
    "C50_strided",
    "C50_strides_refuted",
    "C50_fortran_refuted",
    "C50_distance_refuted"
   ],
   "note": "Every batch length, sizes, layouts, ring. C50_strides_refuted, C50_fortran_refuted, C50_distance_refuted (int overflow of i * stride; the MKL routines are not modelled)."
  },
  {
   "property": "C51",
   "status": "proved",
   "theorems": [
    "C51_promises_kept",
    "C51_gesvd",
    "C51_getrf_columns",
    "C51_getrf_rows_square",
    "C51_getrs",
    "C51_getrs_rows",
    "C51_gtsv",
    "C51_getrf_rows_refuted",
    "C51_getrs_rows_refuted",
    "C51_gtsv_rows_refuted",
    "C51_gtsv_strided_refuted"
   ],
   "note": "Where the code is right: getrf of column-wise stored and of square row-wise stored matrices, getrf followed by getrs with column-wise stored right-hand sides, gtsv of contiguous data. Where it is not, refuted for every library and every field: getrf of rectangular row-wise matrices writes past the end, getrs and gtsv with row-wise right-hand sides solve another system, gtsv reads strided diagonals as contiguous. C51_promises_kept: a library that keeps all promises exists over every field."
  },
  {
   "property": "C52",
   "status": "proved",
   "theorems": [
    "C52_array_values",
    "C52_all_released",
    "C52_elements",
    "C52_write_one",
    "C52_resize_keeps_block",
    "C52_assign_view",
    "C52_assign_own_view_refuted",
    "C52_moved_from_refuted"
   ],
   "note": "All histories over any number of array variables of one type, heap storage, no static extents, element loops; assignment from views of other arrays included. The two exceptions are refuted by witness."
  },
  {
   "property": "C53",
   "status": "proved",
   "theorems": [
    "C53_swap",
    "C53_rebind",
    "C53_deep_swap",
    "C53_deep_swap_twice"
   ],
   "note": ""
  },
  {
   "property": "C54",
   "status": "proved",
   "theorems": [
    "C54_keeps_addressing",
    "C54_weaker_true",
    "C54_accepted",
    "C54_checked",
    "C54_static_rejected",
    "C54_contiguous_accepted",
    "C54_smallest_stride_refuted"
   ],
   "note": ""
  },
  {
   "property": "C55",
   "status": "proved",
   "theorems": [
    "C55_construct",
    "C55_zeros",
    "C55_ones",
    "C55_filled",
    "C55_matrix_ones_refuted",
    "C55_arange",
    "C55_arange_to"
   ],
   "note": "Arrays; the matrix variant of ones is refuted by witness."
  },
  {
   "property": "C56",
   "status": "proved",
   "theorems": [
    "C56_write",
    "C56_round_trip",
    "C56_view_mismatch",
    "C56_names",
    "C56_names_text",
    "C56_generic",
    "C56_negative_stride_refuted"
   ],
   "note": "Round trips for scalar arrays (direct and by way of a C-ordered temporary) and for generic elements; C56_negative_stride_refuted shows a view whose wrong elements are written. Reading complex data into a real array of one rank more is not modelled."
  },
  {
   "property": "C57",
   "status": "proved",
   "theorems": [
    "C57_scal",
    "C57_reversed_refuted"
   ],
   "note": "C57_reversed_refuted: negative strides."
  },
  {
   "property": "C58",
   "status": "proved",
   "theorems": [
    "C58_eigenvalues",
    "C58_eigenelements"
   ],
   "note": "Given what syev/heev promise for the upper triangle of a hermitian matrix. eigenvalues_in_place takes a reference to a pointer and is not modelled."
  },
  {
   "property": "C59",
   "status": "proved",
   "theorems": [
    "C59_labels_exist",
    "C59_access",
    "C59_out_of_bounds",
    "C59_unknown_label",
    "C59_labels_resolve",
    "C59_default_labels",
    "C59_slice",
    "C59_slice_outside",
    "C59_slice_plain",
    "C59_ellipsis_refuted",
    "C59_empty_ellipsis_refuted",
    "C59_lookup_neutral_refuted",
    "C59_transpose",
    "C59_from_labels",
    "C59_equality",
    "C59_equality_unlabelled",
    "C59_equality_transitive_refuted",
    "C59_convert"
   ],
   "note": "Every rank, shape and label list. Refuted: C59_ellipsis_refuted, C59_empty_ellipsis_refuted, C59_lookup_neutral_refuted, C59_equality_transitive_refuted."
  },
  {
   "property": "C60",
   "status": "proved",
   "theorems": [
    "C60_matrix_division",
    "C60_scalar_division",
    "C60_not_square"
   ],
   "note": "Memory-level, composed from the models of matrix construction, inverse and matmul."
  },
  {
   "property": "C62",
   "status": "proved",
   "theorems": [
    "C62_least_squares",
    "C62_smallest",
    "C62_hermitian",
    "C62_refused",
    "C62_no_columns_refuted"
   ],
   "note": "Values, not memory: the worker's products, dagger, vstack and slices are those of C14, C25, C43. What gesvd promises is a hypothesis (C51_gesvd carries it through the wrapper). C62_no_columns_refuted."
  },
  {
   "property": "C61",
   "status": "proved",
   "theorems": [
    "C61_norm",
    "C61_euclidean",
    "C61_definite",
    "C61_reversed_refuted",
    "C61_empty_refuted"
   ],
   "note": "Real and complex numbers of Coq's library without rounding, so these theorems use the axioms of the real numbers (section 7). C61_reversed_refuted, C61_empty_refuted."
  },
  {
   "property": "C63",
   "status": "proved",
   "theorems": [
    "C63_rank1",
    "C63_rank2",
    "C63_rank_n",
    "C63_readable",
    "C63_expressions",
    "C63_integers",
    "C63_memory_order_refuted",
    "C63_no_rows_refuted",
    "C63_rank0_refuted",
    "C63_zero_extent_refuted"
   ],
   "note": "Stream state (width, precision) and layouts' own operator<< are not modelled. C63_memory_order_refuted, C63_no_rows_refuted, C63_rank0_refuted, C63_zero_extent_refuted."
  },
  {
   "property": "C64",
   "status": "proved",
   "theorems": [
    "C64_to_numpy",
    "C64_accepts",
    "C64_from_numpy",
    "C64_round_trip",
    "C64_array",
    "C64_array_accepts",
    "C64_reversed_refuted",
    "C64_packed_refuted"
   ],
   "note": "Element types NumPy knows; arrays of Python objects are not modelled. Conversions between long and size_t are modelled modulo 2^64. Lifetimes: the capsule holds one shared handle, see C31. C64_reversed_refuted, C64_packed_refuted."
  },
  {
   "property": "C65",
   "status": "proved",
   "theorems": [
    "C65_equal",
    "C65_near",
    "C65_near_exact",
    "C65_zero",
    "C65_scalars",
    "C65_nan_refuted",
    "C65_close_nan_refuted",
    "C65_conversion_refuted"
   ],
   "note": "Floating point is an ordered set with NaN; distances are arbitrary functions, so rounding does not matter. C65_nan_refuted, C65_close_nan_refuted, C65_conversion_refuted."
  },
  {
   "property": "C66",
   "status": "proved",
   "theorems": [
    "C66_access",
    "C66_fresh",
    "C66_slice",
    "C66_views",
    "C66_contiguous",
    "C66_bytes",
    "C66_bytes_refuted",
    "C66_empty_refuted",
    "C66_step_refuted"
   ],
   "note": "Extents of ranges come from itertools (contract). C66_bytes_refuted, C66_empty_refuted, C66_step_refuted."
  },
  {
   "property": "C67",
   "status": "proved",
   "theorems": [
    "C67_combine",
    "C67_combine_comm",
    "C67_combine_refuted",
    "C67_assign",
    "C67_assign_arrays",
    "C67_assign_host",
    "C67_mixed_refuted",
    "C67_fill",
    "C67_fill_refuted",
    "C67_library",
    "C67_buffers",
    "C67_linalg",
    "C67_generic",
    "C67_generic_refuted",
    "C67_to_space",
    "C67_predicates",
    "C67_wrappers",
    "C67_products",
    "C67_assign_uses"
   ],
   "note": "Which memory is touched by which side, for builds with a device; what the device libraries compute is not modelled. C67_predicates, C67_wrappers, C67_products, C67_assign_uses say which spaces each operation uses. C67_combine_refuted, C67_mixed_refuted, C67_fill_refuted, C67_generic_refuted."
  },
  {
   "property": "C68",
   "status": "proved",
   "theorems": [
    "C68_lists",
    "C68_round_trip",
    "C68_convert",
    "C68_arithmetic",
    "C68_fold",
    "C68_ring",
    "C68_text",
    "C68_text_injective",
    "C68_adapter"
   ],
   "note": "product of an empty array is refused by the compiler."
  },
  {
   "property": "C69",
   "status": "proved",
   "theorems": [
    "C69_programs",
    "C69_windows",
    "C69_permuted",
    "C69_independent",
    "C69_bump_sound",
    "C69_crossed_refuted",
    "C69_transpose_refuted"
   ],
   "note": "Programs whose statements are those of M_Program.pstmt. Factors of products are arrays, views with adjacent elements in the fastest dimension and positive gaps (what happens otherwise: C43) and element-wise expressions, which are copied to temporaries; elements form a ring and are of types BLAS knows. Functions of three or more arrays (C23) are not part of these programs. An assignment that resizes or replaces an array makes a new array in the meaning: views of the old one are dead from there on. C69_windows and C69_permuted tie the shapes in the meaning to indices. C69_crossed_refuted, C69_transpose_refuted: without the conditions on reading what is written the claim is false."
  },
  {
   "property": "C70",
   "status": "proved",
   "theorems": [
    "C70_linear",
    "C70_smallest",
    "C70_complete",
    "C70_regular"
   ],
   "note": "Ranks up to 8 (from rank 9 on nothing compiles, C05). C70_complete: no flag is lost for plain arithmetic. The scalar type of the element is one type V; address spaces are in C67."
  },
  {
   "property": "C71",
   "status": "proved",
   "theorems": [
    "C71_exceptions",
    "C71_no_leak",
    "C71_terminates",
    "C71_plain_types",
    "C71_resize_leaves",
    "C71_recover",
    "C71_copy_assignment_refuted",
    "C71_resize_refuted",
    "C71_leak_refuted"
   ],
   "note": "Constructions of elements throw; allocation, assignments and destructors of elements do not. C71_resize_refuted, C71_leak_refuted, C71_copy_assignment_refuted show the failures; C71_exceptions counts the leaked blocks exactly."
  },
  {
   "property": "C72",
   "status": "proved",
   "theorems": [
    "C72_threads",
    "C72_join",
    "C72_no_race",
    "C72_finishes",
    "C72_parallel_for",
    "C72_conflict_refuted",
    "C72_resize_refuted",
    "C72_bucket_pieces",
    "C72_bucket_refuted",
    "C72_leak_check_pieces",
    "C72_leak_check_refuted",
    "C72_get_sptr_pieces",
    "C72_get_sptr_refuted"
   ],
   "note": "One access of one cell at a time, in one order for all threads (no weak memory model: race freedom, C72_no_race, is what C++ asks for that). malloc and free are thread safe and threads exchange no pointers. C72_conflict_refuted, C72_resize_refuted, C72_bucket_refuted, C72_leak_check_refuted, C72_get_sptr_refuted show what is not protected."
  },
  {
   "property": "C73",
   "status": "proved",
   "theorems": [
    "C73_gemm",
    "C73_gemm_generic",
    "C73_gemv",
    "C73_gemv_generic",
    "C73_ger",
    "C73_dot",
    "C73_cross_product",
    "C73_matmul_generic",
    "C73_gemm_batch",
    "C73_gemm_batch_strided",
    "C73_getrf",
    "C73_getri",
    "C73_getrs",
    "C73_gtsv",
    "C73_gesvd",
    "C73_gelss",
    "C73_determinant",
    "C73_inverse",
    "C73_eigen"
   ],
   "note": "The conditions are the ones the code checks, written with extents and steps; what is not checked although needed is in C51_* refuted theorems and C50. matmul, matvecmul: C43_matmul_mismatch, C44_matvecmul_mismatch, C43_stack_matrix_refuted; reshape: C24_reported; assignment: C16_shape_mismatch."
  },
  {
   "property": "C74",
   "status": "proved",
   "theorems": [
    "C74_gelss",
    "C74_least_squares",
    "C74_rows_refuted"
   ],
   "note": "The LAPACK routine is a parameter that keeps its documented promise (S_Lsq.gelss_promise), in exact arithmetic; work arrays are left out. C74_rows_refuted: elements outside b are overwritten. C73_gelss: the debug checks."
  },
  {
   "property": "C75",
   "status": "proved",
   "theorems": [
    "C75_prints",
    "C75_readable",
    "C75_text",
    "C75_same_value",
    "C75_names_refuted"
   ],
   "note": "The full statement holds for expressions without calls; for calls and subscripts the text leaves out the callee: C75_names_refuted."
  },
  {
   "property": "C76",
   "status": "proved",
   "theorems": [
    "C76_ownership",
    "C76_outlives",
    "C76_parent_moved_refuted",
    "C76_python_view_refuted",
    "C76_view_of_view"
   ],
   "note": "For legal programs as defined in S_PyOwn: views are written through only while some owner refers to the storage, and a view is given to Python only while the array it was made of still has that storage (C76_parent_moved_refuted: otherwise NumPy is left with a dangling pointer; C76_python_view_refuted: a view of a NumPy array keeps nothing alive). One thread; elements do not throw; x = std::move(x) excluded."
  },
  {
   "property": "C77",
   "status": "proved",
   "theorems": [
    "C77_stored",
    "C77_reads_late",
    "C77_in_place",
    "C77_slice_temporary_refuted",
    "C77_conj_refuted",
    "C77_copy_assignment_refuted",
    "C77_out_of_scope_refuted",
    "C77_resize_refuted"
   ],
   "note": "For legal programs as defined in S_Stored (a view is used only while its array keeps its storage; temporaries are not sliced; an array is assigned only values that read it in the same place and only if it need not be resized). Shapes are numbers of elements, slices lists of positions (C07, C23 for indices); scalars are part of the function. C77_slice_temporary_refuted, C77_conj_refuted, C77_copy_assignment_refuted, C77_out_of_scope_refuted, C77_resize_refuted: where these conditions fail, freed memory is read."
  },
  {
   "property": "C78",
   "status": "proved",
   "theorems": [
    "C78_expression",
    "C78_stored",
    "C78_unsigned",
    "C78_signed",
    "C78_mixed_signs_refuted",
    "C78_sum",
    "C78_product",
    "C78_sum_narrow",
    "C78_sum_unsigned",
    "C78_product_nonzero",
    "C78_order_refuted",
    "C78_zero_product_refuted",
    "C78_frobenius",
    "C78_frobenius_refuted",
    "C78_trace",
    "C78_trace_unsigned",
    "C78_trace_narrow",
    "C78_trace_refuted",
    "C78_dot",
    "C78_pow",
    "C78_pow_signed",
    "C78_pow_unsigned",
    "C78_pow_narrow",
    "C78_pow_unsigned_short_refuted",
    "C78_pow_negative_refuted"
   ],
   "note": "For the rules of C++20 with a 32 bit int. Floating-point elements are exact elsewhere (C22, C23). frobenius_norm sums as double: here exactly. Where a result that is a value of its type is not computed: C78_mixed_signs_refuted, C78_order_refuted, C78_zero_product_refuted, C78_frobenius_refuted, C78_trace_refuted, C78_pow_unsigned_short_refuted, C78_pow_negative_refuted."
  },
  {
   "property": "C79",
   "status": "proved",
   "theorems": [
    "C79_message",
    "C79_pointer",
    "C79_memory",
    "C79_throw",
    "C79_assert",
    "C79_copy_refuted",
    "C79_pointer_refuted"
   ],
   "note": "For programs that add nothing to a copy that has a text: such text replaces the beginning of the message (C79_copy_refuted; an exception that was thrown with the macros is a copy). Pieces are texts: how values are printed is not modelled here. A later call of what() releases the text of the former (C79_pointer_refuted)."
  },
  {
   "property": "C80",
   "status": "proved",
   "theorems": [
    "C80_sum",
    "C80_sum_exact",
    "C80_trace",
    "C80_finite",
    "C80_nan",
    "C80_product",
    "C80_frobenius",
    "C80_dot",
    "C80_matmul",
    "C80_matvec",
    "C80_order_refuted",
    "C80_frobenius_refuted"
   ],
   "note": "For IEEE 754 arithmetic with rounding to nearest and no contraction or reordering by the compiler; real element types; frobenius_norm for double. dot and matrix products: the code nda itself runs (element types without BLAS, such as float); for double and complex they are calls of BLAS. That sums do not depend on the order of the elements is refuted (C80_order_refuted), as is that frobenius_norm is finite and non-zero where the exact one is a double (C80_frobenius_refuted)."
  },
  {
   "property": "C81",
   "status": "proved",
   "theorems": [
    "C81_accepts",
    "C81_complete",
    "C81_values",
    "C81_deeper",
    "C81_all_refuted",
    "C81_empty_refuted",
    "C81_to_python",
    "C81_round_trip"
   ],
   "note": "For any converter of the elements. 'Accepted implies every element can be converted' is refuted: the code adds the answers with sum where all was meant, so one convertible element is enough (C81_all_refuted), and an array without elements is refused (C81_empty_refuted). Reference counts are those of C76; 2^31 and more convertible elements (overflow of the int sum) are not modelled."
  },
  {
   "property": "C82",
   "status": "proved",
   "theorems": [
    "C82_result_type",
    "C82_sum",
    "C82_difference",
    "C82_product",
    "C82_scale",
    "C82_scale_left",
    "C82_quotient",
    "C82_parts",
    "C82_isnan",
    "C82_any_nan",
    "C82_abs2_sign",
    "C82_abs2",
    "C82_abs2_exact",
    "C82_sum_abs2",
    "C82_frobenius_float",
    "C82_frobenius_float_refuted",
    "C82_integer_refuted",
    "C82_abs2_integer_refuted"
   ],
   "note": "For IEEE 754 arithmetic with rounding to nearest and no contraction; integers that the type of the result holds exactly (larger ones: C82_integer_refuted). The standard library's complex product is ac - bd, ad + bc with a recovery when both parts are NaN (any function in the theorems); its complex quotient is any function. complex of integers and long double are not covered."
  },
  {
   "property": "C83",
   "status": "proved",
   "theorems": [
    "C83_type",
    "C83_values",
    "C83_all_released",
    "C83_shape_stops",
    "C83_shape_refuted",
    "C83_assign_refuted",
    "C83_declare_refuted",
    "C83_wide_refuted"
   ],
   "note": "For one to eight extents from 1 to 15. Histories in which a = b (arrays of the same type) or plain declarations occur need trivially copyable elements: otherwise objects are constructed over live ones (C83_assign_refuted) or destroyed without having been constructed (C83_declare_refuted). Shapes other than that of the type are stopped in debug builds (C83_shape_stops) and leave the buffer in release builds (C83_shape_refuted). Extents above 15 other than the first are accepted and silently changed (C83_wide_refuted). The lambda constructor is covered as construction from a function."
  },
  {
   "property": "C84",
   "status": "proved",
   "theorems": [
    "C84_values",
    "C84_in_place",
    "C84_all_released",
    "C84_trivial",
    "C84_same_as_heap",
    "C84_resize_refuted",
    "C84_assign_refuted",
    "C84_move_refuted",
    "C84_self_assign_refuted",
    "C84_complex_refuted"
   ],
   "note": "For every capacity, including 0. Elements with destructors: moves of arrays that are in the buffer and resizes (also by assignment of an expression) that end in the buffer are excluded, they lose elements (C84_resize_refuted, C84_assign_refuted, C84_move_refuted); a = a is excluded (C84_self_assign_refuted); new complex elements are unspecified (C84_complex_refuted). Capacity and element type are one for all variables of a program; conversions between policies are construction and assignment from expressions."
  },
  {
   "property": "C85",
   "status": "proved",
   "theorems": [
    "C85_no_race",
    "C85_result",
    "C85_finishes",
    "C85_sequential",
    "C85_divided",
    "C85_overlap_refuted"
   ],
   "note": "Threads whose statements (dst = expression, dst op= expression, dst = view, dst = scalar, dst(idx) = fold) write cells that no other thread reads or writes: for every schedule of single reads and writes of cells nothing goes wrong and there is no race, every thread ends, a thread's cells hold what its program alone leaves, and the memory is that of the programs run one after the other in any order; an assignment divided among threads by slices gives the memory of the single assignment. Without the condition an update can be lost (C85_overlap_refuted)."
  },
  {
   "property": "C86",
   "status": "proved",
   "theorems": [
    "C86_safe",
    "C86_finishes",
    "C86_result",
    "C86_all_released",
    "C86_new",
    "C86_handed_over",
    "C86_first_share_refuted",
    "C86_ended_refuted"
   ],
   "note": "Blocks, control blocks and arrays in common memory; each thread has shared handles of its own. Steps are single accesses: look at, set or copy the shared pointer of an array, one owner more or less (atomic, std::shared_ptr is external), destruction of one element, release of the block, use of an element. What is written to elements is C72 and C85. C86_first_share_refuted, C86_ended_refuted: the conditions on arrays are needed."
  },
  {
   "property": "C87",
   "status": "proved",
   "theorems": [
    "C87_safe",
    "C87_finishes",
    "C87_matched",
    "C87_reduce",
    "C87_gather",
    "C87_map",
    "C87_mixed_refuted",
    "C87_throw_refuted"
   ],
   "note": "Programs without branches on the values of other processes: sequences of y = scatter(x), y = (all_)gather(x), y = (all_)reduce(x), broadcast(y) and local computations, over one communicator with blocking calls. The meaning of an operation is that of M_Mpi (C36, C37). C87_reduce and C87_gather state the elements at the end without it, C87_map those of scatter, local map and gather. Conditions: the operations are legal on every process, and in release builds y = gather(x) and y = scatter(x) have an array y on all processes or a view y on all (C87_mixed_refuted). A process that throws leaves the others waiting (C87_throw_refuted)."
  },
  {
   "property": "C88",
   "status": "proved",
   "theorems": [
    "C88_same_type",
    "C88_mapping",
    "C88_view_type",
    "C88_derived_views",
    "C88_regular_type",
    "C88_weaker_stronger",
    "C88_reshape",
    "C88_other_rank",
    "C88_lower_rank",
    "C88_higher_rank_refuted",
    "C88_strided_vector",
    "C88_second_reshape_refuted"
   ],
   "note": "The types idx_map<Rank, StaticExtents, StrideOrder, LayoutProp> and the layout policies as functions on the encoded numbers, with the static_asserts of the class. Up to rank 8 and static extents below 16, where the numbers can be written (C05). Not all views can be reshaped to another rank: C88_higher_rank_refuted holds for every view whose type is not C_layout or C_stride_layout, C88_lower_rank gives the exact condition for lower ranks, C88_second_reshape_refuted is the two-step case for F_layout. The layouts with strings (rect_str) are not included."
  },
  {
   "property": "C89",
   "status": "proved",
   "theorems": [
    "C89_memset2D",
    "C89_memset",
    "C89_memcpy",
    "C89_memcpy2D",
    "C89_reported",
    "C89_elements",
    "C89_wide_rows_refuted"
   ],
   "note": "Host memory, on bytes; std::memset and std::memcpy are given by what the C standard says, with overlapping regions as undefined behaviour; the CUDA calls are not modelled. C89_elements justifies the version of M_Assign that counts in elements. C89_wide_rows_refuted: memcpy2D in release builds with rows wider than the pitch."
  }
 ]
}