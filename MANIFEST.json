{
 "claims": [
  {
   "property": "C01",
   "status": "proved",
   "theorems": [
    "C01_dense_window_of_full_operator",
    "C01_dense_blackbox_is_window_of_filled_operator"
   ],
   "note": "Windows are nonempty and offsets nonnegative; sizes for which the index arithmetic fits int64_t (size_ok)."
  },
  {
   "property": "C02",
   "status": "proved",
   "theorems": [
    "C02_dense_entry_closed_form"
   ],
   "note": "Closed form of every cell for an arbitrary generator."
  },
  {
   "property": "C03",
   "status": "proved",
   "theorems": [
    "C03_dense_long_concatenation",
    "C03_dense_long_concatenation_square_refuted"
   ],
   "note": "Wide and tall; d1+d2<m as documented. The extension to d1+d2=m is refuted."
  },
  {
   "property": "C04",
   "status": "proved",
   "theorems": [
    "C04_dense_short_prefix"
   ],
   "note": "Wide and tall."
  },
  {
   "property": "C05",
   "status": "proved",
   "theorems": [
    "C05_dense_fill_schedule_independent"
   ],
   "note": "All interleavings of the element writes of the row tasks."
  },
  {
   "property": "C06",
   "status": "proved",
   "theorems": [
    "C06_dense_fill_footprint",
    "C06_dense_fill_strided_footprint"
   ],
   "note": ""
  },
  {
   "property": "C07",
   "status": "proved",
   "theorems": [
    "C07_dense_next_state_is_fill_state",
    "C07_dense_next_state_value",
    "C07_dense_window_reads_only_blocks_before_next_state"
   ],
   "note": "Disjointness of reads is stated as independence of the generator outside the block range."
  },
  {
   "property": "C08",
   "status": "proved",
   "theorems": [
    "C08_dense_distinct_entries_use_distinct_words"
   ],
   "note": ""
  },
  {
   "property": "C09",
   "status": "partial",
   "theorems": [
    "C09_dense_dist_fields_partial",
    "C09_square_natural_layout_refuted",
    "C09_short_isometry_scale_refuted"
   ],
   "note": "False of the code for square shapes (natural_layout) and for isometry_scale with Axis::Short: both refuted by a witness."
  },
  {
   "property": "C10",
   "status": "partial",
   "theorems": [
    "C10_dense_out_of_range_window_rejected_partial",
    "C10_dense_blackbox_out_of_range_rejected_partial",
    "C10_dense_in_range_window_accepted",
    "C10_negative_offset_refuted",
    "C10_empty_window_refuted"
   ],
   "note": "Overshooting windows are rejected; negative offsets and empty windows are not (refuted)."
  },
  {
   "property": "C11",
   "status": "proved",
   "theorems": [
    "C11_uniform_transformation_float",
    "C11_uniform_transformation_double"
   ],
   "note": "All 2^32 words in single precision, all 2^64 words in double; range, monotonicity, accuracy, (x+1)/2."
  },
  {
   "property": "C12",
   "status": "proved",
   "theorems": [
    "C12_sampling_without_replacement_distinct_in_range",
    "C12_sampling_more_than_population_rejected"
   ],
   "note": "Sizes representable in the index type; k>n rejected without touching the array."
  },
  {
   "property": "C13",
   "status": "proved",
   "theorems": [
    "C13_block_depends_only_on_seed_and_index",
    "C13_fewer_blocks_are_a_prefix",
    "C13_two_calls_equal_one"
   ],
   "note": "Block i, prefix and two-calls-equal-one."
  },
  {
   "property": "C14",
   "status": "proved",
   "theorems": [
    "C14_pivots_to_samples_bijection"
   ],
   "note": "One map F, computed by the code from its pivots, is a bijection."
  },
  {
   "property": "C15",
   "status": "proved",
   "theorems": [
    "C15_modulo_bias",
    "C15_single_draw_bias"
   ],
   "note": "Both for residues and for the index selected by the code."
  },
  {
   "property": "C16",
   "status": "proved",
   "theorems": [
    "C16_short_axis_structure"
   ],
   "note": "Both orientations, owned or user buffers."
  },
  {
   "property": "C17",
   "status": "proved",
   "theorems": [
    "C17_long_axis_structure"
   ],
   "note": "Any hash iteration order. Draws are assumed to lie in [0,n): see C20 for when they do."
  },
  {
   "property": "C18",
   "status": "proved",
   "theorems": [
    "C18_next_state_is_state_after_sampling",
    "C18_sample_depends_only_on_blocks_before_next_state",
    "C18_odd_block_length_refuted"
   ],
   "note": "Even block lengths; for odd lengths refuted. Blocks read: independence of the generator outside the range."
  },
  {
   "property": "C19",
   "status": "proved",
   "theorems": [
    "C19_long_concatenation",
    "C19_short_prefix"
   ],
   "note": "Wide and tall, equality of stored values entry by entry."
  },
  {
   "property": "C20",
   "status": "partial",
   "theorems": [
    "C20_indices_in_range_refuted",
    "C20_indices_in_range_partial",
    "C20_indices_in_range_64_partial",
    "C20_signs",
    "C20_signs_64"
   ],
   "note": "False of the code: refuted by a word among the 64 largest. Proved: in range iff the word is not among the 64 (32-bit) or 1535 (64-bit) largest; the sign clause is proved in full (C20_signs, C20_signs_64)."
  },
  {
   "property": "C21",
   "status": "partial",
   "theorems": [
    "C21_inverts_cdf_double_partial",
    "C21_inverts_cdf_float_partial",
    "C21_in_range_when_last_entry_is_one",
    "C21_in_range_after_weights_to_cdf_refuted",
    "C21_never_zero_mass_refuted",
    "C21_in_range_after_weights_to_cdf_partial"
   ],
   "note": "CDF inversion proved for float and double. In-range after weights_to_cdf and never-zero-mass are refuted by rounding (last entry < 1) and by u = 0; proved outside the 64 largest words."
  },
  {
   "property": "C22",
   "status": "partial",
   "theorems": [
    "C22_weights_to_cdf_exact_partial",
    "C22_positive_sum_accepted_refuted",
    "C22_ends_at_one_refuted",
    "C22_weights_to_cdf_double",
    "C22_weights_to_cdf_float"
   ],
   "note": "Exact arithmetic and float/double. The claims \"any positive sum is accepted\" and \"ends at 1 in floating point\" are refuted; the exact acceptance condition and error bound are proved."
  },
  {
   "property": "C23",
   "status": "proved",
   "theorems": [
    "C23_index_sampling_state_and_lanes",
    "C23_index_and_sign_sampling_state_and_lanes"
   ],
   "note": "Both variants."
  },
  {
   "property": "C24",
   "status": "partial",
   "theorems": [
    "C24_short_axis",
    "C24_long_axis_exact",
    "C24_long_axis_partial",
    "C24_long_axis_refuted"
   ],
   "note": "Short axis: proved for all shapes, exactly, over all sequences of words (the modulo bias plays no part). Long axis: exact value of the average for any set of values; the identity when every index is equally likely. False for the 32-bit values the code really draws (refuted witness): the largest words give index dim_major. Real scalars; the square of isometry_scale before rounding."
  },
  {
   "property": "C25",
   "status": "partial",
   "theorems": [
    "C25_csr_wide_columns_refuted",
    "C25_dense_coo_dense",
    "C25_dense_csr_dense_partial",
    "C25_dense_csc_dense",
    "C25_zero_tolerance_identity_partial",
    "C25_nan_entry_refuted"
   ],
   "note": "COO, CSR (at most 2^31 columns), CSC; any strides. csr_to_dense keeps column indices in an int: proved to write before the dense array whenever there is an entry in a column from 2^31 to 2^32 - 1 (column-major: any row; row-major: first row). Zero tolerance is the identity for scalars where \"not big\" means zero; a NaN entry is dropped (refuted witness for binary64)."
  },
  {
   "property": "C26",
   "status": "proved",
   "theorems": [
    "C26_coo_to_csr_same_matrix",
    "C26_coo_to_csc_same_matrix"
   ],
   "note": "Multiset of stored values at every position; std::sort by its contract; destination index type wide enough."
  },
  {
   "property": "C27",
   "status": "partial",
   "theorems": [
    "C27_compressed_to_coo_refuted",
    "C27_csr_to_coo_partial",
    "C27_csc_to_coo_partial"
   ],
   "note": "False of the code: both functions write positions instead of stored indices (refuted). Proved: dimensions, values, the other index, and equality when indices equal positions."
  },
  {
   "property": "C28",
   "status": "proved",
   "theorems": [
    "C28_csr_copy_independent",
    "C28_csc_copy_independent",
    "C28_transpose_as_csr",
    "C28_transpose_as_csc",
    "C28_coo_transpose",
    "C28_transpose_twice",
    "C28_coo_transpose_flag"
   ],
   "note": "Values and structure in PropsSpFmt.v; independence of a copy, in both directions and over every later program fragment, in PropsOwn.v on the heap model."
  },
  {
   "property": "C29",
   "status": "proved",
   "theorems": [
    "C29_reindex_csr",
    "C29_reindex_csc",
    "C29_reindex_coo"
   ],
   "note": "All three formats, every field restored."
  },
  {
   "property": "C30",
   "status": "proved",
   "theorems": [
    "C30_sort_permutes_into_order",
    "C30_sort_type_is_the_real_order",
    "C30_sort_matrix"
   ],
   "note": "std::sort by its contract."
  },
  {
   "property": "C31",
   "status": "proved",
   "theorems": [
    "C31_pointer_array_counts_predecessors"
   ],
   "note": ""
  },
  {
   "property": "C32",
   "status": "partial",
   "theorems": [
    "C32_mismatch_is_rejected",
    "C32_coo_to_csr_in_bounds",
    "C32_coo_to_csc_refuted"
   ],
   "note": "coo_to_csc accepts a different number of columns (refuted: out-of-bounds write, or an invalid result); the other conversions reject every mismatch."
  },
  {
   "property": "C33",
   "status": "partial",
   "theorems": [
    "C33_csr_product",
    "C33_csr_transposed_partial",
    "C33_transposed_refuted"
   ],
   "note": "Full for op(A)=A (columns <= 2^31 unless row-major: int loop variable). For op(A)=A^T the CSC kernel runs: proved under its precondition, and undefined behaviour proved when all nonzeros lie in the first of several rows."
  },
  {
   "property": "C34",
   "status": "partial",
   "theorems": [
    "C34_csc_transposed_product",
    "C34_csc_product_partial",
    "C34_first_column_refuted"
   ],
   "note": "Full for op(A)=A^T and, for op(A)=A, with row-major B and C. Otherwise false of the code when all nonzeros lie in the first of at least two columns: out-of-bounds read proved for all such operands."
  },
  {
   "property": "C35",
   "status": "partial",
   "theorems": [
    "C35_coo_window_product_partial",
    "C35_other_windows_refuted",
    "C35_first_column_refuted",
    "C35_spmm_partial"
   ],
   "note": "All windows, orders, layouts and op flags satisfying coo_safe; for every other window (alpha not 0) the call is proved to be undefined behaviour, so the condition is exact. The matrix represented by A is unchanged."
  },
  {
   "property": "C36",
   "status": "proved",
   "theorems": [
    "C36_right_product"
   ],
   "note": "All formats; the condition sp_safe says that the transposed left product is defined."
  },
  {
   "property": "C37",
   "status": "proved",
   "theorems": [
    "C37_beta_zero_ignores_output",
    "C37_alpha_zero_ignores_inputs"
   ],
   "note": "No law on the scalars."
  },
  {
   "property": "C38",
   "status": "proved",
   "theorems": [
    "C38_schedule_independent",
    "C38_thread_count_independent",
    "C38_team_size_change_refuted"
   ],
   "note": "No law on the scalars, so bitwise. If the team sizes of the two parallel regions differ, rows are lost (refuted witness)."
  },
  {
   "property": "C39",
   "status": "partial",
   "theorems": [
    "C39_sketch_left_rejects",
    "C39_sketch_right_rejects",
    "C39_sketch_full_rejects",
    "C39_right_late_exception_refuted",
    "C39_spmm_rejects",
    "C39_spmm_accepts",
    "C39_late_exception_refuted"
   ],
   "note": "Sparse products and sketching: every inconsistent argument is rejected before any access. A false sort flag raises after scaling C, and rskges on an operator that may not allocate raises after updating B (refuted witnesses)."
  },
  {
   "property": "C40",
   "status": "proved",
   "theorems": [
    "C40_dense_left",
    "C40_empty_inner_dimension_refuted"
   ],
   "note": "Any commutative semiring; BLAS gemm by its textbook loops. Nonempty windows if S is not materialised: an empty inner dimension is an out-of-bounds write (refuted witness)."
  },
  {
   "property": "C41",
   "status": "proved",
   "theorems": [
    "C41_dense_right"
   ],
   "note": "As C40."
  },
  {
   "property": "C42",
   "status": "partial",
   "theorems": [
    "C42_sparse_left_partial",
    "C42_sparse_left_whole_columns",
    "C42_exact_windows_partial",
    "C42_other_windows_refuted",
    "C42_first_column_refuted"
   ],
   "note": "Full for windows made of whole columns of a Short-axis operator. Otherwise exact: the product in every window meeting sp_safe, undefined behaviour (out-of-bounds read) in every other one."
  },
  {
   "property": "C43",
   "status": "partial",
   "theorems": [
    "C43_sparse_right_partial",
    "C43_other_windows_refuted",
    "C43_unmaterialised_applied_twice",
    "C43_unmaterialised_refuted"
   ],
   "note": "False of the code for an operator that is not materialised: the product is applied twice (proved for all inputs, refuted witness) and S gets materialised. Proved for materialised operators; windows outside sp_safe are proved undefined."
  },
  {
   "property": "C44",
   "status": "partial",
   "theorems": [
    "C44_sketch_vector_partial",
    "C44_sketch_vector_full_partial",
    "C44_other_windows_refuted"
   ],
   "note": "Every operator and window the drivers handle correctly (C40-C43); positive strides. For nonzero alpha all other windows of sparse operators are undefined behaviour (C44_other_windows_refuted)."
  },
  {
   "property": "C45",
   "status": "partial",
   "theorems": [
    "C45_asymmetric_rejected",
    "C45_symmetric_left_partial",
    "C45_symmetric_left_full_partial",
    "C45_symmetric_right_partial",
    "C45_symmetric_right_full_partial",
    "C45_other_windows_refuted"
   ],
   "note": "Rejection is exact and comes before any write of B. The product is proved for windows that C40-C43 cover; for nonzero alpha all other windows of sparse operators are undefined behaviour (C45_other_windows_refuted)."
  },
  {
   "property": "C46",
   "status": "partial",
   "theorems": [
    "C46_left_partial",
    "C46_right_partial",
    "C46_sketch_sparse_left_partial",
    "C46_sketch_sparse_right_partial",
    "C46_overrun_refuted",
    "C46_sketch_sparse_overrun_refuted"
   ],
   "note": "All formats and both sides, when the sparse product is defined (C33-C35). Data whose entries are all in the first column of op(A) make the call undefined (C46_overrun_refuted)."
  },
  {
   "property": "C47",
   "status": "proved",
   "theorems": [
    "C47_blocks_accumulate"
   ],
   "note": "Any number of blocks of any widths, dense and sparse operators, each block usable (C40, C42)."
  },
  {
   "property": "C48",
   "status": "partial",
   "theorems": [
    "C48_dense_window_rejected",
    "C48_sparse_window_not_checked",
    "C48_sparse_window_refuted"
   ],
   "note": "Dense operators: every window outside is rejected. Sparse operators: offsets are not checked (refuted); proved what is computed instead."
  },
  {
   "property": "C49",
   "status": "proved",
   "theorems": [
    "C49_flip_layout",
    "C49_flip_twice",
    "C49_rejects"
   ],
   "note": "Any element type, both layouts; the gaps between columns are unspecified."
  },
  {
   "property": "C50",
   "status": "partial",
   "theorems": [
    "C50_symmetrize",
    "C50_symmetrize_symmetric",
    "C50_overwrite_triangle",
    "C50_overwrite_rejects",
    "C50_negative_offset_refuted",
    "C50_transpose_square",
    "C50_transpose_involution"
   ],
   "note": "Everything but the rejection of negative offsets, which the code does not do: undefined behaviour proved for every negative offset."
  },
  {
   "property": "C51",
   "status": "partial",
   "theorems": [
    "C51_product_partial",
    "C51_overflow_refuted",
    "C51_wrapping"
   ],
   "note": "False of the code: the product is formed before the check, so an overflow is undefined behaviour (proved for all pairs). With wrapping arithmetic the check is exact except for INT64_MIN * -1."
  },
  {
   "property": "C52",
   "status": "partial",
   "theorems": [
    "C52_no_undefined_behaviour_partial",
    "C52_one_owner_partial",
    "C52_no_leak_partial",
    "C52_freed_by_owner_partial",
    "C52_caller_arrays_partial",
    "C52_reserve_refuses",
    "C52_bfo_copy_refuted",
    "C52_blackbox_without_elision_refuted",
    "C52_reserve_refuses_values"
   ],
   "note": "Proved for every program that does not copy a BLASFriendlyOperator (28 operations on all classes, any pattern of failing allocations, exceptions caught anywhere): no undefined behaviour, one owner per array, freed only by the owner destructor, nothing leaked, caller arrays never freed. False of the code for BLASFriendlyOperator, which is copyable: C52_bfo_copy_refuted (double free), C52_blackbox_without_elision_refuted (freed array returned when the compiler does not elide the copy in the return statement)."
  },
  {
   "property": "C53",
   "status": "proved",
   "theorems": [
    "C53_key_constructor",
    "C53_other_constructors",
    "C53_incr_is_integer_addition",
    "C53_equality_exact",
    "C53_distinct_keys",
    "C53_narrow_keys_collide",
    "C53_advance_adds",
    "C53_assignment"
   ],
   "note": "Word-level model of Random123 arrays, which also justifies reading counters as integers elsewhere. That sampling functions keep their input state is structural: states are passed by const reference and modelled as values."
  },
  {
   "property": "C54",
   "status": "proved",
   "theorems": [
    "C54_exact",
    "C54_exact_real",
    "C54_float_tolerance_zero",
    "C54_nan_refuted",
    "C54_overflow_refuted"
   ],
   "note": "Any scalar type; over the reals; for floating point at tolerance 0 exact for finite entries whose sum does not overflow. NaN entries and overflowing sums pass unnoticed (refuted witnesses)."
  },
  {
   "property": "C55",
   "status": "partial",
   "theorems": [
    "C55_fresh_operator_denotes",
    "C55_fresh_sparse_operator_denotes",
    "C55_uses_keep_matrix",
    "C55_left_sketches_identical",
    "C55_right_sketches_identical_partial",
    "C55_right_sketches_refuted"
   ],
   "note": "From the left: any history of fills and sketches. From the right false for operators that are not materialised (refuted, see C43); proved for materialised ones."
  },
  {
   "property": "C56",
   "status": "proved",
   "theorems": [
    "C56_sampling_without_replacement_nearly_uniform"
   ],
   "note": "Joint law over all blocks; the draws are all tapes of W-bit words, each equally likely."
  },
  {
   "property": "C57",
   "status": "proved",
   "theorems": [
    "C57_dense_long_isometry_in_expectation",
    "C57_dense_short_isometry_refuted",
    "C57_uniform_float_nearly_isometry",
    "C57_uniform_double_nearly_isometry",
    "C57_uniform_wide_words_nearly_isometry"
   ],
   "note": "Long axis (all that is claimed): exact for standardised uncorrelated lanes; for Uniform entries the float and double operations of the code are modelled exactly and the error is bounded. Gaussian entries: C64. Short axis: false of the code, the mean is min/max times the identity (refuted for all non-square shapes)."
  },
  {
   "property": "C58",
   "status": "partial",
   "theorems": [
    "C58_uniform_indices_law_partial",
    "C58_uniform_indices_law_64_partial",
    "C58_last_index_drawn_refuted",
    "C58_last_index_drawn_partial",
    "C58_cdf_indices_law_double",
    "C58_cdf_indices_law_float"
   ],
   "note": "Proved: independence, the distribution (within 2^-22 for 32-bit words, 2^-50 for 64-bit words, 2^-22 / 2^-21 of a double / float CDF) and the signs, with the exact probability of the out-of-range value n. False of the code and refuted for all n > 2^25: with 32-bit words the last index n-1 is never drawn (2^25 is the exact threshold)."
  },
  {
   "property": "C59",
   "status": "partial",
   "theorems": [
    "C59_product_is_product_of_expansion_partial",
    "C59_compress_then_multiply",
    "C59_repeated_positions_refuted"
   ],
   "note": "Proved for matrices without repeated positions wherever the sparse product is defined, and without any further condition after compressing a dense matrix to CSR (CSC transposed). Refuted for every matrix with a position whose stored values do not add up to the last one: conversions to dense overwrite, products accumulate."
  },
  {
   "property": "C60",
   "status": "partial",
   "theorems": [
    "C60_left_error_partial",
    "C60_left_error_alpha_one_partial",
    "C60_right_error_partial",
    "C60_left_error_double_partial",
    "C60_left_error_float_partial",
    "C60_other_entries_refuted"
   ],
   "note": "Proved for every IEEE format, with double and float instances, in the range given by the theorem (products of three values neither overflow nor underflow), wherever the product is defined. Products and sums are rounded separately (no fused multiply-add). Refuted for COO windows whose entries all lie in the first column: the kernel adds zero times unrelated entries of B, so an infinity there gives NaN. The theorems also give that the operand and the rest of the output buffer are kept."
  },
  {
   "property": "C61",
   "status": "partial",
   "theorems": [
    "C61_left_sketch_error_partial",
    "C61_right_sketch_error_partial",
    "C61_short_axis_error_partial",
    "C61_short_axis_error_double_partial"
   ],
   "note": "Proved for every IEEE format, from the left for materialised and unmaterialised operators, from the right for materialised ones (C43 is why), with a double instance for the usual case (wide operator, short-axis vectors, whole columns) that assumes nothing about the random numbers. Values outside the stated range: C63. Missing: windows that the kernels do not handle (C42, C60)."
  },
  {
   "property": "C62",
   "status": "partial",
   "theorems": [
    "C62_left_sparse_error_partial",
    "C62_right_sparse_error_partial",
    "C62_left_uniform_error_double_partial",
    "C62_right_uniform_error_double_partial"
   ],
   "note": "Proved for every IEEE format, from both sides, materialised or not; for uniform operators in double precision nothing is assumed about the random numbers. Values outside the stated range are covered by C63. Missing: windows or formats that the kernels do not handle (C33 to C35); when the operator is not materialised, the sizes of the sketch must be positive (C10)."
  },
  {
   "property": "C63",
   "status": "proved",
   "theorems": [
    "C63_left_accurate",
    "C63_left_finite_accurate",
    "C63_right_accurate",
    "C63_left_sparse_sketch_accurate",
    "C63_right_sparse_sketch_accurate",
    "C63_left_sketch_accurate",
    "C63_right_sketch_accurate"
   ],
   "note": "For every IEEE format. Where the COO kernel multiplies padding zeros with unrelated rows (C60_other_entries_refuted) only part (1) holds. Sparse operators applied from the right must be materialised (C43)."
  },
  {
   "property": "C64",
   "status": "proved",
   "theorems": [
    "C64_pairs_of_words",
    "C64_same_counter_and_key",
    "C64_box_muller_moments",
    "C64_gaussian_exact",
    "C64_gaussian_float_nearly_isometry",
    "C64_gaussian_double_nearly_isometry",
    "C64_gaussian_wide_words_nearly_isometry",
    "C64_gaussian_entries_finite_float",
    "C64_gaussian_entries_finite_double",
    "C64_box_muller_float_accurate"
   ],
   "note": "sincos and log are arbitrary functions of which an accuracy (at most 2^-12) is assumed; functions of that accuracy are shown to exist. Random123 boxmuller, u01 and uneg11 are external code, modelled from their documented formulas. Blocks of odd length leave the last value uninitialised (C64_pairs_of_words); Random123 has no such generator."
  },
  {
   "property": "C65",
   "status": "proved",
   "theorems": [
    "C65_textbook_drivers",
    "C65_dense_left",
    "C65_dense_right",
    "C65_dense_vector",
    "C65_dense_symmetric_left",
    "C65_dense_symmetric_right",
    "C65_any_order_accurate",
    "C65_promise_kept",
    "C65_left_accurate",
    "C65_right_accurate"
   ],
   "note": "The BLAS is an arbitrary function with the arguments of gemm; the promise is a hypothesis, kept by the textbook loops, the reference BLAS with and without fused multiply-add and a backward summation (C65_promise_kept). An infinite alpha with an empty inner dimension is left open by the floating-point promise. Strassen-like algorithms do not keep it."
  },
  {
   "property": "C66",
   "status": "proved",
   "theorems": [
    "C66_left_contracted",
    "C66_uncontracted",
    "C66_right_contracted",
    "C66_left_sparse_sketch_contracted",
    "C66_right_sparse_sketch_contracted",
    "C66_left_sketch_contracted",
    "C66_right_sketch_contracted"
   ],
   "note": "The kernels are run on expressions whose possible values are described by [gives]; hypotheses as in C63. Reassociation (-ffast-math) is not covered here; for dense sketches see C65."
  },
  {
   "property": "C67",
   "status": "proved",
   "theorems": [
    "C67_slack",
    "C67_inner_products",
    "C67_lengths",
    "C67_subspaces",
    "C67_least_squares"
   ],
   "note": "Major axis Short, real scalars, isometry_scale the exact number. The draws are all tapes of W-bit words, each equally likely; the sampler is the model of repeated_fisher_yates run on the tape. The mean of the Gram matrix alone is C24."
  },
  {
   "property": "C68",
   "status": "proved",
   "theorems": [
    "C68_uniform_float",
    "C68_uniform_double",
    "C68_uniform_wide_words"
   ],
   "note": "Uniform entries, major axis Long (Short: the scale is wrong, C57). The entries are the floating-point numbers the code stores (uneg11, the cast and the scaling by sqrt(3) are modelled bit by bit); the inner products are taken in real numbers."
  },
  {
   "property": "C69",
   "status": "proved",
   "theorems": [
    "C69_double",
    "C69_float",
    "C69_right_double",
    "C69_right_float"
   ],
   "note": "Joins C63 (the computed entries) and C67 (the distribution). The Gram matrix of the computed numbers is taken in real numbers. Contraction to fused multiply-add is not included (C66). From the right the operator must have been filled: otherwise the call accumulates twice (C43)."
  },
  {
   "property": "C70",
   "status": "proved",
   "theorems": [
    "C70_gaussian_exact",
    "C70_gaussian_float",
    "C70_gaussian_double",
    "C70_gaussian_wide_words"
   ],
   "note": "Gaussian entries, major axis Long. Box-Muller is modelled bit by bit except sincos and log, of which only the accuracy is assumed; its two values are dependent and this is accounted for. Inner products are taken in real numbers. Odd block lengths are excluded (C64)."
  },
  {
   "property": "C71",
   "status": "proved",
   "theorems": [
    "C71_uniform_float",
    "C71_uniform_double",
    "C71_uniform_wide_words",
    "C71_gaussian_float",
    "C71_gaussian_double",
    "C71_gaussian_wide_words"
   ],
   "note": "Joins C65 (the computed entries, any BLAS keeping the promise) with C68 and C70 (the distribution). The Gram matrix of the computed numbers is taken in real numbers. Words of 32 and 64 bits are treated separately."
  },
  {
   "property": "C72",
   "status": "proved",
   "theorems": [
    "C72_uniform_float",
    "C72_uniform_double",
    "C72_uniform_wide_words"
   ],
   "note": "Strengthens C68: same operator and hypotheses, exponential instead of Chebyshev bounds. The constants (6 in the exponent, the size of the net) are not optimal. The sketch is taken in real numbers of the stored entries."
  },
  {
   "property": "C73",
   "status": "proved",
   "theorems": [
    "C73_gaussian_exact",
    "C73_gaussian_float",
    "C73_gaussian_double",
    "C73_gaussian_wide_words"
   ],
   "note": "Strengthens C70: exponential instead of Chebyshev bounds, for non-square operators (in a square one the two values of a Box-Muller pair land in different rows of the sketch; C70 covers it). The slack is a worst case over the largest radius. C73_gaussian_exact is the same in exact arithmetic for words of any length."
  },
  {
   "property": "C74",
   "status": "proved",
   "theorems": [
    "C74_uniform_float",
    "C74_uniform_double",
    "C74_uniform_wide_words",
    "C74_gaussian_float",
    "C74_gaussian_double",
    "C74_gaussian_wide_words"
   ],
   "note": "Joins C71 (rounding of every step) with C72 and C73 (exponential bounds). Libm accuracy, the BLAS promise and ideal words are hypotheses as there; square Gaussian operators are excluded as in C73."
  },
  {
   "property": "C75",
   "status": "proved",
   "theorems": [
    "C75_geometry",
    "C75_sizes"
   ],
   "note": "Strengthens C67 for lengths, distances, subspaces and least squares (Chernoff instead of Chebyshev). Exact real scalars and ideal words as in C67. The number of nonzeros asked for grows like 1/e^2; the literature has 1/e with a harder argument."
  },
  {
   "property": "C76",
   "status": "proved",
   "theorems": [
    "C76_left_double",
    "C76_left_float",
    "C76_right_double",
    "C76_right_float"
   ],
   "note": "Joins C63 (rounding in the sparse products) with C75. Ideal words as in C67; no contraction to fused multiply-add (C66); from the right the operator must have been filled (C43)."
  },
  {
   "property": "C77",
   "status": "proved",
   "theorems": [
    "C77_uniform_float",
    "C77_uniform_double",
    "C77_uniform_wide_words",
    "C77_gaussian_float",
    "C77_gaussian_double",
    "C77_gaussian_wide_words"
   ],
   "note": "Joins C63 (rounding in the products with sparse data) with C68, C70, C72 and C73. Ideal blocks as in C71; no contraction to fused multiply-add (C66); kernels within bounds (sp_safe, tight) as in C63."
  },
  {
   "property": "C78",
   "status": "proved",
   "theorems": [
    "C78_uniform_float",
    "C78_uniform_double",
    "C78_uniform_wide_words",
    "C78_gaussian_float",
    "C78_gaussian_double",
    "C78_gaussian_wide_words"
   ],
   "note": "Joins C65 with C68, C70, C72 and C73 as C71 and C74 do. Ideal blocks as in C71. A square operator from the right in sketch_symmetric is not covered (the statistics of C68 to C73 are about S itself when it is square, not its transpose)."
  },
  {
   "property": "C79",
   "status": "partial",
   "theorems": [
    "C79_dense_window_partial",
    "C79_dense_entries_partial",
    "C79_dense_operator_partial",
    "C79_dense_entries_fit_refuted",
    "C79_window_check_refuted",
    "C79_sparse_dist_partial",
    "C79_sparse_next_state",
    "C79_sparse_dist_refuted"
   ],
   "note": "False of the code as stated, with witnesses: SparseDist(2^62, 2^62, 1) and SparseDist(2^32, 2^32, 2^32) have valid arguments and overflow in the member initialisers; invalid arguments such as INT64_MIN overflow before the checks; a 1 x 2^62 Short-axis DenseSkOp is built but its windows past column 2^61 overflow when positions are padded to whole blocks; a window reaching past 2^63 - 1 overflows in the range check. Proved: the constructor of SparseDist exactly (when it is undefined, and that it is otherwise the modelled one); its state formula; the dense functions whenever (dim_major + L) * dim_minor < 2^63 with L the block length, for every nonempty in-range window. Not covered: overflow in the SpMM kernels and in the sparse samplers."
  },
  {
   "property": "C80",
   "status": "proved",
   "theorems": [
    "C80_double",
    "C80_float"
   ],
   "note": "The drivers reduce to the calls of C69 and C76. Short-axis operators only (C24 shows Long-axis ones are no isometries for 32-bit draws). From the right in sketch_symmetric the operator must be tall and filled: an unfilled one is applied twice (C43). sketch_vector needs no filled operator."
  },
  {
   "property": "C81",
   "status": "partial",
   "theorems": [
    "C81_sampler_partial",
    "C81_sampler_refuted",
    "C81_fill_partial",
    "C81_fill_refuted"
   ],
   "note": "False of the code as stated: the position of the first sample of block i is computed as sint_t offset = i * vec_nnz, and later as j + offset in sint_t. With more than 2^31 samples in all and int indices the offset wraps and memory before the arrays is written (or the sum overflows), whatever the generator, the seed and the length of the arrays; a 40000 by 100000 operator with 30000 nonzeros per column is a witness. Proved: undefined behaviour for every such size; the documented result for every size up to 2^31 (2^63 - 1 with int64_t indices), so the condition is exact."
  },
  {
   "property": "C82",
   "status": "partial",
   "theorems": [
    "C82_coo_to_csr_refuted",
    "C82_coo_to_csc_refuted",
    "C82_coo_to_csr_partial",
    "C82_coo_to_csc_partial"
   ],
   "note": "False of the code as stated: column (row) indices and running counts are cast to the index type of the result, and nothing checks that they fit. Proved: for every well-formed zero-based COO matrix with 2^(b-1) or more nonzeros, or with a stored minor index of at least 2^(b-1) and below 2^b, and a b-bit result type, both conversions return normally and the result is not a well-formed matrix; and, without these restrictions, both conversions always return normally, and return a well-formed matrix with the same entries if and only if the number of nonzeros and every stored minor index are below 2^(b-1)."
  }
 ]
}