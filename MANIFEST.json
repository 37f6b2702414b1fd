{
 "claims": [
  {
   "property": "C01",
   "status": "proved",
   "theorems": [
    "C01_collect_exact"
   ],
   "note": "arbitrary user iterators (trace relation [yields]), both profiles"
  },
  {
   "property": "C02",
   "status": "proved",
   "theorems": [
    "C02_collect_short"
   ],
   "note": ""
  },
  {
   "property": "C03",
   "status": "proved",
   "theorems": [
    "C03_collect_long_debug",
    "C03_collect_long_release"
   ],
   "note": "debug case: surplus no longer than the model's counting fuel, an arbitrary parameter"
  },
  {
   "property": "C04",
   "status": "proved",
   "theorems": [
    "C04_collect_source_panics",
    "C04_collect_source_panics_in_count"
   ],
   "note": "items already received leak: the code keeps them in NoDrop"
  },
  {
   "property": "C05",
   "status": "proved",
   "theorems": [
    "C05_generate_in_order"
   ],
   "note": ""
  },
  {
   "property": "C06",
   "status": "proved",
   "theorems": [
    "C06_into_iter_front"
   ],
   "note": ""
  },
  {
   "property": "C07",
   "status": "partial",
   "theorems": [
    "C07_refuted",
    "C07_next_back_after_next_refuted",
    "C07_len_refuted",
    "C07_into_iter_deque_partial",
    "C07_exact"
   ],
   "note": "The full claim is false of the code: IntoIter::next_back tests back > 0 instead of next < back (C07_refuted, C07_next_back_after_next_refuted, C07_len_refuted). Proved for all histories that avoid that case and nth past the end. C07_exact: for non-Copy element types that guard is exact (any other history ends in undefined behaviour or a debug overflow panic)."
  },
  {
   "property": "C08",
   "status": "partial",
   "theorems": [
    "C08_nth_past_end_is_ub",
    "C08_refuted",
    "C08_nth_partial"
   ],
   "note": "The full claim is false: IntoIter::nth past the end drops out of bounds (undefined behaviour) for every vector (C08_nth_past_end_is_ub). Proved when nth skips no further than the end."
  },
  {
   "property": "C09",
   "status": "proved",
   "theorems": [
    "C09_rev",
    "C09_rev_collect"
   ],
   "note": ""
  },
  {
   "property": "C10",
   "status": "proved",
   "theorems": [
    "C10_chunks_deque",
    "C10_pieces_exist"
   ],
   "note": "nth is the provided method of Iterator"
  },
  {
   "property": "C11",
   "status": "proved",
   "theorems": [
    "C11_from_vector"
   ],
   "note": ""
  },
  {
   "property": "C12",
   "status": "proved",
   "theorems": [
    "C12_index",
    "C12_index_set"
   ],
   "note": ""
  },
  {
   "property": "C13",
   "status": "partial",
   "theorems": [
    "C13_accepted",
    "C13_refuted",
    "C13_u0_on_empty_refuted",
    "C13_static_index_partial"
   ],
   "note": "The full claim is false: Index<U0> has no bound N > 0, so v[U0::new()] compiles on a Vector<T, U0> and reads out of bounds (C13_refuted, C13_u0_on_empty_refuted). Proved for every other accepted index."
  },
  {
   "property": "C14",
   "status": "proved",
   "theorems": [
    "C14_accepted",
    "C14_index",
    "C14_index_set",
    "C14_static_index"
   ],
   "note": ""
  },
  {
   "property": "C15",
   "status": "proved",
   "theorems": [
    "C15_vector_unchecked",
    "C15_matrix_unchecked"
   ],
   "note": ""
  },
  {
   "property": "C16",
   "status": "proved",
   "theorems": [
    "C16_elementwise_in_order",
    "C16_forms_agree",
    "C16_elementwise"
   ],
   "note": ""
  },
  {
   "property": "C17",
   "status": "proved",
   "theorems": [
    "C17_matrix_add_assign_panic",
    "C17_matrix_scale_assign_panic",
    "C17_add_assign",
    "C17_add_assign_panic",
    "C17_scale_assign",
    "C17_scale_assign_panic",
    "C17_matrix_add_assign",
    "C17_matrix_scale_assign"
   ],
   "note": ""
  },
  {
   "property": "C18",
   "status": "proved",
   "theorems": [
    "C18_vector_scale",
    "C18_vector_neg",
    "C18_vector_in_order",
    "C18_matrix_scale",
    "C18_matrix_neg"
   ],
   "note": ""
  },
  {
   "property": "C19",
   "status": "proved",
   "theorems": [
    "C19_matrix_zip_panic",
    "C19_matrix_scale_panic",
    "C19_zip_panic",
    "C19_map_panic",
    "C19_matrix_neg_panic"
   ],
   "note": ""
  },
  {
   "property": "C20",
   "status": "proved",
   "theorems": [
    "C20_dot",
    "C20_symmetric",
    "C20_bilinear",
    "C20_zero"
   ],
   "note": ""
  },
  {
   "property": "C21",
   "status": "proved",
   "theorems": [
    "C21_cross",
    "C21_orthogonal",
    "C21_bilinear",
    "C21_jacobi",
    "C21_lagrange"
   ],
   "note": ""
  },
  {
   "property": "C22",
   "status": "proved",
   "theorems": [
    "C22_norm",
    "C22_zero_iff",
    "C22_scale",
    "C22_cauchy_schwarz",
    "C22_triangle",
    "C22_normalized"
   ],
   "note": ""
  },
  {
   "property": "C23",
   "status": "proved",
   "theorems": [
    "C23_sum_in_order",
    "C23_sum",
    "C23_additive"
   ],
   "note": ""
  },
  {
   "property": "C24",
   "status": "proved",
   "theorems": [
    "C24_vector_max_min",
    "C24_matrix_max_min"
   ],
   "note": ""
  },
  {
   "property": "C25",
   "status": "proved",
   "theorems": [
    "C25_vector_max_by",
    "C25_matrix_max_by",
    "C25_any_comparator"
   ],
   "note": ""
  },
  {
   "property": "C26",
   "status": "proved",
   "theorems": [
    "C26_clamped",
    "C26_matrix_clamped",
    "C26_monotone",
    "C26_crossed_bounds"
   ],
   "note": ""
  },
  {
   "property": "C27",
   "status": "proved",
   "theorems": [
    "C27_equality",
    "C27_matrix_equality",
    "C27_equivalence"
   ],
   "note": ""
  },
  {
   "property": "C28",
   "status": "partial",
   "theorems": [
    "C28_refuted",
    "C28_nan_refuted",
    "C28_eq_partial"
   ],
   "note": "The full claim is false: Eq is implemented for T: PartialEq, so Vector<f64, N> is Eq although a NaN entry makes it unequal to itself (C28_refuted, C28_nan_refuted). Proved for reflexive element equality."
  },
  {
   "property": "C29",
   "status": "proved",
   "theorems": [
    "C29_clone",
    "C29_matrix_clone",
    "C29_faithful"
   ],
   "note": ""
  },
  {
   "property": "C30",
   "status": "proved",
   "theorems": [
    "C30_vector_constants",
    "C30_matrix_constants",
    "C30_is_zero",
    "C30_zero_neutral"
   ],
   "note": ""
  },
  {
   "property": "C31",
   "status": "proved",
   "theorems": [
    "C31_new",
    "C31_vector"
   ],
   "note": ""
  },
  {
   "property": "C32",
   "status": "proved",
   "theorems": [
    "C32_diag"
   ],
   "note": ""
  },
  {
   "property": "C33",
   "status": "proved",
   "theorems": [
    "C33_identity",
    "C33_unit"
   ],
   "note": ""
  },
  {
   "property": "C34",
   "status": "proved",
   "theorems": [
    "C34_generate",
    "C34_map",
    "C34_all_any",
    "C34_entries"
   ],
   "note": ""
  },
  {
   "property": "C35",
   "status": "proved",
   "theorems": [
    "C35_map_panic"
   ],
   "note": ""
  },
  {
   "property": "C36",
   "status": "proved",
   "theorems": [
    "C36_transposed",
    "C36_transpose_in_place",
    "C36_involution",
    "C36_additive",
    "C36_reverses_products",
    "C36_effects",
    "C36_transpose_in_place_effects"
   ],
   "note": ""
  },
  {
   "property": "C37",
   "status": "proved",
   "theorems": [
    "C37_entrywise",
    "C37_group"
   ],
   "note": ""
  },
  {
   "property": "C38",
   "status": "proved",
   "theorems": [
    "C38_product",
    "C38_forms_agree",
    "C38_mul_assign"
   ],
   "note": ""
  },
  {
   "property": "C39",
   "status": "proved",
   "theorems": [
    "C39_associative",
    "C39_distributive",
    "C39_scalar"
   ],
   "note": ""
  },
  {
   "property": "C40",
   "status": "proved",
   "theorems": [
    "C40_product",
    "C40_associative"
   ],
   "note": ""
  },
  {
   "property": "C41",
   "status": "proved",
   "theorems": [
    "C41_pow",
    "C41_laws"
   ],
   "note": ""
  },
  {
   "property": "C42",
   "status": "proved",
   "theorems": [
    "C42_fib_checked",
    "C42_fib_release",
    "C42_fib_exact"
   ],
   "note": ""
  },
  {
   "property": "C43",
   "status": "proved",
   "theorems": [
    "C43_determinant",
    "C43_determinant_laplace"
   ],
   "note": "2*n <= 2^wbits holds for every supported size (n <= 32)"
  },
  {
   "property": "C44",
   "status": "proved",
   "theorems": [
    "C44_small_determinants_over_rings"
   ],
   "note": ""
  },
  {
   "property": "C45",
   "status": "proved",
   "theorems": [
    "C45_multiplicative",
    "C45_transpose",
    "C45_identity",
    "C45_scale",
    "C45_zero_iff_not_invertible"
   ],
   "note": ""
  },
  {
   "property": "C46",
   "status": "proved",
   "theorems": [
    "C46_cofactor",
    "C46_cofactor_small",
    "C46_out_of_range_panics",
    "C46_expansion"
   ],
   "note": ""
  },
  {
   "property": "C47",
   "status": "proved",
   "theorems": [
    "C47_inverse_small"
   ],
   "note": ""
  },
  {
   "property": "C48",
   "status": "proved",
   "theorems": [
    "C48_inverse_big_sound",
    "C48_singular_is_none"
   ],
   "note": ""
  },
  {
   "property": "C49",
   "status": "partial",
   "theorems": [
    "C49_inverse_complete_partial",
    "C49_refuted"
   ],
   "note": "The full claim is false of the code: above size 3 the Gauss-Jordan elimination does not exchange rows, so for every n >= 4 and every field an invertible matrix with a zero leading principal minor gives None (C49_refuted). Proved for sizes 1-3 and for matrices with non-zero leading principal minors."
  },
  {
   "property": "C50",
   "status": "proved",
   "theorems": [
    "C50_some_iff_leading_minors"
   ],
   "note": ""
  },
  {
   "property": "C51",
   "status": "partial",
   "theorems": [
    "C51_up_to_3_partial",
    "C51_up_to_3_checked_partial",
    "C51_refuted",
    "C51_i32_refuted",
    "C51_checked_any_size_partial",
    "C51_unit_minors_partial",
    "C51_exact_elimination_partial"
   ],
   "note": "The full claim is false of the code: above size 3 the elimination divides, and integer division truncates: a 4 x 4 i32 matrix of determinant 1 has determinant() == 2 (C51_refuted, C51_i32_refuted). Proved for sizes 1-3; above that for matrices with an integer LU decomposition (C51_exact_elimination_partial) and for matrices whose proper leading principal minors are 1 or -1 (C51_unit_minors_partial); for every size, with overflow checks, machine integers give the result of the same algorithm on unbounded integers or a panic (C51_checked_any_size_partial)."
  },
  {
   "property": "C52",
   "status": "proved",
   "theorems": [
    "C52_rows_iter_items",
    "C52_cols_iter_items",
    "C52_after_panic",
    "C52_collected"
   ],
   "note": ""
  },
  {
   "property": "C53",
   "status": "partial",
   "theorems": [
    "C53_refuted",
    "C53_partial",
    "C53_reported_partial"
   ],
   "note": "As stated the property is false of the code: len/size_hint/count of rows_iter and cols_iter ignore next_back (C53_refuted, for every shape). C53_partial proves it for histories that take nothing from the back and do not skip past the end. C53_reported_partial gives the reported number for every history: the items not yet removed at the front, never less than the truth."
  },
  {
   "property": "C54",
   "status": "proved",
   "theorems": [
    "C54_rows_iter_ref",
    "C54_cols_iter_ref"
   ],
   "note": ""
  },
  {
   "property": "C55",
   "status": "partial",
   "theorems": [
    "C55_refuted",
    "C55_resurrects_refuted",
    "C55_partial"
   ],
   "note": "As stated the property is false of the code: after skipping past the end len underflows (panic in debug, huge in release; C55_refuted, all five iterators), and in release nth(usize::MAX) wraps and yields the first row again (C55_resurrects_refuted). C55_partial proves that None is returned for ever when the skips do not overflow usize."
  },
  {
   "property": "C56",
   "status": "proved",
   "theorems": [
    "C56_entries",
    "C56_involution",
    "C56_additive",
    "C56_multiplicative",
    "C56_plus_conjugate_is_real",
    "C56_transpose",
    "C56_order"
   ],
   "note": ""
  },
  {
   "property": "C57",
   "status": "proved",
   "theorems": [
    "C57_approx_eq"
   ],
   "note": "the element relative_eq / ulps_eq is an arbitrary pure relation"
  },
  {
   "property": "C58",
   "status": "partial",
   "theorems": [
    "C58_vector",
    "C58_vector_text",
    "C58_matrix_partial",
    "C58_matrix_text_partial",
    "C58_refuted"
   ],
   "note": "As stated the property is false of the code: {:?} of a matrix without rows panics in a debug build (len() - 1 underflows; C58_refuted). Proved for vectors in general and for matrices with at least one row or in a release build, for every sink and element formatter."
  },
  {
   "property": "C59",
   "status": "proved",
   "theorems": [
    "C59_display_layout",
    "C59_display_succeeds",
    "C59_byte_width"
   ],
   "note": "hypotheses: the display width is additive with width 1 for a blank, as both s.len() and unicode-width's width() are; widths fit in usize"
  },
  {
   "property": "C60",
   "status": "proved",
   "theorems": [
    "C60_display_content",
    "C60_nothing_lost",
    "C60_line_breaks"
   ],
   "note": ""
  },
  {
   "property": "C61",
   "status": "proved",
   "theorems": [
    "C61_vector_count",
    "C61_matrix_count",
    "C61_type_addition",
    "C61_accepts"
   ],
   "note": ""
  },
  {
   "property": "C62",
   "status": "proved",
   "theorems": [
    "C62_min",
    "C62_min_const"
   ],
   "note": ""
  },
  {
   "property": "C63",
   "status": "partial",
   "theorems": [
    "C63_matrix2f64_refuted",
    "C63_refuted",
    "C63_partial"
   ],
   "note": "The full claim is false of the code: the alias Matrix2f64 is Matrix<f32, U2, U2> (C63_refuted). Proved: every other alias names the type it advertises (C63_partial)."
  },
  {
   "property": "C64",
   "status": "proved",
   "theorems": [
    "C64_vector",
    "C64_matrix",
    "C64_product",
    "C64_square"
   ],
   "note": ""
  },
  {
   "property": "C65",
   "status": "proved",
   "theorems": [
    "C65_vector",
    "C65_matrix",
    "C65_product",
    "C65_square",
    "C65_wrap"
   ],
   "note": ""
  },
  {
   "property": "C66",
   "status": "partial",
   "theorems": [
    "C66_refuted",
    "C66_dominant_partial",
    "C66_small_partial",
    "C66_leading_blocks_partial"
   ],
   "note": "The full claim is false for n = 4 (C66_refuted: entries in [0,1], exact inverse bounded by 2, condition number at most 3, yet the f64 product has a 1 in place of a 0; the n > 3 algorithm does not pivot). Proved for f32 and f64 and n = 1, 2, 3 with an explicit condition number and error bound (C66_small_partial). For every n >= 4 proved for matrices diagonally dominant by rows (C66_dominant_partial, C75) and for matrices all of whose leading principal blocks are well conditioned (C66_leading_blocks_partial, C81), which is what elimination without pivoting needs. Missing: matrices of size n > 3 that are well conditioned but have an ill-conditioned leading block, for which the claim is false in general (C66_refuted)."
  },
  {
   "property": "C67",
   "status": "proved",
   "theorems": [
    "C67_impls",
    "C67_arraylen"
   ],
   "note": ""
  },
  {
   "property": "C68",
   "status": "proved",
   "theorems": [
    "C68_total",
    "C68_deterministic"
   ],
   "note": ""
  },
  {
   "property": "C69",
   "status": "proved",
   "theorems": [
    "C69_sum",
    "C69_dot",
    "C69_matrix_product",
    "C69_matrix_vector",
    "C69_cross",
    "C69_norm",
    "C69_normalized",
    "C69_determinant"
   ],
   "note": ""
  },
  {
   "property": "C70",
   "status": "proved",
   "theorems": [
    "C70_matrix_product",
    "C70_mul_assign",
    "C70_matrix_vector",
    "C70_matrix_vector_ref",
    "C70_dot",
    "C70_cross",
    "C70_determinant",
    "C70_inverse",
    "C70_sums",
    "C70_determinant_big",
    "C70_inverse_big",
    "C70_cofactor"
   ],
   "note": ""
  },
  {
   "property": "C71",
   "status": "proved",
   "theorems": [
    "C71_product_cost",
    "C71_matrix_vector_cost",
    "C71_pow_cost"
   ],
   "note": ""
  },
  {
   "property": "C72",
   "status": "proved",
   "theorems": [
    "C72_regular",
    "C72_rank_deficient",
    "C72_upper_bound"
   ],
   "note": ""
  },
  {
   "property": "C73",
   "status": "proved",
   "theorems": [
    "C73_inverse_cost"
   ],
   "note": ""
  },
  {
   "property": "C74",
   "status": "proved",
   "theorems": [
    "C74_sum",
    "C74_dot",
    "C74_cross",
    "C74_matrix_add_sub",
    "C74_matrix_product",
    "C74_matrix_vector",
    "C74_determinant"
   ],
   "note": ""
  },
  {
   "property": "C75",
   "status": "proved",
   "theorems": [
    "C75_inverse",
    "C75_residual"
   ],
   "note": ""
  },
  {
   "property": "C76",
   "status": "proved",
   "theorems": [
    "C76_determinant"
   ],
   "note": ""
  },
  {
   "property": "C77",
   "status": "proved",
   "theorems": [
    "C77_vector",
    "C77_matrix"
   ],
   "note": ""
  },
  {
   "property": "C78",
   "status": "partial",
   "theorems": [
    "C78_checked_any_size_partial",
    "C78_exactly_partial",
    "C78_otherwise_partial",
    "C78_checked_partial",
    "C78_bounded_partial",
    "C78_units_partial",
    "C78_truncates_refuted",
    "C78_unimodular_refuted"
   ],
   "note": "Refuted as stated: [[2]] gives Some([[0]]) (C78_truncates_refuted), and from dimension 4 on even a matrix with determinant 1 gets a wrong Some (C78_unimodular_refuted). What holds, for n <= 3: with overflow checks the result is exactly adjugate / determinant with truncating division, or a panic (C78_checked_partial); with bounded entries it is returned in both profiles (C78_bounded_partial); it is an inverse iff the determinant is 1 or -1, i.e. iff an integer inverse exists (C78_units_partial). For every n >= 4: with overflow checks machine integers give the result of the same algorithm on unbounded integers or a panic (C78_checked_any_size_partial); that result is the inverse exactly when all leading principal minors are 1 or -1 (C78_exactly_partial), and otherwise None or a matrix with a zero row, where the first such minor decides (C78_otherwise_partial)."
  },
  {
   "property": "C79",
   "status": "proved",
   "theorems": [
    "C79_determinant",
    "C79_conjugate_determinant",
    "C79_inverse_small",
    "C79_inverse_big",
    "C79_divided_by_scalar",
    "C79_conjugate_inverse"
   ],
   "note": ""
  },
  {
   "property": "C80",
   "status": "partial",
   "theorems": [
    "C80_collect_short_refuted",
    "C80_nth_refuted",
    "C80_refuted",
    "C80_drop_partial",
    "C80_drop_safe_partial",
    "C80_collect_short_partial",
    "C80_nth_partial",
    "C80_collect_long_partial",
    "C80_agrees_with_model"
   ],
   "note": "Refuted as stated: when collecting too few items, a panicking destructor always makes the unwinding drop the whole array again (C80_collect_short_refuted: every such case is undefined behaviour), and IntoIter::nth advances its index only after the drop loop (C80_nth_refuted: dropping the iterator or calling next() after such a panic is undefined behaviour). What holds: Drop for IntoIter and count after any allowed history run the remaining destructors once each in order up to the first panic (C80_drop_partial, C80_drop_safe_partial); nth and collections are fine when the destructors they run return (C80_nth_partial, C80_collect_short_partial); in debug builds, a destructor that panics while surplus items are counted ends the collection with that panic (C80_collect_long_partial); C80_agrees_with_model ties this model to the one of the other properties."
  },
  {
   "property": "C81",
   "status": "proved",
   "theorems": [
    "C81_inverse",
    "C81_residual"
   ],
   "note": ""
  },
  {
   "property": "C82",
   "status": "proved",
   "theorems": [
    "C82_determinant"
   ],
   "note": ""
  },
  {
   "property": "C83",
   "status": "proved",
   "theorems": [
    "C83_equality",
    "C83_matrix_equality",
    "C83_equality_calls",
    "C83_vector_max_min",
    "C83_matrix_max_min",
    "C83_matrix_max_min_counts",
    "C83_clamped",
    "C83_clamp_in_place",
    "C83_agrees_with_pure"
   ],
   "note": ""
  },
  {
   "property": "C84",
   "status": "proved",
   "theorems": [
    "C84_solves",
    "C84_inverse_of_inverse",
    "C84_product",
    "C84_transposed",
    "C84_scaled",
    "C84_determinant",
    "C84_identity"
   ],
   "note": ""
  },
  {
   "property": "C85",
   "status": "proved",
   "theorems": [
    "C85_collect",
    "C85_generate",
    "C85_index",
    "C85_vector_index",
    "C85_operators",
    "C85_maps",
    "C85_assign",
    "C85_arithmetic",
    "C85_product",
    "C85_determinant",
    "C85_norm",
    "C85_ordering",
    "C85_clamp",
    "C85_equality",
    "C85_format",
    "C85_iterators"
   ],
   "note": ""
  },
  {
   "property": "C86",
   "status": "proved",
   "theorems": [
    "C86_build",
    "C86_access",
    "C86_operators",
    "C86_maps",
    "C86_assign",
    "C86_ring",
    "C86_field",
    "C86_comparisons",
    "C86_format",
    "C86_iterators",
    "C86_homomorphism",
    "C86_wrapping"
   ],
   "note": ""
  },
  {
   "property": "C87",
   "status": "partial",
   "theorems": [
    "C87_collect_partial",
    "C87_refuted",
    "C87_own_impls_partial",
    "C87_iterate_partial",
    "C87_index_partial"
   ],
   "note": "refuted as stated (C87_refuted): ArrayLen is a safe public trait; the _partial theorems characterise exactly which implementations are safe and what the others do"
  },
  {
   "property": "C88",
   "status": "proved",
   "theorems": [
    "C88_constants",
    "C88_product",
    "C88_mul_assign",
    "C88_entrywise",
    "C88_identity",
    "C88_pow",
    "C88_vector",
    "C88_scale",
    "C88_transposed",
    "C88_faithful",
    "C88_equality",
    "C88_is_zero"
   ],
   "note": "elements with exact arithmetic; the product laws need a semiring"
  },
  {
   "property": "C89",
   "status": "partial",
   "theorems": [
    "C89_constructor_partial",
    "C89_exact_partial",
    "C89_refuted"
   ],
   "note": "the promise is refuted (C89_refuted: safe code, release build, missing column); what holds instead, and exactly when it fails, is proved"
  },
  {
   "property": "C90",
   "status": "proved",
   "theorems": [
    "C90_equal",
    "C90_alike"
   ],
   "note": "the element's == is pure here"
  },
  {
   "property": "C91",
   "status": "proved",
   "theorems": [
    "C91_sums",
    "C91_cross",
    "C91_products",
    "C91_pow",
    "C91_determinant",
    "C91_inverse",
    "C91_float",
    "C91_norm"
   ],
   "note": "generic theorems over a class of absorbing values, then instantiated for NaN and for non-finite floats"
  },
  {
   "property": "C92",
   "status": "proved",
   "theorems": [
    "C92_smallest",
    "C92_sum",
    "C92_dot",
    "C92_matrix_product",
    "C92_matrix_vector",
    "C92_cross",
    "C92_norm",
    "C92_determinant"
   ],
   "note": "no condition on the operands; C69 gives conditions under which the result is finite"
  },
  {
   "property": "C93",
   "status": "partial",
   "theorems": [
    "C93_diag_partial",
    "C93_none_partial",
    "C93_some_partial",
    "C93_none_refuted",
    "C93_zero_refuted",
    "C93_refuted"
   ],
   "note": "false of the code at sizes 2 and 3, where the determinant underflows (None, C93_none_refuted) or overflows (Some of the zero matrix, C93_zero_refuted); proved for all diagonal matrices at size 1 and from size 4 on; None and finite entries at sizes 1 to 3 characterised"
  },
  {
   "property": "C94",
   "status": "proved",
   "theorems": [
    "C94_commute",
    "C94_vectors",
    "C94_products",
    "C94_cross",
    "C94_norm",
    "C94_determinant",
    "C94_inverse",
    "C94_pow",
    "C94_neutral"
   ],
   "note": "NaN payloads and the sign of NaN are not modelled; the signs of zeros may differ where the statement says so"
  },
  {
   "property": "C95",
   "status": "proved",
   "theorems": [
    "C95_sum",
    "C95_products",
    "C95_pow",
    "C95_norm",
    "C95_normalized"
   ],
   "note": ""
  },
  {
   "property": "C96",
   "status": "proved",
   "theorems": [
    "C96_exact",
    "C96_entries",
    "C96_fibonacci",
    "C96_accurate",
    "C96_finite"
   ],
   "note": ""
  },
  {
   "property": "C97",
   "status": "proved",
   "theorems": [
    "C97_conjugate",
    "C97_arithmetic",
    "C97_determinant",
    "C97_inverse",
    "C97_pow",
    "C97_hermitian",
    "C97_accurate"
   ],
   "note": "num's Complex operators (external) are modelled from num 0.1.36: product by the four-multiplication formula, quotient by norm_sqr"
  },
  {
   "property": "C98",
   "status": "proved",
   "theorems": [
    "C98_small",
    "C98_vectors",
    "C98_products",
    "C98_cross",
    "C98_norm",
    "C98_determinant",
    "C98_inverse",
    "C98_pow",
    "C98_sum"
   ],
   "note": "'nothing overflows or underflows' is stated by running the same methods over `careful_ops`, float operators that panic instead; C98_small says what counts as underflow; C98_ex shows that the hypothesis is needed"
  },
  {
   "property": "C99",
   "status": "proved",
   "theorems": [
    "C99_debug_any_formatter",
    "C99_pretty",
    "C99_flags_reach_elements",
    "C99_display_ignores_flags"
   ],
   "note": "C99_debug_any_formatter does not depend on std's version; C99_pretty models std's DebugList and PadAdapter as of Rust 1.29 and later (before, the last comma was not written and flags other than # were reset for elements)"
  },
  {
   "property": "C100",
   "status": "proved",
   "theorems": [
    "C100_determinant",
    "C100_cofactor",
    "C100_inverse_small",
    "C100_inverse_big",
    "C100_arith",
    "C100_pow",
    "C100_lowest_unique",
    "C100_roundtrip"
   ],
   "note": "num::rational::Ratio (external, num 0.1.36) is modelled: reduce, new, the operators, over BigInt and over iN with overflow checks"
  },
  {
   "property": "C101",
   "status": "proved",
   "theorems": [
    "C101_vector",
    "C101_matrix",
    "C101_product",
    "C101_square"
   ],
   "note": ""
  },
  {
   "property": "C102",
   "status": "proved",
   "theorems": [
    "C102_agrees",
    "C102_constants",
    "C102_is_zero",
    "C102_sums",
    "C102_matrix_product",
    "C102_mul_assign",
    "C102_matrix_vector",
    "C102_determinant",
    "C102_cofactor",
    "C102_inverse",
    "C102_no_ub",
    "C102_no_ub_products",
    "C102_no_ub_determinant",
    "C102_diag",
    "C102_pow"
   ],
   "note": ""
  },
  {
   "property": "C103",
   "status": "proved",
   "theorems": [
    "C103_elementwise",
    "C103_scalar",
    "C103_sums",
    "C103_containers",
    "C103_products",
    "C103_mul_assign",
    "C103_matrix_vector",
    "C103_pow",
    "C103_determinant",
    "C103_cofactor",
    "C103_inverse",
    "C103_agrees"
   ],
   "note": ""
  },
  {
   "property": "C104",
   "status": "proved",
   "theorems": [
    "C104_compound",
    "C104_scale",
    "C104_clamp",
    "C104_max_min",
    "C104_equality",
    "C104_max_by",
    "C104_clamped",
    "C104_agrees"
   ],
   "note": "The element-level premises are those of a safe element type that does not leak; for clamped a panic may leave clones behind, because FixedSizeVec's collector leaks its filled slots (C04), so only the weaker triple of C103 holds there."
  },
  {
   "property": "C105",
   "status": "proved",
   "theorems": [
    "C105_collect",
    "C105_sources",
    "C105_generate",
    "C105_map",
    "C105_conjugate",
    "C105_cross",
    "C105_from_vector",
    "C105_diag",
    "C105_searches",
    "C105_agrees"
   ],
   "note": "Element-level and closure-level premises are those of safe code that does not leak. In a debug build the final count of from_iter may run for ever on an endless source; C105_collect therefore asks for D (divergence allowed) there. Sources are described by an invariant on one call of next (SpecSource.v), with no bound on the number of items."
  },
  {
   "property": "C106",
   "status": "proved",
   "theorems": [
    "C106_into_iter",
    "C106_chunks",
    "C106_rows",
    "C106_cols",
    "C106_references"
   ],
   "note": "For the owning iterator the histories are those of C07_exact (on the others the code is undefined: C07_refuted, C08_refuted). Reference items are not values, so C106_references says that the world does not change."
  },
  {
   "property": "C107",
   "status": "proved",
   "theorems": [
    "C107_sums",
    "C107_cross",
    "C107_small",
    "C107_agrees",
    "C107_panics_alike"
   ],
   "note": "The cofactor index is arbitrary: out of range the panic is the indexing one. C107_agrees and C107_panics_alike connect UnwindM.v to the functions of VectorM.v, NumM.v, OpsM.v and ScopeM.v: equal for destructors that do nothing, and for every element type equal results, equal worlds when there is no panic, and panics in the same cases. Inside zip and the array literal, temporaries are dropped as Rust's scope rules say; that is read off the code, as everywhere in the model."
  }
 ]
}