{
 "claims": [
  {
   "property": "C01",
   "status": "proved",
   "theorems": [
    "C01_uplooking_reproduces_matrix",
    "C01_uplooking_without_regularization"
   ],
   "note": "exact field arithmetic, any regularization; hypothesis: pivots nonzero"
  },
  {
   "property": "C02",
   "status": "proved",
   "theorems": [
    "C02_entrywise_reproduces_matrix",
    "C02_methods_agree"
   ],
   "note": "reproduces the matrix and agrees with the up-looking factor if the pivots of one of the two are nonzero"
  },
  {
   "property": "C03",
   "status": "proved",
   "theorems": [
    "C03_solve",
    "C03_solve_without_regularization"
   ],
   "note": ""
  },
  {
   "property": "C04",
   "status": "proved",
   "theorems": [
    "C04_round_trip"
   ],
   "note": ""
  },
  {
   "property": "C05",
   "status": "proved",
   "theorems": [
    "C05_permutation_irrelevant"
   ],
   "note": ""
  },
  {
   "property": "C06",
   "status": "proved",
   "theorems": [
    "C06_reuse"
   ],
   "note": "law-free: holds for floating point as well"
  },
  {
   "property": "C07",
   "status": "proved",
   "theorems": [
    "C07_only_lower_triangle"
   ],
   "note": "law-free"
  },
  {
   "property": "C08",
   "status": "proved",
   "theorems": [
    "C08_arrowhead_reproduces_matrix",
    "C08_methods_agree"
   ],
   "note": "exact field arithmetic, any regularization and method; the matrix identity needs nonzero pivots"
  },
  {
   "property": "C09",
   "status": "proved",
   "theorems": [
    "C09_arrowhead_solve",
    "C09_arrowhead_solve_without_regularization",
    "C09_permutation_independent"
   ],
   "note": "also independent of the permutations and the method"
  },
  {
   "property": "C10",
   "status": "proved",
   "theorems": [
    "C10_arrowhead_round_trip"
   ],
   "note": ""
  },
  {
   "property": "C11",
   "status": "proved",
   "theorems": [
    "C11_arrowhead_reuse"
   ],
   "note": "law-free: holds for floating point as well"
  },
  {
   "property": "C12",
   "status": "proved",
   "theorems": [
    "C12_tridiagonal_solves",
    "C12_tridiagonal_round_trip"
   ],
   "note": ""
  },
  {
   "property": "C13",
   "status": "proved",
   "theorems": [
    "C13_fill_is_exact",
    "C13_fill_is_smallest"
   ],
   "note": ""
  },
  {
   "property": "C14",
   "status": "proved",
   "theorems": [
    "C14_blocked3x3",
    "C14_blocked2x2"
   ],
   "note": ""
  },
  {
   "property": "C15",
   "status": "proved",
   "theorems": [
    "C15_elimination_tree",
    "C15_elimination_tree_blocked"
   ],
   "note": ""
  },
  {
   "property": "C16",
   "status": "proved",
   "theorems": [
    "C16_repeating_covers"
   ],
   "note": "termination is part of the statement: the fuelled loop returns Ok"
  },
  {
   "property": "C17",
   "status": "proved",
   "theorems": [
    "C17_repeating_is_tight"
   ],
   "note": ""
  },
  {
   "property": "C18",
   "status": "proved",
   "theorems": [
    "C18_consistent_sparsity_compiles"
   ],
   "note": "law-free"
  },
  {
   "property": "C19",
   "status": "proved",
   "theorems": [
    "C19_chordal",
    "C19_inconsistent_dims",
    "C19_duplicates_refuted"
   ],
   "note": "for duplicate-free patterns; with duplicates refuted by C19_duplicates_refuted"
  },
  {
   "property": "C20",
   "status": "proved",
   "theorems": [
    "C20_subset",
    "C20_subset_permuted",
    "C20_subset_lower_triangle",
    "C20_equal",
    "C20_subset_dims",
    "C20_equal_dims"
   ],
   "note": ""
  },
  {
   "property": "C21",
   "status": "proved",
   "theorems": [
    "C21_csr"
   ],
   "note": ""
  },
  {
   "property": "C22",
   "status": "proved",
   "theorems": [
    "C22_inverse",
    "C22_permuted",
    "C22_lower_triangle"
   ],
   "note": ""
  },
  {
   "property": "C23",
   "status": "proved",
   "theorems": [
    "C23_enumeration",
    "C23_enumeration_complete",
    "C23_enumeration_incomplete"
   ],
   "note": "complete for dim <= 20, count dim! mod 2^64 for all dims, incomplete for every dim >= 21"
  },
  {
   "property": "C24",
   "status": "proved",
   "theorems": [
    "C24_contributions",
    "C24_contributions_mixed",
    "C24_unsorted_refuted"
   ],
   "note": "for rows with ascending columns; C24_unsorted_refuted shows the hypothesis is needed"
  },
  {
   "property": "C25",
   "status": "proved",
   "theorems": [
    "C25_influenced",
    "C25_influenced_lower_triangle",
    "C25_missing_target"
   ],
   "note": ""
  },
  {
   "property": "C26",
   "status": "proved",
   "theorems": [
    "C26_multiply_normal",
    "C26_multiply_transposed",
    "C26_multiply_symmetric"
   ],
   "note": ""
  },
  {
   "property": "C27",
   "status": "proved",
   "theorems": [
    "C27_arrowhead_multiply",
    "C27_same_matrix",
    "C27_tridiagonal_multiply",
    "C27_tridiagonal_counts_rejected",
    "C27_arrowhead_counts_rejected"
   ],
   "note": ""
  },
  {
   "property": "C28",
   "status": "proved",
   "theorems": [
    "C28_constants",
    "C28_never_breaks_down",
    "C28_inactive",
    "C28_arrowhead_never_breaks_down",
    "C28_arrowhead_inactive",
    "C28_tridiagonal_never_breaks_down",
    "C28_any_arithmetic",
    "C28_arrowhead_any_arithmetic"
   ],
   "note": "over the real numbers, with the axioms of the standard library Reals; what holds for any arithmetic is proved without axioms (C28_any_arithmetic, C28_arrowhead_any_arithmetic)"
  },
  {
   "property": "C29",
   "status": "proved",
   "theorems": [
    "C29_positive_definite",
    "C29_positive_pivots",
    "C29_arrowhead_positive_definite",
    "C29_arrowhead_positive_pivots",
    "C29_tridiagonal_positive_definite"
   ],
   "note": "over any ordered field, without axioms; also the converse"
  },
  {
   "property": "C30",
   "status": "proved",
   "theorems": [
    "C30_accepts",
    "C30_rejects"
   ],
   "note": ""
  },
  {
   "property": "C31",
   "status": "proved",
   "theorems": [
    "C31_reads_the_entries",
    "C31_rejects_malformed_files"
   ],
   "note": "number scanning is a parameter; the only thing assumed of it is that the empty line has no numbers"
  },
  {
   "property": "C32",
   "status": "proved",
   "theorems": [
    "C32_row_numbers",
    "C32_stores_the_file",
    "C32_solves_the_file",
    "C32_outer_refuted"
   ],
   "note": "proved unless an outer row number is at least the size of the tridiagonal blocks, where the full statement is false: C32_outer_refuted"
  },
  {
   "property": "C33",
   "status": "proved",
   "theorems": [
    "C33_rejects_undeclared_entries",
    "C33_rejects_dimensions",
    "C33_start_columns_undefined",
    "C33_empty_blocks_undefined",
    "C33_far_entry_refuted"
   ],
   "note": "the full statement is false of the code: entries two or more blocks below the diagonal are stored elsewhere, those in the start columns below the first tridiagonal block are undefined behaviour; rejection proved for all other positions and for dimensions that do not fit"
  },
  {
   "property": "C34",
   "status": "proved",
   "theorems": [
    "C34_flatten_block",
    "C34_block_flatten"
   ],
   "note": ""
  },
  {
   "property": "C35",
   "status": "proved",
   "theorems": [
    "C35_bool_matrix"
   ],
   "note": ""
  },
  {
   "property": "C36",
   "status": "proved",
   "theorems": [
    "C36_dimensions_agree",
    "C36_dimensions_disagree",
    "C36_checked_first"
   ],
   "note": ""
  },
  {
   "property": "C37",
   "status": "proved",
   "theorems": [
    "C37_clean_inputs",
    "C37_only_clean_inputs",
    "C37_duplicates_refuted",
    "C37_upper_entries_refuted"
   ],
   "note": "the full statement is false of the code (duplicates, entries above the diagonal): refuted by witnesses; proved exactly for the sparsities without these"
  },
  {
   "property": "C38",
   "status": "proved",
   "theorems": [
    "C38_single_rejected",
    "C38_arrowhead_rejected",
    "C38_only_stored_positions_matter",
    "C38_outer_refuted"
   ],
   "note": "true for a single matrix and the inner blocks, proved law-free; false for the four outer blocks, refuted by witnesses; what is not stored is proved to be ignored"
  },
  {
   "property": "C39",
   "status": "proved",
   "theorems": [
    "C39_factorize_ignores_extra_blocks_refuted",
    "C39_missing_blocks_refuted",
    "C39_multiply_outer_counts_refuted",
    "C39_solve_counts_refuted"
   ],
   "note": "the full statement is false of the code: refuted by witnesses; the checked counts are in C27"
  },
  {
   "property": "C40",
   "status": "proved",
   "theorems": [
    "C40_quasidefinite",
    "C40_arrowhead_quasidefinite",
    "C40_tridiagonal_quasidefinite"
   ],
   "note": "over any ordered field, without axioms"
  },
  {
   "property": "C41",
   "status": "proved",
   "theorems": [
    "C41_breakdown",
    "C41_arrowhead_breakdown"
   ],
   "note": "over any infinite field with decidable equality, without axioms"
  },
  {
   "property": "C42",
   "status": "proved",
   "theorems": [
    "C42_single",
    "C42_arrowhead",
    "C42_tridiagonal"
   ],
   "note": "for any scalar operations, without axioms"
  },
  {
   "property": "C43",
   "status": "proved",
   "theorems": [
    "C43_ieee_arithmetic",
    "C43_gamma",
    "C43_factorization_error",
    "C43_regularized_factorization_error",
    "C43_arrowhead_factorization_error",
    "C43_regularized_arrowhead_factorization_error",
    "C43_tridiagonal_factorization_error"
   ],
   "note": "over the real numbers, with the axioms of the standard library Reals; overflow and NaN on the way are allowed; no contraction to fused operations and no excess precision"
  },
  {
   "property": "C44",
   "status": "proved",
   "theorems": [
    "C44_solve_residual",
    "C44_arrowhead_solve_residual"
   ],
   "note": "as C43; the factor is arbitrary"
  },
  {
   "property": "C45",
   "status": "proved",
   "theorems": [
    "C45_residual",
    "C45_regularized_residual",
    "C45_arrowhead_residual",
    "C45_regularized_arrowhead_residual",
    "C45_tridiagonal_residual"
   ],
   "note": "as C43"
  },
  {
   "property": "C46",
   "status": "proved",
   "theorems": [
    "C46_ieee_conversion",
    "C46_ieee_widening",
    "C46_factorization_error",
    "C46_arrowhead_factorization_error",
    "C46_tridiagonal_factorization_error",
    "C46_residual",
    "C46_arrowhead_residual",
    "C46_tridiagonal_residual"
   ],
   "note": "as C43; without regularization; the type of the vectors is at least as precise as that of the factor, and one type for all vectors"
  },
  {
   "property": "C47",
   "status": "proved",
   "theorems": [
    "C47_inertia",
    "C47_same_for_all_orders",
    "C47_arrowhead_inertia",
    "C47_arrowhead_same_for_all_orders",
    "C47_tridiagonal_inertia",
    "C47_tridiagonal_same_for_all_orders"
   ],
   "note": "over any ordered field, without axioms"
  },
  {
   "property": "C48",
   "status": "proved",
   "theorems": [
    "C48_fill_paths"
   ],
   "note": "the theorem of Rose, Tarjan and Lueker for the computed pattern"
  },
  {
   "property": "C49",
   "status": "proved",
   "theorems": [
    "C49_field_signs",
    "C49_ieee_signs",
    "C49_signs",
    "C49_arrowhead_signs",
    "C49_tridiagonal_signs",
    "C49_positive_definite",
    "C49_arrowhead_positive_definite",
    "C49_tridiagonal_positive_definite"
   ],
   "note": "over any arithmetic with sign rules (ordered fields, IEEE formats with rounding to nearest even)"
  },
  {
   "property": "C50",
   "status": "proved",
   "theorems": [
    "C50_dominant",
    "C50_arrowhead_dominant",
    "C50_tridiagonal_dominant"
   ],
   "note": "a dominant matrix is quasi-definite with the signs of its diagonal, for which C40 shows that no pivot vanishes"
  },
  {
   "property": "C51",
   "status": "proved",
   "theorems": [
    "C51_stored_nonzero",
    "C51_no_wasted_storage",
    "C51_covers_fill",
    "C51_arrowhead_pattern",
    "C51_arrowhead_stored_nonzero",
    "C51_arrowhead_no_wasted_storage",
    "C51_tridiagonal_no_wasted_storage",
    "C51_start_refuted"
   ],
   "note": "the part that fails with a start block is shown by C51_start_refuted; the number of leading blocks k0 whose columns are excluded is only shown to exist"
  },
  {
   "property": "C52",
   "status": "proved",
   "theorems": [
    "C52_sparsity_irrelevant",
    "C52_dense",
    "C52_dense_exists",
    "C52_dense_unique",
    "C52_arrowhead_sparsity_irrelevant",
    "C52_tridiagonal_sparsity_irrelevant",
    "C52_field",
    "C52_ieee",
    "C52_regularization_none",
    "C52_regularization_constant"
   ],
   "note": "C52_ieee and C52_regularization_constant use the axioms of the real numbers, the other theorems are axiom-free and hold for every scalar type with sameRules"
  },
  {
   "property": "C53",
   "status": "proved",
   "theorems": [
    "C53_arrowhead_flat",
    "C53_tridiagonal_flat",
    "C53_permutation"
   ],
   "note": "the entry-wise method with an outer block is excluded: there the partial factorization uses other operations and C53_entry_wise_example shows different roundings"
  },
  {
   "property": "C54",
   "status": "proved",
   "theorems": [
    "C54_permutation",
    "C54_matrix",
    "C54_symmetric_matrix",
    "C54_random_tridiagonal",
    "C54_random_arrowhead"
   ],
   "note": "the values of the random matrices (std::normal_distribution) are not modelled"
  },
  {
   "property": "C55",
   "status": "proved",
   "theorems": [
    "C55_upper_bound_refuted",
    "C55_all_permutations_refuted",
    "C55_last_index_fixed",
    "C55_two",
    "C55_three"
   ],
   "note": "the full statement is false of the code: refuted by witnesses; what is generated instead is proved"
  },
  {
   "property": "C56",
   "status": "proved",
   "theorems": [
    "C56_period",
    "C56_all_states",
    "C56_lowest_bit"
   ],
   "note": ""
  },
  {
   "property": "C57",
   "status": "proved",
   "theorems": [
    "C57_scaling",
    "C57_arrowhead_scaling",
    "C57_tridiagonal_scaling",
    "C57_field",
    "C57_unbounded_exponents",
    "C57_signs",
    "C57_trapped",
    "C57_regularization_none",
    "C57_regularization_constant",
    "C57_no_underflow",
    "C57_arrowhead_no_underflow",
    "C57_powers_of_two",
    "C57_arrowhead_powers_of_two"
   ],
   "note": "C57_powers_of_two and C57_arrowhead_powers_of_two assume that the same runs in an arithmetic that turns underflow into NaN are finite; the generic theorems and C57_field are axiom-free"
  },
  {
   "property": "C58",
   "status": "proved",
   "theorems": [
    "C58_multiply",
    "C58_tridiagonal_multiply",
    "C58_arrowhead_multiply",
    "C58_symmetric",
    "C58_tridiagonal_symmetric",
    "C58_arrowhead_symmetric",
    "C58_round_trip",
    "C58_tridiagonal_round_trip",
    "C58_arrowhead_round_trip"
   ],
   "note": "the bounds assume finite results; the IEEE instance is C43_ieee_arithmetic"
  },
  {
   "property": "C59",
   "status": "proved",
   "theorems": [
    "C59_ieee",
    "C59_multiply",
    "C59_tridiagonal_multiply",
    "C59_arrowhead_multiply"
   ],
   "note": "C59_ieee gives the IEEE instance of the abstract arithmetic"
  },
  {
   "property": "C60",
   "status": "proved",
   "theorems": [
    "C60_reads_the_text",
    "C60_written_files",
    "C60_rejects_other_lines",
    "C60_stores_the_text",
    "C60_solves_the_text",
    "C60_residual",
    "C60_double",
    "C60_kind_refuted"
   ],
   "note": "C60_kind_refuted: the stronger claim that files of other kinds are rejected is false. Hexadecimal numbers, inf and nan are not modelled"
  },
  {
   "property": "C61",
   "status": "proved",
   "theorems": [
    "C61_ieee",
    "C61_dominant_finite",
    "C61_arrowhead_dominant_finite",
    "C61_tridiagonal_dominant_finite"
   ],
   "note": "C61_ieee gives the overflow threshold for every IEEE format; C61_range_needed shows a system outside of the range. The double precision corollaries of C61 and C62 are stated together as C62_double, C62_arrowhead_double, C62_tridiagonal_double"
  },
  {
   "property": "C62",
   "status": "proved",
   "theorems": [
    "C62_dominant_error",
    "C62_arrowhead_dominant_error",
    "C62_tridiagonal_dominant_error",
    "C62_double",
    "C62_arrowhead_double",
    "C62_tridiagonal_double"
   ],
   "note": ""
  },
  {
   "property": "C63",
   "status": "proved",
   "theorems": [
    "C63_dominant_positive",
    "C63_positive_finite",
    "C63_arrowhead_positive_finite",
    "C63_tridiagonal_positive_finite"
   ],
   "note": "C63_precision_needed (example) shows a positive definite matrix with a zero pivot where lam is too small. The double precision corollaries of C63 and C64 are stated together as C64_double, C64_arrowhead_double, C64_tridiagonal_double"
  },
  {
   "property": "C64",
   "status": "proved",
   "theorems": [
    "C64_positive_error",
    "C64_arrowhead_positive_error",
    "C64_tridiagonal_positive_error",
    "C64_double",
    "C64_arrowhead_double",
    "C64_tridiagonal_double"
   ],
   "note": ""
  },
  {
   "property": "C65",
   "status": "proved",
   "theorems": [
    "C65_factorize_and_solve",
    "C65_arrowhead",
    "C65_tridiagonal",
    "C65_multiply",
    "C65_arrowhead_multiply",
    "C65_tridiagonal_multiply",
    "C65_arrowhead_construct",
    "C65_outcome",
    "C65_arrowhead_outcome",
    "C65_lanes",
    "C65_lanes_related"
   ],
   "note": ""
  },
  {
   "property": "C66",
   "status": "proved",
   "theorems": [
    "C66_enclosure",
    "C66_arrowhead_enclosure",
    "C66_tridiagonal_enclosure",
    "C66_intervals"
   ],
   "note": ""
  },
  {
   "property": "C67",
   "status": "proved",
   "theorems": [
    "C67_derivative",
    "C67_arrowhead_derivative",
    "C67_tridiagonal_derivative"
   ],
   "note": "over the real numbers; the curves are evaluated with the same factorize and solve at every parameter"
  },
  {
   "property": "C68",
   "status": "proved",
   "theorems": [
    "C68_independent",
    "C68_alone",
    "C68_arrowhead",
    "C68_tridiagonal",
    "C68_each_block_refuted"
   ],
   "note": "the version with a set that differs from repetition to repetition is false: C68_each_block_refuted"
  },
  {
   "property": "C69",
   "status": "proved",
   "theorems": [
    "C69_leading",
    "C69_arrowhead",
    "C69_tridiagonal"
   ],
   "note": ""
  },
  {
   "property": "C70",
   "status": "proved",
   "theorems": [
    "C70_determinant",
    "C70_not_singular_refuted",
    "C70_arrowhead_determinant",
    "C70_tridiagonal_determinant"
   ],
   "note": "a nonzero determinant alone does not exclude zero pivots: C70_not_singular_refuted"
  },
  {
   "property": "C71",
   "status": "proved",
   "theorems": [
    "C71_violation",
    "C71_given_place",
    "C71_colon_refuted",
    "C71_site_refuted",
    "C71_permutation_text"
   ],
   "note": "false for checks without a given place: C71_site_refuted; C71_colon_refuted shows that file names without colons are needed"
  },
  {
   "property": "C72",
   "status": "proved",
   "theorems": [
    "C72_product",
    "C72_join",
    "C72_zip",
    "C72_zip_refuted",
    "C72_foreach",
    "C72_suite"
   ],
   "note": "C72_zip_refuted shows that sets of different sizes are cut"
  },
  {
   "property": "C73",
   "status": "proved",
   "theorems": [
    "C73_schur_complement",
    "C73_arrowhead_schur_complement",
    "C73_tridiagonal_schur_complement"
   ],
   "note": ""
  },
  {
   "property": "C74",
   "status": "proved",
   "theorems": [
    "C74_printed_number",
    "C74_read_back",
    "C74_runs",
    "C74_prints_the_solution",
    "C74_usage",
    "C74_rejects",
    "C74_bad_count",
    "C74_negative_count",
    "C74_prints_the_positive_solution"
   ],
   "note": ""
  },
  {
   "property": "C75",
   "status": "proved",
   "theorems": [
    "C75_shipped_structures",
    "C75_repetitions",
    "C75_exact_value",
    "C75_tridiagonal",
    "C75_lfat5",
    "C75_nos4",
    "C75_nos2"
   ],
   "note": ""
  },
  {
   "property": "C76",
   "status": "proved",
   "theorems": [
    "C76_solve",
    "C76_arrowhead_solve",
    "C76_tridiagonal_solve",
    "C76_double_refuted"
   ],
   "note": "holds in exact arithmetic; C76_double_refuted gives a witness that rounding breaks linearity"
  },
  {
   "property": "C77",
   "status": "proved",
   "theorems": [
    "C77_refine",
    "C77_arrowhead_refine",
    "C77_tridiagonal_refine"
   ],
   "note": ""
  },
  {
   "property": "C78",
   "status": "proved",
   "theorems": [
    "C78_runs",
    "C78_usage",
    "C78_rejects"
   ],
   "note": "the benchmark library is not modelled; the numbers of iterations are inputs"
  },
  {
   "property": "C79",
   "status": "proved",
   "theorems": [
    "C79_quasidefinite",
    "C79_arrowhead_quasidefinite",
    "C79_tridiagonal_quasidefinite",
    "C79_no_growth",
    "C79_arrowhead_no_growth",
    "C79_tridiagonal_no_growth"
   ],
   "note": ""
  },
  {
   "property": "C80",
   "status": "proved",
   "theorems": [
    "C80_renumber",
    "C80_arrowhead",
    "C80_tridiagonal"
   ],
   "note": ""
  },
  {
   "property": "C81",
   "status": "proved",
   "theorems": [
    "C81_single",
    "C81_arrowhead",
    "C81_tridiagonal"
   ],
   "note": ""
  },
  {
   "property": "C82",
   "status": "proved",
   "theorems": [
    "C82_read",
    "C82_distinct",
    "C82_list"
   ],
   "note": ""
  },
  {
   "property": "C83",
   "status": "proved",
   "theorems": [
    "C83_minimum",
    "C83_arrowhead_minimum",
    "C83_tridiagonal_minimum",
    "C83_saddle_point",
    "C83_arrowhead_saddle_point",
    "C83_tridiagonal_saddle_point"
   ],
   "note": ""
  },
  {
   "property": "C84",
   "status": "proved",
   "theorems": [
    "C84_larger_matrix",
    "C84_arrowhead_larger_matrix",
    "C84_tridiagonal_larger_matrix",
    "C84_larger_diagonal",
    "C84_arrowhead_larger_diagonal",
    "C84_tridiagonal_larger_diagonal"
   ],
   "note": ""
  },
  {
   "property": "C85",
   "status": "proved",
   "theorems": [
    "C85_minimum",
    "C85_arrowhead_minimum",
    "C85_tridiagonal_minimum"
   ],
   "note": ""
  }
 ]
}