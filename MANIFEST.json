{
 "claims": [
  {
   "property": "C01",
   "status": "proved",
   "theorems": [
    "C01_swap_keeps_tree"
   ],
   "note": "swap_nn is swap_with_nn for positions >= 0; negative positions are covered by C03_negative_position_refuted."
  },
  {
   "property": "C02",
   "status": "proved",
   "theorems": [
    "C02_swap_undone"
   ],
   "note": ""
  },
  {
   "property": "C03",
   "status": "partial",
   "theorems": [
    "C03_swap_footprint",
    "C03_swap_noop",
    "C03_negative_position_refuted"
   ],
   "note": "Footprint and no-op cases proved for every node list and every non-negative position; refuted for negative positions, which pass the guard and are used as a subscript (finding F01)."
  },
  {
   "property": "C04",
   "status": "proved",
   "theorems": [
    "C04_traverse",
    "C04_get_contraction"
   ],
   "note": ""
  },
  {
   "property": "C05",
   "status": "partial",
   "theorems": [
    "C05_tree_check_complete",
    "C05_cycle_accepted_refuted",
    "C05_wrong_parents_accepted_refuted",
    "C05_tree_check_sound_partial",
    "C05_characterisation"
   ],
   "note": "Completeness proved; soundness refuted by two accepted non-trees (findings F02, F03); the part of soundness that holds and the exact missing conditions are proved."
  },
  {
   "property": "C06",
   "status": "proved",
   "theorems": [
    "C06_bitset_operators",
    "C06_bitset_comparisons",
    "C06_bitset_positions",
    "C06_bitset_roundtrips",
    "C06_bitset_constructor",
    "C06_bitset_string_constructor",
    "C06_bitset_getitem"
   ],
   "note": "Binary operators for operands of equal size (boost's own precondition)."
  },
  {
   "property": "C07",
   "status": "proved",
   "theorems": [
    "C07_finite_width_keeps_indices_exact",
    "C07_updates_keep_indices_exact"
   ],
   "note": "For both optimizers, every seed, acceptance rule, number of updates and cost model."
  },
  {
   "property": "C08",
   "status": "partial",
   "theorems": [
    "C08_finite_width_keeps_the_tree_valid",
    "C08_finite_width_shared_indices_kept_partial",
    "C08_updates_keep_the_tree_valid",
    "C08_shared_indices_kept_partial",
    "C08_shared_indices_refuted"
   ],
   "note": "Both optimizers. Validity (contraction check, shapes, dims) proved for every accepted tree; shared indices proved for trees whose indices are exact, refuted for valid trees that are not exact (finding F04)."
  },
  {
   "property": "C09",
   "status": "proved",
   "theorems": [
    "C09_total_cost_is_the_cost_of_the_tree"
   ],
   "note": "Exact costs; rounding is C45, the value that Python sees is C50."
  },
  {
   "property": "C10",
   "status": "proved",
   "theorems": [
    "C10_finite_width_minimum_is_the_best_so_far",
    "C10_minimum_is_the_best_so_far",
    "C10_initial_cost_refuted"
   ],
   "note": "Both optimizers. With a supplied best tree the bound by the initial cost fails until the first update (C10_initial_cost_refuted)."
  },
  {
   "property": "C11",
   "status": "proved",
   "theorems": [
    "C11_finite_width_keeps_the_problem",
    "C11_updates_keep_the_problem"
   ],
   "note": "Both optimizers."
  },
  {
   "property": "C12",
   "status": "partial",
   "theorems": [
    "C12_finite_width_update_terminates_partial",
    "C12_finite_width_walk_is_bounded_partial",
    "C12_finite_width_update_terminates_refuted",
    "C12_update_terminates_in_range"
   ],
   "note": "Ok means that no access was out of range. Infinite memory: full. Finite width: full unless new slices are allowed and the skipped indices together exceed max_width; there a division by zero is reached (C12_finite_width_update_terminates_refuted, finding F06)."
  },
  {
   "property": "C13",
   "status": "partial",
   "theorems": [
    "C13_finite_width_never_increases",
    "C13_finite_width_greedy_never_increases_partial",
    "C13_greedy_never_increases_partial",
    "C13_greedy_never_increases_refuted",
    "C13_metropolis_probability",
    "C13_metropolis_monotone",
    "C13_metropolis_infinite_temperature",
    "C13_metropolis_accepts_improvements",
    "C13_rule_consulted_with_positive_total"
   ],
   "note": "Greedy proved when no uniform draw is exactly 0, refuted when one is (finding F05); Metropolis-Hastings for inverse temperature >= 0. Uses the axioms of the standard library's reals. Finite width: the same for greedy."
  },
  {
   "property": "C14",
   "status": "partial",
   "theorems": [
    "C14_finite_width_is_valid_after_updates_partial",
    "C14_finite_width_is_valid_after_updates_refuted",
    "C14_is_valid_after_updates_partial",
    "C14_is_valid_after_updates_refuted"
   ],
   "note": "Proved for exact indices or shared check disabled, refuted otherwise (F04). Finite width: also needs the simple cost model or no new slices, refuted otherwise (F07)."
  },
  {
   "property": "C15",
   "status": "partial",
   "theorems": [
    "C15_finite_width_pickling_is_transparent_partial",
    "C15_finite_width_pickling_is_transparent_refuted",
    "C15_pickling_is_transparent_partial",
    "C15_pickling_is_transparent_refuted"
   ],
   "note": "Same hypotheses as C14, refuted otherwise (F04). Finite width: proved without new slices, refuted with them because max_number_new_slices is not saved (F08)."
  },
  {
   "property": "C16",
   "status": "proved",
   "theorems": [
    "C16_slices_make_every_tensor_fit",
    "C16_constructor_finds_slices",
    "C16_needs_fitting_skips_refuted"
   ],
   "note": "Every shuffle, cost model, tree; the constructor's success follows."
  },
  {
   "property": "C17",
   "status": "partial",
   "theorems": [
    "C17_skipped_indices_are_never_sliced",
    "C17_everything_fits_partial",
    "C17_everything_fits_refuted"
   ],
   "note": "Skipped indices are never sliced: full. Everything fits: simple cost model or no new slices; refuted for the sparse cost model with new slices (F07)."
  },
  {
   "property": "C18",
   "status": "proved",
   "theorems": [
    "C18_total_cost_is_the_sliced_cost",
    "C18_minimum_is_the_sliced_cost"
   ],
   "note": "Exact costs; rounding is C49, the value that Python sees is C50."
  },
  {
   "property": "C19",
   "status": "proved",
   "theorems": [
    "C19_delta_width_is_exact",
    "C19_width_is_monotone",
    "C19_python_wrapper_adding_refuted"
   ],
   "note": "For the cost models; the Python wrapper raises for an index to add (C19_python_wrapper_adding_refuted, F09)."
  },
  {
   "property": "C20",
   "status": "proved",
   "theorems": [
    "C20_cost_is_a_product_over_the_union",
    "C20_integer_and_vector_dims_agree",
    "C20_monotone_in_the_union",
    "C20_sparse_at_most_dense"
   ],
   "note": "Infinite-memory cost models."
  },
  {
   "property": "C21",
   "status": "proved",
   "theorems": [
    "C21_tree_of_path_is_exact",
    "C21_hyper_index_without_output_raises",
    "C21_unshared_contraction_raises"
   ],
   "note": "Constructor from a path: succeeds, well-formed tree, leaves, contractions, index sets and dimensions, for every duplicate-free network and every path ending in one tensor; the two ValueErrors are proved too."
  },
  {
   "property": "C22",
   "status": "proved",
   "theorems": [
    "C22_path_performs_the_tree",
    "C22_tree_of_path_of_tree",
    "C22_path_of_tree_of_path"
   ],
   "note": "path() of any well-formed tree performs exactly its contractions; rebuilding gives the same contraction tree up to numbering and order of children; path() of the tree of a path performs the path's contractions."
  },
  {
   "property": "C23",
   "status": "proved",
   "theorems": [
    "C23_complete_path_is_einsum",
    "C23_path_independent",
    "C23_any_path_is_einsum",
    "C23_accepted_inputs",
    "C23_indices_without_arrays",
    "C23_value_kept"
   ],
   "note": "For networks in which no index is repeated within a tensor; entries in any commutative semiring (no rounding). Indices of a single tensor that are not outputs are kept, not summed: the statement speaks of the remaining indices."
  },
  {
   "property": "C24",
   "status": "proved",
   "theorems": [
    "C24_tensordot_is_einsum",
    "C24_raises"
   ],
   "note": "For index lists without repetitions (numpy transpose raises for others) and arrays whose shapes agree on the shared indices; entries in any commutative semiring (no rounding)."
  },
  {
   "property": "C25",
   "status": "proved",
   "theorems": [
    "C25_slicing_is_exact",
    "C25_slices_exist"
   ],
   "note": "The repository has no code that runs the slices: the theorem is about contract applied to the sliced networks, which are specified in S_Slice.v."
  },
  {
   "property": "C26",
   "status": "proved",
   "theorems": [
    "C26_merged_path_performs_all_contractions",
    "C26_common_tensor_raises"
   ],
   "note": "Positions are naturals (Python's negative positions are not modelled). A step naming the same position twice is not a valid path in the specification; the code accepts it and contracts two neighbouring tensors."
  },
  {
   "property": "C27",
   "status": "proved",
   "theorems": [
    "C27_paths_of_the_components",
    "C27_merging_the_components_back"
   ],
   "note": "Both values of normalize_paths; the components are the tensor sets of what the path leaves."
  },
  {
   "property": "C28",
   "status": "proved",
   "theorems": [
    "C28_one_path_per_component",
    "C28_merged_path"
   ],
   "note": "For any random generator that draws within its range. Tensors with no index repeated within a tensor."
  },
  {
   "property": "C29",
   "status": "partial",
   "theorems": [
    "C29_symbols_are_unique",
    "C29_symbols_exist",
    "C29_no_separator",
    "C29_surrogate_partial",
    "C29_surrogate_refuted",
    "C29_subscripts",
    "C29_subscripts_raise",
    "C29_subscripts_of_two"
   ],
   "note": "All claims but the one on surrogates, which is false for the integers from 55156 to 55295 (C29_surrogate_refuted) and proved for all others (C29_surrogate_partial)."
  },
  {
   "property": "C30",
   "status": "proved",
   "theorems": [
    "C30_rejected_inputs_raise",
    "C30_fuse_respects_bounds",
    "C30_outputs_stay",
    "C30_repeated_index_refuted"
   ],
   "note": "For networks in which no index is repeated within a tensor (with a repeated one fuse raises: C30_repeated_index_refuted). Widths are sums of any integer-valued function of the dimensions, compared exactly."
  },
  {
   "property": "C31",
   "status": "partial",
   "theorems": [
    "C31_tensor",
    "C31_tensor_raises",
    "C31_network",
    "C31_sums_agree",
    "C31_contraction_partial",
    "C31_contraction_refuted",
    "C31_repeated_index_refuted"
   ],
   "note": "Proved with exact comparison of entries: for one tensor and for a network, the product of the new tensors at assignments that identify merged indices is the old product, which is zero elsewhere (C31_tensor, C31_network); sums over all indices agree, with or without outputs (C31_sums_agree); the contraction over the indices of the new network agrees if no summed image vanishes (C31_contraction_partial). False in full: the all-equal shortcut drops an index, losing a factor (C31_contraction_refuted); a tensor can get an index twice, which contract rejects (C31_repeated_index_refuted). Tolerances are not modelled."
  },
  {
   "property": "C32",
   "status": "partial",
   "theorems": [
    "C32_iteration",
    "C32_operations",
    "C32_operators",
    "C32_comparisons",
    "C32_tests",
    "C32_hash_partial",
    "C32_hash_refuted"
   ],
   "note": "All claims but the one on hashes: equal sets built in different orders have different hashes (C32_hash_refuted); proved for equal orders (C32_hash_partial)."
  },
  {
   "property": "C33",
   "status": "proved",
   "theorems": [
    "C33_simplification_keeps_operator",
    "C33_nothing_left_to_cancel",
    "C33_commute_exact",
    "C33_same_exact",
    "C33_invalid_gates_raise",
    "C33_nonunitary_refuted"
   ],
   "note": "For every field with a conjugation. Exact arithmetic: atol is not modelled. The claim is for unitary gates; C33_nonunitary_refuted shows it fails for other gates."
  },
  {
   "property": "C34",
   "status": "proved",
   "theorems": [
    "C34_network_is_amplitude",
    "C34_contraction_is_amplitude",
    "C34_invalid_states_raise"
   ],
   "note": "For every circuit of matrices of the right size (unitary ones if gates are simplified or hyper-indices are decomposed), every valid choice of states and all options. The number type is any field with conjugation; float rounding is not modelled. The occurrence counts are for the network before decomposition and fusing, where the claim makes sense."
  },
  {
   "property": "C35",
   "status": "proved",
   "theorems": [
    "C35_born_distribution",
    "C35_every_run_succeeds",
    "C35_refuses",
    "C35_counts",
    "C35_fractions"
   ],
   "note": "Probabilities are computed over independent uniform draws; numbers are any field with conjugation and absolute value. The reals bring in the axioms of the standard library."
  },
  {
   "property": "C36",
   "status": "proved",
   "theorems": [
    "C36_aligned",
    "C36_schedule_independent",
    "C36_raises",
    "C36_finishes"
   ],
   "note": "Every core that uses the shared buffers at its own index, every schedule of worker steps and timer steps. joblib's returning the results in the order of the jobs is assumed; progress bar and additional buffers are not modelled."
  },
  {
   "property": "C37",
   "status": "proved",
   "theorems": [
    "C37_read_inds",
    "C37_listed"
   ],
   "note": "read_inds for every index map and pair of tokens. Names and indices are naturals; dimensions integers."
  },
  {
   "property": "C38",
   "status": "proved",
   "theorems": [
    "C38_tensor",
    "C38_network"
   ],
   "note": "Tensor and TensorNetwork for every list of tensors. Dimensions are integers (values that are not integers are not modelled)."
  },
  {
   "property": "C39",
   "status": "partial",
   "theorems": [
    "C39_cost_is_unique",
    "C39_connected_infinite_memory",
    "C39_connected_finite_width",
    "C39_infinite_memory_partial",
    "C39_finite_width_partial",
    "C39_cost_refuted",
    "C39_width_refuted",
    "C39_single_tensor_width_refuted",
    "C39_sparse_disconnected_refuted",
    "C39_no_tensors_refuted",
    "C39_update_slices_zero_refuted"
   ],
   "note": "Proved in full for connected networks (path contracts everything, exact cost, everything fits; the width part for at least two tensors). For disconnected networks: the path performs the component paths and joins the rest; the cost is exact for the components and everything with a contraction fits. Refuted: the cost does not count the final outer products, these and single-tensor components may be wider than max_width, sparse indices with several components raise, no tensors or update_slices = 0 raise."
  },
  {
   "property": "C40",
   "status": "proved",
   "theorems": [
    "C40_infinite_memory_results_sorted",
    "C40_finite_width_results_sorted",
    "C40_first_is_the_cheapest",
    "C40_any_results_sorted",
    "C40_invalid_arguments_raise"
   ],
   "note": "Sorted, stable, no result is cheaper than the first; invalid arguments raise. Here costs are exact integers; with the costs that Python sees see C50. That the results come one per run under every schedule is C36."
  },
  {
   "property": "C41",
   "status": "proved",
   "theorems": [
    "C41_load_list"
   ],
   "note": "Loading a list of indices, up to the fusing step (C30, C23)."
  },
  {
   "property": "C42",
   "status": "proved",
   "theorems": [
    "C42_get",
    "C42_set",
    "C42_new"
   ],
   "note": "Bytes of shared memory; struct's packing and unpacking of one value are assumed to be inverse and of fixed size; SharedMemory has exactly the size asked for."
  },
  {
   "property": "C43",
   "status": "proved",
   "theorems": [
    "C43_pickling_a_tree_keeps_it",
    "C43_infinite_memory_trees",
    "C43_finite_width_trees"
   ],
   "note": "well_formed of the tree built from a path is part of C21. min_ctree given by the user is not covered."
  },
  {
   "property": "C44",
   "status": "proved",
   "theorems": [
    "C44_amplitudes_infinite_memory",
    "C44_amplitudes_finite_width",
    "C44_sampling_infinite_memory",
    "C44_sampling_finite_width"
   ],
   "note": "Composition of C34, C39, C23, C25 and C35; gates unitary if simplified or decomposed (C33), exact arithmetic of entries and costs."
  },
  {
   "property": "C45",
   "status": "partial",
   "theorems": [
    "C45_floats_are_accurate",
    "C45_floats_are_exact_on_small_numbers",
    "C45_every_run_succeeds",
    "C45_trees_do_not_depend_on_rounding",
    "C45_reported_cost_is_close",
    "C45_best_is_close_and_never_worse",
    "C45_small_costs_are_exact",
    "C45_is_valid_within_tolerance",
    "C45_log_tolerance",
    "C45_pickling_keeps_trees_partial",
    "C45_acceptance_is_given_the_cost_refuted",
    "C45_pickling_is_transparent_refuted"
   ],
   "note": "Missing: the cost given to the acceptance rule within one update is not close to the true cost and can be negative (C45_acceptance_is_given_the_cost_refuted); a restored optimizer can report another rounded cost (C45_pickling_is_transparent_refuted). Overflow to infinity and NaN are not modelled."
  },
  {
   "property": "C46",
   "status": "partial",
   "theorems": [
    "C46_svd_factors_the_tensor",
    "C46_truncation_error",
    "C46_nothing_to_split",
    "C46_wrong_arguments_are_refused",
    "C46_empty_dimensions_refuted",
    "C46_seeded_names_terminate_refuted"
   ],
   "note": "numpy.linalg.svd is a parameter, of which what numpy documents is assumed; C46_applies exhibits one. Missing: svd fails on a tensor with a dimension of size zero (C46_empty_dimensions_refuted) and never returns if a seeded random name is taken (C46_seeded_names_terminate_refuted)."
  },
  {
   "property": "C47",
   "status": "partial",
   "theorems": [
    "C47_load_keeps_value_partial",
    "C47_load_unchanged",
    "C47_fused_tensors",
    "C47_optimize_and_contract",
    "C47_slice_and_contract",
    "C47_value_refuted",
    "C47_raises_refuted",
    "C47_loading_twice_refuted"
   ],
   "note": "Missing: networks with identity matrices, for which merging hyper-indices changes the value or raises (C47_value_refuted, C47_raises_refuted), and networks that were fused before, which are rejected (C47_loading_twice_refuted). Conversion of arrays to types and backends is not modelled; entries are compared exactly."
  },
  {
   "property": "C48",
   "status": "proved",
   "theorems": [
    "C48_reads_lists",
    "C48_reads_only_lists",
    "C48_network",
    "C48_indented_refuted",
    "C48_empty_refuted"
   ],
   "note": "The Unicode database is a parameter with a few stated facts; ASCII is shown to satisfy them. Indentation and strings without content are outside of the property (C48_indented_refuted, C48_empty_refuted)."
  },
  {
   "property": "C49",
   "status": "partial",
   "theorems": [
    "C49_width_types_are_accurate",
    "C49_width_types_are_monotone",
    "C49_runs",
    "C49_trees_do_not_depend_on_rounding",
    "C49_skipped_indices_are_never_sliced",
    "C49_reported_cost_is_close",
    "C49_recorded_minimum_is_close",
    "C49_best_is_never_worse",
    "C49_slices_fit_up_to_rounding_partial",
    "C49_rounded_widths_fit_partial",
    "C49_pickling_keeps_trees_partial",
    "C49_is_valid_within_tolerance_partial",
    "C49_constructor_finds_slices_refuted",
    "C49_restoring_always_works_refuted",
    "C49_no_division_by_zero_refuted"
   ],
   "note": "Missing: the constructor can raise although slices that fit exist (C49_constructor_finds_slices_refuted); after an update with update_slices the optimizer may not be restorable from its pickle (C49_restoring_always_works_refuted); adding slices can divide by zero although skip_slices fits (C49_no_division_by_zero_refuted). Sparse models that add slices one by one are excluded from the bound on widths, as in C17. Overflow to infinity and NaN are not modelled."
  },
  {
   "property": "C50",
   "status": "partial",
   "theorems": [
    "C50_total_cost_infinite_memory",
    "C50_min_total_cost_infinite_memory",
    "C50_total_cost_finite_width",
    "C50_min_total_cost_finite_width",
    "C50_results_infinite_memory_partial",
    "C50_results_finite_width_partial",
    "C50_first_is_cheapest_refuted",
    "C50_total_cost_exact_refuted",
    "C50_sum_exact_refuted"
   ],
   "note": "Missing: total_cost is not exact from a million on (C50_total_cost_exact_refuted); the first result need not be the cheapest (C50_first_is_cheapest_refuted); with float1024 the sum over components is rounded to 28 digits (C50_sum_exact_refuted). Costs are exact integers before they are written (rounding of the cost type itself is C45 and C49)."
  },
  {
   "property": "C51",
   "status": "partial",
   "theorems": [
    "C51_only_named_files",
    "C51_no_overwrite",
    "C51_complete",
    "C51_any_time",
    "C51_ends",
    "C51_no_file",
    "C51_errors",
    "C51_load_json",
    "C51_load_raw_refuted",
    "C51_old_content_refuted",
    "C51_pickle_error_refuted",
    "C51_race_refuted",
    "C51_compression_without_file_refuted"
   ],
   "note": "Missing: load_file cannot read raw results (C51_load_raw_refuted); old content is lost by a crash (C51_old_content_refuted) or a pickling error (C51_pickle_error_refuted); two calls without overwrite can write the same file (C51_race_refuted); compression without a file name is accepted (C51_compression_without_file_refuted). Links, directories and permissions are not modelled; an error of the system is a stop at any step."
  },
  {
   "property": "C52",
   "status": "partial",
   "theorems": [
    "C52_round_trip",
    "C52_different_texts",
    "C52_always_readable",
    "C52_output",
    "C52_keys_refuted",
    "C52_surrogates_refuted"
   ],
   "note": "Missing: keys that are no strings become strings and can collide (C52_keys_refuted); split surrogate pairs are joined (C52_surrogates_refuted). repr and float of finite floats are a hypothesis (a decimal notation that is read back); the limits on digits and depth of recursion are not modelled."
  },
  {
   "property": "C53",
   "status": "partial",
   "theorems": [
    "C53_results_are_correctly_rounded",
    "C53_rounding_is_unique_and_monotone",
    "C53_exceptional_results",
    "C53_zeros_and_signs",
    "C53_division_by_infinity",
    "C53_opposite_and_absolute_value",
    "C53_comparisons_follow_the_numbers",
    "C53_floats_are_taken_exactly",
    "C53_ints_partial",
    "C53_ints_refuted",
    "C53_inplace_partial",
    "C53_inplace_refuted",
    "C53_nan_refuted",
    "C53_equality_with_other_objects_refuted",
    "C53_predicates_refuted",
    "C53_whole_numbers"
   ],
   "note": "Missing: ints above 2^53 lose digits or raise TypeError (C53_ints_refuted); in-place operators change other names of the object (C53_inplace_refuted); a NaN equals everything (C53_nan_refuted); == with other objects raises (C53_equality_with_other_objects_refuted); isinf and signbit (C53_predicates_refuted). The functions of MPFR are modelled after its manual; exponents are not bounded; log, log2 and pow are not modelled. No theorem says that an operator called with another FixedFloat takes it unrounded: that is only in the model (a wrong program with that defect is logged as not caught)."
  },
  {
   "property": "C54",
   "status": "partial",
   "theorems": [
    "C54_pickle_round_trip",
    "C54_strings_are_read_correctly_rounded",
    "C54_bad_strings_refuted",
    "C54_float_partial",
    "C54_float_refuted",
    "C54_float_round_trip",
    "C54_str_is_correctly_rounded",
    "C54_str_round_trip_partial",
    "C54_str_round_trip_refuted",
    "C54_format_f",
    "C54_format_percent",
    "C54_format_padding_partial",
    "C54_format_padding_refuted",
    "C54_format_sign_refuted"
   ],
   "note": "Missing: bad strings become 0 (C54_bad_strings_refuted); float(x) rounds twice (C54_float_refuted); str(x) of small numbers loses digits (C54_str_round_trip_refuted); padding with 0 and '=' (C54_format_padding_refuted, C54_format_sign_refuted). The conversions e, g, F and the flags # and ' of mpfr_asprintf are a parameter."
  },
  {
   "property": "C55",
   "status": "partial",
   "theorems": [
    "C55_interpolation",
    "C55_listed",
    "C55_errors",
    "C55_last_temperature_refuted",
    "C55_number_of_steps_refuted",
    "C55_infinite_temperature_refuted",
    "C55_iterator_refuted"
   ],
   "note": "Missing: betas[1] is never used (C55_last_temperature_refuted); steps below the resolution of floats are lost (C55_number_of_steps_refuted); an infinite betas[1] makes no update (C55_infinite_temperature_refuted); iterators raise (C55_iterator_refuted)."
  },
  {
   "property": "C56",
   "status": "proved",
   "theorems": [
    "C56_sizes_are_unique",
    "C56_tree_of_path",
    "C56_infinite_memory_trees",
    "C56_finite_width_trees"
   ],
   "note": "math.log2 is any function of the number of entries that takes rational values; a frozenset is a list of its elements."
  },
  {
   "property": "C57",
   "status": "partial",
   "theorems": [
    "C57_formats",
    "C57_json_texts",
    "C57_no_misreading",
    "C57_mixed_lists_are_refused",
    "C57_lists",
    "C57_errors_refuted",
    "C57_global_phase_refuted",
    "C57_file_names_refuted",
    "C57_file_of_its_name_refuted",
    "C57_long_texts_refuted"
   ],
   "note": "Missing: the exception for what is not recognised is not always TypeError, a list of phase gates can be read as indices, and files of some names and contents and long JSON texts are not read; each is refuted by a witness. The circuits of cirq and qiskit are not in the model. Proved in full: every documented format reaches its reader with its contents, and no list is read as what it does not look like."
  },
  {
   "property": "C58",
   "status": "partial",
   "theorems": [
    "C58_returning_releases",
    "C58_cores_find_the_buffers",
    "C58_timeout_stops_all",
    "C58_no_runs",
    "C58_raising_core_refuted",
    "C58_same_name_refuted",
    "C58_bad_type_refuted"
   ],
   "note": "Missing: a call that raises after its first buffer gives nothing back (C58_raising_core_refuted, C58_bad_type_refuted), and a name of buffers given twice leaves a segment (C58_same_name_refuted). Proved in full for calls that return and for calls without runs."
  },
  {
   "property": "C59",
   "status": "proved",
   "theorems": [
    "C59_every_tree_can_be_reached",
    "C59_metropolis_reaches_every_tree",
    "C59_greedy_can_be_trapped"
   ],
   "note": "In real arithmetic: a float probability that underflows to 0 is not covered. The integers and the uniforms of the generator are two independent streams. For greedy search the claim is false (C59_greedy_can_be_trapped), as its rule gives probability 0."
  },
  {
   "property": "C60",
   "status": "partial",
   "theorems": [
    "C60_same_seed_infinite_memory_partial",
    "C60_same_seed_finite_width_partial",
    "C60_same_seed_refuted"
   ],
   "note": "Missing: the same results in Python sessions with different hashes, which is false with the default options (C60_same_seed_refuted). Proved for the same order of sets, and for any orders if no index belongs to more than two tensors and nothing is decomposed. Sets of integers inside `fuse` have a fixed order."
  },
  {
   "property": "C61",
   "status": "proved",
   "theorems": [
    "C61_more_runs_infinite_memory",
    "C61_more_runs_finite_width",
    "C61_more_steps_infinite_memory",
    "C61_more_steps_finite_width"
   ],
   "note": "For networks loaded in the same Python session (the order of sets of indices is the same), or ordinary networks in any sessions; costs in exact arithmetic."
  },
  {
   "property": "C62",
   "status": "partial",
   "theorems": [
    "C62_connected_components_partial",
    "C62_connected_components_of_rest",
    "C62_connected_components_refuted"
   ],
   "note": "Missing: networks in which some tensor has no indices, for which it is false (C62_connected_components_refuted); there the result is the components of the other tensors, numbered among themselves (C62_connected_components_of_rest)."
  },
  {
   "property": "C63",
   "status": "partial",
   "theorems": [
    "C63_random_network_partial",
    "C63_raises",
    "C63_k_0",
    "C63_random_inds",
    "C63_components_refuted"
   ],
   "note": "Missing: the components for k=1, for which it is false (C63_components_refuted). For k=0 it raises or returns the empty network (C63_k_0). Termination of the drawing of names is not claimed: the model runs out of fuel where the code would go on drawing."
  },
  {
   "property": "C64",
   "status": "partial",
   "theorems": [
    "C64_names_infinite_memory_partial",
    "C64_names_finite_width_partial",
    "C64_names_contract",
    "C64_names_refuted"
   ],
   "note": "Missing: new names whose sets list them in another order than the sets of the old names did, for which it is false (C64_names_refuted)."
  },
  {
   "property": "C65",
   "status": "partial",
   "theorems": [
    "C65_verdict_partial",
    "C65_accepts_partial",
    "C65_made_belongs",
    "C65_moved_object",
    "C65_two_tensors_refuted",
    "C65_invalid_raises_refuted",
    "C65_without_counts_refuted"
   ],
   "note": "Missing: that it returns at all, which is false (C65_two_tensors_refuted, C65_invalid_raises_refuted); without hyper_count its True means less (C65_without_counts_refuted)."
  },
  {
   "property": "C66",
   "status": "partial",
   "theorems": [
    "C66_every_tree_can_be_reached_partial",
    "C66_default_can_be_trapped_refuted"
   ],
   "note": "Proved when max_number_new_slices is at least the number of indices and the indices that may not be sliced fit together. Missing: smaller values, false for the default 0 (C66_default_can_be_trapped_refuted); that the target fits with a sparse cost model (false in general, C17_everything_fits_refuted)."
  },
  {
   "property": "C67",
   "status": "partial",
   "theorems": [
    "C67_tensors_partial",
    "C67_symmetric",
    "C67_reflexive_partial",
    "C67_networks",
    "C67_networks_answer_partial",
    "C67_networks_raise",
    "C67_network_itself",
    "C67_equal_networks_mean_the_same",
    "C67_load_gives_an_equal_network",
    "C67_transitive_refuted",
    "C67_answers_refuted",
    "C67_reflexive_refuted"
   ],
   "note": "Proved when the shapes can be broadcast, in particular for equal dimensions; networks: when facing tensors have the same dimensions, and exactly when it raises. Missing, because false: that it never raises (C67_answers_refuted), transitivity (C67_transitive_refuted), reflexivity with entries that are not finite (C67_reflexive_refuted)."
  },
  {
   "property": "C68",
   "status": "partial",
   "theorems": [
    "C68_seed_determines_samples_partial",
    "C68_calls_do_not_interfere",
    "C68_intermediate_state",
    "C68_order_only_reorders",
    "C68_report",
    "C68_finite_width_refused",
    "C68_seed_refuted"
   ],
   "note": "Proved when both sessions iterate sets in the same order, or every call gives qubit_order; per call, for intermediate states, and for other qubit orders. Missing, because false: without qubit_order the order of the bits is that of a frozenset, so the same seed gives other bitstrings in a process with another order (C68_seed_refuted). Exact arithmetic: rounding that differs between paths is not covered."
  },
  {
   "property": "C69",
   "status": "partial",
   "theorems": [
    "C69_cirq_load",
    "C69_cirq_refuses",
    "C69_cirq_sample_partial",
    "C69_cirq_sample_refuted",
    "C69_qiskit_load_partial",
    "C69_qiskit_load_refuted",
    "C69_qiskit_phase_refuted",
    "C69_qiskit_instructions_refuted",
    "C69_qiskit_sample_refuted"
   ],
   "note": "Proved for Cirq: loading (any order within moments), refusal of operations without unitary, and sampling when no gate follows a measurement of its qubit. Proved for Qiskit: loading up to a phase when each gate is on one qubit or does the same to its qubits reversed. Missing, because false: sampling with a measurement in the middle (C69_cirq_sample_refuted), Qiskit gates whose qubits are not interchangeable, as CX (C69_qiskit_load_refuted), the global phase of Qiskit (C69_qiskit_phase_refuted), Qiskit circuits with measurements or barriers (C69_qiskit_instructions_refuted), sampling a Qiskit circuit (C69_qiskit_sample_refuted)."
  },
  {
   "property": "C70",
   "status": "partial",
   "theorems": [
    "C70_floats_have_a_range",
    "C70_every_run_succeeds",
    "C70_trees_do_not_depend_on_the_range",
    "C70_reported_cost",
    "C70_best_is_finite_and_never_worse",
    "C70_greedy_contractions_stay_finite",
    "C70_greedy_refuses",
    "C70_infinite_is_not_valid",
    "C70_pickling_refuted",
    "C70_acceptance_is_given_the_costs_refuted",
    "C70_wide_cost_type_refuted",
    "C70_fw_runs",
    "C70_fw_trees_do_not_depend_on_the_range",
    "C70_fw_skipped_indices_are_never_sliced",
    "C70_fw_tensors_fit",
    "C70_fw_fixed_slices_fit",
    "C70_fw_reported_cost",
    "C70_fw_best_is_finite_and_never_worse",
    "C70_fw_greedy_contractions_stay_finite",
    "C70_fw_greedy_refuses",
    "C70_fw_infinite_is_not_valid",
    "C70_fw_pickling_refuted"
   ],
   "note": "Proved for every precision and range: no update fails, the trees stay valid and exact, the reported cost is about that of the tree or infinite if it is too large (never NaN), the best cost is finite and never worse, and a rule that refuses infinite increases keeps every contraction finite. Missing, because false: an optimizer with an infinite cost is not valid and cannot be restored (C70_infinite_is_not_valid, C70_pickling_refuted), the rule can be given NaN as difference (C70_acceptance_is_given_the_costs_refuted), and with equal dimensions a wider cost type does not allow larger costs (C70_wide_cost_type_refuted). The theorems C70_fw_... say the same of the finite-width optimizer, with slices: indices that may not be sliced are not, tensors fit up to rounding as in C49, and an update ends unless the undefined modulo of C17 is reached; there the rule must refuse NaN too, as both rules of the code do (C76)."
  },
  {
   "property": "C71",
   "status": "partial",
   "theorems": [
    "C71_construction",
    "C71_infinite_memory",
    "C71_finite_width",
    "C71_every_call_delivers",
    "C71_first_result_is_kept",
    "C71_refused_options",
    "C71_command_line",
    "C71_later_results_refuted",
    "C71_nan_refuted",
    "C71_checked_at_construction_refuted"
   ],
   "note": "Proved: when the constructor succeeds; which optimizer max_width selects; with overwrite or without a file every call delivers what the optimizer that returns its results gives; without overwrite the first result is delivered and kept; unknown types, negative bounds and n_jobs=0 make every call raise and touch no file; the command line gives JSON. Missing, because false: without overwrite every later call works and then loses its results (C71_later_results_refuted), max_width=nan is taken for no limit (C71_nan_refuted), and wrong values of the other options are accepted when the optimizer is made (C71_checked_at_construction_refuted)."
  },
  {
   "property": "C72",
   "status": "partial",
   "theorems": [
    "C72_equal_trees",
    "C72_equal_models",
    "C72_equal_finite_width_models",
    "C72_infinite_memory_equality",
    "C72_infinite_memory_stays_alike",
    "C72_infinite_memory_copy",
    "C72_finite_width_equality",
    "C72_finite_width_stays_alike",
    "C72_finite_width_copy",
    "C72_equal_paths_refuted",
    "C72_new_slices_refuted",
    "C72_same_costs_refuted"
   ],
   "note": "Proved for both kinds of optimizers: the comparison never raises; what equality means for trees, cost models and optimizers; equal optimizers stay alike under all updates (finite width: with the same max_number_new_slices); a copy is equal and has the same state (finite width: max_number_new_slices=0). Missing, because false: equal optimizers and trees can have different paths (C72_equal_paths_refuted), max_number_new_slices is not compared, so that a copy is equal and yet goes on differently (C72_new_slices_refuted), and cost models with no sparse indices and with an empty set of them differ (C72_same_costs_refuted)."
  },
  {
   "property": "C73",
   "status": "partial",
   "theorems": [
    "C73_contraction_cost",
    "C73_finite_width_contraction_cost",
    "C73_width",
    "C73_delta_width_partial",
    "C73_rejected",
    "C73_infinite_memory_costs",
    "C73_finite_width_costs",
    "C73_widths_partial",
    "C73_too_many_skips",
    "C73_delta_width_repeated_refuted",
    "C73_result_checked_refuted",
    "C73_own_dimensions_refuted"
   ],
   "note": "Proved: the values of the four functions for all lists of names, dimensions and models, what they reject, and that the costs of both kinds of optimizers are the sums over the contractions of their trees; that the constructor rejects skip_slices exactly if width of the part of some tensor exceeds the maximum. Missing, because false: delta_width with sparse indices and an index listed twice looks at another index (C73_delta_width_repeated_refuted), so C73_delta_width_partial asks for distinct names then; with infinite memory the indices of the result are not checked (C73_result_checked_refuted); a sparse index that the tensor does not have needs a dimension too (C73_own_dimensions_refuted). C73_widths_partial leaves out sparse indices together with new slices, where C17 refutes it. Exact costs and widths."
  },
  {
   "property": "C74",
   "status": "partial",
   "theorems": [
    "C74_probability",
    "C74_always_kept",
    "C74_cooler_keeps_less",
    "C74_accuracy_of_float1024",
    "C74_accuracy",
    "C74_small_increases",
    "C74_increases_rejected_refuted",
    "C74_positive_refuted"
   ],
   "note": "Proved for all four cost types: range, certain acceptance, order, and accuracy (relative to the exact probability, and absolute near underflow). Missing, because false: an increase below 2^-(precision+1) of the cost is always kept, however large beta is (C74_small_increases, C74_increases_rejected_refuted), and the probability can underflow to 0 (C74_positive_refuted). Not modelled: overflow of the quotient, and that the pow of the C++ library returns a number next to the exact power (a hypothesis)."
  },
  {
   "property": "C75",
   "status": "partial",
   "theorems": [
    "C75_callbacks",
    "C75_walk_ends",
    "C75_swaps_during_the_walk_refuted"
   ],
   "note": "Proved in full for callbacks that do not change the tree, and that the walk ends within the tree, with at most one call per node in number, for callbacks that change it to others of the same size. Missing, because false: with a callback that swaps nodes one node can be visited twice and another never (C75_swaps_during_the_walk_refuted)."
  },
  {
   "property": "C76",
   "status": "partial",
   "theorems": [
    "C76_infinite_increases_are_refused",
    "C76_rules_refuse",
    "C76_fw_rules_refuse",
    "C76_contractions_stay_finite",
    "C76_fw_contractions_stay_finite",
    "C76_decreases_are_kept",
    "C76_from_an_infinite_cost",
    "C76_beta_zero",
    "C76_cost_types",
    "C76_finite_costs",
    "C76_every_draw_refuted"
   ],
   "note": "Proved for every draw that is not 0, every current cost and every arithmetic with the values that C and MPFR give for infinities, NaN and 1. So sessions with these rules keep every contraction cost finite, in both optimizers. Missing, because false: with a draw of exactly 0 both rules keep an infinite increase (C76_every_draw_refuted)."
  }
 ]
}