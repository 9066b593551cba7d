{
 "C01": [
  "proved",
  "swap_nn is swap_with_nn for positions >= 0; negative positions are covered by C03_negative_position_refuted."
 ],
 "C02": [
  "proved",
  ""
 ],
 "C03": [
  "partial",
  "Footprint and no-op cases proved for every node list and every non-negative position; refuted for negative positions, which pass the guard and are used as a subscript (finding F01)."
 ],
 "C04": [
  "proved",
  ""
 ],
 "C05": [
  "partial",
  "Completeness proved; soundness refuted by two accepted non-trees (findings F02, F03); the part of soundness that holds and the exact missing conditions are proved."
 ],
 "C06": [
  "proved",
  "Binary operators for operands of equal size (boost's own precondition)."
 ],
 "C07": [
  "proved",
  "For both optimizers, every seed, acceptance rule, number of updates and cost model."
 ],
 "C08": [
  "partial",
  "Both optimizers. Validity (contraction check, shapes, dims) proved for every accepted tree; shared indices proved for trees whose indices are exact, refuted for valid trees that are not exact (finding F04)."
 ],
 "C09": [
  "proved",
  "Exact costs; rounding is C45, the value that Python sees is C50."
 ],
 "C10": [
  "proved",
  "Both optimizers. With a supplied best tree the bound by the initial cost fails until the first update (C10_initial_cost_refuted)."
 ],
 "C11": [
  "proved",
  "Both optimizers."
 ],
 "C12": [
  "partial",
  "Ok means that no access was out of range. Infinite memory: full. Finite width: full unless new slices are allowed and the skipped indices together exceed max_width; there a division by zero is reached (C12_finite_width_update_terminates_refuted, finding F06)."
 ],
 "C13": [
  "partial",
  "Greedy proved when no uniform draw is exactly 0, refuted when one is (finding F05); Metropolis-Hastings for inverse temperature >= 0. Uses the axioms of the standard library's reals. Finite width: the same for greedy."
 ],
 "C14": [
  "partial",
  "Proved for exact indices or shared check disabled, refuted otherwise (F04). Finite width: also needs the simple cost model or no new slices, refuted otherwise (F07)."
 ],
 "C15": [
  "partial",
  "Same hypotheses as C14, refuted otherwise (F04). Finite width: proved without new slices, refuted with them because max_number_new_slices is not saved (F08)."
 ],
 "C20": [
  "proved",
  "Infinite-memory cost models."
 ],
 "C16": [
  "proved",
  "Every shuffle, cost model, tree; the constructor's success follows."
 ],
 "C17": [
  "partial",
  "Skipped indices are never sliced: full. Everything fits: simple cost model or no new slices; refuted for the sparse cost model with new slices (F07)."
 ],
 "C18": [
  "proved",
  "Exact costs; rounding is C49, the value that Python sees is C50."
 ],
 "C19": [
  "proved",
  "For the cost models; the Python wrapper raises for an index to add (C19_python_wrapper_adding_refuted, F09)."
 ],
 "C26": [
  "proved",
  "Positions are naturals (Python's negative positions are not modelled). A step naming the same position twice is not a valid path in the specification; the code accepts it and contracts two neighbouring tensors."
 ],
 "C27": [
  "proved",
  "Both values of normalize_paths; the components are the tensor sets of what the path leaves."
 ],
 "C21": [
  "proved",
  "Constructor from a path: succeeds, well-formed tree, leaves, contractions, index sets and dimensions, for every duplicate-free network and every path ending in one tensor; the two ValueErrors are proved too."
 ],
 "C22": [
  "proved",
  "path() of any well-formed tree performs exactly its contractions; rebuilding gives the same contraction tree up to numbering and order of children; path() of the tree of a path performs the path's contractions."
 ],
 "C28": [
  "proved",
  "For any random generator that draws within its range. Tensors with no index repeated within a tensor."
 ],
 "C30": [
  "proved",
  "For networks in which no index is repeated within a tensor (with a repeated one fuse raises: C30_repeated_index_refuted). Widths are sums of any integer-valued function of the dimensions, compared exactly."
 ],
 "C24": [
  "proved",
  "For index lists without repetitions (numpy transpose raises for others) and arrays whose shapes agree on the shared indices; entries in any commutative semiring (no rounding)."
 ],
 "C32": [
  "partial",
  "All claims but the one on hashes: equal sets built in different orders have different hashes (C32_hash_refuted); proved for equal orders (C32_hash_partial)."
 ],
 "C23": [
  "proved",
  "For networks in which no index is repeated within a tensor; entries in any commutative semiring (no rounding). Indices of a single tensor that are not outputs are kept, not summed: the statement speaks of the remaining indices."
 ],
 "C25": [
  "proved",
  "The repository has no code that runs the slices: the theorem is about contract applied to the sliced networks, which are specified in S_Slice.v."
 ],
 "C29": [
  "partial",
  "All claims but the one on surrogates, which is false for the integers from 55156 to 55295 (C29_surrogate_refuted) and proved for all others (C29_surrogate_partial)."
 ],
 "C31": [
  "partial",
  "Proved with exact comparison of entries: for one tensor and for a network, the product of the new tensors at assignments that identify merged indices is the old product, which is zero elsewhere (C31_tensor, C31_network); sums over all indices agree, with or without outputs (C31_sums_agree); the contraction over the indices of the new network agrees if no summed image vanishes (C31_contraction_partial). False in full: the all-equal shortcut drops an index, losing a factor (C31_contraction_refuted); a tensor can get an index twice, which contract rejects (C31_repeated_index_refuted). Tolerances are not modelled."
 ],
 "C37": [
  "proved",
  "read_inds for every index map and pair of tokens. Names and indices are naturals; dimensions integers."
 ],
 "C38": [
  "proved",
  "Tensor and TensorNetwork for every list of tensors. Dimensions are integers (values that are not integers are not modelled)."
 ],
 "C41": [
  "proved",
  "Loading a list of indices, up to the fusing step (C30, C23)."
 ],
 "C36": [
  "proved",
  "Every core that uses the shared buffers at its own index, every schedule of worker steps and timer steps. joblib's returning the results in the order of the jobs is assumed; progress bar and additional buffers are not modelled."
 ],
 "C42": [
  "proved",
  "Bytes of shared memory; struct's packing and unpacking of one value are assumed to be inverse and of fixed size; SharedMemory has exactly the size asked for."
 ],
 "C39": [
  "partial",
  "Proved in full for connected networks (path contracts everything, exact cost, everything fits; the width part for at least two tensors). For disconnected networks: the path performs the component paths and joins the rest; the cost is exact for the components and everything with a contraction fits. Refuted: the cost does not count the final outer products, these and single-tensor components may be wider than max_width, sparse indices with several components raise, no tensors or update_slices = 0 raise."
 ],
 "C40": [
  "proved",
  "Sorted, stable, no result is cheaper than the first; invalid arguments raise. Here costs are exact integers; with the costs that Python sees see C50. That the results come one per run under every schedule is C36."
 ],
 "C43": [
  "proved",
  "well_formed of the tree built from a path is part of C21. min_ctree given by the user is not covered."
 ],
 "C33": [
  "proved",
  "For every field with a conjugation. Exact arithmetic: atol is not modelled. The claim is for unitary gates; C33_nonunitary_refuted shows it fails for other gates."
 ],
 "C34": [
  "proved",
  "For every circuit of matrices of the right size (unitary ones if gates are simplified or hyper-indices are decomposed), every valid choice of states and all options. The number type is any field with conjugation; float rounding is not modelled. The occurrence counts are for the network before decomposition and fusing, where the claim makes sense."
 ],
 "C35": [
  "proved",
  "Probabilities are computed over independent uniform draws; numbers are any field with conjugation and absolute value. The reals bring in the axioms of the standard library."
 ],
 "C44": [
  "proved",
  "Composition of C34, C39, C23, C25 and C35; gates unitary if simplified or decomposed (C33), exact arithmetic of entries and costs."
 ],
 "C45": [
  "partial",
  "Missing: the cost given to the acceptance rule within one update is not close to the true cost and can be negative (C45_acceptance_is_given_the_cost_refuted); a restored optimizer can report another rounded cost (C45_pickling_is_transparent_refuted). Overflow to infinity and NaN are not modelled."
 ],
 "C46": [
  "partial",
  "numpy.linalg.svd is a parameter, of which what numpy documents is assumed; C46_applies exhibits one. Missing: svd fails on a tensor with a dimension of size zero (C46_empty_dimensions_refuted) and never returns if a seeded random name is taken (C46_seeded_names_terminate_refuted)."
 ],
 "C47": [
  "partial",
  "Missing: networks with identity matrices, for which merging hyper-indices changes the value or raises (C47_value_refuted, C47_raises_refuted), and networks that were fused before, which are rejected (C47_loading_twice_refuted). Conversion of arrays to types and backends is not modelled; entries are compared exactly."
 ],
 "C48": [
  "proved",
  "The Unicode database is a parameter with a few stated facts; ASCII is shown to satisfy them. Indentation and strings without content are outside of the property (C48_indented_refuted, C48_empty_refuted)."
 ],
 "C49": [
  "partial",
  "Missing: the constructor can raise although slices that fit exist (C49_constructor_finds_slices_refuted); after an update with update_slices the optimizer may not be restorable from its pickle (C49_restoring_always_works_refuted); adding slices can divide by zero although skip_slices fits (C49_no_division_by_zero_refuted). Sparse models that add slices one by one are excluded from the bound on widths, as in C17. Overflow to infinity and NaN are not modelled."
 ],
 "C50": [
  "partial",
  "Missing: total_cost is not exact from a million on (C50_total_cost_exact_refuted); the first result need not be the cheapest (C50_first_is_cheapest_refuted); with float1024 the sum over components is rounded to 28 digits (C50_sum_exact_refuted). Costs are exact integers before they are written (rounding of the cost type itself is C45 and C49)."
 ],
 "C51": [
  "partial",
  "Missing: load_file cannot read raw results (C51_load_raw_refuted); old content is lost by a crash (C51_old_content_refuted) or a pickling error (C51_pickle_error_refuted); two calls without overwrite can write the same file (C51_race_refuted); compression without a file name is accepted (C51_compression_without_file_refuted). Links, directories and permissions are not modelled; an error of the system is a stop at any step."
 ],
 "C52": [
  "partial",
  "Missing: keys that are no strings become strings and can collide (C52_keys_refuted); split surrogate pairs are joined (C52_surrogates_refuted). repr and float of finite floats are a hypothesis (a decimal notation that is read back); the limits on digits and depth of recursion are not modelled."
 ],
 "C53": [
  "partial",
  "Missing: ints above 2^53 lose digits or raise TypeError (C53_ints_refuted); in-place operators change other names of the object (C53_inplace_refuted); a NaN equals everything (C53_nan_refuted); == with other objects raises (C53_equality_with_other_objects_refuted); isinf and signbit (C53_predicates_refuted). The functions of MPFR are modelled after its manual; exponents are not bounded; log, log2 and pow are not modelled. No theorem says that an operator called with another FixedFloat takes it unrounded: that is only in the model (a wrong program with that defect is logged as not caught)."
 ],
 "C54": [
  "partial",
  "Missing: bad strings become 0 (C54_bad_strings_refuted); float(x) rounds twice (C54_float_refuted); str(x) of small numbers loses digits (C54_str_round_trip_refuted); padding with 0 and '=' (C54_format_padding_refuted, C54_format_sign_refuted). The conversions e, g, F and the flags # and ' of mpfr_asprintf are a parameter."
 ],
 "C55": [
  "partial",
  "Missing: betas[1] is never used (C55_last_temperature_refuted); steps below the resolution of floats are lost (C55_number_of_steps_refuted); an infinite betas[1] makes no update (C55_infinite_temperature_refuted); iterators raise (C55_iterator_refuted)."
 ],
 "C56": [
  "proved",
  "math.log2 is any function of the number of entries that takes rational values; a frozenset is a list of its elements."
 ],
 "C57": [
  "partial",
  "Missing: the exception for what is not recognised is not always TypeError, a list of phase gates can be read as indices, and files of some names and contents and long JSON texts are not read; each is refuted by a witness. The circuits of cirq and qiskit are not in the model. Proved in full: every documented format reaches its reader with its contents, and no list is read as what it does not look like."
 ],
 "C58": [
  "partial",
  "Missing: a call that raises after its first buffer gives nothing back (C58_raising_core_refuted, C58_bad_type_refuted), and a name of buffers given twice leaves a segment (C58_same_name_refuted). Proved in full for calls that return and for calls without runs."
 ],
 "C59": [
  "proved",
  "In real arithmetic: a float probability that underflows to 0 is not covered. The integers and the uniforms of the generator are two independent streams. For greedy search the claim is false (C59_greedy_can_be_trapped), as its rule gives probability 0."
 ],
 "C60": [
  "partial",
  "Missing: the same results in Python sessions with different hashes, which is false with the default options (C60_same_seed_refuted). Proved for the same order of sets, and for any orders if no index belongs to more than two tensors and nothing is decomposed. Sets of integers inside `fuse` have a fixed order."
 ],
 "C61": [
  "proved",
  "For networks loaded in the same Python session (the order of sets of indices is the same), or ordinary networks in any sessions; costs in exact arithmetic."
 ],
 "C62": [
  "partial",
  "Missing: networks in which some tensor has no indices, for which it is false (C62_connected_components_refuted); there the result is the components of the other tensors, numbered among themselves (C62_connected_components_of_rest)."
 ],
 "C63": [
  "partial",
  "Missing: the components for k=1, for which it is false (C63_components_refuted). For k=0 it raises or returns the empty network (C63_k_0). Termination of the drawing of names is not claimed: the model runs out of fuel where the code would go on drawing."
 ],
 "C64": [
  "partial",
  "Missing: new names whose sets list them in another order than the sets of the old names did, for which it is false (C64_names_refuted)."
 ],
 "C65": [
  "partial",
  "Missing: that it returns at all, which is false (C65_two_tensors_refuted, C65_invalid_raises_refuted); without hyper_count its True means less (C65_without_counts_refuted)."
 ],
 "C66": [
  "partial",
  "Proved when max_number_new_slices is at least the number of indices and the indices that may not be sliced fit together. Missing: smaller values, false for the default 0 (C66_default_can_be_trapped_refuted); that the target fits with a sparse cost model (false in general, C17_everything_fits_refuted)."
 ],
 "C67": [
  "partial",
  "Proved when the shapes can be broadcast, in particular for equal dimensions; networks: when facing tensors have the same dimensions, and exactly when it raises. Missing, because false: that it never raises (C67_answers_refuted), transitivity (C67_transitive_refuted), reflexivity with entries that are not finite (C67_reflexive_refuted)."
 ],
 "C68": [
  "partial",
  "Proved when both sessions iterate sets in the same order, or every call gives qubit_order; per call, for intermediate states, and for other qubit orders. Missing, because false: without qubit_order the order of the bits is that of a frozenset, so the same seed gives other bitstrings in a process with another order (C68_seed_refuted). Exact arithmetic: rounding that differs between paths is not covered."
 ],
 "C69": [
  "partial",
  "Proved for Cirq: loading (any order within moments), refusal of operations without unitary, and sampling when no gate follows a measurement of its qubit. Proved for Qiskit: loading up to a phase when each gate is on one qubit or does the same to its qubits reversed. Missing, because false: sampling with a measurement in the middle (C69_cirq_sample_refuted), Qiskit gates whose qubits are not interchangeable, as CX (C69_qiskit_load_refuted), the global phase of Qiskit (C69_qiskit_phase_refuted), Qiskit circuits with measurements or barriers (C69_qiskit_instructions_refuted), sampling a Qiskit circuit (C69_qiskit_sample_refuted)."
 ],
 "C70": [
  "partial",
  "Proved for every precision and range: no update fails, the trees stay valid and exact, the reported cost is about that of the tree or infinite if it is too large (never NaN), the best cost is finite and never worse, and a rule that refuses infinite increases keeps every contraction finite. Missing, because false: an optimizer with an infinite cost is not valid and cannot be restored (C70_infinite_is_not_valid, C70_pickling_refuted), the rule can be given NaN as difference (C70_acceptance_is_given_the_costs_refuted), and with equal dimensions a wider cost type does not allow larger costs (C70_wide_cost_type_refuted). The theorems C70_fw_... say the same of the finite-width optimizer, with slices: indices that may not be sliced are not, tensors fit up to rounding as in C49, and an update ends unless the undefined modulo of C17 is reached; there the rule must refuse NaN too, as both rules of the code do (C76)."
 ],
 "C71": [
  "partial",
  "Proved: when the constructor succeeds; which optimizer max_width selects; with overwrite or without a file every call delivers what the optimizer that returns its results gives; without overwrite the first result is delivered and kept; unknown types, negative bounds and n_jobs=0 make every call raise and touch no file; the command line gives JSON. Missing, because false: without overwrite every later call works and then loses its results (C71_later_results_refuted), max_width=nan is taken for no limit (C71_nan_refuted), and wrong values of the other options are accepted when the optimizer is made (C71_checked_at_construction_refuted)."
 ],
 "C72": [
  "partial",
  "Proved for both kinds of optimizers: the comparison never raises; what equality means for trees, cost models and optimizers; equal optimizers stay alike under all updates (finite width: with the same max_number_new_slices); a copy is equal and has the same state (finite width: max_number_new_slices=0). Missing, because false: equal optimizers and trees can have different paths (C72_equal_paths_refuted), max_number_new_slices is not compared, so that a copy is equal and yet goes on differently (C72_new_slices_refuted), and cost models with no sparse indices and with an empty set of them differ (C72_same_costs_refuted)."
 ],
 "C73": [
  "partial",
  "Proved: the values of the four functions for all lists of names, dimensions and models, what they reject, and that the costs of both kinds of optimizers are the sums over the contractions of their trees; that the constructor rejects skip_slices exactly if width of the part of some tensor exceeds the maximum. Missing, because false: delta_width with sparse indices and an index listed twice looks at another index (C73_delta_width_repeated_refuted), so C73_delta_width_partial asks for distinct names then; with infinite memory the indices of the result are not checked (C73_result_checked_refuted); a sparse index that the tensor does not have needs a dimension too (C73_own_dimensions_refuted). C73_widths_partial leaves out sparse indices together with new slices, where C17 refutes it. Exact costs and widths."
 ],
 "C74": [
  "partial",
  "Proved for all four cost types: range, certain acceptance, order, and accuracy (relative to the exact probability, and absolute near underflow). Missing, because false: an increase below 2^-(precision+1) of the cost is always kept, however large beta is (C74_small_increases, C74_increases_rejected_refuted), and the probability can underflow to 0 (C74_positive_refuted). Not modelled: overflow of the quotient, and that the pow of the C++ library returns a number next to the exact power (a hypothesis)."
 ],
 "C75": [
  "partial",
  "Proved in full for callbacks that do not change the tree, and that the walk ends within the tree, with at most one call per node in number, for callbacks that change it to others of the same size. Missing, because false: with a callback that swaps nodes one node can be visited twice and another never (C75_swaps_during_the_walk_refuted)."
 ],
 "C76": [
  "partial",
  "Proved for every draw that is not 0, every current cost and every arithmetic with the values that C and MPFR give for infinities, NaN and 1. So sessions with these rules keep every contraction cost finite, in both optimizers. Missing, because false: with a draw of exactly 0 both rules keep an infinite increase (C76_every_draw_refuted)."
 ]
}