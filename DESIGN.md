# Formal model of google-research/tnco in Coq 8.16.1

`/repo` is read as text; nothing of it is run here. The model lives in
`rocq/theories/`, logical name `Verif`.

## Layout

| files | contents |
|---|---|
| `M_*.v` | Model: Gallina transcriptions of the code, function by function. Each definition cites file and lines and says what it simplifies. No proofs. |
| `S_*.v` | Specification: small vocabulary used by the theorem statements (abstract trees, sums, contractions, states of qubits). No helper functions of the model; model types occur where the object itself is a value of the code. |
| `P_*.v` | Proofs. |
| `Props_*.v` | The theorems about the properties (`Cnn_...`), each followed by `Print Assumptions`, with `Example Cnn_applies` showing a concrete case that meets the hypotheses. |
| `../../tools` | `manifest.py` writes `MANIFEST.json` from the theorem names and `status.json`; `mutate.py` runs the tests against wrong programs; `assumptions.py` writes the last section of this file. |

Naming: `Cnn_..._partial` is a part of property Cnn. `Cnn_..._refuted` is a proof
that the full statement is false of the (faithful) model, by a witness.

## Modelling decisions

* **Node numbers** (`long`, null = -1) are `option nat`; the constructor of
  `Node` maps every negative number to null, so nothing is lost.
* **Bitsets** are `list bool`, bit i at position i.
* **dims** is the C++ variant: one integer or a vector.
* **Costs** (`float`, `double`, `long double`, `float1024`) are exact integers
  `Z`, except in C45 and C49, where every operation on costs
  is followed by an arbitrary rounding `Z -> Z` (`M_Float.v`, `M_FinFloat.v`; costs are
  whole numbers, and a rounded whole number with at least one bit is a whole
  number). C50 adds what Python sees of them. C70 adds overflow to infinity
  and NaN (`M_Overflow.v`, `M_OverflowFin.v`).
* **Widths**: log2 of a dimension is an arbitrary function `lg` of the dimension
  with integer values. A run makes finitely many comparisons of integer
  combinations of logarithms and of max_width; a finite system of such
  inequalities that holds in the reals also holds for suitably scaled integers.
  In C49 every operation on widths is an arbitrary function (`M_FinFloat.v`); numbers
  of a floating-point type are multiples of its smallest positive number, and
  written as integers in this unit.
* **Entries of arrays** are of any type with the structure that the theorem
  names: a commutative semiring (contraction), with decidable equality
  (hyper-indices), or a field with conjugation (circuits). numpy's `allclose` is
  exact equality; tolerances are not modelled.
* **Random generators** are a state with arbitrary step functions;
  `uniform(prng) <= prob(..)` is an arbitrary decision function of the state and
  its arguments. Theorems quantify over them, hence over every seed, every
  acceptance rule and every history. In C35 the draws are what probabilities are
  computed from.
* **Python and C++ exceptions** are values: `Err Throw`; an access out of range is
  `Err Oob`; an undefined operation is `Err Crash`.
* **Loops** are structural where possible; `while` loops have fuel and an explicit
  result `Err Fuel`, which theorems show is never returned.
* `ASSERT` is compiled away in release builds; the model is the release build.
* Python dicts with insertion order are association lists; the iteration order of
  a `frozenset`, where it matters, is an arbitrary permutation.
* Indices, qubits and tensor names are naturals (in Python: any hashable).

## Properties: what is modelled, how it is proved

| id | what is modelled | how it is proved |
|---|---|---|
| C01 | node lists, `swap_with_nn` | local pointer consistency and a rank that witnesses acyclicity; the rank is rebuilt after a rotation; link to abstract binary trees |
| C02 | same | pointwise, extensionality of the list update |
| C03 | same | pointwise; refuted for negative positions (F01) |
| C04 | `traverse` with explicit stack and visited bits | induction on the abstract tree; stack invariant; fuel suffices |
| C05 | `Node::is_valid`, `Tree::is_valid` with C++ precedence as written | completeness; soundness refuted (F02, F03); the part of soundness that holds by pigeonhole |
| C06 | Bitset | pointwise on bits; sorted positions; round trips |
| C07 | update loop of both optimizers | the number of leaves below each node with an index satisfies local equations; a rotation changes it at one node; per-bit analysis of the XOR formula |
| C08 | `ContractionTree::is_valid`, update | same invariant; shared indices from exactness; refuted for valid trees that are not exact (F04) |
| C09 | CostCache, update | local equations for partial costs; invariant with one stale node |
| C10 | update, histories | induction on histories |
| C11 | update | frame lemma |
| C12 | update with fuel and checked accesses | rank decreases along the walk; finite width refuted in one case (F06) |
| C13 | Greedy, Metropolis-Hastings | case analysis; boundary draw refuted (F05); real exponentials |
| C14 | `is_valid` of the optimizers | caches equal recomputed ones (C07-C09) |
| C15 | `__reduce__`, `__build__` | from C14; finite width with new slices refuted (F08) |
| C16 | `get_slices` | monotone width; invariant over the traversal |
| C17 | finite-width update | invariant; sparse cost model with new slices refuted (F07) |
| C18 | finite-width update | as C09, with slices |
| C19 | width, delta_width | sums over positions; Python wrapper refuted (F09) |
| C20 | cost functions | products over positions |
| C21 | `ContractionTree.__init__` | invariant over the path: hyper count = occurrences among live tensors |
| C22 | `path()` | simulation between the tree and the linear path |
| C23 | `contract` | sums over assignments, distributivity in a commutative semiring |
| C24 | `tensordot` | row-major positions, transpose, reshape, stacks of matrices |
| C25 | slicing | exchange of finite sums |
| C26 | `merge_contraction_paths` | simulation with labels |
| C27 | `split_contraction_path` | invariant: each intermediate tensor lies in one component |
| C28 | `get_random_contraction_path` | invariant over arbitrary choices |
| C29 | `get_symbol`, `get_einsum_subscripts` | arithmetic; surrogate range refuted |
| C30 | `fuse` | invariant over arbitrary choices |
| C31 | `decompose_hyper_inds` | partition of the indices; product of tensors at assignments that identify merged indices; contraction refuted in two cases |
| C32 | `OrderedFrozenSet` | lists without duplicates; hash refuted |
| C33 | `commute`, `same`, simplification in `circuit.load` | gates act on states; unitarity gives cancellation up to a phase |
| C34 | `circuit.load` | sum over the values of all wires equals the iterated action of the gates (sum over paths); boundary states; decomposition, Kronecker deltas and fusing keep the value |
| C35 | `is_classical_operation`, `sample` | expectation over draws; the Born probabilities of the prefix are preserved by each step: a permutation of the basis, or a two-way choice with the weights of the flipped and unflipped bit, whose sum is kept by unitarity |
| C36 | `Parallel` | any interleaving of worker and timer steps; invariant per slot |
| C37 | `read_inds` | association lists |
| C38 | `Tensor`, `TensorNetwork` | lists |
| C39 | `core_` and `optimize` of both applications | from C10, C16-C18, C21, C22, C26, C27 |
| C40 | sorting of results | sorted permutation |
| C41 | loading a list of indices | from C37, C38 |
| C42 | `Buffer` | bytes of shared memory, Python indexing |
| C43 | pickling of contraction trees | from C21, C22 |
| C44 | load, optimize, contract and sample together | composition of C34, C39, C23, C25, C35 |
| C45 | the infinite-memory optimizer with rounded costs | partial costs are sums of non-negative numbers, recomputed bottom up, hence a bounded number of relative errors; below the exact range both programs are equal step by step |
| C46 | `svd`, with the factorisation of a matrix as a parameter | transposition and reshaping keep the entries; the sum over the kept singular values plus the dropped ones is the entry of the matrix |
| C47 | `load_tn` for a TensorNetwork | decomposition, fusing and contraction keep the value (C31, C30, C23); rebuilding the network keeps dimensions; then C39 and C24 |
| C48 | `load_tn` for a string: lines, the regular expressions, words, numbers | the regular expressions accept exactly the layouts in S_Text.v; then C41 |
| C49 | the finite-width optimizer with rounded costs and widths | costs as in C45; widths are recomputed by every update, hence a bounded number of errors; rounding to nearest is monotone because it is at least as good as any number of the type |
| C50 | the costs as Python sees them: written with six digits, summed as Decimals, sorted | rounding to p digits is nearest among all numbers of p digits, monotone, and has a relative error of 1/(2*10^(p-1)); sums of non-negative numbers keep relative errors |
| C51 | files, and calls of `dump_results` as processes of small steps (checks, text, open, writes of any size, close) that interleave and stop anywhere; `load_file` | invariants of the system over schedules: each file is untouched, a prefix, or whole; suffixes of paths; magic numbers |
| C52 | `json.dumps` and `json.loads` on code points, the encoders of networks and results | the scanner reads what the writer wrote, by nested induction on values; digits, escapes and surrogates, number syntax |
| C53 | numbers as sign, odd mantissa and exponent; MPFR's add, sub, mul, div, cmp and set with rounding to nearest; pybind11 overloads; names and objects for in-place operators | `nearest` over Q is unique and monotone; `round` meets it; exact results as dyadic rationals; the ints, aliasing, NaN and predicates are refuted by computed witnesses |
| C54 | `mpfr_set_str`, `%Ra`, `%.*Rf`, the format parser and padding on character codes | digits of a number read back in every base; literals as rationals; the parser inverts the writer of formats |
| C55 | the expansion of betas, `numeric_range` on IEEE floats with infinities and NaN, the loop with n_steps and the stop flag | every operation rounds to the nearest double; relative error 2^-53 of products and sums; rounding is monotone, so the values do not turn back |
| C56 | `all_inds`, `output_inds`, `inds`, `dims`, `max_width` of a Python tree on the constructor's tree and on those of both optimizers | the sets carried by the nodes are the exact ones of C21 and stay so (C07); names are read through the order of the indices |
| C57 | the order of the tests by which `load_tn` finds the format, on objects, texts, files and the standard input | induction over the relation "this object stands for these indices or gates"; the exceptions of each test are followed to the end |
| C58 | segments of shared memory, the timer's thread and the main thread of `Parallel`, as a machine whose events come in any order | invariant over the places of the main thread; progress of the timer by induction over its turns |
| C59 | the infinite-memory optimizer as it is, its generator as a stream of integers and a stream of uniforms; `same_order` (trees up to the order of children and the numbering of inner nodes) | nearest-neighbour moves as a graph over unordered trees: symmetric, and connected by bringing every tree to a caterpillar; a sweep performs any chosen move and can leave the rest as it is; then simulation of the graph's paths by runs, and the costs by the exactness lemmas for costs |
| C60 | `core_` as a process of `Parallel` that can be interrupted between updates; the optimizer object with its generator; sequences of calls; the order of sets and the schedule as an environment | a process gives what the run as a function gives, for every schedule (by the theorem about `Parallel`); the run does not depend on which element of a set of integers comes first (groups are classes of an equivalence); loading does not depend on the order of sets if there are no hyper-indices |
| C61 | as C60 | the seeds of fewer runs are a prefix; the minimum is never raised by an update; sorting keeps pointwise order |
| C62 | the colouring loop with its dictionaries | invariant: the tensors painted so far have the same colour exactly when they are connected by those painted so far; the colours of merged classes disappear |
| C63 | the generator as arbitrary functions that keep the contract of `random.Random`; the loop over attempts with fuel; renaming | counting the tensors with each index through the parts of the construction; the first indices connect a component; disjoint offsets keep components apart; renaming is injective |
| C64 | the whole of `optimize` as for C60, `contract` as for C23 | a simulation, function by function: each function on renamed arguments returns the renamed result of the original; the processes of `Parallel` go in lockstep |
| C65 | `is_valid_contraction_tree` line by line, the comparison and the pickling of trees | counting: on a tree whose nodes are locally consistent, an index is contracted once less than it occurs (once more if it is an output) exactly when no node drops it too early or keeps it too long |
| C66 | the finite-width optimizer with two streams of dice, the shuffle of the candidates any permutation | the moves of C59; when the new tensor is too wide, zeros as dice slice it until it fits; the streams are built update by update |
| C67 | `Tensor.__eq__` with numpy broadcasting, the generated `TensorNetwork.__eq__` with the identity shortcut of tuples; entries of any type | shapes that agree broadcast to themselves; induction on the tuples; equal tensors give the same dimensions and sums; with C47, `load_tn` returns an equal network when it has nothing to do |
| C68 | the class `Sampler`, with the seeds it draws and the intermediate states it returns, on top of `sample` of C35; paths, generators in `load` and set orders as arguments | the program of draws of a circuit has the same thresholds for all of these: a relation between two programs of draws, by induction on the gates, the samples and the calls |
| C69 | `cirq_to_arrays`, `qiskit_to_arrays` and the registrations of `load` and `sample`; an operation is what the code reads of it (matrix, qubits, is it a measurement) | operations of a moment commute, so C34 gives the load theorem; the outcome probability with measurements (defined in `S_Convert.v` by projections) equals the Born rule when no gate follows a measurement; for Qiskit, reversing the qubits of each gate gives its own convention; refutations by CX, -X and a circuit measured in the middle |
| C70 | both optimizers with costs that are finite numbers up to a bound, infinities or NaN (`M_Overflow.v`, `M_OverflowFin.v`); the bound of the cost type and that of double, in which powers are computed | a simulation: every state is that of the optimizer of C45 (no bound) with each cost replaced by infinity if too large, when the generator of C45 replays the same decisions; so C45's theorems carry over; for finite width the loop over a tree is simulated by that of C49, and the invariant of C49 is kept by whichever slices are adopted afterwards; the best tree by induction over the updates; refutations by a chain of three matrices in single precision |
| C71 | the factory, the construction check, `optimize` around its core (C60) followed by `dump_results` (C51), and `Main` of the command line (`M_Life.v`); others may change the files while a call works | the work of a call depends on neither the output options nor the files, so a session is compared call by call with that of the optimizer that returns its results; a file that exists stays as it is without overwrite, by induction over the calls; refutations by sessions of two calls |
| C72 | the Python objects around the C++ optimizers: cost models with their sets of names, `__reduce__`, `__eq__` and the copy made from the reduced tuple (`M_Alike.v`) | the caches, widths and minima of a reachable state are functions of what is compared (invariants of C09, C14), so equal optimizers have equal C++ states; sets of names and bitsets determine each other for distinct names; refutations by concrete optimizers |
| C73 | `contraction_cost`, `width` and `delta_width` of the Python cost models, which rank names in the order first seen (`M_PyCost.v`) | the bits of a list of names are the ranks of its members, so products and sums over bits are products and sums over any list of these names; the same for the bits of a tree in the order of the optimizer, hence sums over contractions agree by induction on the tree; refutations by concrete calls |
| C74 | the call of `MetropolisHastings` with the rounding of each cost type (`M_ProbFloat.v`; rounding is Flocq's, without overflow; `pow` is any function that returns a number next to the exact power) | 0 and 1 are numbers of each format and rounding is monotone, so each step keeps the range and the order; the relative errors of the steps multiply; refutations by an increase below half a unit in the last place and by underflow |
| C75 | `traverse` and `traverse_tree` with the callback called inside the loop, on a state that contains the tree (`M_Walk.v`) | induction on the tree with the loop's stack and visited bits, as for C04, with the calls in between; for changing trees the number of internal nodes not yet expanded decreases; refutation by a swap in the first call |
| C76 | `Greedy` and `MetropolisHastings` called with infinite or NaN costs, and the comparison with the drawn number (`M_ProbInf.v`; rounding is arbitrary but for 0 and 1, `pow` is any function with the values that C and MPFR give for infinities, NaN and 1) | case analysis on the difference and the current cost; the rules are then instances of the hypotheses of C70; refutation by a draw of 0 |

Statuses and remarks are in `MANIFEST.json`.

## Which parts of the code are modelled

Modelled (file: what):

* `include/tnco/node.hpp`, `tree.hpp`, `ctree.hpp`, `bitset.hpp`, `utils.hpp`: all
  but printing, hashing, and the pybind11 glue.
* `include/tnco/optimize/optimizer.hpp`, `infinite_memory/*.hpp`,
  `finite_width/**.hpp`, `prob/*.hpp`: all, with the generator abstract; costs in
  exact arithmetic, and with every operation rounded (costs of both optimizers, widths).
* `include/tnco/globals.hpp`: `to_string` of costs.
* `tnco/ctree.py`: constructor from a path and from nodes, `path`, pickling, `all_inds`, `output_inds`,
  `inds`, `dims`, `max_width`, `traverse_tree` (`M_Walk.v`).
  `tnco/bitset.py`: validation.
* `tnco/ordered_frozenset.py`: all.
* `tnco/parallel.py`: `Buffer`, `Parallel`.
* `tnco/utils/tn.py`: all functions.
* `tnco/utils/tensor.py`: `is_diagonal`, `decompose_hyper_inds`, `tensordot`,
  `get_einsum_subscripts`, `svd`.
* `tnco/utils/circuit.py`: `commute`, `same`, `load`, and the conversion of cirq and qiskit circuits (`M_Convert.v`;
  what `cirq.is_measurement`, `cirq.unitary` and `matrix` give is part of the input).
* `tnco/app/tn.py`: validation and comparison of `Tensor` and `TensorNetwork`, JSON encoder.
* `tnco/app/app.py`: `load_tn` for a string or list of indices and a TensorNetwork, the detection of
  formats (`M_Detect.v`, without cirq and qiskit circuits), sorting of
  results, JSON encoder, `dump_results`, `load_file`, the factory `Optimizer` and `BaseOptimizer`; `cli.Main` (`M_Life.v`).
* `tnco/app/infinite_memory/sa.py`, `finite_width/sa.py`: `core_`, `optimize`, with the temperatures, as a function and as a process
  (`more_itertools.numeric_range`, version 10.3.0, as read).
* `tnco/app/circuit/sampling.py`: `is_classical_operation`, `sample`, `Sampler` with its seeds and intermediate states.
* `include/tnco/fixed_float.hpp`: constructors, operators, comparisons, conversions, `to_string`,
  `dump` and the Python class (`M_Fixed.v`, `M_FixedText.v`).
* `tnco/testing/utils.py`: `get_connected_components`, `generate_random_inds`, `generate_random_tensors`, `is_valid_contraction_tree`
  (arguments that are not negative; a failed assertion is `Err Crash`).
* `tnco/optimize/*`: the checks, save, restore and comparison of the Python wrappers (`M_Alike.v`), the cost functions of the cost
  models (`M_PyCost.v`).

Not modelled: the code of MPFR (its functions are modelled after the manual in `M_Fixed.v` and
`M_FixedText.v`), `log` and `log2` of `fixed_float.hpp` (`pow` is a hypothesis in `M_ProbFloat.v`); the C++ random engine; the numerical decomposition inside `svd`; tags
(but for their JSON form) and printing; pickle, gzip, bz2, UTF-8 and the validation of
paths (contracts, stated in `S_Dump.v`); how Fire reads the command line (`M_Life.v` has what `cli.Main` makes of it); progress bars; cirq and
qiskit themselves; joblib, shared memory and struct themselves (their contracts are
hypotheses, stated in the model files); `typing.py`, the rest of `globals.hpp`, `assert.hpp`.

## Findings about the code

Each was found while modelling. Those with a name in parentheses are proved of the
model.

Core:

* F01 `swap_with_nn`: a negative position passes the guard and is used as a
  subscript (`C03_negative_position_refuted`).
* F02 `Tree` accepts a cyclic graph (`C05`).
* F03 `Tree::is_valid`: a slip of precedence lets parent counts 1 and 3 through.
* F04 Validity with shared indices is not preserved by updates on valid trees whose
  indices are not exact (`C08`, `C14`, `C15`).
* F05 The greedy rule accepts a move of probability 0 when the draw is exactly 0.
* F06 Finite width: `prng() % n_pos` with `n_pos == 0` is reachable (`C12`).
* F07 Sparse cost model with new slices: an accepted tensor can exceed max_width
  (`C17`).
* F08 Pickling a finite-width optimizer drops `max_number_new_slices` and `atol`
  (`C15`).
* F09 The Python `delta_width` raises for an index to add (`cost_model.py:242`).
* `get_slices` silently returns slices that do not fit when the skipped indices are
  too wide; `DimsCache::is_close_to` compares a scalar with itself;
  `is_valid` (finite width) uses the dims of the current tree for the best tree;
  a negative inverse temperature gives probabilities above 1; a best tree given by
  the user may be worse than the current one; an unsupported `cost_type` or
  `width_type` is reported with an attribute that is not yet set
  (`cost_model.py:90-96`).

Rounded costs and widths:

* F10 Within an update the running total is changed by rounded differences; after a
  big improvement it can be zero or negative, and it is what the acceptance rule
  divides by (`C45_acceptance_is_given_the_cost_refuted`). For total 0 Metropolis
  then rejects every worsening move, for a negative one its probability can exceed 1
  or be NaN; in a debug build the assertion that the total is not negative fails.
* F11 The constructor adds `(cost + left) + right`, `update` adds `(left + right) +
  cost`: an update that rejects every move can change the reported cost, and a
  restored optimizer need not report the same cost as the original
  (`C45_pickling_is_transparent_refuted`), so that its run can diverge.
* F12 `get_slices` subtracts logarithms from a width, `is_valid` adds the logarithms of
  the remaining indices up and compares without tolerance. With seven indices of
  dimension 6 and `max_width=5*log2(6)`, in the default `width_type='float32'`, the
  constructor raises (`C49_constructor_finds_slices_refuted`), and an optimizer that
  found such slices in an update cannot be restored from its pickle
  (`C49_restoring_always_works_refuted`).
* F13 With `max_number_new_slices` the indices to slice can run out by a rounding error,
  although `skip_slices` fits: `prng() % 0` (`C49_no_division_by_zero_refuted`).
* F14 Costs are handed to Python as strings with six significant digits, whatever the
  cost type (only float1024 is written in full): `total_cost` of the contraction of two
  vectors with 1000001 entries is 1000000 (`C50_total_cost_exact_refuted`). `optimize`
  sorts by these numbers, so that the first result need not be the cheapest
  (`C50_first_is_cheapest_refuted`). With float1024 the sum over components is rounded
  to the 28 digits of Python's Decimal (`C50_sum_exact_refuted`).
* `simple.hpp` `get_cost` with one integer dimension calls `std::pow`, in double
  whatever the cost type: costs of type float1024 have 53 bits and overflow at 2^1024.
* `fixed_float.hpp`: the Python `isinf` and `signbit` return `isnan`
  (`C53_predicates_refuted`); comparisons with NaN hold (`mpfr_cmp`, `C53_nan_refuted`); the
  template parameter `Rounding` is not used; padding with `0` or `=` in a format does not pad
  as in Python (`C54_format_padding_refuted`, `C54_format_sign_refuted`); a string that is no
  number becomes 0, without an error (`C54_bad_strings_refuted`); `__float__` rounds twice, to
  long double and to double (`C54_float_refuted`); `str` writes 2^-1100 as 0
  (`C54_str_round_trip_refuted`).
* `fixed_float.hpp`: Python ints go through a double, so that FixedFloat(2**53 + 1) is 2**53
  and large ints raise TypeError (`C53_ints_refuted`). `x += 1` changes the object: after
  `y = x`, `y` changes too, unlike Python's numbers (`C53_inplace_refuted`). `x == "a"` raises
  TypeError instead of answering False (`C53_equality_with_other_objects_refuted`).
* `optimize(betas=(b0, b1), n_steps=n)` never uses b1 (`C55_last_temperature_refuted`); between
  2^53 and 2^53 + 2 ten steps become six, all at 2^53 (`C55_number_of_steps_refuted`); with
  b1 = inf no update is made and no error raised (`C55_infinite_temperature_refuted`); a
  generator as betas raises TypeError at `len(betas)` after the first update, although the
  type says Iterable (`C55_iterator_refuted`).

Tensor networks:

* `merge_contraction_paths` and `split_contraction_path` accept a step (x, x);
  `contract` raises. A generator given as path loses its first element.
* An index of a single tensor that is no output is not summed by `contract`.
* `ContractionTree` of an empty path raises TypeError.
* An index repeated within a tensor makes `fuse` raise
  (`C30_repeated_index_refuted`); `Tensor` accepts a repeated index.
* `get_symbol` returns surrogates for 55156..55295 (`C29_surrogate_refuted`);
  `tensor.get_einsum_subscripts` raises TypeError for more than 52 indices.
* `tensordot` accepts shapes that disagree if the products agree.
* `decompose_hyper_inds`: the shortcut for constant tensors drops an index, so the
  contraction loses a factor (`C31_contraction_refuted`); a tensor can get an
  index twice (`C31_repeated_index_refuted`); the recursion loses atol; diagonal
  axes of size 0 raise.
* `OrderedFrozenSet`: equality is by set, the hash by order (`C32_hash_refuted`);
  `==` with another type raises TypeError.
* `svd` creates the same generator in every iteration: a collision of index names
  loops forever (`C46_seeded_names_terminate_refuted`). A dimension of size zero
  raises in numpy's reshape (`C46_empty_dimensions_refuted`). Without anything to
  split it returns a list with one tensor, not the three its documentation states.

Applications:

* The cost of the merged result does not count the final outer products; these, and
  components of a single tensor, can be wider than max_width; sparse indices with
  several components make `optimize` raise; no tensors, or `update_slices=0`, raise
  (all `C39`). All components use the same seed.
* `dump_results`: the check that a compressed output has a file name is never reached
  (`C51_compression_without_file_refuted`). The file is opened for writing before the
  results are pickled, so that an object that cannot be pickled destroys the old content
  (`C51_pickle_error_refuted`); so does a crash (`C51_old_content_refuted`). The check
  that the file does not exist and the opening are apart: two calls without overwrite can
  both succeed and leave a mixture (`C51_race_refuted`), and a file that appears during
  the optimization makes `optimize` raise at its end, without the results. Only `.gzip`
  and `.bz2` are compressed, not `.gz`.
* The JSON output leaves out the tags of the network and `disconnected_costs`; tags with
  keys 1 and '1' collide (`C52_keys_refuted`); complex numbers are written '1.0 + 2.0j',
  which `complex` does not read. `load_tn` cannot load a file of results.
* `load_file` cannot read raw results: binary data raises UnicodeDecodeError before the
  fallback for binary formats is tried (`C51_load_raw_refuted`). Text that starts with
  'BZ' is taken for bzip2. `Path.exists` is not called.
* The seed does not fix the result. The code takes care to keep indices in order
  (`OrderedFrozenSet`), but `contract` collects the hyper-indices in a frozenset
  (`utils/tn.py:996-1000`), whose order becomes that of the indices of the fused tensor, and
  from there that in which a random path is drawn. With names that are strings, and
  `fuse` at its default 4, the same seed gives different costs when Python is started again
  (`C60_same_seed_refuted`).
* `get_connected_components` drops tensors without indices before it numbers the others, so
  that these get wrong positions, and the lines that give tensors without indices a colour of
  their own (`testing/utils.py:117-129`) can never do so (`C62_connected_components_refuted`).
* `generate_random_tensors` with `k=1` returns a network with more components than `n_cc`
  (`C63_components_refuted`).
* The order in which a set lists the names of indices decides results: in one Python session,
  where sets of small integers list them in increasing order, the same network with its indices
  numbered the other way round gets a path of another cost from the same seed
  (`C64_names_refuted`).
* `is_valid_contraction_tree` raises an AssertionError for every valid tree of two tensors: it
  asserts that moving the nodes of a copy changes it, and a tree of two tensors has no moves
  (`C65_two_tensors_refuted`). For a tree whose nodes were moved by `swap_with_nn` it raises
  instead of returning False, because such a tree cannot be pickled
  (`C65_invalid_raises_refuted`). Without `hyper_count` it accepts a tree that drops an index
  too early (`C65_without_counts_refuted`).
* With the default `max_number_new_slices = 0` the finite-width search can be trapped for ever: in
  a ring of four tensors all neighbours of a tree are too wide, so nothing is ever accepted,
  whatever is drawn, although a tree that fits without slices is cheaper
  (`C66_default_can_be_trapped_refuted`).
* `t == u` raises a `ValueError` when both tensors have arrays whose shapes cannot be broadcast, and an
  `AttributeError` when `u` is not a tensor; so `n == m` can raise for networks with different
  numbers of tensors (`C67_answers_refuted`). It is not transitive (`C67_transitive_refuted`) and a
  tensor with an infinite or NaN entry does not equal itself, though a network that has it does
  (`C67_reflexive_refuted`).
* With a seed but without `qubit_order`, `Sampler.sample` returns the bits in the order of a
  `frozenset` of qubits: the same seed gives other bitstrings where that order differs, as with
  string qubits under hash randomisation (`C68_seed_refuted`).
* `qiskit_to_arrays` keeps the order of the qubits of a gate, but the matrices of Qiskit have the
  first qubit as the least significant bit: X(0); CX(0, 1) loads as a network in which the amplitude
  of 11 is 0 (`C69_qiskit_load_refuted`). The test of the repository reads the matrices in the same
  way, so it passes.
* The global phase of a Qiskit circuit is dropped (`C69_qiskit_phase_refuted`), and a Qiskit circuit with a
  measurement or a barrier cannot be loaded (`C69_qiskit_instructions_refuted`), while measurements of
  Cirq are skipped.
* `sample` registered for `qiskit.QuantumCircuit` calls `load` instead of `sample`
  (sampling.py:404-409): every call with an optimizer raises (`C69_qiskit_sample_refuted`).
* `sample` of a Cirq circuit ignores measurements in the middle, and so gives other probabilities than
  the circuit has (`C69_cirq_sample_refuted`). Qubits that are only measured are missing from the samples.
* Once a move to a tree whose cost is too large is accepted, `is_valid` is false (the logarithms of two
  infinities are not close) and the pickled optimizer cannot be restored (`C70_pickling_refuted`, `C70_fw_pickling_refuted`); the
  acceptance rule is then given NaN, infinity minus infinity (`C70_acceptance_is_given_the_costs_refuted`).
* With equal dimensions the cost is `std::pow` of integers, computed in double (simple.hpp:45): a
  contraction beyond 2^1024 is infinite whatever the cost type, and the optimizer cannot be made with
  float1024 although it can with one more index of another dimension (`C70_wide_cost_type_refuted`).
* An optimizer with an `output_filename` and without `overwrite_output_file` delivers one result: every
  later `optimize` does all of its work and then raises FileExistsError, and its results are lost
  (`C71_later_results_refuted`).
* `max_width=nan` selects the infinite-memory optimizer without a word (`C71_nan_refuted`: `nan < inf` is
  false), and a negative `max_width`, unknown types and `n_jobs=0` are reported only by `optimize`
  (`C71_checked_at_construction_refuted`).
* Optimizers and trees that compare equal can have different contraction paths: the number of tensors and
  the tensors at the leaves are not compared (`C72_equal_paths_refuted`).
* `max_number_new_slices` is neither compared nor pickled: a copy is equal to the original and differs from
  it after one update (`C72_new_slices_refuted`).
* `SimpleCostModel(sparse_inds=None)` and `SimpleCostModel(sparse_inds=[])` are the same for every tree but
  unequal, and so are optimizers that have them (`C72_same_costs_refuted`).
* `delta_width` of a finite-width cost model with sparse indices takes the position of the index in the given
  list but uses it in the list without repetitions: with an index listed twice it looks at another index, or
  past the end (`C73_delta_width_repeated_refuted`).
* `contraction_cost` with infinite memory accepts a result with an index of neither tensor, unlike the one with
  a finite width, although its docstring announces a ValueError (`C73_result_checked_refuted`).
* `width`, `delta_width` and `contraction_cost` raise if a sparse index has no dimension, even if no given
  tensor has it (`C73_own_dimensions_refuted`).
* `MetropolisHastings` computes `1 + delta/old` in the cost type: an increase of less than 2^-(precision+1) of
  the cost is always kept, even at the lowest temperature, with float64 from costs of about 2^54 on
  (`C74_increases_rejected_refuted`); `log1p` would not lose it.
* A draw of exactly 0 makes both rules keep a move to an infinite cost (`C76_every_draw_refuted`, as F05), and
  once the cost is infinite, `MetropolisHastings` keeps every move with a finite increase at every temperature
  (`C76_from_an_infinite_cost`).
* `traverse` walks the tree it is given by reference: a callback that swaps its nodes makes it visit one node
  twice and another never, without an error (`C75_swaps_during_the_walk_refuted`).
* If a core of `Parallel` raises, or the user interrupts it, the segments of shared memory are
  not unlinked and the timer is not cancelled. Without a timeout it waits for
  `TIMEOUT_MAX`, and as its thread is no daemon, Python does not exit
  (`C58_raising_core_refuted`). A wrong type in `buffers` (`C58_bad_type_refuted`) and a name
  given twice (`C58_same_name_refuted`) leave segments as well.
* `load_tn` promises TypeError for what it does not recognise. An empty entry and a gate
  without qubits raise IndexError, a dict in the list KeyError, an infinite dimension
  OverflowError and a text of `//` comments ValueError (`C57_errors_refuted`). A gate
  without qubits with an integer entry makes a list of gates a list of indices
  (`C57_global_phase_refuted`). A file named `7` is never opened
  (`C57_file_names_refuted`); a file that contains its own name raises RecursionError
  (`C57_file_of_its_name_refuted`); a JSON text of 256 to 4096 characters without slash
  raises OSError before Python 3.14 (`C57_long_texts_refuted`).
* `load_tn` of a TensorNetwork with identity matrices changes its value or raises
  (`C47_value_refuted`, `C47_raises_refuted`). A network that was loaded with fusing
  cannot be loaded with fusing again, so `optimize(load_tn(...))` raises with the
  default options (`C47_loading_twice_refuted`). Decomposing drops the tags of the
  tensors. For gate lists and circuits `fuse` and `decompose_hyper_inds` are ignored.
* `Parallel` truncates to the shorter list of arguments; `n_runs=0` raises.
* A string that lists indices is not recognised if a line is indented
  (`C48_indented_refuted`); the empty string raises ValueError (`C48_empty_refuted`); a
  line with a dimension only ends in TypeError.
* An index listed with tokens only, without a tensor, raises when it is loaded.

Circuits:

* `same` holds for any constant factor, also of absolute value other than 1; two
  zero matrices raise IndexError. The simplification is wrong for gates that are
  not unitary (`C33_nonunitary_refuted`).
* The docstring says a single vector can be given as state of all qubits; that
  raises NotImplementedError.
* `sample`: a `qubit_order` with repeated qubits passes the check;
  `is_classical_operation` has a slip of precedence (a matrix that is not square,
  with a power of two of rows, passes the first test); the registration for qiskit
  calls `load`.

## Tests against wrong programs

`seeded/LOG.jsonl` has one line per edit of the model: the definition, the edit, the
claim it breaks, the theorems that failed, and what was tightened. The edits are
made in scratch copies by `tools/mutate.py`.

## Trusted base

Coq's kernel (8.16.1), the reading of the code written down in the comments of
`M_*.v`, the modelling decisions above, and the specifications `S_*.v`; for C74 also Flocq's
definition of rounding (`round`, `FLT_exp`, `FLX_exp`, `ZnearestE`), which has no axioms of its own. No axiom is
added, no kernel check is switched off.

<!-- assumptions -->
434 theorems in `Props_*.v` are followed by `Print Assumptions`.

392 are "Closed under the global context": all that are not listed below.

These depend on `ClassicalDedekindReals.sig_forall_dec`, `FunctionalExtensionality.functional_extensionality_dep`, all from the standard library (the classical reals):

* `C35_born_distribution`
* `C35_every_run_succeeds`
* `C35_fractions`
* `C35_refuses`
* `C44_sampling_finite_width`
* `C44_sampling_infinite_memory`
* `C46_truncation_error`
* `C59_every_tree_can_be_reached`
* `C66_every_tree_can_be_reached_partial`
* `C68_calls_do_not_interfere`
* `C68_intermediate_state`
* `C68_order_only_reorders`
* `C68_report`
* `C68_seed_determines_samples_partial`
* `C68_seed_refuted`
* `C69_cirq_refuses`
* `C69_cirq_sample_partial`
* `C69_cirq_sample_refuted`
* `C76_beta_zero`
* `C76_contractions_stay_finite`
* `C76_decreases_are_kept`
* `C76_every_draw_refuted`
* `C76_from_an_infinite_cost`
* `C76_fw_contractions_stay_finite`
* `C76_fw_rules_refuse`
* `C76_infinite_increases_are_refused`
* `C76_rules_refuse`

These depend on `ClassicalDedekindReals.sig_forall_dec`, `ClassicalDedekindReals.sig_not_dec`, `Classical_Prop.classic`, `FunctionalExtensionality.functional_extensionality_dep`, all from the standard library (the classical reals):

* `C13_metropolis_accepts_improvements`
* `C13_metropolis_infinite_temperature`
* `C13_metropolis_monotone`
* `C13_metropolis_probability`
* `C59_metropolis_reaches_every_tree`
* `C74_accuracy`
* `C74_accuracy_of_float1024`
* `C74_always_kept`
* `C74_cooler_keeps_less`
* `C74_increases_rejected_refuted`
* `C74_positive_refuted`
* `C74_probability`
* `C74_small_increases`
* `C76_cost_types`
* `C76_finite_costs`
<!-- end -->
