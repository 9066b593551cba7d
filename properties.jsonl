{"id": "C01", "title": "swap_with_nn keeps the tree a tree", "statement": "Calling Tree.swap_with_nn(pos) on a tree whose nodes form one rooted full binary tree (every non-root listed by exactly its parent, last node the root, leaves first) leaves nodes that again form one rooted full binary tree over the same positions, with the same leaves and the same root, and in which the two exchanged subtrees are intact.", "quantifier": "every well-formed tree of any size and shape, every position argument", "why_tests_cant": "Tests rotate a handful of random trees; the claim is for every shape, every position (including leaves, the root, its children and out-of-range positions) and hence for every sequence of rotations.", "anchors": ["include/tnco/tree.hpp: Tree::swap_with_nn", "include/tnco/node.hpp: Node"]}
{"id": "C02", "title": "swap_with_nn can be undone exactly", "statement": "After swap_with_nn(D), calling swap_with_nn on the node that was D's uncle restores the node list exactly, including the left/right order of children; when the guard makes the call a no-op the list is untouched.", "quantifier": "every well-formed tree and every position", "why_tests_cant": "The finite-width optimizer reverts rejected moves this way; a restoration that is only right for some slot orders would silently corrupt the tree on rare schedules.", "anchors": ["include/tnco/tree.hpp: Tree::swap_with_nn", "include/tnco/optimize/finite_width/greedy/optimizer.hpp: Optimizer::update"]}
{"id": "C03", "title": "swap_with_nn has a bounded footprint", "statement": "swap_with_nn(pos) changes at most four nodes (the node, its parent, its grandparent and its uncle), never changes the number of nodes, never changes which nodes are leaves, and does nothing when pos is out of range, the root, or a child of the root.", "quantifier": "every node list and every position", "why_tests_cant": "Frame conditions are universally quantified over all other nodes.", "anchors": ["include/tnco/tree.hpp: Tree::swap_with_nn"]}
{"id": "C04", "title": "traverse and get_contraction are complete post-order walks", "statement": "On every well-formed tree traverse terminates, calls the callback exactly once for each node, both children before their parent and the root last; get_contraction returns exactly one triple (left child, right child, node) per internal node, in an order in which operands are always available.", "quantifier": "every well-formed tree of any size and shape", "why_tests_cant": "Termination and exactly-once for all shapes need induction over trees.", "anchors": ["include/tnco/utils.hpp: traverse, get_contraction", "tnco/ctree.py: traverse_tree"]}
{"id": "C05", "title": "The Tree constructor's check characterises trees", "statement": "Tree(nodes) accepts every well-formed rooted full binary tree with leaves first and root last, and rejects every node list that is not one.", "quantifier": "every node list", "why_tests_cant": "The check is a conjunction of counting conditions; whether they imply tree-ness for every node list is a combinatorial statement.", "anchors": ["include/tnco/tree.hpp: Tree::is_valid", "include/tnco/node.hpp: Node::is_valid"]}
{"id": "C06", "title": "Bitset is a faithful finite set", "statement": "Bitset operations (&, |, ^, -, ~, comparisons, isdisjoint, count, positions, indexing) agree with the corresponding operations on the set of positions; building from positions() or from str() gives back an equal bitset, and pickling round-trips.", "quantifier": "all bitsets of every size and all position lists", "why_tests_cant": "Set-algebra laws for all sizes, including sizes across machine-word boundaries.", "anchors": ["include/tnco/bitset.hpp: Bitset", "tnco/bitset.py: Bitset"]}
{"id": "C07", "title": "Optimizer updates keep every intermediate tensor's indices exact", "statement": "If every node of the contraction tree carries exactly the indices that occur below it and are still needed (they occur in a tensor outside the subtree or are output indices), then this is again true after any number of Optimizer.update calls.", "quantifier": "every network, every contraction tree of it, every dims, every random stream, every acceptance rule, every number of updates", "why_tests_cant": "The update uses an incremental XOR/hyper-index formula; tests sample random networks, while a counterexample needs a specific pattern of hyper-indices and moves.", "anchors": ["include/tnco/optimize/infinite_memory/optimizer.hpp: Optimizer::update", "include/tnco/optimize/infinite_memory/utils.hpp: HyperCache", "include/tnco/optimize/finite_width/greedy/optimizer.hpp: Optimizer::update"]}
{"id": "C08", "title": "Optimizer updates keep the contraction tree valid", "statement": "If the current tree passes is_valid when the optimizer is built then after any number of updates the tree still passes is_valid (contraction check, shapes, dims), and with shared indices enforced every contraction of the current and of the best tree is between tensors sharing an index.", "quantifier": "every valid contraction tree, every random stream and acceptance rule, every number of updates", "why_tests_cant": "Invariant over unbounded histories of random moves.", "anchors": ["include/tnco/ctree.hpp: ContractionTree::is_valid", "include/tnco/optimize/optimizer.hpp: Optimizer::is_valid, get_ctree_nn", "include/tnco/optimize/infinite_memory/optimizer.hpp: Optimizer::update"]}
{"id": "C09", "title": "total_cost is the cost of the current tree", "statement": "After any number of updates total_cost equals the sum over all contractions of the current tree of the cost model's contraction cost, i.e. the value recomputed from scratch.", "quantifier": "every contraction tree, dims, simple or sparse cost model, random stream, acceptance rule, number of updates (exact arithmetic, before the cost is written for Python, see C50)", "why_tests_cant": "The incremental cache is only compared to a recomputation with a tolerance, on the runs a test happens to make.", "anchors": ["include/tnco/optimize/infinite_memory/optimizer.hpp: Optimizer::update, get_total_cost", "include/tnco/optimize/infinite_memory/utils.hpp: CostCache, get_cost"]}
{"id": "C10", "title": "min_ctree and min_total_cost record the best visited state", "statement": "min_total_cost always equals the cost of min_ctree, never increases, and is at most the total_cost reached at the end of every update so far and, unless a best tree was supplied, the initial cost; min_ctree is a tree that was current at the end of some update (or the initial best).", "quantifier": "every history of updates (exact arithmetic, before the costs are written for Python, see C50)", "why_tests_cant": "A statement about all prefixes of all histories.", "anchors": ["include/tnco/optimize/infinite_memory/optimizer.hpp: Optimizer::update", "include/tnco/optimize/finite_width/greedy/optimizer.hpp: Optimizer::update"]}
{"id": "C11", "title": "Optimizing never changes the problem", "statement": "Updates never change the number of nodes, the indices of the input tensors, the output indices (the root's indices) or the dimensions, in the current and in the best tree.", "quantifier": "every contraction tree, random stream, acceptance rule, number of updates", "why_tests_cant": "Frame property over all histories.", "anchors": ["include/tnco/optimize/infinite_memory/optimizer.hpp: Optimizer::update", "include/tnco/optimize/finite_width/greedy/optimizer.hpp: Optimizer::update"]}
{"id": "C12", "title": "update always terminates and never reads out of range", "statement": "On an optimizer built on a well-formed contraction tree, update() returns after visiting at most one neighbourhood per ancestor of the chosen leaf, and every node, index, cost and hyper-index access is in range.", "quantifier": "every well-formed contraction tree, random stream and acceptance rule", "why_tests_cant": "Termination and memory safety for all shapes and schedules.", "anchors": ["include/tnco/optimize/infinite_memory/optimizer.hpp: Optimizer::update", "include/tnco/optimize/optimizer.hpp: get_ctree_nn"]}
{"id": "C13", "title": "Acceptance rules: greedy never increases the cost, Metropolis always accepts improvements", "statement": "With the Greedy probability an update never increases total_cost; with Metropolis-Hastings a move that does not increase the cost is always accepted, and acceptance probability lies in [0,1].", "quantifier": "every tree, every random draw in [0,1), every cost and delta", "why_tests_cant": "Boundary draws (exactly 0) have probability about 2^-53 and never show up in tests.", "anchors": ["include/tnco/optimize/prob/greedy.hpp: Probability", "include/tnco/optimize/prob/mh.hpp: Probability", "include/tnco/optimize/infinite_memory/optimizer.hpp: Optimizer::update"]}
{"id": "C14", "title": "The optimizer's own is_valid never fails after an update", "statement": "After any number of updates Optimizer.is_valid returns True: cost cache, hyper-index cache, width cache and minimum are all equal to what a recomputation gives.", "quantifier": "every initial state accepted by the constructor, every history (exact arithmetic)", "why_tests_cant": "Invariant over unbounded histories.", "anchors": ["include/tnco/optimize/infinite_memory/optimizer.hpp: Optimizer::is_valid", "include/tnco/optimize/finite_width/greedy/optimizer.hpp: Optimizer::is_valid"]}
{"id": "C15", "title": "Pickling an optimizer is transparent", "statement": "Saving an optimizer and restoring it gives an optimizer that behaves identically: the same updates from then on produce the same trees, costs, slices and minima as without the interruption.", "quantifier": "every reachable optimizer state, every interruption point, every continuation", "why_tests_cant": "Equality of two infinite behaviours for every interruption point.", "anchors": ["tnco/optimize/infinite_memory/optimizer.py: Optimizer.__reduce__, __build__", "tnco/optimize/finite_width/optimizer.py: Optimizer.__reduce__, __build__"]}
{"id": "C16", "title": "get_slices makes every tensor fit", "statement": "If, for every tensor, the width of its non-sliceable (skip_slices) indices is at most max_width, then get_slices returns a set of indices disjoint from skip_slices such that every tensor of the tree has width at most max_width once the indices are removed; it only slices indices of tensors that are too wide.", "quantifier": "every contraction tree, dims, cost model (simple or sparse), max_width, skip set and every shuffle of candidates", "why_tests_cant": "Holds for every order in which the greedy loop can consider the candidates.", "anchors": ["include/tnco/optimize/finite_width/greedy/utils.hpp: get_slices"]}
{"id": "C17", "title": "Finite-width optimizer: everything always fits", "statement": "After any number of updates every tensor of the current tree has width at most max_width after removing `slices`, every tensor of min_ctree fits after removing `min_slices`, and neither contains a skip_slices index.", "quantifier": "every accepted initial state, random stream, acceptance rule, max_number_new_slices, update_slices flag and number of updates", "why_tests_cant": "Invariant over unbounded histories, including the branch adding random new slices.", "anchors": ["include/tnco/optimize/finite_width/greedy/optimizer.hpp: Optimizer::update", "tnco/optimize/finite_width/optimizer.py: Optimizer"]}
{"id": "C18", "title": "Finite-width total_cost is the sliced cost of the current tree", "statement": "After any number of updates total_cost equals the cost of the current tree with the current slices recomputed from scratch, and min_total_cost equals the cost of min_ctree with min_slices.", "quantifier": "every accepted initial state and history (exact arithmetic, before the cost is written for Python, see C50)", "why_tests_cant": "Incremental updates, tentative moves with reverts and cache replacement interleave arbitrarily.", "anchors": ["include/tnco/optimize/finite_width/greedy/optimizer.hpp: Optimizer::update", "include/tnco/optimize/finite_width/utils.hpp: CostCache, get_cost"]}
{"id": "C19", "title": "delta_width is the exact change of width", "statement": "For every index set and every position, width(inds with pos flipped) = width(inds) + delta_width(inds, pos), for the simple and the sparse cost model; width is monotone in the index set.", "quantifier": "every index set, position, dims, sparse set and number of projections", "why_tests_cant": "get_slices relies on it for all patterns of sparse and dense indices.", "anchors": ["include/tnco/optimize/finite_width/cost_model/simple.hpp: CostModel::width, delta_width", "include/tnco/optimize/finite_width/cost_model/simple_sparse_inds.hpp: CostModel::width, delta_width"]}
{"id": "C20", "title": "Contraction cost laws", "statement": "For a valid contraction the cost depends only on the union of the three tensors' indices (so the order of operands is irrelevant), equals the product of the dimensions of that union, is the same for an integer dims as for a constant vector dims, is monotone in the union, and the sparse cost is at most the dense cost with equality when n_projs is at least the product of the sparse dimensions.", "quantifier": "every index sets, dims, sparse sets, n_projs, slices", "why_tests_cant": "Algebraic laws over all inputs.", "anchors": ["include/tnco/optimize/infinite_memory/cost_model/simple.hpp: get_cost, CostModel", "include/tnco/optimize/infinite_memory/cost_model/simple_sparse_inds.hpp: get_cost", "include/tnco/optimize/finite_width/cost_model/simple.hpp: CostModel::contraction_cost"]}
{"id": "C21", "title": "ContractionTree built from a path is well formed and exact", "statement": "ContractionTree(path, ts_inds, dims, output_inds) for a path that contracts everything it touches into one tensor yields a well-formed tree whose leaves are the touched tensors in order, and in which every node carries exactly the indices that occur below and are still needed; still needed means: it occurs in another touched tensor, is a requested output index, or occurs in one touched tensor only (such an index is never summed). Hence its output_inds are the requested output indices that occur and the indices of a single tensor. An index of three tensors without output_inds, and with check_shared_inds a contraction without shared index, raise ValueError.", "quantifier": "every list of duplicate-free tensors, every such path, every output set", "why_tests_cant": "The constructor counts hyper-index occurrences down along an arbitrary path; correctness for all paths needs an invariant.", "anchors": ["tnco/ctree.py: ContractionTree.__init__"]}
{"id": "C22", "title": "path() is faithful to the tree", "statement": "ContractionTree.path() returns a valid linear contraction path which, read back, performs exactly the contractions of the tree (same pairs of groups of input tensors), so that building a tree from path() gives the same tree up to renumbering of internal nodes; path() of ContractionTree(path) performs the same contractions as path.", "quantifier": "every well-formed contraction tree, also after any number of updates", "why_tests_cant": "Round trip between two encodings with shifting positions, for all trees.", "anchors": ["tnco/ctree.py: ContractionTree.path, ContractionTree.__init__"]}
{"id": "C23", "title": "contract gives the same tensor for every path", "statement": "contract(path, ts_inds, output_inds, arrays) computes, for every complete path, the einsum of the network: for each assignment of the remaining indices, the sum over the contracted indices of the product of all tensors. In particular the result does not depend on the path.", "quantifier": "every network (with hyper-indices), all complete paths, all array values over a commutative semiring", "why_tests_cant": "Equality of nested partial sums with one global sum for all networks and paths.", "anchors": ["tnco/utils/tn.py: contract", "tnco/utils/tensor.py: tensordot"]}
{"id": "C24", "title": "tensordot is the pairwise einsum", "statement": "tensordot((ax,xs),(ay,ys),hyper_inds) returns the tensor over hyper_inds + unshared indices whose entry is the sum over shared non-hyper indices of the product of the entries; indices returned with return_inds_only are the same; it raises iff hyper_inds is not a subset of the shared indices.", "quantifier": "all shapes, index lists and values", "why_tests_cant": "Index bookkeeping (transpose, reshape, matmul) for every rank and shape.", "anchors": ["tnco/utils/tensor.py: tensordot"]}
{"id": "C25", "title": "Slicing is exact", "statement": "Fixing the sliced indices to each joint value, contracting the sliced networks and adding up the results gives the contraction of the unsliced network (for sliced indices that are not outputs), and for output slices gives the corresponding slice of the result.", "quantifier": "every network, every set of sliced indices, every path", "why_tests_cant": "For all index sets and values.", "anchors": ["tnco/utils/tn.py: contract", "tnco/optimize/finite_width/optimizer.py: Optimizer.slices", "tnco/app/finite_width/sa.py"]}
{"id": "C26", "title": "merge_contraction_paths performs all given contractions", "statement": "Merging disjoint paths yields a path that performs exactly the contractions of every input path in order (on the same tensors); with autocomplete it is a complete path of n_tensors-1 steps leaving one tensor; paths touching a common tensor raise ValueError.", "quantifier": "every number of tensors, every list of pairwise disjoint valid paths", "why_tests_cant": "Positions shift with each pop; correctness for all interleavings needs an invariant.", "anchors": ["tnco/utils/tn.py: merge_contraction_paths"]}
{"id": "C27", "title": "split_contraction_path splits into connected components", "statement": "split_contraction_path returns one path per connected component which performs exactly the contractions of the input path that belong to the component, in order; the returned components partition the tensors; merging the split paths performs the same contractions as the input.", "quantifier": "every number of tensors and every valid path, both values of normalize_paths", "why_tests_cant": "Colour merging and re-indexing over arbitrary paths.", "anchors": ["tnco/utils/tn.py: split_contraction_path"]}
{"id": "C28", "title": "get_random_contraction_path returns valid connected paths", "statement": "For each connected component the returned path is a valid linear path that contracts all tensors of the component into one, each step between tensors sharing an index; the merged path with autocomplete has n_tensors-1 steps.", "quantifier": "every network and every random choice", "why_tests_cant": "For every seed and every network.", "anchors": ["tnco/utils/tn.py: get_random_contraction_path"]}
{"id": "C29", "title": "Einsum symbols are unique and printable", "statement": "get_symbol maps different integers to different characters, never to a surrogate code point; get_einsum_subscripts uses the same symbol for two occurrences exactly when they are the same index.", "quantifier": "every natural number in range; every list of index lists", "why_tests_cant": "55156..55295 are never tried.", "anchors": ["tnco/utils/tn.py: get_symbol, get_einsum_subscripts", "tnco/utils/tensor.py: get_einsum_subscripts"]}
{"id": "C30", "title": "fuse respects its bounds", "statement": "fuse returns a valid path; every fused tensor has width at most max_width; no contracted tensor contains an excluded index; every step contracts tensors sharing an index; contracting along the path gives exactly the reported fused indices, and no output index disappears.", "quantifier": "every network, dims, max_width, output and exclude sets, every random choice", "why_tests_cant": "For every seed and network.", "anchors": ["tnco/utils/tn.py: fuse"]}
{"id": "C31", "title": "Hyper-index decomposition preserves the network", "statement": "decompose_hyper_inds returns arrays and indices whose network contracts to the same value as the original once merged indices are identified through hyper_inds_map.", "quantifier": "every array and index list (exact comparison)", "why_tests_cant": "For all arrays, including constant-diagonal and permutation-like tensors.", "anchors": ["tnco/utils/tensor.py: decompose_hyper_inds, is_diagonal", "tnco/utils/tn.py: decompose_hyper_inds"]}
{"id": "C32", "title": "OrderedFrozenSet is a set with first-occurrence order", "statement": "Iteration yields each element once in order of first occurrence; union, intersection, difference and symmetric difference are the set operations in the documented order; == agrees with set equality; equal objects have equal hashes.", "quantifier": "all sequences of elements", "why_tests_cant": "Laws for all sequences.", "anchors": ["tnco/ordered_frozenset.py: OrderedFrozenSet"]}
{"id": "C33", "title": "Circuit simplification preserves the operator", "statement": "Loading a circuit with simplify=True cancels gates only when the resulting product of operators is the original one up to a scalar; every qubit of the circuit is still present.", "quantifier": "every circuit of unitary gates, any commutation test that is sound", "why_tests_cant": "Chains of commutations and cancellations of any length.", "anchors": ["tnco/utils/circuit.py: load, commute, same"]}
{"id": "C34", "title": "The tensor network of a circuit represents its amplitudes", "statement": "The network built from a circuit contracts to the amplitude <final|U|initial> for closed qubits and to the operator entries for open ones; every internal wire index occurs exactly twice, every boundary index exactly once.", "quantifier": "every circuit, every choice of open/closed boundary", "why_tests_cant": "For circuits of every length and connectivity.", "anchors": ["tnco/utils/circuit.py: load"]}
{"id": "C35", "title": "Circuit sampling draws from the exact distribution", "statement": "The bitstring produced gate by gate is distributed according to the Born probabilities of the circuit's output state.", "quantifier": "every circuit of one-qubit unitaries and classical (permutation with phases) gates", "why_tests_cant": "A statement about distributions; tests only compare histograms.", "anchors": ["tnco/app/circuit/sampling.py: Sampler, is_classical_operation"]}
{"id": "C36", "title": "Parallel runs keep results aligned with arguments", "statement": "Parallel returns, for each i, the result of the core function on the i-th tuple of arguments, regardless of scheduling; the timeout only sets stop flags.", "quantifier": "all completion orders, all argument lists", "why_tests_cant": "All interleavings of worker completions.", "anchors": ["tnco/parallel.py: Parallel, Buffer"]}
{"id": "C37", "title": "read_inds inverts the index map", "statement": "read_inds returns a tensor map in which tensor t has index i exactly when i's entry lists t (in order), the dims as listed, and the output/sparse sets given by the tokens.", "quantifier": "every index map and tokens", "why_tests_cant": "For all maps.", "anchors": ["tnco/utils/tn.py: read_inds"]}
{"id": "C38", "title": "TensorNetwork construction validates consistency", "statement": "A constructed TensorNetwork has one dimension per index agreed by all tensors, output and sparse indices among its indices, and the default output indices are exactly those that occur once; inconsistent input raises.", "quantifier": "every list of tensors", "why_tests_cant": "For all inputs.", "anchors": ["tnco/app/tn.py: Tensor, TensorNetwork"]}
{"id": "C39", "title": "Results for disconnected networks are faithful", "statement": "The result of an optimization of a disconnected network has a path performing the component paths and then joining everything, its cost is the cost of that path, and slicing `slices` makes the entire contraction given by `path` fit within max_width.", "quantifier": "every network with any number of components", "why_tests_cant": "Depends on interplay of components; tests use connected networks.", "anchors": ["tnco/app/finite_width/sa.py: Optimizer", "tnco/app/infinite_memory/sa.py: Optimizer"]}
{"id": "C40", "title": "Optimization results are sorted, best first", "statement": "optimize(n_runs=k) returns the k results sorted by their cost, so no result has a lower cost than the first. (How far the cost in a result can be from the number of operations is C50.)", "quantifier": "every list of run results", "why_tests_cant": "For all result lists and completion orders.", "anchors": ["tnco/app/app.py: BaseOptimizer.optimize"]}
{"id": "C41", "title": "Loading a list of indices gives the network it describes", "statement": "load_tn of a list of (dimension, names) raises unless the tokens differ and every index has a positive dimension and a tensor; otherwise (before fusing) the network has one tensor per name, with exactly the indices whose entries list it, the listed dimensions, and the output and sparse indices marked by the tokens.", "quantifier": "every list of (dimension, names) and every pair of tokens", "why_tests_cant": "For all lists, including repeated names and indices that occur only with tokens.", "anchors": ["tnco/app/app.py: load_tn", "tnco/utils/tn.py: read_inds", "tnco/app/tn.py: TensorNetwork"]}
{"id": "C42", "title": "Buffer behaves as a fixed-length Python list", "statement": "A Buffer made from a non-empty sequence holds its values; reading and writing at a position in range (negative positions count from the end) reads or changes exactly that element, and any other position raises; an empty buffer cannot be made.", "quantifier": "every sequence, position and value, and every struct format", "why_tests_cant": "For all positions (including negative) and formats of any size.", "anchors": ["tnco/parallel.py: Buffer"]}
{"id": "C43", "title": "Python contraction trees survive pickling and leave the optimizer intact", "statement": "Pickling and unpickling a ContractionTree gives an equal tree, however Python lists its sets of indices. The properties ctree and min_ctree of an optimizer never raise and are the optimizer's current and best trees with the tensor and index names of the tree it was given.", "quantifier": "every tree built from a path, every order of sets, every history of updates, infinite memory and finite width", "why_tests_cant": "For all trees, iteration orders of sets and optimization histories.", "anchors": ["tnco/ctree.py: ContractionTree.__init__, __reduce__, __build__", "tnco/optimize/infinite_memory/optimizer.py: Optimizer.ctree, min_ctree, __get_ctree__", "tnco/optimize/finite_width/optimizer.py: Optimizer.ctree, min_ctree"]}
{"id": "C44", "title": "Loading, optimizing and contracting a circuit gives its amplitudes and its samples", "statement": "For every circuit, the network returned by load, contracted along the path returned by optimize, gives a single tensor whose indices are the open ends of the qubits and whose entries are the amplitudes of the circuit (up to one common phase if gates were simplified). With a limited width, contracting the network sliced at every value of the returned slices along the returned path, and summing, gives the same amplitudes. sample, which uses these paths, draws bitstrings independently from the Born distribution.", "quantifier": "every circuit, initial and final state, option of load, seed, temperature schedule, acceptance rule, time limit, max_width and iteration order of sets", "why_tests_cant": "Composition of randomised stages; for all circuits, seeds and stopping points.", "anchors": ["tnco/utils/circuit.py: load", "tnco/app/infinite_memory/sa.py: Optimizer.optimize", "tnco/app/finite_width/sa.py: Optimizer.optimize", "tnco/utils/tn.py: contract", "tnco/app/circuit/sampling.py: sample"]}
{"id": "C45", "title": "Costs that are rounded do not drift, and rounding never touches the trees", "statement": "With any cost type (float, double, long double or a fixed number of bits), an infinite-memory optimizer never fails during updates, and its current and best contraction trees stay trees of the same network with exact indices. After any number of updates the reported total cost equals the true cost of the current tree up to a relative error that depends only on the size of the network, not on the number of updates; likewise the recorded minimum, which never increases. is_valid accepts the state if its tolerance is at least this error. If every number stays below the largest integer that the type represents exactly, the run is the same, move by move, as in exact arithmetic. An optimizer that is pickled and restored has the same trees, generator and settings.", "quantifier": "every contraction tree, cost model, rounding of the given accuracy, seed, acceptance rule and number of updates", "why_tests_cant": "Accumulation of rounding errors over arbitrarily long runs; tests compare with a tolerance after a few hundred updates.", "anchors": ["include/tnco/optimize/infinite_memory/optimizer.hpp: update, is_valid", "include/tnco/optimize/infinite_memory/utils.hpp: CostCache, get_cost", "include/tnco/optimize/infinite_memory/cost_model/simple.hpp: get_cost, contraction_cost", "include/tnco/utils.hpp: is_logclose", "tnco/optimize/infinite_memory/optimizer.py: __reduce__"]}
{"id": "C46", "title": "svd splits a tensor into three tensors that join to it", "statement": "svd applied to a tensor and a non-empty proper part of its indices returns three tensors: the first has the given indices, in the given order, and one new index, the second the new index only, the third the new index and the remaining indices. The new index is the one the caller named, or otherwise one that the tensor does not have. Summing the product of the three over the new index gives the tensor back if the threshold drops zeros only; in general every entry is off by at most the threshold times the number of dropped singular values, and every kept singular value is at least the threshold. With nothing on one side the result is the tensor itself with its indices in the given order. A wrong number of indices, an unknown index on the left or a name that is taken raise. svd returns for every tensor and seed.", "quantifier": "every tensor over every commutative semiring (the error bound: over the reals), every part of its indices, threshold, seed and matrix decomposition", "why_tests_cant": "Tests try a few random shapes and seeds; the index bookkeeping has to be right for every number, order and size of indices, and a collision of random names is never drawn in a test.", "anchors": ["tnco/utils/tensor.py: svd"]}
{"id": "C47", "title": "load_tn keeps the meaning of a tensor network", "statement": "load_tn applied to a TensorNetwork with arrays returns a TensorNetwork that stands for the same tensor, whatever the options fuse and decompose_hyper_inds: at every value of the outputs the two agree, where an output that was merged with others is replaced by the index it was merged into, and the original is zero where merged outputs have different values. The dimensions and the sparse indices are kept. Fusing never makes a tensor wider than asked, records its path, and each fused tensor carries the indices and tags of the tensors it was made of. With sparse indices, or with arrays for some tensors only, the tensors are unchanged. Loading, then optimizing with any method, seed and number of steps, and contracting along the path found (slice by slice if there is a limit on the width) gives the tensor of the original network.", "quantifier": "every tensor network without an index twice in a tensor, all options, seeds, set orders, schedules and commutative semirings of entries", "why_tests_cant": "Tests load a few random networks; the claim composes decomposition, fusing, optimization, slicing and contraction, for every network and every random choice in between.", "anchors": ["tnco/app/app.py: load_tn", "tnco/app/tn.py: TensorNetwork", "tnco/app/app.py: Optimizer.optimize"]}
{"id": "C48", "title": "A string that lists indices is read as that list", "statement": "load_tn applied to a string whose lines are 'dimension name name ...', blank, or comments starting with '#', gives what it gives for the Python list of these dimensions and names: a tensor for each name with the indices whose lines list it, the listed dimensions, and the output and sparse indices marked by the tokens. The kind of white space, trailing spaces, blank lines, comments and the kind of line ends do not matter. Conversely every string that is read as a list of indices spells out exactly the list that is loaded, and a string that is passed on to the readers of files and JSON, or read as QASM, spells out none. Lines must not be indented, and at least one line must not be empty.", "quantifier": "every string, every assignment of characters to spaces, digits and line ends that agrees with Unicode, every pair of tokens", "why_tests_cant": "Tests contain a few strings; the regular expressions have to accept all and only the lists, for all layouts.", "anchors": ["tnco/app/app.py: load_tn"]}
{"id": "C49", "title": "Rounding neither spoils trees and slices nor accumulates in costs and widths", "statement": "The finite-width optimizer computes costs and widths in floating-point types. Whatever the rounding, a session ends with the same tensors and output, both trees are valid, and indices in skip_slices are never sliced; the recorded minimum never increases and is the reported cost at the end of some update. If every operation has a small relative error, the reported cost and the recorded minimum are close to the exact costs of the trees with their slices, with an error that does not grow with the number of updates; if every operation on widths has a small error, each sliced tensor exceeds max_width by at most a stated multiple of it. While slices are not changed, all widths fit as the program computes them, is_valid holds within the tolerance, and a pickled optimizer can be restored.", "quantifier": "every tree, cost model, rounding, seed, acceptance rule, shuffle, number of updates and choice of update_slices and max_number_new_slices", "why_tests_cant": "Tests run some networks with dimension 2, for which widths are exact; rounding errors show up only for particular dimensions and histories.", "anchors": ["include/tnco/optimize/finite_width/greedy/optimizer.hpp: Optimizer", "include/tnco/optimize/finite_width/greedy/utils.hpp: get_slices", "include/tnco/optimize/finite_width/cost_model/simple.hpp", "include/tnco/optimize/finite_width/cost_model/simple_sparse_inds.hpp", "tnco/optimize/finite_width/optimizer.py: Optimizer"]}
{"id": "C50", "title": "The costs that Python sees are the costs of the trees up to six digits", "statement": "total_cost, min_total_cost and the costs in the results of optimize are written by the C++ code as decimal strings. With a cost type of the machine the value is the nearest number with six significant digits to the cost of the tree, exact below a million; with float1024 it is exact. min_total_cost as Python sees it never increases and is at most total_cost at the end of every update. The cost in a result is the cost of its path with a relative error of at most 1/199999, results are sorted by these costs, and the first result costs at most 1.00001 times as much as any other run. (That total_cost is exact, that the first result is the cheapest, and that the sum over components is exact with float1024 are refuted.)", "quantifier": "every tree, cost model, cost type, history of updates; every network of at most 10^15 tensors, random generator, schedule, number of runs", "why_tests_cant": "Tests use networks whose costs have few digits, where nothing is rounded.", "anchors": ["include/tnco/globals.hpp: to_string", "include/tnco/fixed_float.hpp: to_string", "include/tnco/optimize/infinite_memory/optimizer.hpp: init (total_cost, min_total_cost)", "include/tnco/optimize/finite_width/greedy/optimizer.hpp: init (total_cost, min_total_cost)", "tnco/app/infinite_memory/sa.py: Optimizer.optimize", "tnco/app/finite_width/sa.py: Optimizer.optimize"]}
{"id": "C51", "title": "Dumping results touches only the named file, and leaves it whole", "statement": "dump_results changes no file but the one it names, and changes nothing without a file name, with check_only, when an argument is rejected, or when the JSON text cannot be made. A file that exists is never changed by calls without overwrite_output_file. A call that returns None has written the whole output, compressed as its arguments or the extension of the file ask; at any time, also after a crash, the file is as it was or holds a prefix of the output. load_file reads a JSON output back, whatever the compression. (That load_file reads raw results, that a crash or an object that cannot be pickled keeps the old content, that two calls without overwrite cannot both write the file, and that compression without a file name is an error are refuted.)", "quantifier": "every set of concurrent calls with any arguments, every interleaving of their steps, every crash point and size of write, every initial content of the files; every compression library that decompresses what it compressed", "why_tests_cant": "A test sees one call that runs to its end; crashes and other processes come between any two steps.", "anchors": ["tnco/app/app.py: dump_results", "tnco/app/app.py: load_file", "tnco/app/app.py: BaseOptimizer.__post_init__"]}
{"id": "C52", "title": "The JSON output can be read back without loss", "statement": "The text that dump_results and to_json write is JSON in printable ASCII: json.loads reads it back, and finds the indices, dimensions, arrays, tags, output and sparse indices of the network and the cost, runtime, paths and slices of every result, in order and unchanged, with ints of any size, any float including infinities and NaN, and any string without a split surrogate pair. Different values have different texts. (Keys of tags that are not strings become strings and can collide, and surrogate pairs are joined: refuted.)", "quantifier": "every network, list of results, array and tag, and every value made of None, booleans, ints, floats, strings, lists and dicts, of any size and depth", "why_tests_cant": "Tests write a few networks with short names; escapes, large numbers and nested tags are endless.", "anchors": ["tnco/app/tn.py: JSONEncoder", "tnco/app/tn.py: Tensor.to_json", "tnco/app/tn.py: TensorNetwork.to_json", "tnco/app/app.py: JSONEncoder", "tnco/app/app.py: dump_results", "tnco/app/infinite_memory/sa.py: JSONEncoder", "tnco/app/finite_width/sa.py: JSONEncoder"]}
{"id": "C53", "title": "FixedFloat arithmetic is correctly rounded and comparisons follow the numbers", "statement": "For numbers of p bits, the sum, difference, product and quotient is the exact result rounded to the nearest number of p bits, ties to even; results never overflow; NaN and infinities appear exactly where IEEE 754 says; the six comparisons order the numbers, with the infinities. A Python float as the other operand, on either side, stands for its own value. Whole numbers behave as the rounded costs of the optimizers. (Refuted: ints above 2^53 lose digits or raise; x += y changes other names of the same object; a NaN equals everything; == raises TypeError for other objects; isinf and signbit answer isnan.)", "quantifier": "every precision, operator, pair of numbers of that precision, Python float and int, and every set of names bound to objects", "why_tests_cant": "Tests compare a few random numbers; correct rounding concerns every pair of 1024-bit numbers, ties and exponents.", "anchors": ["include/tnco/fixed_float.hpp: FixedFloat", "include/tnco/fixed_float.hpp: init", "include/tnco/globals.hpp: float1024"]}
{"id": "C54", "title": "FixedFloat texts and conversions keep the number", "statement": "Pickling a FixedFloat and unpickling it gives the same number. A decimal string gives the nearest number of the precision. str(x) and format(x, '.df') write x correctly rounded to their decimals, and FixedFloat(str(x)) is x if these decimals suffice. A width with fill and alignment pads as Python does. float(FixedFloat(d)) is d for every float, and no float lies between x and float(x). (Refuted: strings that are no numbers are refused; float(x) is the nearest float; FixedFloat(str(x)) is x for small x; zero padding and '=' alignment.)", "quantifier": "every precision, number of that precision, decimal string, float, format with sign, fill, alignment, width, precision and type", "why_tests_cant": "Tests print and pickle some random numbers; ties, long exponents and every format cannot be enumerated.", "anchors": ["include/tnco/fixed_float.hpp: FixedFloat", "include/tnco/fixed_float.hpp: to_string", "include/tnco/fixed_float.hpp: dump", "include/tnco/fixed_float.hpp: init"]}
{"id": "C55", "title": "The temperatures of a run follow the requested schedule", "statement": "optimize(betas=(b0, b1), n_steps=n) with different floats b0 and b1 makes at most n updates for every component: the first one at b0, then moving from b0 towards b1 without turning back and without reaching b1, the k-th one at b0 + k (b1 - b0) / n up to rounding; exactly n if one step is larger than 2^-50 (|b0| + |b1|). A stopped run has used the first of them. Other sequences are used as they are, up to n_steps. n_steps that is not positive, two betas without n_steps and equal betas raise. (Refuted: betas[1] is used; n updates are made whatever the betas; an infinite betas[1] is refused or used; any iterable works.)", "quantifier": "every pair of floats whose difference is in the range of normal floats, number of steps up to 2^53, number of steps before the stop flag, and every sequence of floats", "why_tests_cant": "Tests run (0, 100) and (0, 1e3); whether float rounding adds or loses a step, or turns the schedule back, depends on every pair of floats and every n.", "anchors": ["tnco/app/infinite_memory/sa.py: Optimizer.optimize", "tnco/app/finite_width/sa.py: Optimizer.optimize"]}
{"id": "C56", "title": "A contraction tree reports the indices, dimensions and widths of its tensors", "statement": "For a tree made from a path, and for optimizer.ctree and optimizer.min_ctree after any number of updates: all_inds() is the set of indices of the contracted tensors; inds[k] is the set of indices that the tensor of node k has, namely those that occur below it and in another tensor or as an output index; output_inds() is the set of output indices that occur; dims maps exactly the indices that occur to their dimensions; max_width() is the logarithm of the number of entries of the largest tensor of the tree, no tensor of the tree being larger.", "quantifier": "every list of tensors, path, dimensions, output indices, optimizer, cost model and history of updates", "why_tests_cant": "Tests compare the views of random trees with a second implementation; after moves the views depend on the whole history of exchanges.", "anchors": ["tnco/ctree.py: ContractionTree.all_inds, output_inds, inds, dims, max_width", "tnco/optimize/infinite_memory/optimizer.py: Optimizer.ctree, min_ctree", "tnco/optimize/finite_width/optimizer.py: Optimizer.ctree, min_ctree"]}
{"id": "C57", "title": "load_tn recognises what it is given", "statement": "load_tn reads each documented format as what it is: a TensorNetwork; a list of indices; a list of gates (matrix, qubits); a text that lists indices; a QASM text; '-' as the content of the standard input; the name of a file as the content of the file; a JSON text as the value it denotes. It reads a list as indices only if every element looks like an index, as gates only if every element looks like a gate, and raises TypeError for everything else.", "quantifier": "every object, text, content of the standard input and of the file system, and every nesting of files and texts", "why_tests_cant": "Tests load a few instances of each format; which reader is chosen depends on the whole object, on the files that happen to exist, and on every text that could be one format or another.", "anchors": ["tnco/app/app.py: load_tn"]}
{"id": "C58", "title": "Parallel gives back the shared memory and the thread it takes", "statement": "However the threads interleave, when Parallel returns or raises, no shared memory segment that it made exists any more and no thread of it keeps Python from exiting; while the cores run, all buffers exist and are different; once the timeout has passed, every stop flag gets set.", "quantifier": "every number of runs, list of buffers, timeout or none, interleaving of the main thread with the timer, moment at which a core raises or the system refuses a segment", "why_tests_cant": "Leaks and threads that stay alive show only for particular interleavings and failures; tests check results of calls that succeed.", "anchors": ["tnco/parallel.py: Parallel, Buffer"]}
{"id": "C59", "title": "The search can reach every contraction tree", "statement": "From every state of a session of the infinite-memory optimizer and with every acceptance rule that gives every move a positive probability (Metropolis-Hastings at any temperatures is one), the updates can arrive at every valid contraction tree of the same network: there are a number of updates and values of the generator that lead there, the cost of the session is then the cost of that tree, and the minimum reported is at most that.", "quantifier": "every network, start tree, earlier history, target tree (with or without shared indices enforced), cost model, acceptance rule with positive probabilities, which may change with every update", "why_tests_cant": "That no part of the space of trees is cut off is a statement about all pairs of trees of all sizes; a run that does not find a tree does not show that it could not be found.", "anchors": ["include/tnco/optimize/infinite_memory/optimizer.hpp: update", "include/tnco/optimize/prob/mh.hpp", "include/tnco/ctree.hpp: swap_with_nn"]}
{"id": "C60", "title": "The seed determines the results", "statement": "Two optimizers made with the same seed, on which the same calls of optimize are made in the same order, give the same loaded networks and the same lists of results, or raise the same exceptions, however the processes of the runs are scheduled and whatever the hashes of a Python session are, as long as no run is stopped by the timeout.", "quantifier": "every seed, generator, acceptance rule, sequence of calls with any networks and arguments, schedule of the processes, order in which sets list their elements", "why_tests_cant": "It compares all pairs of schedules and of set orders; a test runs in one Python session, where the hashes are the same throughout, and the scheduler repeats itself.", "anchors": ["tnco/app/app.py: BaseOptimizer.__post_init__, load_tn", "tnco/app/infinite_memory/sa.py: Optimizer.optimize", "tnco/app/finite_width/sa.py: Optimizer.optimize", "tnco/utils/tn.py: contract, get_random_contraction_path", "tnco/parallel.py: Parallel"]}
{"id": "C61", "title": "More runs and more steps never give worse results", "statement": "With the same seed and a larger number of runs, optimize returns all the results that fewer runs give and some more, and the first is no more expensive. With the same temperatures and further ones after them, the best result is no more expensive than before, nor is the second best compared with the second best, and so on. A timeout never makes a result cheaper.", "quantifier": "every seed, network, number of runs, list of temperatures and continuation of it, schedule of the processes, moment at which the timeout cuts the shorter call short", "why_tests_cant": "It relates pairs of calls of any size under different schedules; a regression in one of the seeds drawn would show up as a slightly worse random result.", "anchors": ["tnco/app/infinite_memory/sa.py: Optimizer.optimize", "tnco/app/finite_width/sa.py: Optimizer.optimize", "include/tnco/optimize/infinite_memory/optimizer.hpp: update", "include/tnco/optimize/finite_width/greedy/optimizer.hpp: update"]}
{"id": "C62", "title": "get_connected_components returns the connected components", "statement": "get_connected_components returns a partition of the positions of the given tensors, in which two tensors are in the same part exactly when one can be reached from the other by tensors that share an index.", "quantifier": "every list of tensors with any indices", "why_tests_cant": "Components merge in an order that depends on how the indices are distributed over the whole list; a slip in merging shows only for particular chains of merges, and the tests use this very function to check the networks they generate.", "anchors": ["tnco/testing/utils.py: get_connected_components"]}
{"id": "C63", "title": "Random networks for tests have the shape that was asked for", "statement": "generate_random_tensors returns n_tensors*n_cc tensors that are all different, without repeated indices, with n_inds*n_cc different indices; n_output_inds*n_cc of them are output indices, which belong to 1 or k-1 tensors, and all others belong to exactly k; and the network has exactly n_cc connected components of n_tensors tensors each. If the indices cannot connect the tensors it raises ValueError, and none of its own assertions ever fails. generate_random_inds returns the given number of different names.", "quantifier": "every number of tensors, indices, outputs, components and k, every behaviour of the random generator, every order of sets, renamed or not", "why_tests_cant": "The generator is what the other tests draw their inputs from; whether all its outputs have the promised shape depends on every sequence of draws.", "anchors": ["tnco/testing/utils.py: generate_random_tensors, generate_random_inds"]}
{"id": "C64", "title": "The names of indices do not matter", "statement": "If the indices of a network are given other, still different names, everywhere, then with the same seed optimize returns the same paths and costs, the same sliced indices under their new names, and as the loaded network the same network with the new names; it raises exactly when it raised before. contract returns the same arrays.", "quantifier": "every one-to-one renaming, every network, every arguments, every sequence of calls on an optimizer, every schedule of the processes and timeout, every seed", "why_tests_cant": "Names are compared, hashed, sorted and looked up in many places of the pipeline; a place where a name breaks a tie changes results only for particular networks with particular names.", "anchors": ["tnco/app/tn.py: load_tn, make_tensor_network", "tnco/utils/tn.py: fuse, contract, decompose_hyper_inds, get_random_contraction_path", "tnco/ctree.py: ContractionTree", "tnco/optimize/infinite_memory/optimizer.py: Optimizer", "tnco/optimize/finite_width/optimizer.py: Optimizer", "tnco/app/app.py: BaseOptimizer, InfiniteMemoryOptimizer, FiniteWidthOptimizer", "tnco/utils/tensor.py: tensordot"]}
{"id": "C65", "title": "is_valid_contraction_tree tells whether a tree belongs to a network", "statement": "is_valid_contraction_tree(ctree, ts_inds, dims, output_inds, hyper_count, check_shared_inds) returns True if and only if ctree is a contraction tree of the network: its leaves are the tensors, its indices have the given dimensions, and every node has exactly the indices that occur below it and are still needed, in a tensor elsewhere or as an output (and, if check_shared_inds, contracted tensors always share an index). ContractionTree makes trees that it accepts.", "quantifier": "every ContractionTree object, also after any moves of its nodes; every network, dimensions, output indices; every order of iteration of the sets", "why_tests_cant": "The tests use this function as their judge of every other test: for each accepted tree only the function itself says that it is right, and a wrong tree it would accept never shows.", "anchors": ["tnco/testing/utils.py: is_valid_contraction_tree", "tnco/ctree.py: ContractionTree.__eq__, __reduce__, swap_with_nn, is_valid, inds, dims", "include/tnco/ctree.hpp: ContractionTree::is_valid", "include/tnco/tree.hpp: Node::operator=="]}
{"id": "C66", "title": "With a bound on the width the search still has no traps", "statement": "From every state of a finite-width optimization, whatever was done before, and for every valid contraction tree of the same tensors, some sequence of draws leads in finitely many updates to that contraction order, with slices with which it fits, at its cost with these slices; the best cost found is then at most that. This holds for every acceptance rule that gives every move a positive probability.", "quantifier": "every contraction tree and session, every target tree, every rule with positive probabilities (it may change at every update), every shuffle of the candidate slices, every choice of update_slices", "why_tests_cant": "A run that does not find a tree says nothing about whether it could; only an argument over all trees and all moves excludes traps, and the bound on the width removes moves.", "anchors": ["include/tnco/optimize/finite_width/greedy/optimizer.hpp: Optimizer::update", "include/tnco/optimize/finite_width/greedy/utils.hpp: get_slices", "tnco/optimize/finite_width/optimizer.py: Optimizer", "include/tnco/optimize/utils.hpp: get_ctree_nn"]}
{"id": "C67", "title": "Comparing tensors and networks tells whether they are the same", "statement": "t == u for two tensors is True exactly if they have the same indices and dimensions and either no arrays or arrays whose entries differ by less than the tolerance everywhere; it is an equivalence and never raises. n == m for two networks is True exactly if they have as many tensors, equal in the same order, the same output and sparse indices and equal tags; equal networks stand for the same tensor.", "quantifier": "every pair of tensors and networks that the constructors accept, every type of entries and tolerance, objects that are shared between the networks or not", "why_tests_cant": "tests compare a few tensors with themselves or with a copy; arrays of other shapes, entries near the tolerance or not finite, and networks of different lengths are never compared", "anchors": ["tnco/app/tn.py: Tensor.__eq__", "tnco/app/tn.py: TensorNetwork"]}
{"id": "C68", "title": "The seed of a Sampler determines its samples", "statement": "Two Samplers made with the same seed and given the same sequence of calls return the same bitstrings, counts and exceptions, whatever paths the optimizer finds, whatever the unseeded loading does, and whatever options for the networks are passed. What a call returns depends on its own arguments, the seed and the number of earlier calls only. Sampling from a returned intermediate state gives what sampling its circuit gives. Another qubit_order only reorders the bits. A finite max_width is refused.", "quantifier": "every seed, sequence of calls (circuits, intermediate states, refused calls), circuit of unitary gates, path found, generator in load, option, order of iteration of sets", "why_tests_cant": "a test runs a few sessions in one process, where the paths and the order of sets happen to be the same; a dependence on them shows only for other paths, options or processes", "anchors": ["tnco/app/circuit/sampling.py: Sampler", "tnco/app/circuit/sampling.py: sample", "tnco/app/circuit/sampling.py: SamplingIntermediateState"]}
{"id": "C69", "title": "Circuits of Cirq and Qiskit are read as those libraries define them", "statement": "Loading a circuit of Cirq or Qiskit gives a network for the amplitudes that the library's own conventions give the circuit, up to a phase, and exactly those without simplify: the order of operations within a moment does not matter, the matrix of a Qiskit gate has its first qubit as the least significant bit, and the global phase of a Qiskit circuit counts. Sampling such a circuit gives bitstrings with the probabilities of the circuit with its measurements. An operation without a unitary that is not a measurement is refused.", "quantifier": "every circuit of Cirq or Qiskit, pair of initial and final states, set of options, order of iteration, path, number of samples", "why_tests_cant": "the tests compare with a simulation that reads the matrices of Qiskit in the same order as the code, so they cannot notice that the order is wrong; measurements in the middle and global phases need circuits that the tests do not draw", "anchors": ["tnco/utils/circuit.py: cirq_to_arrays", "tnco/utils/circuit.py: qiskit_to_arrays", "tnco/utils/circuit.py: load", "tnco/app/circuit/sampling.py: sample"]}
{"id": "C70", "title": "Costs that are too large for the cost type do no lasting harm", "statement": "When the cost of a tree is too large for the cost type, no update fails: the current and the best tree stay valid trees of the given network; the reported cost is about that of the current tree, or infinite if and only as long as that is too large, and never NaN; the cost of the best tree is finite, never increases and is at most every finite cost reported so far; an acceptance rule that refuses infinite increases never leads to a contraction whose cost is too large. The optimizer stays valid and can be pickled and restored, the acceptance rule is given the difference of the costs, and a wider cost type allows larger costs.", "quantifier": "every network, cost model and start for which an optimizer can be made, every sequence of updates, every generator and acceptance rule, every precision and range of the cost type", "why_tests_cant": "Overflow needs networks whose costs are beyond 2^128 or 2^1024 and a path through trees of infinite cost; infinities and NaN then go through sums and differences in an order that depends on the random moves.", "anchors": ["include/tnco/optimize/infinite_memory/optimizer.hpp: Optimizer::update, is_valid", "include/tnco/optimize/infinite_memory/utils.hpp: CostCache, get_cost", "include/tnco/optimize/infinite_memory/cost_model/simple.hpp: get_cost", "include/tnco/optimize/infinite_memory/cost_model/simple_sparse_inds.hpp: get_cost", "include/tnco/utils.hpp: is_logclose", "include/tnco/optimize/finite_width/greedy/optimizer.hpp: Optimizer::update, is_valid", "include/tnco/optimize/finite_width/cost_model/simple.hpp: contraction_cost"]}
{"id": "C71", "title": "An optimizer delivers the results of every call, however its output is configured", "statement": "Optimizer(...) raises exactly if the method does not exist or the options for the output are not as documented or the file may not be written, before any work is done. Without max_width, or with infinity, its results are those of the infinite-memory optimizer, with a number those of the finite-width optimizer with that bound. The format, the file, the compression and the number of jobs do not change the results: each call of optimize delivers (as objects, text or in the file) what an optimizer that returns its results gives at that call, and raises where that one raises. Options of a wrong value are reported when the optimizer is made, and no result is lost. The command line behaves as the optimizer with JSON output.", "quantifier": "all options, all sequences of calls (some of which may fail), all schedules, all contents of the file system and what others do to it between the calls, all sizes of the pieces in which the output is written", "why_tests_cant": "What a call delivers depends on the calls before it through the generator and through the file that they wrote; tests make one call with one set of options.", "anchors": ["tnco/app/app.py: Optimizer, BaseOptimizer, dump_results", "tnco/app/infinite_memory/sa.py: Optimizer.optimize", "tnco/app/finite_width/sa.py: Optimizer.optimize", "tnco/app/cli.py: Main", "tnco/parallel.py: Parallel"]}
{"id": "C72", "title": "Equal trees, cost models and optimizers can take each other's place", "statement": "Comparing two optimizers never raises. They are equal exactly if one sees the same of them (tree, best tree, names of the indices, costs, slices, indices not to be sliced, state of the generator, disable_shared_inds) and their cost models are the same. Equal optimizers stay alike whatever updates are made to both. A copy made by pickle is equal to the original. Equal trees have the same contraction paths; cost models are equal exactly if they give the same costs for every tree.", "quantifier": "all trees built from paths, all cost models, all pairs of optimizers after any sequences of updates with any acceptance rules, all further sequences of updates", "why_tests_cant": "Equality looks at a part of the state; that the rest (caches, minima, widths) follows from it holds because of invariants of every history of updates.", "anchors": ["include/tnco/ctree.hpp: operator==", "tnco/ctree.py: ContractionTree.__eq__", "tnco/optimize/infinite_memory/cost_model.py: SimpleCostModel.__eq__", "tnco/optimize/finite_width/cost_model.py: SimpleCostModel.__eq__", "tnco/optimize/infinite_memory/optimizer.py: Optimizer.__eq__, __reduce__, __build__", "tnco/optimize/finite_width/optimizer.py: Optimizer.__eq__, __reduce__, __build__"]}
{"id": "C73", "title": "The cost functions of a cost model, called with names of indices, agree with each other and with the optimizers", "statement": "contraction_cost, width and delta_width depend only on the sets of the given indices, whatever their order and repetitions, the order of the dimensions and of the sparse indices. contraction_cost is the number of values that the indices of the two tensors (and the slices) take together, sparse ones at most as many as there are projections. width is the sum of the logarithms, bounded likewise. delta_width is the width without the index minus the width with it. They raise ValueError if a dimension is missing or the result has an index of neither tensor, and otherwise do not raise. The total and minimum cost of an optimizer after any updates are the sums of contraction_cost over the contractions of its trees, and without the slices no tensor of them has a width over the maximum. The constructor of the finite-width optimizer raises exactly if the part of some tensor that may not be sliced has a width over the maximum.", "quantifier": "all cost models, all lists of indices with repetitions, all dictionaries of dimensions and integers, all optimizers after any sequence of updates", "why_tests_cant": "The indices are ranked in the order in which they are first seen, which differs from the order of the optimizer for every call; the equality of the costs must hold for every order, repetition and tree.", "anchors": ["tnco/optimize/infinite_memory/cost_model.py: SimpleCostModel.contraction_cost, __get_core__", "tnco/optimize/finite_width/cost_model.py: SimpleCostModel.width, delta_width, contraction_cost, __get_core__", "tnco/optimize/infinite_memory/optimizer.py: Optimizer.total_cost, min_total_cost", "tnco/optimize/finite_width/optimizer.py: Optimizer.total_cost, min_total_cost, slices", "tnco/optimize/finite_width/optimizer.py: Optimizer.__init__ (skip_slices)"]}
{"id": "C74", "title": "The Metropolis-Hastings probability stays a probability under rounding", "statement": "For every cost type, beta >= 0 and positive cost, calling a MetropolisHastings object returns a number between 0 and 1, and 1 if the cost does not increase. A move is kept whatever the draw if the cost does not increase or beta <= 0. With a correctly rounded power, a move that is kept is also kept with a smaller beta, a smaller increase or a larger cost and the same draw. With float1024 the result is the exact (1 + delta/old)^-beta up to a factor (1+a)^-beta (1+b) with a and b below 2^-1022. For beta > 0 an increase of the cost can be both kept and rejected.", "quantifier": "all four cost types, all real beta, increases, costs and draws, all implementations of pow that return a number next to the exact power", "why_tests_cant": "Each call rounds three or four times and raises the result to an arbitrary power; the range and the order must survive for every real argument and format.", "anchors": ["include/tnco/optimize/prob/mh.hpp: Probability::operator()", "include/tnco/fixed_float.hpp: pow, operator/, operator+", "include/tnco/globals.hpp: float1024, EXPAND_COST_TYPE", "tnco/optimize/prob.py: MetropolisHastings"]}
{"id": "C75", "title": "traverse_tree calls a callback with effects once per node, children first, and passes its exception on", "statement": "traverse_tree calls the callback for each node exactly once, children before their parents, one call after the other, so that the state at the end is what these calls in this order make of it. If the callback raises, it is not called again and the exception is passed on; otherwise the progress ends at the number of nodes. This also holds if the callback swaps nodes of the tree that is being walked; in any case the walk ends, stays within the tree and makes at most as many calls as there are nodes.", "quantifier": "all well-formed trees, all callbacks with arbitrary effects on the state of the program, raising at any call", "why_tests_cant": "The callback runs in the middle of the walk and may do anything, at every position of every tree.", "anchors": ["tnco/ctree.py: traverse_tree", "include/tnco/utils.hpp: traverse"]}
{"id": "C76", "title": "Acceptance rules refuse moves whose cost overflows", "statement": "With a positive beta, neither Greedy nor MetropolisHastings keeps a move whose increase of the cost is infinite or not a number, whatever the current cost; both keep a move that does not increase it, also one from an infinite cost to a finite one. When the current cost is infinite, MetropolisHastings keeps every move with a finite difference; with beta = 0 it keeps all moves. Hence, as long as no drawn number is 0, no session of updates leads to a tree with a contraction of infinite cost.", "quantifier": "all cost types, betas, drawn numbers, differences and current costs, finite, infinite or NaN", "why_tests_cant": "Overflow needs networks that no test contains, and the result depends on each combination of infinities and NaN with every draw.", "anchors": ["include/tnco/optimize/prob/mh.hpp: Probability::operator()", "include/tnco/optimize/prob/greedy.hpp: Probability::operator()", "include/tnco/optimize/infinite_memory/optimizer.hpp: Optimizer::update", "include/tnco/optimize/finite_width/greedy/optimizer.hpp: Optimizer::update"]}
