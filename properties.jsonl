{"id": "C01", "title": "partial_product contracts exactly one axis", "statement": "Tensor.partial_product(A, i, B, j) returns the array whose axes are A's axes with axis i replaced, in place, by B's axes other than j, and whose entry is the sum over m of A[.. m at i ..] * B[.. m at j ..]; with B None it returns A unchanged. The second implementation in the file (reshape based) returns the same array for matrices.", "quantifier": "every array rank, every shape, every pair of axes with equal length, every scalar ring", "why_tests_cant": "the axis bookkeeping (tensordot followed by moveaxis) has to be right for every rank and position; tests pick one or two shapes", "anchors": ["minitn/tensor.py:Tensor.partial_product", "minitn/tensor.py:Tensor._partial_product", "minitn/tensor.py:Tensor.__partial_product"]}
{"id": "C02", "title": "One-axis operators commute and compose", "statement": "Applying matrices to two different axes of an array gives the same result in either order, and applying M then N to the same axis equals applying the matrix product M@N once; the identity matrix leaves the array unchanged. So the order in which the factors of a Hamiltonian term are applied cannot matter.", "quantifier": "every array, every pair of distinct axes, every pair of compatible matrices", "why_tests_cant": "an equality over all shapes and all entries", "anchors": ["minitn/tensor.py:Tensor.partial_product", "minitn/algorithms/ml.py:MultiLayer._single_eom"]}
{"id": "C03", "title": "partial_trace is the sum over all other axes", "statement": "Tensor.partial_trace(A, i, B, j) is the matrix whose (n, m) entry sums A[.. n at i ..] * B[.. m at j ..] over all the other axes; with i and j both None it is the full scalar product; with exactly one None it is rejected with TypeError.", "quantifier": "every pair of arrays with matching remaining axes, every pair of axes", "why_tests_cant": "depends on moveaxis/reshape being consistent between two arrays of arbitrary rank", "anchors": ["minitn/tensor.py:Tensor.partial_trace"]}
{"id": "C04", "title": "Network inner product equals the dense inner product", "statement": "For every tree tensor network, global_inner_product (and global_square) computed by recursive environments equals the sum over all leaf configurations of the product of the two amplitudes, where an amplitude is the plain sum over all bond indices of the product of tensor entries.", "quantifier": "every tree shape, every position of parent axes, all bond and leaf dimensions, all entries", "why_tests_cant": "the recursion visits an unbounded tree; tests use one small tree", "anchors": ["minitn/tensor.py:Tensor.partial_env", "minitn/tensor.py:Tensor.global_inner_product", "minitn/tensor.py:Tensor.global_square"]}
{"id": "C05", "title": "Expectation values use the operator acting on its 0-th index", "statement": "With one matrix on each of some leaves, matrix_element equals the sum over configurations s, s' of psi(s) * prod_l M_l[s_l, s'_l] * conj(psi)(s'), i.e. <psi|M^T|psi>. It equals the documented <psi|M|psi> for symmetric matrices, and differs from it for some Hermitian matrix.", "quantifier": "every tree, every assignment of leaf matrices, every pair of states", "why_tests_cant": "a convention error that is invisible for the real symmetric operators used in tests", "anchors": ["minitn/tensor.py:Tensor.matrix_element", "minitn/tensor.py:Tensor.expection", "minitn/algorithms/ml.py:MultiLayer.matrix_element"]}
{"id": "C06", "title": "Memoised environments are transparent after reset", "statement": "After reset() of all tensors, any sequence of partial_env queries (in any order, repeated any number of times) returns the same values as recomputing from the current arrays each time. Without reset() after set_array the old value is returned.", "quantifier": "every tree, every finite sequence of queries", "why_tests_cant": "quantifies over query histories", "anchors": ["minitn/tensor.py:Tensor.partial_env", "minitn/tensor.py:Tensor.reset", "minitn/tensor.py:Tensor.set_array"]}
{"id": "C07", "title": "Isometry shortcut in partial_env is sound", "statement": "When every tensor below a node is orthonormal along its parent axis and no leaf carries a matrix, the environment that partial_env skips (returns None for) is exactly the identity matrix, so the shortcut never changes a result; it is taken exactly when the tensor is flagged normalized, the queried axis is its parent axis and all child environments are None.", "quantifier": "every tree of isometric tensors", "why_tests_cant": "needs induction over the tree", "anchors": ["minitn/tensor.py:Tensor.partial_env"]}
{"id": "C08", "title": "vectorize and tensorize are mutually inverse", "statement": "tensorize(vectorize()) leaves every array of the network unchanged, and for a vector of the right total length vectorize() after tensorize(v) returns v; each tensor owns a contiguous slice in visitor order and no two slices overlap. A vector that is too long is accepted and its tail ignored.", "quantifier": "every network, every list of shapes, every vector", "why_tests_cant": "slice offsets accumulate over an arbitrary number of tensors", "anchors": ["minitn/tensor.py:Tensor.vectorize", "minitn/tensor.py:Tensor.tensorize", "minitn/algorithms/ml.py:MultiLayer.direct_step"]}
{"id": "C09", "title": "Linkages stay symmetric", "statement": "link(a, i, b, j) on free slots makes a[i] == (b, j) and b[j] == (a, i), touches nothing else and keeps every existing linkage symmetric; unlink removes exactly that pair, or raises and leaves everything unchanged (for (a, i) different from (b, j)). Linking over an occupied slot leaves the former partner with a dangling one-sided link.", "quantifier": "every heap of tensors, every slot, every history of link/unlink calls on free/existing slots", "why_tests_cant": "quantifies over all heaps and all call histories", "anchors": ["minitn/tensor.py:Tensor.link", "minitn/tensor.py:Tensor.unlink", "minitn/tensor.py:Tensor.unlink_to", "minitn/tensor.py:Tensor.__setitem__", "minitn/tensor.py:Tensor.__delitem__"]}
{"id": "C10", "title": "check_completness accepts exactly the complete networks", "statement": "check_completness on a tensor returns without raising exactly when that tensor has a linkage on each of its axes 0..order-1, none elsewhere, and every such linkage (and dimension, in strict mode) agrees on both ends. It looks at this one tensor only, not at the rest of the network.", "quantifier": "every heap of tensors, every tensor, strict or not", "why_tests_cant": "an iff over all networks; tests only show it accepts good ones", "anchors": ["minitn/tensor.py:Tensor.check_completness", "minitn/tensor.py:Tensor.check_linkage"]}
{"id": "C11", "title": "visitor enumerates every node exactly once", "statement": "On a tree network, visitor() yields the starting node first and then each node of its subtree exactly once, parents before children; with axis=None from any non-leaf node it yields every node of the whole network exactly once.", "quantifier": "every tree, every starting node", "why_tests_cant": "unbounded recursion on arbitrary trees", "anchors": ["minitn/tensor.py:Tensor.visitor", "minitn/tensor.py:Tensor.children", "minitn/tensor.py:Tensor.leaves"]}
{"id": "C12", "title": "Edge visitors cover every edge, Euler tour is well formed", "statement": "linkage_visitor yields every parent-child linkage exactly once; decorated_linkage_visitor yields each linkage exactly twice, first downwards then upwards, properly nested, so that consecutive entries share a node. linkage_visitor(directed=True) yields the reversed linkage only for linkages at the starting node, so it does not enumerate both directions on deeper trees.", "quantifier": "every tree, every starting node", "why_tests_cant": "nesting discipline over arbitrary trees", "anchors": ["minitn/tensor.py:Tensor.linkage_visitor", "minitn/tensor.py:Tensor.decorated_linkage_visitor", "minitn/structures/states.py:Network.directed_edges"]}
{"id": "C13", "title": "Tensor.generate realises the given tree", "statement": "For a tree-shaped graph, Tensor.generate(graph, root) builds a network whose nodes are in bijection with the names, whose leaves are the names that are not keys, whose k-th child of a non-root node sits at axis k+1 (axis k for the root) with axis 0 the parent, which is complete, and whose visitor order is the pre-order of the graph.", "quantifier": "every tree-shaped graph", "why_tests_cant": "stack-driven construction over unbounded graphs", "anchors": ["minitn/tensor.py:Tensor.generate"]}
{"id": "C14", "title": "Moving the root keeps the topology", "statement": "split_unite(i) and unite_split(i) on the root across a non-leaf linkage restore exactly the same linkages (same tensors, same axes), make the neighbour the new root (axis None) and set the old root's parent axis to i; no other tensor changes its array, links or axis.", "quantifier": "every network, every tensor rank, every axis i, every neighbour axis j", "why_tests_cant": "index arithmetic with inserted bond axes for arbitrary rank and position", "anchors": ["minitn/tensor.py:Tensor.split_unite", "minitn/tensor.py:Tensor.unite_split", "minitn/tensor.py:Tensor.split", "minitn/tensor.py:Tensor.unite"]}
{"id": "C15", "title": "Moving the root preserves the represented state", "statement": "If the SVD used by split reproduces its input, then after split_unite(i) or unite_split(i) the amplitude of the network is unchanged for every leaf configuration.", "quantifier": "every tree, every array, every exact factorisation returned by the SVD", "why_tests_cant": "equality for all configurations of all trees", "anchors": ["minitn/tensor.py:Tensor.split_unite", "minitn/tensor.py:Tensor.unite_split", "minitn/algorithms/ml.py:MultiLayer.move"]}
{"id": "C16", "title": "split then unite is the identity on arrays", "statement": "Splitting a root tensor over any sorted list of axes (any bond positions) and uniting the two parts back gives an array that has the original entries up to the documented axis order; split of axes gives matrix rows indexed by the selected axes in order and columns by the others in order.", "quantifier": "every rank, every subset of axes, every bond position", "why_tests_cant": "moveaxis loops over arbitrary subsets", "anchors": ["minitn/tensor.py:Tensor.split", "minitn/tensor.py:Tensor.unite"]}
{"id": "C17", "title": "contraction returns the dense state in leaf order", "statement": "contraction() on the root absorbs every non-leaf tensor and leaves one array whose axes are the leaves in leaves() order and whose entries are the amplitudes of the original network.", "quantifier": "every tree network", "why_tests_cant": "iterated graph rewriting", "anchors": ["minitn/tensor.py:Tensor.contraction"]}
{"id": "C18", "title": "One-site sweep is well formed", "statement": "One forward or backward split_step never operates on a tensor that is not the current root, propagates every non-leaf tensor by +tau exactly once and every non-leaf linkage by -tau exactly once, and ends with the root where it started.", "quantifier": "every tree, every starting root", "why_tests_cant": "the schedule is generated from an Euler tour of an arbitrary tree", "anchors": ["minitn/algorithms/ml.py:MultiLayer.split_step", "minitn/algorithms/ml.py:MultiLayer.move", "minitn/heom/propagate.py:MultiLayer.split_step", "minitn/tensor.py:Tensor.decorated_linkage_visitor"]}
{"id": "C19", "title": "Second-order one-site step is time symmetric", "statement": "With snd_order the sequence of propagations performed in one step (forward half step followed by backward half step) reads the same backwards, each with half the time step.", "quantifier": "every tree", "why_tests_cant": "palindrome property of an unbounded schedule", "anchors": ["minitn/algorithms/ml.py:MultiLayer.snd_order_step", "minitn/algorithms/ml.py:MultiLayer.split_step"]}
{"id": "C20", "title": "Two-site sweep is well formed", "statement": "A forward unite_step propagates every non-leaf linkage by +tau exactly once on the united pair, propagates each non-leaf tensor of degree d by -tau exactly d-1 times, only ever touches the current root, and returns the root to where it started. On a network with a single non-leaf tensor it does nothing at all.", "quantifier": "every tree", "why_tests_cant": "counter logic over arbitrary trees", "anchors": ["minitn/algorithms/ml.py:MultiLayer.unite_step"]}
{"id": "C21", "title": "Backward two-site sweep", "statement": "The backward unite_step used by the second-order two-site scheme tries to propagate a tensor that is not the root, and so raises RuntimeError, for every network with at least two non-leaf tensors.", "quantifier": "every tree with a non-leaf linkage", "why_tests_cant": "the failure is claimed for every tree, not one", "anchors": ["minitn/algorithms/ml.py:MultiLayer.unite_step", "minitn/algorithms/ml.py:MultiLayer.snd_order_step"]}
{"id": "C22", "title": "Recursive sweep", "statement": "r_split_step visits the same propagations as the sweep (every node +tau, every linkage -tau in total) and returns the root; in second-order mode it traverses the branches in the same order in both halves, so it is time symmetric only if no node has two or more non-leaf children.", "quantifier": "every tree", "why_tests_cant": "recursion over arbitrary trees", "anchors": ["minitn/algorithms/ml.py:MultiLayer.r_split_step"]}
{"id": "C23", "title": "Cached environments are never stale during a sweep", "statement": "During any sequence of root moves and root propagations, every environment that is read from the solver's cache equals the one recomputed from the current arrays (Hamiltonian terms without time dependence).", "quantifier": "every tree, every sequence of moves and propagations, every set of terms", "why_tests_cant": "staleness depends on the whole history of moves", "anchors": ["minitn/algorithms/ml.py:MultiLayer.remove_env", "minitn/algorithms/ml.py:MultiLayer.move", "minitn/algorithms/ml.py:MultiLayer.term_visitor", "minitn/algorithms/ml.py:MultiLayer._single_eom", "minitn/algorithms/ml.py:MultiLayer._form_env"]}
{"id": "C24", "title": "Time-dependent terms can read stale environments", "statement": "For time-dependent terms (f_list) the cached environments are not dropped when the root moves, so there is a tree and a schedule on which a stale environment is read.", "quantifier": "there exists a tree and a schedule (and for every schedule with an empty f_list none)", "why_tests_cant": "needs a history-dependent witness", "anchors": ["minitn/algorithms/ml.py:MultiLayer.remove_env", "minitn/algorithms/ml.py:MultiLayer._form_env", "minitn/algorithms/ml.py:MultiLayer._solve_ode"]}
{"id": "C25", "title": "propagator yields the requested time grid", "statement": "propagator(steps=n, ode_inter=dt, start=t0) yields exactly n pairs whose k-th time is t0 + k*dt, each pair before the k-th step is done; the step taken is the one selected by ps_method and snd_order; an unknown method raises ValueError before any step.", "quantifier": "every n, dt, t0, every method string", "why_tests_cant": "generator semantics for all n", "anchors": ["minitn/algorithms/ml.py:MultiLayer.propagator"]}
{"id": "C26", "title": "ODE step limit handling", "statement": "_solve_ode accepts at most the allowed number of solver steps: it stops when the solver reports finished, and raises RuntimeWarning at the first multiple of cmf_steps reaching max_ode_steps. In the direct scheme the propagator then stops; in the splitting schemes the exception is swallowed and propagation goes on with the truncated step.", "quantifier": "every solver behaviour, every pair of limits", "why_tests_cant": "quantifies over all step sequences of the external solver", "anchors": ["minitn/algorithms/ml.py:MultiLayer._solve_ode", "minitn/algorithms/ml.py:MultiLayer.log_inner_product", "minitn/algorithms/ml.py:MultiLayer.propagator"]}
{"id": "C27", "title": "SVD truncation respects the error bound and is minimal", "statement": "compressed_svd with err keeps the smallest number (at least one) of leading singular values whose discarded tail sums to at most err; with only rank it keeps min(rank, available); rank <= 0 is rejected. If both are given and the total exceeds err, err alone decides, so the result may exceed the requested rank.", "quantifier": "every list of non-negative singular values, every err, every rank", "why_tests_cant": "scan over arbitrary lists; boundary cases", "anchors": ["minitn/lib/numerical.py:compressed_svd"]}
{"id": "C28", "title": "Untruncated SVD factors reproduce the matrix, truncation loses exactly the dropped triplets", "statement": "The product u @ diag(s) @ vh of the returned factors equals the input minus the sum of the discarded singular triplets; with no truncation it equals the input. The same holds for dmrg.compress_svd, whose reported error is the sum of the discarded singular values.", "quantifier": "every matrix, every factorisation, every rank", "why_tests_cant": "matrix identity for all sizes", "anchors": ["minitn/lib/numerical.py:compressed_svd", "minitn/algorithms/dmrg.py:compress_svd"]}
{"id": "C29", "title": "triangular enumerates all product states by total degree", "statement": "triangular(n_list) yields each of 0..prod(n_list)-1 exactly once, starting with 0, in order of non-decreasing total excitation of the little-endian digits.", "quantifier": "every list of positive dimensions", "why_tests_cant": "layered generation with de-duplication over arbitrary dimensions", "anchors": ["minitn/lib/numerical.py:triangular", "minitn/algorithms/ml.py:MultiLayer.triangular"]}
{"id": "C30", "title": "autocomplete builds orthonormal initial tensors", "statement": "For a non-root tensor with parent dimension not larger than the product of its child dimensions, autocomplete produces rows that are distinct unit vectors (hence orthonormal along the parent axis), the first being the all-zero product state. For children of equal dimension later rows have non-decreasing total excitation; for unequal dimensions they need not.", "quantifier": "every list of dimensions, every parent axis", "why_tests_cant": "index conventions differ only for unequal dimensions", "anchors": ["minitn/algorithms/ml.py:MultiLayer.autocomplete", "minitn/models/network.py:autocomplete"]}
{"id": "C31", "title": "huffman_tree builds a tree over all sources", "statement": "With fresh internal names and n_branch >= 2, huffman_tree returns a graph that unfolds from its root to a tree in which every source occurs exactly once as a leaf and every internal node has at least two and at most n_branch children. With n_branch <= 1 and two or more sources the loop never ends; without sources it raises IndexError. If no importance is negative and the number of sources is one more than a multiple of n_branch - 1 (always so for n_branch = 2), no tree over the sources with at most n_branch children per node has a smaller sum of depth times importance; with importances of any sign none with exactly n_branch children per node has. For other numbers of sources the tree can be more costly than necessary.", "quantifier": "every non-empty list of sources, all importances, every n_branch", "why_tests_cant": "loop over arbitrary lists with re-sorting", "anchors": ["minitn/lib/tools.py:huffman_tree"]}
{"id": "C32", "title": "Default internal names collide", "statement": "With the default obj_new every internal node is named 1: for three or more sources the returned graph no longer contains all sources below its root.", "quantifier": "every list of at least three sources", "why_tests_cant": "claimed for all such lists", "anchors": ["minitn/lib/tools.py:huffman_tree", "minitn/models/spinboson.py:SpinBosonModel._update"]}
{"id": "C33", "title": "iter_visitor visits the reachable set once", "statement": "iter_visitor yields each vertex reachable from the start exactly once and nothing else, for both DFS and BFS, and stops on every finite graph including cyclic ones; any other method raises NotImplementedError.", "quantifier": "every finite graph, every start", "why_tests_cant": "reachability over arbitrary graphs", "anchors": ["minitn/lib/tools.py:iter_visitor"]}
{"id": "C34", "title": "lazyproperty computes once", "statement": "Over any history of reads, a lazyproperty calls the wrapped function exactly once and every read returns that first value.", "quantifier": "every history of reads, every function", "why_tests_cant": "quantifies over histories", "anchors": ["minitn/lib/tools.py:lazyproperty"]}
{"id": "C35", "title": "Unit conversion keeps the physical value", "statement": "convert_to(unit) keeps value_in_au, is idempotent and invertible; addition, subtraction, negation, scaling and comparison of Quantity objects agree with the same operation on their atomic-unit values.", "quantifier": "every value, every pair of recognised units", "why_tests_cant": "algebraic laws over all values", "anchors": ["minitn/lib/units.py:Quantity"]}
{"id": "C36", "title": "Unit names and dimensions", "statement": "A unit string is accepted exactly if it is a known unit or one of its registered synonyms; the synonyms for cm-1 are registered as one comma-joined string so 'cm^(-1)' is rejected. No dimension check is made: an energy can be converted to a time.", "quantifier": "every string", "why_tests_cant": "acceptance set over all strings", "anchors": ["minitn/lib/units.py:Quantity.standardize"]}
{"id": "C37", "title": "HEOM generator equals the hierarchy equations", "statement": "Applying all terms produced by the HEOM generators (eom2.Hierachy.diff, hierachy.Hierachy.h_list) to the extended density gives for every tier index n the standard hierarchy right-hand side: commutator with H, damping sum n_k gamma_k, and couplings to n +- e_k with the documented coefficients (scaled by square roots in the rescaled version). For hierachy.Hierachy this holds for symmetric H and coupling operator; for a Hermitian H that is not symmetric its transpose acts from the left, and the equations differ.", "quantifier": "every number of bath terms, all tier sizes, all tier indices, all matrices (eom2) / all symmetric matrices (hierachy)", "why_tests_cant": "tensor-product operators of arbitrary order", "anchors": ["minitn/heom/eom2.py:Hierachy.diff", "minitn/heom/hierachy.py:Hierachy.h_list"]}
{"id": "C38", "title": "Trace of the reduced density is conserved", "statement": "The generator of eom2 conserves the trace of the zeroth-tier density for every state; the generator of hierachy does so for symmetric H and coupling operator, and fails to for some Hermitian H.", "quantifier": "every state of the hierarchy, every bath", "why_tests_cant": "a conservation law over all states", "anchors": ["minitn/heom/eom2.py:Hierachy", "minitn/heom/hierachy.py:Hierachy"]}
{"id": "C39", "title": "eom.Hierachy decouples the zeroth tier", "statement": "With eom.Hierachy the derivative of an initial state rho x e_0 has no component on any first tier, for all bath coefficients, so the reduced density evolves as if there was no bath.", "quantifier": "every bath, every rho, every tier sizes", "why_tests_cant": "claimed for all baths", "anchors": ["minitn/heom/eom.py:Hierachy"]}
{"id": "C40", "title": "Rescaled and plain hierarchies are similar", "statement": "The generator of hierachy.Hierachy (square-root scaled) and the plain one of eom2 are related by the diagonal similarity with entries prod sqrt(n_k!) f_k^n_k, so they give the same zeroth-tier dynamics.", "quantifier": "every tier sizes, every bath with non-zero scale, symmetric H and coupling operator", "why_tests_cant": "algebraic identity over all tiers", "anchors": ["minitn/heom/hierachy.py:Hierachy", "minitn/heom/eom2.py:Hierachy"]}
{"id": "C41", "title": "Initial hierarchy states", "statement": "gen_extended_rho, simple_heom, tensor_train_template and tensor_tree_template all represent rho on the zeroth tier and zero on every other tier.", "quantifier": "every rho and all tier dimensions admitted by the constructors", "why_tests_cant": "networks of arbitrary length", "anchors": ["minitn/heom/hierachy.py:Hierachy.gen_extended_rho", "minitn/heom/network.py"]}
{"id": "C42", "title": "Bath correlation data are self consistent", "statement": "For every correlation object, the function built from conj_coeff is the complex conjugate of the one built from coeff at every time; the number of exponents equals the attribute k_max for Drude, and for Brownian only when the argument k_max is 0. The Pade residues are those of the partial fractions of one rational function. The first two exponents of Brownian are the roots of x^2 + 2 gamma x + omega^2, the imaginary part of its function is that of the damped oscillator at every temperature, but its Matsubara terms use the spectral density at real instead of imaginary frequencies, which is right only if omega^2 = 2 gamma^2.", "quantifier": "all parameters, all times", "why_tests_cant": "equality of functions for all times", "anchors": ["minitn/heom/corr.py", "minitn/models/bath.py:generate_BCF"]}
{"id": "C43", "title": "Phonon ladder operators", "statement": "Dense creation/annihilation operators satisfy [a, a+] = 1 on all but the last basis state, number = a+ a, momentum and coordinate are Hermitian and p^2/2m + m w^2 x^2/2 = hbar w (n + 1/2) except on the last state; the matrix-free creation operator acts as the annihilation operator.", "quantifier": "every truncation dimension and frequency", "why_tests_cant": "all dimensions", "anchors": ["minitn/models/particles.py:Phonon"]}
{"id": "C44", "title": "Sine DVR transformation is orthogonal", "statement": "The SineDVR basis change is symmetric and squares to the identity for every number of grid points, so dvr2fbr and fbr2dvr are mutually inverse; the fast (sine transform) Hamiltonian product equals the dense one.", "quantifier": "every number of grid points", "why_tests_cant": "trigonometric sums for all n", "anchors": ["minitn/bases/dvr.py:SineDVR", "minitn/bases/dvr.py:FastSineDVR", "minitn/bases/dvr.py:DVR.dvr2fbr_mat"]}
{"id": "C45", "title": "Product DVR indices and Hamiltonian product", "statement": "PO_DVR.subindex is the inverse of row-major flattening; the matrix-free product-DVR Hamiltonian is the sum of one-dimensional Hamiltonians for up to two dimensions and for equal sizes, and fails for three dimensions whose last two sizes differ.", "quantifier": "every list of sizes, every index", "why_tests_cant": "mixed-radix arithmetic over all sizes", "anchors": ["minitn/bases/dvr.py:PO_DVR.subindex", "minitn/bases/dvr.py:PO_DVR.h_mat", "minitn/algorithms/mctdh.py:MCTDH._partial_transform"]}
{"id": "C46", "title": "Heisenberg MPO", "statement": "Contracting heisenberg(N, J, Jz, h) gives sum J/2 (S+S- + S-S+) + Jz/2 SzSz - h sum Sz on N >= 2 sites: the z coupling is half of the documented one.", "quantifier": "every N >= 2 and all couplings", "why_tests_cant": "induction over the chain length", "anchors": ["minitn/algorithms/dmrg.py:heisenberg"]}
{"id": "C47", "title": "DMRG environments are always up to date", "statement": "At every step of the one- and two-site DMRG sweeps the left and right environments used for the effective Hamiltonian are the contractions of the current matrices on the left and right of the active site(s); the stacks return to their initial length after each full sweep and are never popped empty.", "quantifier": "every chain length, every number of sweeps, every local update", "why_tests_cant": "stack discipline over arbitrary histories", "anchors": ["minitn/algorithms/dmrg.py:dmrg1", "minitn/algorithms/dmrg.py:dmrg2"]}
{"id": "C48", "title": "MPO matrix elements", "statement": "mat_element equals the dense sum over all configurations, whether contracted from the left or from the right; coarse-graining two sites does not change it.", "quantifier": "every chain, all bond dimensions", "why_tests_cant": "induction over the chain", "anchors": ["minitn/algorithms/dmrg.py:mat_element", "minitn/algorithms/dmrg.py:contract_from_left", "minitn/algorithms/dmrg.py:coarse_grain_mps"]}
{"id": "C49", "title": "Davidson convergence test never fires", "statement": "The convergence check of DavidsonAlgorithm.kernel never succeeds, because the previous Ritz values are never stored: in eigenvalue mode it always runs max_cycle iterations; the search space never exceeds its allocated size; a restart forgets a user-supplied preconditioner; a restart in the last cycle loses the result.", "quantifier": "every operator, every starting vectors, every solver answers", "why_tests_cant": "all behaviours of the numerical oracles", "anchors": ["minitn/lib/numerical.py:DavidsonAlgorithm"]}
{"id": "C50", "title": "Davidson projected matrix", "statement": "For a Hermitian operator, after any number of subspace extensions and restarts the stored submatrix equals the matrix of the operator in the current search space, which is orthonormal, up to the conversion to real numbers: imaginary parts are lost, so for a complex Hermitian operator the matrix given to the eigenvalue routine is wrong.", "quantifier": "every Hermitian operator and every history of extensions", "why_tests_cant": "invariant over histories", "anchors": ["minitn/lib/numerical.py:DavidsonAlgorithm._extend_space"]}
{"id": "C51", "title": "normalize orthonormalises", "statement": "normalize on a non-root tensor with linearly independent rows makes the rows along the parent axis orthonormal and keeps their span nested; on the root it gives unit norm.", "quantifier": "every array, every axis", "why_tests_cant": "Gram-Schmidt for any number of rows", "anchors": ["minitn/tensor.py:Tensor.normalize"]}
{"id": "C52", "title": "Fourier transform between conjugate grids", "statement": "Transforming a vector to the conjugate grid basis and back returns the vector, width times sum of squares is the same on both sides, conj.conj is the original basis object and conj is made once; but the product of the two grid spacings is 2*pi*hbar*N/(N-1)^2 and not 2*pi*hbar/N, and the conjugate of an even number of momenta does not contain the zero that the transform takes for the middle.", "quantifier": "every heap of paired grids, every size of at least two points, width and hbar, and vectors of any length", "why_tests_cant": "all sizes, parities and vectors, exact numbers", "anchors": ["minitn/bases/girds.py:Coordinate.conj", "minitn/bases/girds.py:Coordinate.ft", "minitn/bases/girds.py:Momentum.conj", "minitn/bases/girds.py:Momentum.ft"]}
{"id": "C53", "title": "Constructing a solver with string leaf names", "statement": "MultiLayer(..., use_str_name=True) replaces every name by the leaf with that name, keeping order and matrices; since it rewrites the caller's list, a second construction with the same list fails with KeyError (unless some leaf is itself called Leaf_...), and the failure removes one entry from the list.", "quantifier": "every Hamiltonian list and every network with distinct leaf names", "why_tests_cant": "aliasing effect across two calls", "anchors": ["minitn/algorithms/ml.py:MultiLayer.__init__"]}
{"id": "C54", "title": "Electronic terms are collected without changing the Hamiltonian", "statement": "collect_electric_terms leaves every matrix element of the sum of all terms unchanged: purely electronic terms are merged into one in front, all others are kept in order, and absorbing them into the field changes nothing at any time. Without any purely electronic term the merged term is the number 0, which MultiLayer refuses with TypeError.", "quantifier": "every term list, every pair of basis states, every time", "why_tests_cant": "sum over arbitrary lists", "anchors": ["minitn/models/spinboson.py:SpinBosonModel.collect_electric_terms"]}
{"id": "C55", "title": "Network containers", "statement": "Network refuses to overwrite an existing array and knows no other tensors than its vertices; its constructor finds the only tensor without an axis, so it rejects every network that contains a leaf, since leaves have no axis - unless the template is itself a leaf, which then is the whole network.", "quantifier": "every tree network, template and entry", "why_tests_cant": "all networks", "anchors": ["minitn/structures/states.py:Network.__init__", "minitn/structures/states.py:Network.__setitem__"]}
{"id": "C56", "title": "Projector of an isometric tensor", "statement": "projector() of a non-root tensor has entries sum_i a[i,x] conj(a[i,y]); it is Hermitian, and idempotent whenever the tensor is orthonormal along its parent axis.", "quantifier": "every array, every parent axis", "why_tests_cant": "matrix identity over all shapes", "anchors": ["minitn/tensor.py:Tensor.projector"]}
{"id": "C57", "title": "unzip returns the columns", "statement": "unzip of a non-empty iterable of equally long tuples returns one iterator per position, which yields that column in order; an empty iterable raises StopIteration.", "quantifier": "every non-empty list of rows of equal length", "why_tests_cant": "all lengths and widths", "anchors": ["minitn/lib/tools.py:unzip"]}
{"id": "C58", "title": "The unit table holds the true conversion factors", "statement": "For every recognised unit except meV the atomic-unit value of a Quantity is its true amount, and conversion between two such units keeps the true amount. For meV the factor is 1e-3 times the eV factor instead of 1e3, so every value in meV is read a million times too large.", "quantifier": "every value, every recognised unit, all positive physical constants", "why_tests_cant": "the conversions are mutually consistent, so a round-trip test with the same wrong factor passes", "anchors": ["minitn/lib/units.py:atomic_unit_in"]}
{"id": "C59", "title": "The two Drude correlation classes", "statement": "The Drude classes of heom/corr.py (Matsubara) and heom/noise.py have the same exponents and the same first coefficient, but every further coefficient differs (nu^2 - gamma^2 against nu^2 + gamma^2 in the denominator) unless lambda or gamma is zero.", "quantifier": "all temperatures, widths, couplings, numbers of terms", "why_tests_cant": "identity and inequality over all real parameters", "anchors": ["minitn/heom/corr.py:Drude", "minitn/heom/noise.py:Drude"]}
{"id": "C60", "title": "Trotter factors of DVR.propagator", "statement": "The three matrices of DVR.propagator are unitary, the first squared is the second, the third multiplies every eigenvector of the kinetic energy by a phase, and steps add up; the phases are exp(-i hbar tau E), so they agree with exp(-i tau E / hbar) only for hbar = 1.", "quantifier": "every grid, potential, time step, hbar", "why_tests_cant": "identities over all real parameters; the tests run with hbar = 1", "anchors": ["minitn/bases/dvr.py:DVR.propagator"]}
{"id": "C61", "title": "Setting the potential of a product representation again", "statement": "After PO_DVR.set_v_func the Hamiltonian product is the sum of the one-dimensional operators and the coupling given; but a call without coupling keeps the coupling of an earlier call, although v_rst is then None.", "quantifier": "every sequence of two calls, all sizes, potentials and couplings", "why_tests_cant": "state carried between calls, over all potentials", "anchors": ["minitn/bases/dvr.py:PO_DVR.set_v_func", "minitn/bases/dvr.py:PO_DVR.h_mat"]}
{"id": "C62", "title": "Davidson results", "statement": "In eigenvalue mode the returned vectors are orthonormal, lie in the search space, and their residuals are orthogonal to it, if the eigenvalue routine answers correctly for the projected matrix; in search mode the result is an orthonormal list that starts with the normalised first initial vector and has at least n_vals vectors unless all cycles are used.", "quantifier": "every operator, every starting vectors, every solver answers meeting the premises", "why_tests_cant": "all histories of extensions and restarts", "anchors": ["minitn/lib/numerical.py:DavidsonAlgorithm.kernel"]}
{"id": "C63", "title": "The spin-boson model is the documented Hamiltonian", "statement": "The terms of SpinBosonModel add up, element by element, to H_e + sum_j (h_j - 2 c_j q_j |2><2| + 2 c_j^2/w_j^2 |2><2|) + sum_j r_j q_j sigma_x, where 2 c_j^2/w_j^2 is the given reorganisation energy of the j-th inner mode. Outer modes are meant as given: the code that should make them fails (C92).", "quantifier": "every number of modes, all dimensions, positive frequencies, couplings, and basis states within the dimensions", "why_tests_cant": "arbitrary numbers of modes and dimensions", "anchors": ["minitn/models/spinboson.py:SpinBosonModel.__init__", "minitn/models/spinboson.py:SpinBosonModel.vibration_hamiltonian"]}
{"id": "C64", "title": "The field is never left out", "statement": "SpinBosonModel always has a list of fields, since the attributes of the pulse are read only when the field is evaluated; without one of them every evaluation raises AttributeError instead of the list being None.", "quantifier": "every model and time", "why_tests_cant": "late binding of attributes", "anchors": ["minitn/models/spinboson.py:SpinBosonModel.td_electron_hamiltionian"]}
{"id": "C65", "title": "Vectors, copies and environments of Network", "statement": "tensorize and vectorize of an accepted Network are inverse to each other, vectors that are too short give ValueError; a copy holds the same arrays, but the copy of an empty template can no longer be filled (RuntimeError); Tree.partial_env never returns, since it looks up the axis None of the root.", "quantifier": "every accepted network, vector and argument", "why_tests_cant": "all networks and shapes", "anchors": ["minitn/structures/states.py:Network.tensorize", "minitn/structures/states.py:Network.copy", "minitn/structures/states.py:Tree.partial_env"]}
{"id": "C66", "title": "The derivative of the root in a splitting step is the variational one", "statement": "The vector that diff of _split_prop sums over the terms of the Hamiltonian is the gradient of the matrix element: for every array f of the shape of the root, the sum of f times that vector equals the sum over the terms of the matrix element between the state with the vector y in the root and the conjugated network with f in the root. This holds for calls in a splitting step with stored environments as well.", "quantifier": "every tree of linked tensors, array, term of matrices on leaves, vector y, array f, and program of root moves and propagations", "why_tests_cant": "all networks, all vectors, all test arrays at once", "anchors": ["minitn/algorithms/ml.py:MultiLayer._single_eom", "minitn/algorithms/ml.py:MultiLayer._split_prop", "minitn/tensor.py:Tensor.partial_env"]}
{"id": "C67", "title": "Norm and energy along the derivative of the root", "statement": "With terms that hold -i times the Hamiltonian H (not H itself, as the documentation of the class says), real time keeps the norm of the root and the expectation value of H to first order, and imaginary time changes them at the rates -2<H>/hbar and -2|g|^2/hbar, whatever the reference energy. With terms that hold H, real time changes the norm at the rate 2<H>/hbar and imaginary time keeps it. A reference energy breaks the norm of real time with -iH. The copy of the class in heom/propagate.py takes H itself in imaginary time and -iH in real time.", "quantifier": "every network, Hermitian or anti-Hermitian operator, vector, step eps, hbar not zero, reference energy", "why_tests_cant": "exact identity in eps for all networks and operators; the tests only use one convention", "anchors": ["minitn/algorithms/ml.py:MultiLayer.coefficient", "minitn/algorithms/ml.py:MultiLayer._split_prop", "minitn/heom/propagate.py:MultiLayer.coefficient"]}
{"id": "C68", "title": "Expectation values of a sum of terms", "statement": "MultiLayer.matrix_element and expection add up the matrix elements of the terms (the first index of each matrix belongs to the state that is not conjugated), whatever was cached before; expection of a Hermitian operator returns the real value, divided by the square of the norm of the state if normalized. For anti-Hermitian terms, the ones real time needs (C67), expection raises AssertionError unless the value is close to zero, so move_energy fails with them.", "quantifier": "every network, list of terms, operator, time and closeness test", "why_tests_cant": "all networks and operators; the tests use real symmetric matrices", "anchors": ["minitn/algorithms/ml.py:MultiLayer.expection", "minitn/algorithms/ml.py:MultiLayer.matrix_element", "minitn/algorithms/ml.py:MultiLayer.term_visitor"]}
{"id": "C69", "title": "The derivatives of all tensors in the direct scheme", "statement": "For a network whose axes point to the root and whose other tensors are orthonormal along their axes, MultiLayer.eom (after _form_env and _form_inv_density) succeeds, leaves the arrays alone and gives every tensor a derivative of its shape; that of a tensor other than the root is orthogonal to its array along the axis, whatever matrix the inversion returns. If the matrix for a tensor is the inverse of its density, the derivative of the whole state projected on any allowed change of this tensor equals the inverse coefficient times the sum of the terms, minus the initial energy times the overlap (Dirac-Frenkel). A 'Newton' step adds dt times these derivatives and keeps links, axes and flags.", "quantifier": "every network, list of terms, time-dependent or not, coefficient, energy and inversion", "why_tests_cant": "all trees, shapes and operators; an identity between sums over all leaf values", "anchors": ["minitn/algorithms/ml.py:MultiLayer._single_eom", "minitn/algorithms/ml.py:MultiLayer._form_inv_density", "minitn/algorithms/ml.py:MultiLayer.eom", "minitn/algorithms/ml.py:MultiLayer.direct_step"]}
{"id": "C70", "title": "Norm and energy under steps of the direct scheme", "statement": "When every array of a network moves by dt times its derivative, the dense state is a polynomial in dt that starts with the state and the sum over the tensors. Under a 'Newton' step of MultiLayer in real time with terms that hold -iH and no initial energy, norm and energy do not change to first order (for the energy the inversion has to be exact). In imaginary time with initial energy e the square n of the norm has the slope -2(q/hbar + e n) and the energy q the slope -2 hbar m + 2 e (q + hbar e n), with m the square of the norm of the derivative of the state: with e = 0 the energy falls. The same holds with the coefficient of heom/propagate.py and terms that hold H. Subtracting the energy does not keep the norm in imaginary time: its sign is the other one.", "quantifier": "every network in the form left by init_state, every list of terms, step and inversion", "why_tests_cant": "exact first-order coefficients for all trees, shapes and operators", "anchors": ["minitn/algorithms/ml.py:MultiLayer.direct_step", "minitn/algorithms/ml.py:MultiLayer.eom", "minitn/algorithms/ml.py:MultiLayer.coefficient", "minitn/heom/propagate.py:MultiLayer.coefficient"]}
{"id": "C71", "title": "MCTDH: mean fields, energy and effective Hamiltonian", "statement": "get_sub_vec cuts the vector into the matrices C_i and the tensor A, for all sizes. The mean fields of update_mod_terms are C^H h C for real C; for complex C and real h they are only the real parts of its entries, so energy_expection can be wrong then. For real C with orthonormal columns, at most one operator per axis in a term and sizes that _partial_transform keeps apart, energy_expection is <Psi|H|Psi>, and the product of the Hamiltonian with the vector has as its tensor the projections of H Psi on the configurations, matrices orthogonal to C_i, and satisfies, but for the added err, the Dirac-Frenkel condition with every tangent vector. One or two modes always have such sizes; with three modes and fewer functions than points a term on two axes raises ValueError.", "quantifier": "every number of modes, all sizes, all terms, every inversion of the density matrices", "why_tests_cant": "an equation for all states and variations; the wrong cases look plausible numerically", "anchors": ["minitn/algorithms/mctdh.py:MCTDH.get_sub_vec", "minitn/algorithms/mctdh.py:MCTDH.update_mod_terms", "minitn/algorithms/mctdh.py:MCTDH.energy_expection", "minitn/algorithms/mctdh.py:MCTDH._sp_op", "minitn/algorithms/mctdh.py:MCTDH.term_hamiltonian"]}
{"id": "C72", "title": "Matsubara and Pade decompositions of the Bose and Fermi functions", "statement": "The [N-1/N] and [N/N] Pade decompositions of the Bose function 1/(1-exp(-x)) by PSD of heom/bosefermi.py, and the one of heom/corr.py's Drude, are Lambert's continued fraction cut after 2N or 2N+1 denominators: N positive rising poles, and an error of at most |x|/4 (x^2/4)^M / (product of the first M odd numbers from 3 times the product of the first M+1), M = 2N or 2N+1, which goes to zero as N grows. The same holds of the [N-1/N] decomposition of the Fermi function with odd numbers from 1. The [N/N] decomposition of the Fermi function lacks its linear term x/(4(N+1)(2N+1)) and breaks the bound for every N. The sums over N Matsubara poles are off by at most |x|/(2N) for the Bose function and 3|x|/(2N) for the Fermi function. MSD gives with residues 1 exactly the frequencies w in (0, 2 pi N] with exp(i w) = 1 (Bose) or -1 (Fermi). Other arguments raise AssertionError.", "quantifier": "every N, every real x, every eigenvalue routine that is right on the matrices it is given", "why_tests_cant": "an error bound for all N and x; tests see rounding errors of a few N", "anchors": ["minitn/heom/bosefermi.py:PSD", "minitn/heom/bosefermi.py:MSD", "minitn/heom/bosefermi.py:tseig", "minitn/heom/corr.py:Drude.pade", "minitn/heom/corr.py:Drude.matsubara"]}
{"id": "C73", "title": "Spin-boson model: terms for the wavefunction, the density operator and the hierarchy", "statement": "SpinBoson.wfn_h_list applied to a state is -i times h + sum_k w_k (n_k + 1/2) + sum_k g_k X (a_k + a_k^+) on the kept levels, with h and X transposed, so exactly this Hamiltonian for symmetric h and X; for Hermitian ones the generator is anti-Hermitian. do_l_list on |psi><phi| gives |psi'><phi| + |psi><phi'| for real h and X, and fails to for a Hermitian h with imaginary entries. heom_h_list gives the hierarchy equations with one pair of exponentials -+ i w_k of weights g_k^2 (n_k + 1), g_k^2 n_k for every oscillator, n_k = 1/(exp(beta w_k) - 1), or 0 without beta, followed by the bath's; numbers of tiers and exponentials that differ raise AssertionError, too few leaves (as by default) IndexError.", "quantifier": "every number of oscillators, dimensions, matrices, states, frequencies, couplings, temperatures", "why_tests_cant": "operators on product spaces of any number of factors; tests see a few dimensions", "anchors": ["minitn/models/sbm.py:SpinBoson.wfn_h_list", "minitn/models/sbm.py:SpinBoson.do_l_list", "minitn/models/sbm.py:SpinBoson.heom_h_list", "minitn/models/sbm.py:SpinBoson.heom_h_list2", "minitn/models/bath.py:generate_BCF"]}
{"id": "C74", "title": "Decompositions of spd.py: which arguments give a result, and which results are right", "statement": "BoseEinstein.residues returns [] for n = 0 or without beta, raises TypeError for 'pade' with n > 0, ValueError for 'matsubara' unless n = 2, ZeroDivisionError for n = 2 at beta = 0, AssertionError for n < 0, NotImplementedError for other names (case ignored). The list of BoseEinstein.matsubara, used as intended, approximates the Bose function within beta |w| / (2n); what residues makes of it for n = 2 has a pole at i/beta where the Bose function has none. function satisfies f(w) + f(-w) = 1 and detailed balance; __init__ refuses exactly the negative beta, for which it is negative at w > 0, and accepts those (other than 0) for which it is at least 1; its value without beta is the limit of low temperature for w > 0 but not for w < 0. The fractions of Drude.residues add up to Drude.spectral_density. Both methods of Brownian raise TypeError.", "quantifier": "every method name, n, beta, w, parameters", "why_tests_cant": "an error bound for all n and w, and all argument combinations", "anchors": ["minitn/heom/spd.py:BoseEinstein.residues", "minitn/heom/spd.py:BoseEinstein.matsubara", "minitn/heom/spd.py:BoseEinstein.pade1", "minitn/heom/spd.py:BoseEinstein.function", "minitn/heom/spd.py:Drude.residues", "minitn/heom/spd.py:Drude.spectral_density", "minitn/heom/spd.py:Brownian"]}
{"id": "C75", "title": "dense_hamiltonian is the matrix of the sum of terms, transposed with respect to the operator", "statement": "For a network whose leaves are linked by their axis 0 and terms that fit, dense_hamiltonian returns a square matrix of size the product of the leaf dimensions whose entry at the flattened indices v, w is the sum over the terms of the products of the entries [v_l, w_l] of their matrices (identity where a term has none, the last one where it has several), leaves in the order of root.leaves(). matrix_element equals sum_ij a_i H_ij b_j with a, b the flattened full tensors of array and aux: rows belong to array, so with aux = conj(array) H is the transpose of the operator in <psi|H|psi>. H is Hermitian exactly when the sum of the terms is. Time-dependent terms raise NotImplementedError, no terms give 0., a leaf not linked by axis 0 gives KeyError.", "quantifier": "every tree of tensors, every dimension, every list of terms, every scalar ring with conjugation", "why_tests_cant": "agreement of two computations for all networks and terms", "anchors": ["minitn/algorithms/ml.py:MultiLayer.dense_hamiltonian", "minitn/algorithms/ml.py:MultiLayer.matrix_element", "minitn/heom/propagate.py:MultiLayer.dense_hamiltonian"]}
{"id": "C76", "title": "autocorr yields overlaps of full states and does not disturb the propagation", "statement": "Called any number of times, autocorr yields as many values as propagator would from the same start and ends in the same way, provided the steps do not depend on the aux they find. Without fast the times are those of propagator and the value is <psi(0)|psi(t)> of the full tensors; with fast the times are doubled and the value is sum psi(t)^2, which is <psi(0)|U U psi(0)> when psi(t) = U psi(0) with U symmetric and psi(0) real, and is not when psi(0) is complex.", "quantifier": "every number of calls, every network tree, all step functions that ignore aux", "why_tests_cant": "interleaving of two generators for all numbers of calls and all steps", "anchors": ["minitn/algorithms/ml.py:MultiLayer.autocorr", "minitn/algorithms/ml.py:MultiLayer.propagator", "minitn/heom/propagate.py:MultiLayer.autocorr"]}
{"id": "C77", "title": "An RK4 step of the direct scheme holds the mean fields of its start", "statement": "direct_step with ode_method 'RK4' on a canonical network runs without exception when the inverse densities can be computed, keeps links, shapes and root, clears every aux, and moves each array by one step of the classical method of order four for the derivative of that array alone: icoef times the sum over terms of the matrices of its environments at the start, times the inverse density of the start and projected with the array at the current point (minus the initial energy for the root). At the start this is the derivative computed by eom; for any array y in place of t's the matrices give the derivative of the matrix element with all other arrays as at the start. The step is not the method of order four for the equation of motion, in which environments and densities belong to each point.", "quantifier": "every canonical network, term list, step size, initial energy, inversion routine and scalar ring with conjugation", "why_tests_cant": "identity between a traversal with four dictionaries of partial results and a formula, for all trees and arrays", "anchors": ["minitn/algorithms/ml.py:MultiLayer.direct_step", "minitn/algorithms/ml.py:MultiLayer.eom", "minitn/algorithms/ml.py:MultiLayer._form_env", "minitn/algorithms/ml.py:MultiLayer._form_inv_density"]}
{"id": "C78", "title": "A solver step of the direct scheme: derivative with held mean fields, arrays stored and orthonormalised", "statement": "In direct_step with a solver of scipy, diff gives for a vector y the derivative of all arrays with the environments and inverse densities of the last call of reformer: for each tensor icoef times the sum over terms of the derivative of the matrix element with the part of y in place of that array and the arrays of that call elsewhere, times the inverse density and projected with the part of y (minus the initial energy for the root). It does not depend on the time it is asked for, and leaves the arrays as they were; self.time becomes the time asked for unless imaginary. After each solver step updater stores the parts of the solver's vector; tensors with the flag normalized are made orthonormal along their axis, the root gets unit norm, and the network stays canonical; without the flag (the default) the parts are stored and nothing else. The solver goes on from its own vector, not from the orthonormalised arrays. reformer is called before the steps whose number is a multiple of cmf_steps, with the arrays and the time of that moment; the step ends when the solver is no longer running, or with RuntimeWarning when the number reaches max_ode_steps at such a step.", "quantifier": "every canonical network, term list (also time dependent), solver that asks for vectors of the right length, inversion routine and number of rounds; derivative and storing over every scalar ring with conjugation, orthonormalisation and course over the complex numbers", "why_tests_cant": "describes the calls of an arbitrary solver over all trees, arrays and numbers of rounds, with state shared between closures", "anchors": ["minitn/algorithms/ml.py:MultiLayer.direct_step", "minitn/algorithms/ml.py:MultiLayer._solve_ode", "minitn/algorithms/ml.py:MultiLayer.eom", "minitn/tensor.py:Tensor.normalize", "minitn/tensor.py:Tensor.vectorize", "minitn/tensor.py:Tensor.tensorize"]}
{"id": "C79", "title": "Projector splitting of the hierarchy: all terms see the environments of the first", "statement": "ProjectorSplitting in heom/propagate2.py clears the cached environments of the tensors once before the loop over the terms, not for each term. In a run of _form_env, propagations and moves of the root, every call of diff therefore returns the sum of the derivatives of mixed terms: at the leaves joined to the root the matrices of the term, at all other leaves those of the first term; it is what diff of ml.py returns for the mixed terms, and paired with an array it gives the sum of their matrix elements. Stored environments that lead to a leaf belong to their term, those that lead to a tensor to the first term. The result is the derivative of the terms themselves when the terms agree at all leaves not joined to the root, in particular for one term and for one tensor, and is not in general. diff leaves the vector in the root, contrary to its comment, and everything else as it was.", "quantifier": "every network, root, list of terms, program of propagations and moves, sequence of vectors asked for, and singular value decomposition that succeeds; every scalar ring with conjugation", "why_tests_cant": "the wrong environments give plausible arrays of the right shape; the claim is about all trees, terms and programs of moves", "anchors": ["minitn/heom/propagate2.py:ProjectorSplitting.term_visitor", "minitn/heom/propagate2.py:ProjectorSplitting._form_env", "minitn/heom/propagate2.py:ProjectorSplitting._single_diff", "minitn/heom/propagate2.py:ProjectorSplitting._single_prop", "minitn/heom/propagate2.py:ProjectorSplitting.move", "minitn/tensor.py:Tensor.partial_env"]}
{"id": "C80", "title": "Terms of the stochastic hierarchy for wave functions", "statement": "The terms of diff() in heom/seom.py, applied to an extended wave function c[n, q, p], give on every tier n: H c_n + (i hbar/2) (sum_k n_k gamma_k) c_n + sum_k sqrt(n_k+1) X c_(n+e_k) + sum_k C_k sqrt(n_k) X c_(n-e_k), with H and X acting on p, C_k the complex coefficient, tiers outside the dimensions zero and exponents close to zero dropped. exp_coeff with more than one axis raises UnboundLocalError. For Hermitian H and X, real gamma >= 0 and C_k = 1 the evolution i hbar dc/dt = (terms) c makes the total norm grow at the rate sum_n (sum_k n_k gamma_k) |c_n|^2.", "quantifier": "every number of modes, dimensions, system matrices, coefficients and wave functions; every scalar ring with conjugation (rate: complex numbers)", "why_tests_cant": "the claim is about all tiers and all wave functions; the sign of the damping term shows only in long propagations", "anchors": ["minitn/heom/seom.py:Hierachy.diff", "minitn/heom/seom.py:Hierachy._diff_h", "minitn/heom/seom.py:Hierachy._diff_n", "minitn/heom/seom.py:Hierachy._diff_k"]}
{"id": "C81", "title": "Initial states of PO_DVR and MCTDH", "statement": "DVR.solve returns rows that are orthonormal eigenvectors of h_mat with first entry >= 0, and h_mat is always that of the potential set last, whatever was solved in between. gen_h_terms gives the sum of the one-dimensional Hamiltonians (or kinetic energies) plus the products of the functions in extra. MCTDH.init_state returns a vector whose matrices hold the eigenvectors and whose tensor is one at the origin: the state is the normalised product of the lowest eigenvectors. Its energy_expection is the sum of the lowest energies plus the mean values of the products in extra. Without extra the effective Hamiltonian gives zero for every matrix and the energy times the tensor. PO_DVR.init_state is the same product as one vector, and the Hamiltonian without coupling multiplies it by the sum of the lowest energies.", "quantifier": "every number of modes, sizes, numbers of states, potentials, sequences of set_v_func and solve; every eigsh that returns real orthonormal eigenvectors", "why_tests_cant": "the tests look at single grids; the order of the axes, the signs and the cached Hamiltonian matter for all sizes and call orders", "anchors": ["minitn/bases/dvr.py:DVR.solve", "minitn/bases/dvr.py:DVR.h_mat", "minitn/bases/dvr.py:PO_DVR.init_state", "minitn/algorithms/mctdh.py:MCTDH.gen_h_terms", "minitn/algorithms/mctdh.py:MCTDH.init_state"]}
{"id": "C82", "title": "Real-time generators of PO_DVR and MCTDH, autocorrelation and spectrum", "statement": "The Hamiltonians of PO_DVR and MCTDH (with mean fields kept) are linear, so the right side put together from real and imaginary part is -i/hbar times the product with the Hamiltonian, and errors are passed on. Every vector yielded by propagation is the first one after steps that are polynomials of the Hamiltonian with first coefficients 1 and -i h/hbar, at the sum of the step lengths. For a symmetric Hamiltonian, as that of PO_DVR is, the autocorrelation value at 2t is the product of the first vector with the vector after the steps taken twice. From Python 3.7 on none of the generators ends without a RuntimeError, so spectrum never returns (refuted); before, the values are all those up to the time. spectrum is the Fourier sum at the returned frequencies. The product of MCTDH is that of the tensors; it is the product of the states for real orthonormal matrices but not for complex ones (refuted). The normalizer scales each part to its norm. After a step of MCTDH the solver keeps a derivative that belongs to the mean fields before the step (refuted as derivative of the current vector).", "quantifier": "every table of coefficients, step lengths, number of steps, vectors, numbers of axes and sizes, window, list of values", "why_tests_cant": "the tests run single propagations with fixed tolerances; ends of generators depend on the version of Python, and the derivative kept by the solver cannot be seen from outside", "anchors": ["minitn/bases/dvr.py:PO_DVR.propagation", "minitn/bases/dvr.py:PO_DVR.autocorrelation", "minitn/bases/dvr.py:PO_DVR.spectrum", "minitn/algorithms/mctdh.py:MCTDH.propagation", "minitn/algorithms/mctdh.py:MCTDH.autocorrelation"]}
{"id": "C83", "title": "Leaves and trees of the spin-boson model", "statement": "The leaves of SpinBosonModel are ELEC, I0.., O0.., all different, and every term of its Hamiltonian has square matrices of the dimensions stored for its leaves. autograph_full gives one tensor with all leaves. autograph_mctdh gives a tree whose leaves are ELEC and the single characters of the names of the modes, so that no mode is a leaf of it (refuted). Both raise NotImplementedError with a bath. autograph raises IndexError without a bath for less than two modes and with a bath for no inner mode; otherwise its tree has ELEC and what a fixed rule keeps of either half: [root] for one leaf, both for two, the last and a new name for three, twice the new name from four on. So all leaves are in the tree exactly for four inner modes without a bath, or two inner and two outer ones. autograph_with_aux copies every dimension to the primed name and has the same rule on pairs of a leaf and its primed copy. Outer modes are meant as given: the code that should make them fails (C92).", "quantifier": "every number of inner and outer modes, all parameters, dimensions, fuel above the number of modes", "why_tests_cant": "the scripts that use the model write their own graphs; loss of leaves depends on the number of modes and a test would fix it", "anchors": ["minitn/models/spinboson.py:SpinBosonModel.autograph", "minitn/models/spinboson.py:SpinBosonModel.autograph_mctdh", "minitn/models/spinboson.py:SpinBosonModel.autograph_full", "minitn/models/spinboson.py:SpinBosonModel.autograph_with_aux", "minitn/models/spinboson.py:SpinBosonModel._update"]}
{"id": "C84", "title": "Propagation on a grid", "statement": "At the points of the grid every pass of Propagator is a split step: the exponential of half a step of the first function, the Fourier sum, the exponential of a step of the second function, the inverse sum, the first exponential again; for several states with the exponentials of the matrices at every point. The k-th pair yielded has the time t0 + k dt. The sum of the squares over the points is kept for real functions and hermitian matrices, also if they depend on time. For functions without time a call with -dt undoes one with dt. With renormalize the function is the other one divided by its norm, and the coefficient has been multiplied by this norm. After a pass the function raises ValueError out of the range of the grid. The norm of the class, which is Simpson's rule, is not kept (refuted). Because of the distances of the momenta, for the energy p a wave moves by one point in less time than the distance of two points (refuted).", "quantifier": "every grid of at least two points, every function, number of states, step length, number of passes, time dependence", "why_tests_cant": "the test in the file only transforms a gaussian forth and back; conservation for all potentials and step lengths, and the error of the grid of momenta, which vanishes for many points, need a proof", "anchors": ["minitn/bases/girds.py:Propagator.__call__", "minitn/bases/girds.py:Propagator.normalize", "minitn/bases/girds.py:GridBasis.exp", "minitn/bases/girds.py:GridBasis.keep_ft_type", "minitn/bases/girds.py:with_time"]}
{"id": "C85", "title": "The hierarchy on a grid", "statement": "With a basis for some modes the terms of Hierachy are those of the hierarchy in which the operators of such a mode are U = (q - d)/sqrt 2, D = (q + d)/sqrt 2, N = (q^2 - d^2 - 1)/2 and its weight is the square root of Re(c + c')/2; the other modes keep numbered tiers and the given scale. A matrix that takes the operators of a mode to those of another representation with the same weight takes the derivative to the derivative. A weighted sum of traces that no U and N reaches is conserved (for symmetric matrices). On the grid of the sine basis U is the transpose of D and N is symmetric; but the class lacks eig_mat, so the terms raise AttributeError unless one is attached (refuted). The relation D U - U D = 1 fails at every point of a grid with diagonal q (refuted).", "quantifier": "every number of modes, tiers and points, every mixture of numbered modes and grids, every density", "why_tests_cant": "no test uses the basis argument; the equations for every mixture, and the covariance under changes of representation, are statements on all matrices", "anchors": ["minitn/heom/hierachy.py:Hierachy._raiser", "minitn/heom/hierachy.py:Hierachy._lower", "minitn/heom/hierachy.py:Hierachy._numberer", "minitn/heom/hierachy.py:Hierachy._diff"]}
{"id": "C86", "title": "The dense generator of sbm.py", "statement": "dense_h hands its arguments to heom_h_list one place too far: the leaves of the bath become the temperature, the temperature becomes the basis, f_type becomes the scale. With oscillators it always raises TypeError. With exponentials of a bath it raises TypeError for a temperature or without f_type, ZeroDivisionError for f_type 0. Otherwise the matrix acts, over the axes i, j and tiers in row-major order, as the sum of all factors of all terms; so a coupling term contributes -i[X, .] and the ladder operators separately, not their product (refuted: not the generator). Without a bath it is the generator of the isolated system, with the transposed Hamiltonian from the left. A leaf that is not among the indices stops the sum, with a ValueError if it comes first.", "quantifier": "every system matrix, every number of exponentials and tiers, all arguments, every vector", "why_tests_cant": "the two scripts that call it use combinations that raise; that no combination with a bath gives the generator needs all of them", "anchors": ["minitn/models/sbm.py:SpinBoson.dense_h"]}
{"id": "C87", "title": "The initial state for finite temperature", "statement": "autocomplete with max_entangled gives every tensor that has two leaves of n states and no tensor below an array whose first row is the maximally entangled state, entries 1/sqrt(n) on the diagonal, and every other tensor its first basis vector, so the network is a product of maximally entangled pairs; when all leaves are in pairs, the partial trace over the second leaves is the identity over the number of states. The other rows come from a search with the Hamiltonian of the unprimed leaf: the first term of h_list on that leaf only, else of f_list at time 0, else RuntimeError; the vectors found are orthonormal. Too few vectors are completed by the first unit vectors; for a diagonal Hamiltonian and n vectors found the rows are then dependent (refuted: not a basis). The array has the parent's axis first whatever axis is linked (refuted: an axis 1 of the same length gives a pair that is not entangled). Tensors without two leaves or a parent are refused with RuntimeError, unnamed leaves with AttributeError; with two primed leaves the number of states of an earlier tensor is used, UnboundLocalError if there is none. Without max_entangled it is the autocomplete of C41.", "quantifier": "every tree, every number of states and length of the links, all Hamiltonians, every result of the search", "why_tests_cant": "the scripts use one tree with links of length n*n; a product formula for every tree and the failing completions cannot be run through", "anchors": ["minitn/algorithms/ml.py:MultiLayer.autocomplete", "minitn/algorithms/ml.py:MultiLayer._local_matvec", "minitn/heom/propagate.py:MultiLayer.autocomplete"]}
{"id": "C88", "title": "Whole steps and the generator of the projector splitting propagation", "statement": "one_site_step of propagate2.py, run with its arrays, environments and decompositions and with any answers of the solver, propagates each tensor once for tau and each bond once for -tau in the order of the sweep, each event at the root; when it ends, the tensors form a network with the same links and the same root; if it raises, it has done a first part of the same events. Every diff on the way is for the mixed terms of C79. snd_order_step does the forward and then the backward sweep for half the time each, the same seen from either end. With two tensors or more, the forward two_site_step does the same with the events of C20, each pair once for tau and each tensor for -tau once less than it has neighbours; the backward two_site_step raises RuntimeError before anything is propagated, so snd_order_step with it always raises. propagator with a method beginning with s or S, or with u or U of first order, yields the times first, first + dt, ... with the root, one complete step between two pairs, a network with the links of the start at each pair, stops after steps pairs, and an exception comes after at least one pair; with u or U of second order it yields the first pair and raises; a method beginning with another letter than u or s, or empty, raises ValueError at the first next.", "quantifier": "every tree, every tensor network, every list of terms, all answers of the solver, every number of steps", "why_tests_cant": "an invariant of every intermediate state of every sweep, for all trees and all answers of the ODE solver", "anchors": ["minitn/heom/propagate2.py:ProjectorSplitting.one_site_step", "minitn/heom/propagate2.py:ProjectorSplitting.snd_order_step", "minitn/heom/propagate2.py:ProjectorSplitting.two_site_step", "minitn/heom/propagate2.py:ProjectorSplitting.propagator"]}
{"id": "C89", "title": "Whole splitting steps of the multi-layer method", "statement": "split_step and r_split_step of ml.py, run with their arrays, stored environments and decompositions and with any calls made by the solver, do the events of the sweeps (C18, C22) in order, each at the root: each tensor gets tau in total and each bond -tau; snd_order_step with split_step is the same seen from either end, the recursive step of second order only for chains. When a step ends, the tensors form a network with the same links and the same root; if it raises, it has done a first part of the events. Without time-dependent terms, every diff on the way returns what it returns with nothing stored. With two tensors or more, the forward unite_step does the events of C20 likewise; the backward one raises RuntimeError before anything is propagated, so snd_order_step with it always raises.", "quantifier": "every tree, every tensor network, every list of terms, all calls by the solver", "why_tests_cant": "an invariant of every intermediate state of every sweep, for all trees and all calls of the ODE solver", "anchors": ["minitn/algorithms/ml.py:MultiLayer.split_step", "minitn/algorithms/ml.py:MultiLayer.snd_order_step", "minitn/algorithms/ml.py:MultiLayer.unite_step", "minitn/algorithms/ml.py:MultiLayer.r_split_step"]}
{"id": "C90", "title": "Canonical form and norm are carried through whole splitting steps", "statement": "If every tensor but the root is orthonormal along its axis, then after one_site_step, snd_order_step or two_site_step of propagate2.py, and after split_step, snd_order_step, unite_step or r_split_step of ml.py, it is so again, about the same root, whatever the solver answers and wherever the decompositions are cut; also at each pair that propagator yields. The norm of such a network, as global_square returns it, is that of the root's array. If no decomposition is cut and every vector that the solver puts into a tensor has the norm of the state, the state has the same norm after the step. Where bonds are cut this is false.", "quantifier": "every tree, every tensor network in canonical form, every list of terms, all answers of the solver, every number of steps", "why_tests_cant": "an invariant of every intermediate state of every sweep, for all trees, all decompositions and all answers of the ODE solver", "anchors": ["minitn/heom/propagate2.py:ProjectorSplitting.one_site_step", "minitn/heom/propagate2.py:ProjectorSplitting.two_site_step", "minitn/heom/propagate2.py:ProjectorSplitting.snd_order_step", "minitn/heom/propagate2.py:ProjectorSplitting.propagator", "minitn/algorithms/ml.py:MultiLayer.split_step", "minitn/algorithms/ml.py:MultiLayer.unite_step", "minitn/algorithms/ml.py:MultiLayer.r_split_step", "minitn/tensor.py:Tensor.split_unite", "minitn/tensor.py:Tensor.unite_split"]}
{"id": "C91", "title": "A forward splitting step leaves the norm of the solver's last vector", "statement": "From a network in canonical form, one_site_step forward of propagate2.py, split_step forward and r_split_step of first order of ml.py end with a network in canonical form about the same root whose norm is that of the last vector which the solver hands over, whatever the earlier ones are, whatever the norm was before, and also when the decompositions are cut. Every pair that propagator of ml.py yields in real time with a splitting method has the time start + n ode_inter and the root, and the network is in canonical form then; with a first-order one-site or recursive method and vectors that are normalised, all states but the first have the norm of these vectors; with any method the norm stays if nothing is cut and all vectors have the norm of the state.", "quantifier": "every tree, every tensor network in canonical form, every system of terms, all calls of the solver, every number of calls of next", "why_tests_cant": "for all trees, cuts and answers of the ODE solver, at every step of the generator", "anchors": ["minitn/algorithms/ml.py:MultiLayer.propagator", "minitn/algorithms/ml.py:MultiLayer.split_step", "minitn/algorithms/ml.py:MultiLayer.r_split_step", "minitn/algorithms/ml.py:MultiLayer._split_prop", "minitn/heom/propagate2.py:ProjectorSplitting.one_site_step"]}
{"id": "C92", "title": "Discretising a spectral density keeps its weight and first moment", "statement": "linear_discretization with an exact quad gives one mode per bin of equal width. Of a density that is not negative the squared couplings add up to the integral of the density, the frequencies weighted with them to the integral of its first moment, and every frequency lies in its bin, strictly if the density is continuous and positive, so they increase. It raises ZeroDivisionError exactly if the integral over some bin is zero, for a continuous density that is not negative exactly if it vanishes on some bin; a bin of negative integral gets the coupling nan; num = 0 or -1 gives no modes, less raises ValueError. The Drude-Lorentz, Brownian and bimodal densities are odd, continuous and positive at positive frequencies, so they are discretised from 0 for any num; plain raises as soon as the last bin lies beyond its end. SpinBosonModel with including_bath, the default of RotSpinBosonModel, cannot be built (refuted): it reads bimodal_spectral_density from the module bath, which has no such name.", "quantifier": "every density, interval and number of modes; all positive parameters of the densities; all parameters of the models", "why_tests_cant": "integrals of arbitrary densities over arbitrary partitions; the test scripts carry a copy of the routine and never build a model with a bath", "anchors": ["minitn/models/bath.py:linear_discretization", "minitn/heom/corr.py:SpectralDensityFactory", "minitn/models/spinboson.py:SpinBosonModel.outer_hamiltonian", "minitn/models/spinboson.py:RotSpinBosonModel.__init__"]}
{"id": "C93", "title": "hilbert_angle is the angle between two states if their overlap is real", "statement": "For two networks of the same form, which may share objects, hilbert_angle(r1, r2) takes the arccos of <2|1>/(|1||2|) in degrees, a number of modulus at most one, or gives nan if one of the states is zero; an array missing in the second network is a TypeError. It changes nothing but aux, and afterwards both networks hold the conjugates of their own arrays there. If <2|1> is real the result is the real angle between 0 and 180 with that cosine: 0 for a positive multiple of the state, 180 for a negative one. If <2|1> is not real, as for a state and i times it, the result is no real number (refuted as an angle).", "quantifier": "every tree, all arrays and states, any sharing between the networks", "why_tests_cant": "no test calls it; all trees and states; overwriting of aux between the three products", "anchors": ["minitn/tensor.py:Tensor.hilbert_angle"]}
{"id": "C94", "title": "Harmonic oscillator functions are right only if m k / hbar is one", "statement": "Polynomial.hermite(n) is the Hermite polynomial given by the formula of Rodrigues, of degree n with top coefficient 2**n. harmonic_oscillator(n, k, m, hbar) solves the Schroedinger equation of mass m and angular frequency k (the potential m * sho(k)) with energy hbar k (n + 1/2) if m k / hbar = 1 or n <= 1. Otherwise it is no stationary state for any energy, because the polynomial is taken at (m k / hbar) y and not at its square root (refuted); for n = 1 it is too long by the factor sqrt(m k / hbar). Stretching the function at unit parameters gives the right states; there each function comes from the one before by the ladder operator with factor sqrt(2 (n + 1)), starting from the normalised Gaussian. With sho(k) itself and a mass other than one even the ground state function is not stationary (refuted).", "quantifier": "every n, all positive k, m, hbar, all energies", "why_tests_cant": "all n and all parameters; defaults are one, where the mistake is not seen", "anchors": ["minitn/lib/symbolic.py:BasisFunction.harmonic_oscillator", "minitn/lib/symbolic.py:Polynomial.hermite", "minitn/lib/numerical.py:PotentialFunction.sho"]}
{"id": "C95", "title": "Matrices by computer algebra are made symmetric", "statement": "symbolic.matrix_repr does the integrals <i|op|j> for j <= i only and copies them, so the result is symmetric for every operator. It is the matrix of the operator for products with a function, and for second derivatives if phi_i phi_j' - phi_i' phi_j agrees at both ends; with x and x**2 on [0, 1] it is not (refuted), and for first derivatives of functions vanishing at the ends all entries above the diagonal have the wrong sign (refuted). In CasDVR the matrix of f(x) is diagonal in the columns of eigh, the grid points are the inverse function at its eigenvalues, t_mat is symmetric and goes back to -hbar**2/(2m) times the matrix of second derivatives, and h_mat adds the potential at the grid points. With an orthonormal basis dvr2cont keeps inner products. The sine functions are orthonormal, and their matrix of second derivatives is the diagonal one SineDVR uses.", "quantifier": "every basis, operator, interval and vector", "why_tests_cant": "all bases and operators; no test uses CasDVR with an operator that is not symmetric", "anchors": ["minitn/lib/symbolic.py:matrix_repr", "minitn/lib/symbolic.py:matrix_element", "minitn/bases/dvr.py:CasDVR", "minitn/bases/dvr.py:DVR.dvr2cont"]}
{"id": "C96", "title": "Window functions fall to zero but are not cut off", "statement": "WindowFunction.g0prime(l) and g1prime(l) are 1 at time 0 and 0 at l, even, strictly decreasing on [0, l], so between 0 and 1 on [-l, l]. They are not cut off: beyond l both are negative (g1prime at least up to 2l), -1 at 2l (refuted as windows for longer times). PotentialFunction.w_well(d0, a) is never negative, zero exactly at a and -a, even, d0 at 0, falling on [0, |a|] and rising beyond it. square_well is v0 strictly between x0 and x0+width and v0+depth everywhere else, edges included. linear_corr is symmetric and linear in its coordinates and an IndexError for fewer than two.", "quantifier": "every positive length, every depth, width and position, every time", "why_tests_cant": "all times and lengths; the sign beyond the length only shows when a longer series is transformed", "anchors": ["minitn/lib/numerical.py:WindowFunction", "minitn/lib/numerical.py:PotentialFunction"]}
{"id": "C97", "title": "Extended wave functions are not extended", "statement": "heom.network.get_ext_wfns overwrites n_states by the number of components and compares it with the number of rows of the orthonormal basis, which is the same, so the Krylov loop always ends in the first pass. The result is an orthonormal basis of the space of the given wave functions for every operator and every n_states, with at most as many members as given; a larger number of states asked for is never reached (refuted as an extension). More wave functions than components are an AssertionError, other methods NotImplementedError.", "quantifier": "every array of wave functions, operator, number of states", "why_tests_cant": "all arrays and operators; the function has no test", "anchors": ["minitn/heom/network.py:get_ext_wfns"]}
{"id": "C98", "title": "The Gaussian wave packet is normalised and has the given means", "statement": "girds.gaussian_wfn(x0, p0, alpha, hbar) has the norm 1 over the whole line, mean position x0, variance 1/(2 alpha) of the position, mean momentum p0 (the integral of conj(psi) (-i hbar psi') has no imaginary part) and variance hbar**2 alpha/2 of the momentum, so that the product of the variances is hbar**2/4. Integrals over the whole line are limits with both ends going to infinity independently, and are unique.", "quantifier": "every x0, p0, positive alpha, hbar not zero", "why_tests_cant": "all parameters, and integrals over an unbounded interval; the test only compares a packet with itself after two transforms", "anchors": ["minitn/bases/girds.py:gaussian_wfn"]}
{"id": "C99", "title": "A DVR object answers for the potential set last, except for stored energies", "statement": "After any sequence of set_v_func, h_mat, solve and energy_expection (also when calls raise), DVR.h_mat() is t_mat() plus the diagonal of the potential set last at the grid points, and a TypeError if none was set. energy_expection(vec) is <vec|H|vec> for that Hamiltonian, a real number, if solve was called since the potential was set, and an AttributeError otherwise. With exact eigsh, solve returns and stores normalised eigenvectors of that Hamiltonian whose first components are not negative, and energy_expection of each is its energy. energy and eigenstates are not reset by set_v_func and then need not belong to the Hamiltonian that h_mat() returns (refuted).", "quantifier": "every size, symmetric kinetic energy, grid, potentials, eigsh (exact where named), sequence of calls and vector", "why_tests_cant": "every order of calls, also after exceptions; a test sets one potential and solves once", "anchors": ["minitn/bases/dvr.py:DVR.set_v_func", "minitn/bases/dvr.py:DVR.h_mat", "minitn/bases/dvr.py:DVR.solve", "minitn/bases/dvr.py:DVR.energy_expection", "minitn/lib/numerical.py:expection"]}
{"id": "C100", "title": "Mean energies of the many-dimensional DVR", "statement": "With Hermitian matrices on the axes and a real coupling, the Hamiltonian product of PO_DVR stands as well on one side of <u|v> as on the other, so that _rmatvec, which is _matvec, is the adjoint and energy_expection is its own conjugate. energy_expection of an eigenvector is the eigenvalue times its squared norm. Of a product of one vector per axis it is the sum over the axes of the mean energy times the squared norms of the other vectors, plus the mean of the coupling. Before set_v_func it is a TypeError, and for three or more axes of unequal sizes (from the second on) a ValueError. After set_v_func without coupling the mean of an earlier coupling is still in it (refuted).", "quantifier": "every number of axes, sizes, matrices, couplings, vectors", "why_tests_cant": "all numbers of axes and sizes, states kept between calls", "anchors": ["minitn/bases/dvr.py:PO_DVR.energy_expection", "minitn/bases/dvr.py:PO_DVR.h_mat", "minitn/bases/dvr.py:PO_DVR.set_v_func", "minitn/lib/numerical.py:expection"]}
{"id": "C101", "title": "Settings belong to the class and are hardly checked", "statement": "MultiLayer.settings sets the class attributes up to the first unknown name and then raises AttributeError, and succeeds if and only if all names are known; those before an unknown name stay set. All objects of the class without an own attribute of that name read the new values, whichever solver the method was called on; objects with an own attribute and classes that do not inherit from it keep theirs. DavidsonAlgorithm.config sets every name, known or not, and never raises or warns. As checks both are refuted: a misspelt name gives no warning in config, and settings accepts the names of methods and replaces them.", "quantifier": "every class hierarchy, dictionaries, arguments with distinct names", "why_tests_cant": "effects on all other objects and classes, for all argument lists", "anchors": ["minitn/algorithms/ml.py:MultiLayer.settings", "minitn/heom/propagate.py:MultiLayer.settings", "minitn/lib/numerical.py:DavidsonAlgorithm.config"]}
{"id": "C102", "title": "Expectation values in heom/propagate.py are not checked to be real", "statement": "MultiLayer.expection of heom/propagate.py returns the sum of the matrix elements of the terms, divided by the square of the norm if normalized, as a complex number; on a network with fitting arrays it does not raise. On every input, well formed or not, expection of algorithms/ml.py answers the real part of it if the imaginary part passes the check, AssertionError if it does not, and the same exception otherwise, and leaves the same state behind. For anti-Hermitian terms, where ml.py raises, it returns a purely imaginary number.", "quantifier": "every system, state, operator, time and closeness test; values for every network with arrays that fit", "why_tests_cant": "all networks and operators, and the agreement of two copies of a method on all inputs", "anchors": ["minitn/heom/propagate.py:MultiLayer.expection", "minitn/algorithms/ml.py:MultiLayer.expection"]}
