{"id": "C01", "title": "Pairwise index lists enumerate every ordered pair exactly once", "statement": "sparse_pairwise_indices(n, mask_self) returns destination/source lists in which every ordered pair (i,j) with 0<=i,j<n (and i!=j when mask_self=True) occurs exactly once and nothing else occurs, sorted by destination; dense_pairwise_indices(n, mask_self) returns n rows whose i-th row lists exactly those j in increasing order; n<1 is rejected with ValueError by both.", "quantifier": "all integers n and both values of mask_self", "why_tests_cant": "n is unbounded; the off-by-one risks are in the flattened stride arithmetic that deletes the diagonal", "anchors": ["e3x/ops/indexed.py:dense_pairwise_indices", "e3x/ops/indexed.py:sparse_pairwise_indices"]}
{"id": "C02", "title": "sparse_to_dense_indices groups sources by destination", "statement": "For sparse lists of equal length and an explicit pad_idx larger than every index in use, row i of sparse_to_dense_indices(dst, src, pad_idx) is exactly the sequence of src entries whose dst equals i, in their original order, followed only by pad_idx; there are pad_idx rows, all as wide as the largest neighbourhood; lists of different shape raise ValueError.", "quantifier": "all pairs of index lists, all pad_idx", "why_tests_cant": "arbitrary unsorted edge lists with repeated edges and padding entries", "anchors": ["e3x/ops/indexed.py:sparse_to_dense_indices"]}
{"id": "C03", "title": "dense_to_sparse_indices lists exactly the unpadded entries", "statement": "For an adjacency list and pad_idx, the real part of dense_to_sparse_indices is, in row-major order, exactly the pairs (row, entry) with entry < pad_idx; all batch members are padded to a common length using pad_idx in both lists.", "quantifier": "all ragged batches of adjacency lists and all pad_idx", "why_tests_cant": "unbounded ragged batches", "anchors": ["e3x/ops/indexed.py:dense_to_sparse_indices"]}
{"id": "C04", "title": "Dense/sparse index round trip preserves every neighbourhood", "statement": "Converting an adjacency list (with padding at arbitrary positions) to sparse form and back with the same pad_idx yields rows that contain the same neighbours in the same order as the original rows, only compacted to the left; converting sparse to dense and back yields a stable sort of the edge list by destination, i.e. the same multiset of edges.", "quantifier": "all adjacency lists, all edge lists, all admissible pad_idx", "why_tests_cant": "round trip over unbounded structures", "anchors": ["e3x/ops/indexed.py:dense_to_sparse_indices", "e3x/ops/indexed.py:sparse_to_dense_indices"]}
{"id": "C05", "title": "Default pad_idx of sparse_to_dense_indices can collide with real indices", "statement": "It is claimed by the documentation that without pad_idx a value larger than every index is used for padding, so that padded positions can be told apart. The property 'every entry of the result that equals the padding value is padding' is examined for the default pad_idx.", "quantifier": "all edge lists with pad_idx=None", "why_tests_cant": "needs a source index at least as large as the largest destination plus one; ordinary tests use symmetric pair lists", "anchors": ["e3x/ops/indexed.py:sparse_to_dense_indices"]}
{"id": "C06", "title": "Dense and sparse indexed reductions agree", "statement": "indexed_sum, indexed_max and indexed_min give the same value for every node whether the neighbourhood is described by a dense adjacency list with where mask or by the sparse list describing the same edges with num_segments nodes; padded edges contribute nothing; nodes without neighbours get 0 for the sum.", "quantifier": "all edge lists, all values, all node counts", "why_tests_cant": "two independent code paths over unbounded data", "anchors": ["e3x/ops/indexed.py:_indexed_reduce", "e3x/ops/indexed.py:indexed_sum", "e3x/ops/indexed.py:indexed_max", "e3x/ops/indexed.py:indexed_min"]}
{"id": "C07", "title": "Indexed reductions do not depend on edge order", "statement": "Reordering the edges of a sparse index list together with their inputs leaves indexed_sum/indexed_max/indexed_min unchanged for every segment.", "quantifier": "all edge lists and all permutations of them", "why_tests_cant": "factorially many orders", "anchors": ["e3x/ops/indexed.py:_indexed_reduce"]}
{"id": "C08", "title": "indexed_softmax is a probability distribution on each neighbourhood", "statement": "For real inputs and a nonnegative multiplicative mask that is positive on at least one edge of a segment, the outputs belonging to that segment are nonnegative and sum to one, equal the mathematical softmax weighted by the mask, and do not change when a constant is added to all inputs of the segment.", "quantifier": "all inputs, masks, edge lists", "why_tests_cant": "continuum of inputs", "anchors": ["e3x/ops/indexed.py:indexed_softmax"]}
{"id": "C09", "title": "Gathering respects the index lists in both formats", "statement": "gather_src with dense and sparse lists returns for every edge the input of its source node and 0 is never invented for in-range indices; gather_dst returns for every edge the input of its destination node; supplying neither or both kinds of index lists raises an error.", "quantifier": "all inputs and index lists", "why_tests_cant": "unbounded index lists", "anchors": ["e3x/ops/indexed.py:gather_src", "e3x/ops/indexed.py:gather_dst", "e3x/ops/indexed.py:_gather_dense", "e3x/ops/indexed.py:_gather_sparse", "e3x/ops/indexed.py:_determine_index_type"]}
{"id": "C10", "title": "is_broadcastable decides array broadcasting", "statement": "is_broadcastable(s1, s2) is True exactly when numpy broadcasting of the two shapes is defined (a common broadcast shape exists); it is symmetric, and every shape is broadcastable with itself and with the empty shape.", "quantifier": "all pairs of shapes of any rank", "why_tests_cant": "ranks and sizes are unbounded", "anchors": ["e3x/util.py:is_broadcastable", "e3x/nn/modules.py:MessagePass"]}
{"id": "C11", "title": "Configuration setters behave like independent registers", "statement": "After any sequence of Config setter calls every option holds the value of the last successful call to its own setter (or its default); a call with an invalid normalization raises and changes nothing.", "quantifier": "all histories of setter calls", "why_tests_cant": "arbitrarily long interleavings of setters", "anchors": ["e3x/config.py:Config", "e3x/so3/_normalization.py:check_normalization_is_valid"]}
{"id": "C12", "title": "Cartesian ordering is a block-preserving bijection with the documented order", "statement": "For every max_degree the index vector that converts to Cartesian order is a permutation of 0..(L+1)^2-1 that maps each degree block to itself and orders degree l as m = l, -l, l-1, -(l-1), ..., 1, -1, 0; hence degree 1 is stored as x, y, z.", "quantifier": "all max_degree", "why_tests_cant": "max_degree is unbounded", "anchors": ["e3x/so3/_common.py:_cartesian_permutation", "e3x/so3/_common.py:_cartesian_permutation_for_degree"]}
{"id": "C13", "title": "Wigner-D entry reordering equals row and column reordering", "statement": "Reordering the flattened Wigner-D entries gives, in each degree block, the matrix whose rows and columns are both reordered by the Cartesian permutation of that degree.", "quantifier": "all max_degree, all entries", "why_tests_cant": "flattened offset arithmetic over unbounded degrees", "anchors": ["e3x/so3/_common.py:_cartesian_permutation_wigner_d_entries", "e3x/so3/rotations.py:wigner_d"]}
{"id": "C14", "title": "Monomial enumeration is complete, duplicate free and matches the table sizes", "statement": "The monomial exponents enumerated for degree l in 3 (spherical harmonics) and 9 (Wigner-D) variables are exactly the exponent tuples with sum l, each once; their number is the closed formula used for table sizes, and the cumulative totals are the sums of the per-degree counts, so every generated row index stays inside the table.", "quantifier": "all degrees", "why_tests_cant": "degrees are unbounded", "anchors": ["e3x/so3/_common.py:_monomial_powers_of_degree", "e3x/so3/_common.py:_rotation_matrix_powers_of_degree", "e3x/so3/_common.py:_multicombinations", "e3x/so3/_common.py:_total_number_of_cartesian_monomials"]}
{"id": "C15", "title": "Clebsch-Gordan cache is transparent for every request history", "statement": "Starting from no cache or any cache previously written, every sequence of requests (any max_degree order, any num_processes) returns for each request exactly the table a cold computation would return, and the cached maximum degree never decreases.", "quantifier": "all request histories, all degrees, all process counts", "why_tests_cant": "history and degree are unbounded; tests exercise a handful of orders", "anchors": ["e3x/so3/_clebsch_gordan_lut.py", "e3x/so3/_lookup_table_generation_utility.py"]}
{"id": "C16", "title": "Spherical-harmonics coefficient cache is transparent for every request history", "statement": "Same as for Clebsch-Gordan: any sequence of requests returns tables identical to a cold computation, and smaller requests are exact prefixes of larger ones.", "quantifier": "all request histories and degrees", "why_tests_cant": "history and degree are unbounded", "anchors": ["e3x/so3/_spherical_harmonics_lut.py"]}
{"id": "C17", "title": "Wigner-D coefficient cache is transparent for every request history", "statement": "Any sequence of requests returns block-diagonal tables identical to a cold computation, independent of how much was cached before.", "quantifier": "all request histories and degrees", "why_tests_cant": "history and degree are unbounded", "anchors": ["e3x/so3/_wigner_d_lut.py"]}
{"id": "C18", "title": "Tensor-conversion cache is transparent for every request history", "statement": "Any sequence of requests returns for every degree the same conversion matrices as a cold computation.", "quantifier": "all request histories and degrees", "why_tests_cant": "history and degree are unbounded", "anchors": ["e3x/so3/_tensor_conversion_lut.py"]}
{"id": "C19", "title": "A crash while saving a cache must not make later lookups fail", "statement": "If the process dies at any point while a lookup table is being written to a user supplied cache path, a later request must still return the correct table (as it does when the file is missing).", "quantifier": "all crash points during the save", "why_tests_cant": "crash points are schedules, not inputs", "anchors": ["e3x/so3/_lookup_table_generation_utility.py:_save_lookup_table_to_disk", "e3x/so3/_lookup_table_generation_utility.py:_load_lookup_table_from_disk"]}
{"id": "C20", "title": "Compressed table storage is lossless", "statement": "Saving a table in compressed form (nonzero entries with their indices) and loading it back gives the identical table, and loading it for a smaller or larger request gives its restriction or its zero-extension.", "quantifier": "all tables of all sizes", "why_tests_cant": "unbounded tables with arbitrary sparsity", "anchors": ["e3x/so3/_clebsch_gordan_lut.py", "e3x/so3/_spherical_harmonics_lut.py", "e3x/so3/_wigner_d_lut.py"]}
{"id": "C21", "title": "Spherical harmonics are homogeneous with parity (-1)^l", "statement": "For every degree l, order m and vector r, the solid harmonic satisfies Y_lm(t r) = t^l Y_lm(r) for all t; in particular Y_lm(-r) = (-1)^l Y_lm(r), and the spherical harmonic of a non-normalised vector whose squared length exceeds the smallest positive normal number (the threshold of normalize) depends only on its direction.", "quantifier": "all degrees, orders, vectors and scalings", "why_tests_cant": "unbounded degree and a continuum of vectors", "anchors": ["e3x/so3/_symbolic.py:_spherical_harmonics", "e3x/so3/irreps.py:spherical_harmonics", "e3x/so3/irreps.py:solid_harmonics"]}
{"id": "C22", "title": "Solid harmonics satisfy Laplace's equation", "statement": "Every solid harmonic polynomial of every degree and order has zero Laplacian.", "quantifier": "all degrees and orders", "why_tests_cant": "unbounded degree", "anchors": ["e3x/so3/_symbolic.py:_spherical_harmonics"]}
{"id": "C23", "title": "Solid harmonics are orthonormal and complete among harmonic polynomials", "statement": "The 2l+1 solid harmonics of degree l are orthonormal under the inner product used for constructing Wigner-D matrices, and every homogeneous harmonic polynomial of degree l is a linear combination of them.", "quantifier": "all degrees, all harmonic polynomials", "why_tests_cant": "unbounded degree", "anchors": ["e3x/so3/_symbolic.py:_spherical_harmonics", "e3x/so3/_symbolic.py:_polynomial_dot_product"]}
{"id": "C24", "title": "Spherical harmonics rotate with Wigner-D matrices", "statement": "For every rotation matrix R, every degree and every vector r, rotating r first and then evaluating spherical harmonics equals evaluating spherical harmonics at r and multiplying by wigner_d(R) in the library's right-multiplication convention.", "quantifier": "all rotations, vectors, degrees", "why_tests_cant": "continuum of rotations and unbounded degree", "anchors": ["e3x/so3/rotations.py:wigner_d", "e3x/so3/irreps.py:spherical_harmonics", "e3x/so3/_symbolic.py:_rotate_xyz_polynomial", "e3x/so3/_wigner_d_lut.py"]}
{"id": "C25", "title": "Wigner-D matrices form an orthogonal block-diagonal representation", "statement": "wigner_d(R) is zero outside the degree blocks, its degree-0 entry is 1, wigner_d(I) is the identity, wigner_d(R1 R2) = wigner_d(R1) wigner_d(R2) and wigner_d(R) is orthogonal, for all rotations.", "quantifier": "all rotations and degrees", "why_tests_cant": "continuum of rotations and unbounded degree", "anchors": ["e3x/so3/rotations.py:wigner_d"]}
{"id": "C26", "title": "rotation(axis, angle) is a proper rotation about the axis", "statement": "For every axis whose squared length exceeds the underflow guard and every angle the returned matrix turns every vector counterclockwise about the axis by the angle, is orthogonal with determinant one, leaves the axis fixed, has trace 1+2cos(angle), rotations about one axis compose by adding angles, and negating the angle gives the inverse.", "quantifier": "all axes and angles", "why_tests_cant": "continuum", "anchors": ["e3x/so3/rotations.py:rotation"]}
{"id": "C27", "title": "Euler rotations are proper and euler_angles_from_rotation inverts them", "statement": "rotation_euler(a,b,c) is orthogonal with determinant one and equals the composition of the three axis rotations; for every rotation matrix outside the gimbal-lock branch, rotation_euler(euler_angles_from_rotation(R)) = R, and inside it the error is bounded by the distance to gimbal lock.", "quantifier": "all angles, all rotation matrices", "why_tests_cant": "continuum with branch points", "anchors": ["e3x/so3/rotations.py:rotation_euler", "e3x/so3/rotations.py:euler_angles_from_rotation"]}
{"id": "C28", "title": "alignment_rotation maps u onto v", "statement": "For nonzero u and v, alignment_rotation(u, v) is a proper rotation R with (u/|u|) R = v/|v|, including parallel and antiparallel vectors.", "quantifier": "all pairs of nonzero vectors", "why_tests_cant": "continuum with a degenerate antiparallel branch", "anchors": ["e3x/so3/rotations.py:alignment_rotation"]}
{"id": "C29", "title": "random_rotation always returns proper rotations", "statement": "For every possible outcome of the random draws and every perturbation value the returned matrices are orthogonal with determinant one (up to 1e-35 where the drawn rotation is within 1e-9 of the identity); perturbation=0 always gives the identity; with perturbation p no point of the unit sphere moves by more than the angle p*pi.", "quantifier": "all random draws and perturbation values", "why_tests_cant": "continuum of random outcomes", "anchors": ["e3x/so3/rotations.py:random_rotation"]}
{"id": "C30", "title": "norm and normalize are the Euclidean norm and unit scaling", "statement": "norm(x) equals the Euclidean norm for every finite real array up to the documented underflow guard; normalize(x) has norm one unless the squared norm is at most the guard, in which case x is returned unchanged; the custom derivative rule equals the true derivative wherever the norm is positive and is finite everywhere.", "quantifier": "all real vectors of all sizes", "why_tests_cant": "continuum of inputs, degenerate at zero", "anchors": ["e3x/ops/safe.py:norm", "e3x/ops/safe.py:normalize", "e3x/ops/safe.py:normalize_and_return_norm"]}
{"id": "C31", "title": "Feature shape validation accepts exactly valid feature shapes", "statement": "A shape is accepted iff it has at least three axes, axis -3 is 1 or 2 and axis -2 is a perfect square; the max_degree returned is its square root minus one.", "quantifier": "all shapes", "why_tests_cant": "unbounded shapes, floating point rounding replaced by the exact integer condition", "anchors": ["e3x/nn/features.py:_extract_max_degree_and_check_shape"]}
{"id": "C32", "title": "change_max_degree_or_type only drops or zero-pads, keeping every surviving irrep", "statement": "Every component (degree, order, parity) present in both representations is preserved, newly created components are zero, and going to a larger representation and back is the identity; a pseudotensor cannot appear in or leak into a proper-tensor slot.", "quantifier": "all features, degrees and parity settings", "why_tests_cant": "unbounded degrees and all conversions", "anchors": ["e3x/nn/features.py:change_max_degree_or_type"]}
{"id": "C33", "title": "add is componentwise addition of irreps", "statement": "add(x, y) contains for every component (degree, order, parity) the sum of the components of its arguments, treating absent ones as zero; it is commutative and associative and commutes with reflection and rotation.", "quantifier": "all feature pairs with arbitrary different degrees/parities", "why_tests_cant": "combinatorially many shape combinations at unbounded degrees", "anchors": ["e3x/nn/features.py:add"]}
{"id": "C34", "title": "reflect is an involution acting by parity", "statement": "reflect negates exactly the odd-parity components, reflecting twice is the identity, and reflection commutes with rotation and with changes of max_degree or type.", "quantifier": "all features", "why_tests_cant": "unbounded degrees", "anchors": ["e3x/nn/features.py:reflect", "e3x/nn/features.py:rotate"]}
{"id": "C35", "title": "Dense layers are equivariant", "statement": "For all weights and biases, Dense commutes with every rotation and with reflection of its input, maps each degree and parity only to itself and applies bias only to true scalars.", "quantifier": "all parameters, inputs, rotations", "why_tests_cant": "parameters and rotations are continua", "anchors": ["e3x/nn/modules.py:Dense"]}
{"id": "C36", "title": "Tensor layers are O(3)-equivariant and respect parity selection", "statement": "For all weights, Tensor commutes with simultaneous rotation/reflection of both inputs in each of its code paths (mixed and separated parity), it is bilinear, and a path whose parities do not match contributes nothing whatever the weights are.", "quantifier": "all parameters, inputs, rotations, degrees, parity layouts", "why_tests_cant": "unbounded degrees with eight parity layouts", "anchors": ["e3x/nn/modules.py:Tensor", "e3x/nn/modules.py:_make_tensor_product_mask", "e3x/nn/modules.py:_duplication_indices_for_max_degree"]}
{"id": "C37", "title": "FusedTensor layers are O(3)-equivariant", "statement": "For all weights, FusedTensor commutes with simultaneous rotation/reflection of both inputs for every combination of parity layouts and degrees.", "quantifier": "all parameters, inputs, rotations, degrees", "why_tests_cant": "as above", "anchors": ["e3x/nn/modules.py:FusedTensor"]}
{"id": "C38", "title": "Message passing is equivariant to rotations and node relabelling", "statement": "MessagePass/_Conv commute with O(3) transformations of features and basis, with relabelling of nodes, give the same result for dense and sparse neighbour lists describing the same edges, and padded edges contribute nothing.", "quantifier": "all graphs, parameters, inputs", "why_tests_cant": "unbounded graphs", "anchors": ["e3x/nn/modules.py:MessagePass", "e3x/nn/modules.py:_Conv", "e3x/nn/modules.py:TensorDense"]}
{"id": "C39", "title": "Attention weights are rotation invariant", "statement": "In MultiHeadAttention/SelfAttention the dot products between queries and keys do not change when inputs and basis are rotated or reflected, and the output transforms equivariantly; rejected configurations raise the documented errors.", "quantifier": "all parameters, inputs, graphs, rotations", "why_tests_cant": "unbounded graphs and continua", "anchors": ["e3x/nn/modules.py:MultiHeadAttention", "e3x/nn/modules.py:SelfAttention"]}
{"id": "C40", "title": "Tensor kernel initialisation masks exactly the inactive paths and counts the active ones", "statement": "The initialiser zeroes a kernel entry iff its coupling path is forbidden by parity or by the triangle rule; fan_in and fan_out equal the number of allowed paths into/out of each irrep; hence each non-zero initial parameter belongs to a path that the Tensor layer really uses.", "quantifier": "all kernel shapes", "why_tests_cant": "unbounded degrees and parity layouts", "anchors": ["e3x/nn/initializers.py:_compute_tensor_fans_and_mask", "e3x/nn/initializers.py:tensor_variance_scaling", "e3x/nn/initializers.py:_parity_degree_index_parity_list", "e3x/nn/modules.py:_make_tensor_product_mask"]}
{"id": "C41", "title": "Cutoff functions go from one to zero and vanish beyond the cutoff", "statement": "For every cutoff>0: the value is 1 at 0, lies in [0,1] and is non-increasing for x>=0, and is 0 for every x>=cutoff; smooth_cutoff is infinitely differentiable on x>-cutoff (in particular at the cutoff) and cosine_cutoff is differentiable everywhere; cutoff<=0 raises ValueError.", "quantifier": "all x and cutoff values", "why_tests_cant": "continuum", "anchors": ["e3x/nn/functions/cutoff.py:smooth_cutoff", "e3x/nn/functions/cutoff.py:cosine_cutoff"]}
{"id": "C42", "title": "smooth_switch interpolates monotonically and its derivative rule is exact", "statement": "For x0<x1 the value is 0 below, 1 above, within [0,1] and non-decreasing everywhere, symmetric about the midpoint, and strictly between 0 and 1 on [x0+eps*(x1-x0), x1-eps*(x1-x0)] (eps: machine epsilon, where the code clamps); it differs from an infinitely differentiable switch function by at most exp(-sqrt(3)/2*(1/eps-1/(1-eps))); x0>=x1 raises; the custom derivative rule returns the function value and equals its derivative everywhere except at the two clamping points.", "quantifier": "all x, x0<x1", "why_tests_cant": "continuum", "anchors": ["e3x/nn/functions/switch.py:smooth_switch", "e3x/nn/functions/switch.py:_smooth_switch_jvp_impl"]}
{"id": "C43", "title": "smooth_damping is zero at zero and approaches one", "statement": "For gamma>0: value 0 at x=0, in (0,1) for x>0, strictly increasing for x>=0, tending to 1, and all derivatives vanish as x goes to 0 from above.", "quantifier": "all x>=0, gamma>0", "why_tests_cant": "continuum", "anchors": ["e3x/nn/functions/damping.py:smooth_damping"]}
{"id": "C44", "title": "Reciprocal and exponential mappings map [0,inf) into (0,1] decreasingly", "statement": "Each mapping is 1 at x=0, positive and at most 1 for x>=0, and non-increasing.", "quantifier": "all x>=0, all kinds, gamma>0", "why_tests_cant": "continuum", "anchors": ["e3x/nn/functions/mappings.py:reciprocal_mapping", "e3x/nn/functions/mappings.py:exponential_mapping"]}
{"id": "C45", "title": "Bernstein basis functions are a partition of unity", "statement": "For every num>=1 and every x, the num basis values are nonnegative and sum to one, on [0,limit] equal the Bernstein polynomials of x/limit (exactly at the end points and outside the clamping regions of width eps, within (num-1)*eps inside them), and num<1 raises.", "quantifier": "all num and x", "why_tests_cant": "num unbounded, x continuum", "anchors": ["e3x/nn/functions/bernstein.py:_bernstein", "e3x/nn/functions/bernstein.py:basic_bernstein"]}
{"id": "C46", "title": "Bernstein derivative rule is the derivative of the function", "statement": "The custom derivative rule equals the true derivative of the returned function for every x.", "quantifier": "all num and x", "why_tests_cant": "continuum, including arguments outside the nominal interval", "anchors": ["e3x/nn/functions/bernstein.py:_bernstein_jvp_impl"]}
{"id": "C47", "title": "Chebyshev basis functions are bounded Chebyshev polynomials", "statement": "On [0,limit] the k-th value of basic_chebyshev is the Chebyshev polynomial T_k(2x/limit-1) (satisfying the three-term recurrence), exactly outside the clamping regions and within k^2(k^2-1)(k^2-4)/90*eps^3 inside them; all values are bounded by one in absolute value as long as num^2*eps<=2; outside the interval the k-th value is sign^k; num<1 raises.", "quantifier": "all num, x", "why_tests_cant": "unbounded num, continuum of x", "anchors": ["e3x/nn/functions/chebyshev.py:_chebyshev", "e3x/nn/functions/chebyshev.py:basic_chebyshev"]}
{"id": "C48", "title": "Window functions are local and sum to one", "statement": "smooth_window and triangular_window are nonnegative, vanish outside their two cells and sum to one for every x in [0, limit*(num-1)/num]; rectangular_window is a 0/1 indicator and sums to one except exactly on interior cell boundaries.", "quantifier": "all num, limit, x", "why_tests_cant": "unbounded num, continuum of x", "anchors": ["e3x/nn/functions/window.py:smooth_window", "e3x/nn/functions/window.py:triangular_window", "e3x/nn/functions/window.py:rectangular_window"]}
{"id": "C49", "title": "Gaussian, Fourier and sinc bases have the documented centres, ranges and supports", "statement": "gaussian values lie in (0,1] and the k-th equals 1 exactly at its centre; fourier values lie in [-1,1] and are even and periodic; sinc values vanish beyond limit and are 1 at zero.", "quantifier": "all num, x, limit", "why_tests_cant": "continuum", "anchors": ["e3x/nn/functions/gaussian.py:_gaussian", "e3x/nn/functions/trigonometric.py:_fourier", "e3x/nn/functions/trigonometric.py:sinc"]}
{"id": "C50", "title": "Activations equal their scalar formula and are equivariant", "statement": "For scalar features each activation computes its documented scalar function, and for general features the gating commutes with rotation and reflection for every gate function.", "quantifier": "all inputs and rotations", "why_tests_cant": "continuum", "anchors": ["e3x/nn/activations.py:_gated_linear", "e3x/nn/activations.py"]}
{"id": "C51", "title": "basis factorises into angular and radial parts, is equivariant and vanishes beyond the cutoff", "statement": "basis(r) equals the outer product of spherical harmonics of the direction and radial functions of the norm times cutoff and damping; it rotates with wigner_d, reflects by parity, is zero wherever the cutoff is zero, and is rotation invariant in its degree-0 part; invalid argument combinations raise.", "quantifier": "all displacement vectors, degrees, radial functions", "why_tests_cant": "continuum", "anchors": ["e3x/nn/wrappers.py:basis"]}
{"id": "C52", "title": "Quadrature grid selection is optimal", "statement": "With precision the smallest available grid of at least the requested precision is chosen (or the most precise one with a warning); with num the largest grid with at most num points is chosen (or the smallest with a warning); exactly one of the two must be given.", "quantifier": "all requests, all grid tables", "why_tests_cant": "unbounded requests", "anchors": ["e3x/so3/quadrature.py:_load_grid"]}
{"id": "C53", "title": "Matrix assembly consumes every irrep exactly once and never runs out", "statement": "With the multiplicities computed by make_dict_irreps_mult, make_square_matrix never raises, uses every irrep column exactly once, and the assembled blocks tile the square matrix without overlap.", "quantifier": "all degree lists, max_degree and mult", "why_tests_cant": "unbounded lists", "anchors": ["e3x/matrix/matmat.py:make_dict_irreps_mult", "e3x/matrix/matmat.py:make_rectangular_matrix", "e3x/matrix/matmat.py:make_square_matrix"]}
{"id": "C54", "title": "Traces read back the degree-0 part of each diagonal block", "statement": "get_traces applied to an assembled matrix returns for every diagonal block the trace contributed by its irreps, and the identity shift cancels exactly.", "quantifier": "all degree lists and mult", "why_tests_cant": "unbounded lists", "anchors": ["e3x/matrix/matmat.py:get_traces", "e3x/matrix/matmat.py:make_square_matrix"]}
{"id": "C55", "title": "Cartesian tensor compression/expansion is exact on symmetric tensors", "statement": "The index vectors used by tensor_to_irreps and irreps_to_tensor list each sorted index tuple once; expanding a compressed symmetric tensor gives the tensor back, for every rank.", "quantifier": "all ranks, all symmetric tensors", "why_tests_cant": "unbounded rank", "anchors": ["e3x/so3/irreps.py:_tensor_compression_indices", "e3x/so3/irreps.py:_tensor_expansion_indices"]}
{"id": "C56", "title": "irreps_to_tensor and tensor_to_irreps are mutually inverse", "statement": "irreps -> tensor -> irreps is the identity for every degree, normalisation and ordering, and the resulting tensor is symmetric and traceless; tensor -> irreps -> tensor is the identity on symmetric traceless tensors; the tensor contracted with a vector in every index is proportional to the irreps paired with the solid harmonics of the vector; rotating the irreps with wigner_d rotates the tensor in every index; wrong shapes and degrees raise ValueError.", "quantifier": "all degrees, irreps, options", "why_tests_cant": "unbounded degree", "anchors": ["e3x/so3/irreps.py:tensor_to_irreps", "e3x/so3/irreps.py:irreps_to_tensor", "e3x/so3/_tensor_conversion_lut.py"]}
{"id": "C57", "title": "inverse_softplus inverts softplus", "statement": "softplus(inverse_softplus(x)) = x for all x>0 and inverse_softplus(softplus(y)) = y for all real y.", "quantifier": "all reals", "why_tests_cant": "continuum", "anchors": ["e3x/ops/helpers.py:inverse_softplus"]}
{"id": "C58", "title": "evaluate_derivatives returns the function and its iterated derivatives", "statement": "The i-th entry is the i-fold derivative operator applied to f at x, for i = 0..max_order, and a negative order raises.", "quantifier": "all functions, orders", "why_tests_cant": "order unbounded", "anchors": ["e3x/ops/helpers.py:evaluate_derivatives"]}
{"id": "C59", "title": "Clebsch-Gordan slicing agrees between the two accessors", "statement": "clebsch_gordan_for_degrees(l1,l2,l3) is exactly the (l1,l2,l3) block of clebsch_gordan(L1,L2,L3) for every L1>=l1, L2>=l2, L3>=l3 and in both index orders.", "quantifier": "all degrees", "why_tests_cant": "unbounded degrees", "anchors": ["e3x/so3/irreps.py:clebsch_gordan", "e3x/so3/irreps.py:clebsch_gordan_for_degrees"]}
{"id": "C60", "title": "Normalization only rescales each degree", "statement": "Spherical harmonics in normalization N equal the racah ones times the documented constant of each degree, in both index orders; tensor conversions in normalization N remain mutually inverse.", "quantifier": "all degrees, vectors, normalizations", "why_tests_cant": "unbounded degrees", "anchors": ["e3x/so3/_normalization.py:normalization_constant", "e3x/so3/irreps.py:spherical_harmonics"]}
{"id": "C61", "title": "Degree masks and duplication indices address exactly the orders of each degree", "statement": "For every max_degree, entry (l, m) of the even (odd) degree mask is true iff l is even (odd), and the duplication indices map entry (l, m) to l; all have (max_degree+1)^2 entries.", "quantifier": "all max_degree", "why_tests_cant": "unbounded degree", "anchors": ["e3x/nn/features.py:even_degree_mask", "e3x/nn/features.py:odd_degree_mask", "e3x/nn/modules.py:_duplication_indices_for_max_degree"]}
{"id": "C62", "title": "Radial functions compute the formulas in their documentation", "statement": "For every argument, each cutoff, damping, mapping and radial basis function computes the formula printed in its docstring, and the reciprocal_*/exponential_* bases are the basic ones (limit 1) evaluated at the mapped variable, optionally multiplied by the mapping.", "quantifier": "all x, num, limit, kinds, gamma", "why_tests_cant": "continuum; docs vs code", "anchors": ["e3x/nn/functions/bernstein.py", "e3x/nn/functions/chebyshev.py", "e3x/nn/functions/gaussian.py", "e3x/nn/functions/trigonometric.py", "e3x/nn/functions/window.py", "e3x/nn/functions/switch.py", "e3x/nn/functions/mappings.py", "e3x/nn/functions/cutoff.py", "e3x/nn/functions/damping.py"]}
{"id": "C63", "title": "Matrices assembled from irreps are equivariant", "statement": "Multiplying every irrep passed to make_square_matrix by a Wigner-D matrix multiplies the assembled matrix from both sides by the corresponding block-diagonal Wigner-D matrix; the optional identity shift does not break this.", "quantifier": "all degree lists, max_degree, mult, irreps and rotations", "why_tests_cant": "reals", "anchors": ["e3x/matrix/matmat.py:make_square_matrix", "e3x/matrix/matmat.py:make_rectangular_matrix"]}
{"id": "C64", "title": "is_traceless_symmetric recognises exactly the traceless symmetric tensors", "statement": "is_traceless_symmetric returns True exactly if all rearrangements of every index agree and every trace over the last two indices vanishes within the tolerances; at zero tolerance this means symmetric with all traces zero; tensors made by irreps_to_tensor are always accepted; bad degrees and shapes raise ValueError.", "quantifier": "all tensors, ranks, tolerances", "why_tests_cant": "unbounded rank, factorially many index permutations", "anchors": ["e3x/so3/irreps.py:is_traceless_symmetric"]}
{"id": "C65", "title": "ExponentialBasis starts at initial_gamma and keeps gamma positive", "statement": "A freshly initialised ExponentialBasis returns exactly what basis returns with gamma=initial_gamma passed to the radial function; for every value the parameter may be trained to, it equals basis with some positive gamma.", "quantifier": "all initial_gamma > 0, all parameter values, all arguments of basis", "why_tests_cant": "continuum", "anchors": ["e3x/nn/wrappers.py:ExponentialBasis", "e3x/ops/helpers.py:inverse_softplus"]}
{"id": "C66", "title": "Clebsch-Gordan arrays are orthonormal intertwiners", "statement": "For every max_degree1, max_degree2, max_degree3 and both index orders, clebsch_gordan returns real numbers that (1) turn the product of the Wigner-D blocks of degree l1 and l2 into the block of degree l3 for every rotation, and for every rotation with inversion up to the sign (-1)^(l1+l2+l3); (2) are orthonormal for all degrees l3 and complete over |l1-l2| <= l3 <= l1+l2; (3) vanish if the triangle inequality is violated; (4) only change by (-1)^(l1+l2+l3) if the inputs are exchanged; (5) reduce to the identity if one input is a scalar, to the dot product over sqrt(2l+1) if the output is a scalar, and to the cross product over sqrt(2) for three vectors.", "quantifier": "all degrees, orders, index orders and rotations", "why_tests_cant": "unbounded degrees, continuum of rotations", "anchors": ["e3x/so3/_symbolic.py:_clebsch_gordan", "e3x/so3/_clebsch_gordan_lut.py", "e3x/so3/irreps.py:clebsch_gordan"]}
{"id": "C67", "title": "Layers are equivariant with the package's own coefficients", "statement": "With the arrays returned by clebsch_gordan and wigner_d (no assumption about them), Tensor, FusedTensor, TensorDense, MessagePass, MultiHeadAttention, SelfAttention and make_square_matrix commute with every rotation (a different one for each batch entry where the inputs allow it) and with inversion; the traces of assembled matrices read back degree 0.", "quantifier": "all inputs, parameters, degrees, rotations and reflections", "why_tests_cant": "continuum of rotations; unbounded degrees", "anchors": ["e3x/nn/modules.py", "e3x/so3/irreps.py", "e3x/matrix/matmat.py"]}
{"id": "C68", "title": "Rotating a structure rotates the results of message passing and attention", "statement": "If all displacement vectors given to basis are rotated by the same rotation, or rotated and inverted, and the node features are rotated (and reflected) with the Wigner-D matrices, then MessagePass, MultiHeadAttention and SelfAttention applied to the new basis values succeed and return the rotated (and reflected) features; cutoffs and norms returned by basis do not change.", "quantifier": "all vectors, node features, graphs, parameters, options of basis, rotations with or without inversion", "why_tests_cant": "continuum of rotations and inputs", "anchors": ["e3x/nn/wrappers.py:basis", "e3x/nn/modules.py:MessagePass", "e3x/nn/modules.py:MultiHeadAttention", "e3x/nn/modules.py:SelfAttention"]}
{"id": "C69", "title": "Networks are equivariant under rotations, reflections and translations of a molecule", "statement": "For every program that applies Dense, Tensor, FusedTensor, TensorDense, MessagePass, MultiHeadAttention, SelfAttention, activations, change_max_degree_or_type and add in any order to scalar node features and to basis values of the displacement vectors of a molecule: moving the molecule rigidly (rotation, optional inversion, translation) leaves every scalar unchanged, rotates every vector (and reflects it, unless it is a pseudovector) and multiplies every other feature with its Wigner-D matrix.", "quantifier": "all networks (any number and order of layers), parameters, molecules and rigid motions", "why_tests_cant": "unbounded networks; continuum of motions", "anchors": ["e3x/nn/modules.py", "e3x/nn/wrappers.py", "e3x/nn/features.py", "e3x/nn/activations.py", "e3x/so3/irreps.py"]}
{"id": "C70", "title": "A node only sees its neighbourhood", "statement": "For every program that applies Dense, Tensor, FusedTensor, TensorDense, MessagePass, MultiHeadAttention, SelfAttention, activations, change_max_degree_or_type and add in any order, of which k move information along edges: the features computed for a node depend on nothing but the features, edge values and cutoffs that can be reached within k edges. Renumbering atoms and edges only renumbers the results, so sums over all atoms are unchanged; a batch of structures or two molecules joined into one array give the same features as each alone; dense and sparse lists give the same features; padding and far atoms have no effect.", "quantifier": "all networks (any number and order of layers), parameters, graphs, batch shapes, renumberings", "why_tests_cant": "unbounded graphs and networks; factorially many orders", "anchors": ["e3x/nn/modules.py:MessagePass", "e3x/nn/modules.py:MultiHeadAttention", "e3x/ops/indexed.py", "e3x/nn/features.py"]}
{"id": "C71", "title": "Embed looks up rows and gives scalars", "statement": "For integer inputs of any shape, Embed returns an array of shape (..., 1, 1, features) whose entries are the rows of the embedding table chosen by the inputs, each independent of all other inputs; numbers outside [-n, n) give NaN and negative numbers count from the end; inputs that are not integers raise ValueError; the initial table is drawn with the configured initializer for shape (num_embeddings, features).", "quantifier": "all table sizes, shapes, numbers, dtypes", "why_tests_cant": "unbounded shapes and numbers; out-of-range behaviour is only documented as forbidden", "anchors": ["e3x/nn/modules.py:Embed"]}
{"id": "C72", "title": "From atoms to predictions: energies do not depend on how a molecule is placed or numbered", "statement": "For the whole pipeline (Embed of atomic numbers, basis of the displacement vectors of all pairs, any network of layers): rotating, inverting and shifting the molecule and renumbering its atoms and its pairs at the same time leaves the scalar features of every atom and their sum unchanged, turns vectors with the molecule and other features with Wigner-D matrices; the moved molecule is accepted whenever the original one is; whether a molecule is accepted does not depend on its positions or atomic numbers.", "quantifier": "all models (parameters, radial functions, cutoffs, networks), molecules, rigid motions, renumberings", "why_tests_cant": "continuum of molecules and motions; unbounded networks", "anchors": ["e3x/nn/modules.py", "e3x/nn/wrappers.py:basis", "e3x/nn/modules.py:Embed", "e3x/ops/indexed.py"]}
{"id": "C73", "title": "Forces turn with the molecule and conserve momentum and angular momentum", "statement": "If the energy (sum of a scalar feature over all atoms) is differentiable with respect to the positions, then minus its gradient turns with the molecule when it is rotated, inverted, shifted and renumbered; the forces sum to zero and so do the torques.", "quantifier": "all models, molecules, rigid motions, renumberings", "why_tests_cant": "continuum; a statement about derivatives of arbitrary networks", "anchors": ["e3x/nn/modules.py", "e3x/nn/wrappers.py:basis"]}
{"id": "C74", "title": "Pairs of atoms beyond the cutoff have no influence", "statement": "With a cutoff function that vanishes from some distance r on (and given to the attention layers, if there are any, in which case every atom with listed neighbours must have one closer than r), networks whose message passing layers keep the default use_basis_bias=False predict the same features for every atom whether or not pairs of atoms at distance r or more are listed, and whether or not further atoms exist at such distances; more precisely, the features of an atom depend only on the kinds and relative positions of the atoms that can be reached in k steps shorter than r, where k is the number of layers that move information along edges. So neighbour lists may contain extra pairs without changing energies.", "quantifier": "all models, molecules, lists of pairs, cutoff functions", "why_tests_cant": "continuum of molecules; unbounded networks and lists", "anchors": ["e3x/nn/modules.py:MessagePass", "e3x/nn/modules.py:MultiHeadAttention", "e3x/nn/wrappers.py:basis", "e3x/nn/functions/cutoff.py"]}
{"id": "C75", "title": "A model that accepts one molecule accepts all molecules", "statement": "If the pipeline of Embed, basis and a network of layers runs for one molecule without raising, it runs for every molecule with at least one pair and known atomic numbers, whatever the number of atoms and pairs, and its results have one entry for every atom and otherwise the same degrees, parities, number of features and dtype.", "quantifier": "all models, all pairs of molecules", "why_tests_cant": "unbounded numbers of atoms, pairs and layers", "anchors": ["e3x/nn/modules.py", "e3x/nn/wrappers.py:basis", "e3x/ops/indexed.py"]}
{"id": "C76", "title": "Predictions are continuous functions of the positions", "statement": "For the whole pipeline (Embed, basis, any network of layers): if the radial functions, the cutoff, the damping and the gates of the activations are continuous, every feature of every atom and every energy is a continuous function of the positions of all atoms, as long as interacting atoms do not coincide (and, with attention and a cutoff, every atom that has listed neighbours has one within the cutoff). The set of such positions contains with each element all positions close to it.", "quantifier": "all models, molecules and positions", "why_tests_cant": "continuum of positions; a statement about limits", "anchors": ["e3x/nn/modules.py", "e3x/nn/wrappers.py:basis", "e3x/nn/activations.py", "e3x/so3/irreps.py:spherical_harmonics"]}
{"id": "C77", "title": "Forces exist and are unique", "statement": "If moreover the radial functions, the cutoff, the damping and the gates of the activations are differentiable, the energy and every other feature are (totally) differentiable functions of the positions of all atoms; so forces exist, and there is only one force on every atom. Together with C73 momentum and angular momentum are conserved for all such models without further assumptions.", "quantifier": "all models, molecules and positions", "why_tests_cant": "continuum of positions; a statement about derivatives of arbitrary networks", "anchors": ["e3x/nn/modules.py", "e3x/nn/wrappers.py:basis", "e3x/nn/activations.py"]}
{"id": "C78", "title": "Energies and forces are smooth", "statement": "If the radial functions, the cutoff, the damping and the gates of the activations are infinitely differentiable, the energy can be differentiated any number of times with respect to the positions of all atoms, and so can every force and every other feature; every molecule that is accepted has a smooth energy surface.", "quantifier": "all models, molecules, positions and orders of differentiation", "why_tests_cant": "continuum of positions; unbounded order", "anchors": ["e3x/nn/modules.py", "e3x/nn/wrappers.py:basis", "e3x/nn/activations.py"]}
{"id": "C79", "title": "Which functions of the package give smooth, differentiable or continuous predictions", "statement": "In exact arithmetic, as functions of positive distances: smooth_cutoff, smooth_damping, the exponential and reciprocal mappings, and the Gaussian, Fourier, exponential/reciprocal Bernstein and Chebyshev functions are smooth; cosine_cutoff is differentiable once but not twice; sinc and triangular_window are continuous; rectangular_window is not. The gates of silu, mish and gelu (and serf, for a smooth erf) are smooth, those of soft_sign, hard_tanh and hard_silu continuous; the gates of relu, relu6, leaky_relu, selu and elu with alpha other than one jump at zero, and with them features of positive degree are not continuous functions of the positions.", "quantifier": "all distances, numbers of functions, limits, decay constants, orders of differentiation", "why_tests_cant": "continuum; unbounded order; limits", "anchors": ["e3x/nn/activations.py", "e3x/nn/functions/cutoff.py", "e3x/nn/functions/damping.py", "e3x/nn/functions/mappings.py", "e3x/nn/functions/gaussian.py", "e3x/nn/functions/trigonometric.py", "e3x/nn/functions/bernstein.py", "e3x/nn/functions/chebyshev.py", "e3x/nn/functions/window.py"]}
{"id": "C80", "title": "Energies do not jump when atoms enter or leave the neighbour list", "statement": "Take a model whose cutoff function vanishes from distance r on (used by the basis and, if there are any, by the attention layers) and keeps use_basis_bias=False. For every configuration in which no two atoms coincide (and, with attention, every atom has another one within the cutoff), the energy is the same for every non-empty list of pairs that contains all pairs closer than r, among them the list of all pairs. If the radial functions, the cutoff, the damping and the gates are continuous, differentiable or smooth, then so is the energy as a function of the positions even if the list is computed anew for every configuration, and there is one (smooth) force on every atom.", "quantifier": "all models, numbers of atoms, positions, and ways of choosing the lists", "why_tests_cant": "continuum of positions; arbitrary list-building policies", "anchors": ["e3x/nn/modules.py", "e3x/nn/wrappers.py:basis", "e3x/nn/functions/cutoff.py", "e3x/ops/indexed.py:sparse_pairwise_indices"]}
{"id": "C81", "title": "Gradients are finite and correct", "statement": "Reverse-mode differentiation (jax.grad) differentiates both branches of every jnp.where, so a discarded branch with an infinite or undefined derivative would make the gradient NaN. For every activation function, cutoff, damping, mapping, switch, window and radial basis function of the package the gradient is finite at every argument that is allowed (distance zero, the cutoff distance and values far beyond it included), and wherever the function does not switch between formulas it is the derivative of the function; for both cutoffs it is the derivative at the cutoff distance as well. This covers the custom derivative rules of smooth_switch and the Bernstein polynomials. In exact arithmetic.", "quantifier": "all arguments, numbers of functions, limits, kinds, decay constants and thresholds", "why_tests_cant": "continuum of arguments; NaN appears at single points such as zero that random tests do not visit; parameters unbounded", "anchors": ["e3x/nn/activations.py", "e3x/nn/functions/cutoff.py", "e3x/nn/functions/damping.py", "e3x/nn/functions/mappings.py", "e3x/nn/functions/switch.py", "e3x/nn/functions/window.py", "e3x/nn/functions/bernstein.py", "e3x/nn/functions/chebyshev.py", "e3x/nn/functions/gaussian.py", "e3x/nn/functions/trigonometric.py"]}
{"id": "C82", "title": "Gradients of basis functions with respect to displacements are finite and correct, also at the zero vector", "statement": "Let radial function, cutoff and damping have finite gradients at all distances >= 0. Then for every degree, state of the table cache, and displacement vector - the zero vector included - the gradient (jax.grad) of every entry that basis returns with respect to the displacement is finite, and wherever the distance is positive and the three functions are differentiable it is the derivative. At the zero vector: for the entry of degree zero the gradient is zero, as is every derivative that exists; for entries of higher degree with a damping function that vanishes faster than the distance (smooth_damping does) the entry is differentiable and both gradient and derivative are zero. normalize has finite gradients for every vector; they are the derivatives unless the squared length is exactly the threshold, and at the zero vector they form the identity matrix. In exact arithmetic.", "quantifier": "all degrees, vectors, radial, cutoff and damping functions, cache states", "why_tests_cant": "the zero vector is a single point; NaN there depends on the guards against division by zero and on the derivative rule of the norm; continuum of vectors and arbitrary functions", "anchors": ["e3x/nn/wrappers.py:basis", "e3x/ops/safe.py:norm", "e3x/ops/safe.py:normalize", "e3x/so3/irreps.py:spherical_harmonics", "e3x/nn/functions/damping.py:smooth_damping"]}
{"id": "C83", "title": "norm neither overflows nor loses accuracy in floating point arithmetic", "statement": "With rounding in every operation and the squares added in any order (XLA does not specify one), norm of an array of vectors returns for every vector a finite number whose relative error is at most a small multiple (2m+7 for m summands) of the rounding unit, plus the smallest normal number, whenever the true length is at most about half the largest number and the vector is not shorter than the largest entry of the whole array by a factor of about sqrt(64 m tiny/u) (2^-48 sqrt(m) in float32). For a single vector the last condition is void: every vector with an entry that is a normal number is covered, although squaring such entries may overflow or underflow. The norm of the zero vector is exactly zero. The condition cannot be dropped: in a float32 batch with a vector of length 2^80 the norm of a vector of length one is computed as zero, unlike jax.numpy.linalg.norm.", "quantifier": "all vectors, batches, orders of summation and rounding functions (float32, float64, bfloat16, with and without subnormal numbers)", "why_tests_cant": "rounding errors depend on the order of summation, which differs between devices; the set of inputs is huge and extreme magnitudes are not tested", "anchors": ["e3x/ops/safe.py:norm"]}
{"id": "C84", "title": "normalize returns unit vectors in floating point arithmetic", "statement": "With rounding in every operation and the squares added in any order: if the squared length of a vector is at least four times the smallest normal number (and under the conditions of C83), every entry that normalize returns is finite and within relative error (3m+10) u, plus the smallest normal number, of the entry of the exact unit vector, and the length of the result differs from one by at most (3m+11) u. If the squared length is at most a quarter of the smallest normal number the vector is returned unchanged, the zero vector included; division by zero cannot occur.", "quantifier": "all vectors, batches, orders of summation and rounding functions (float32, float64, bfloat16, with and without subnormal numbers)", "why_tests_cant": "rounding errors depend on the order of summation, which differs between devices; the set of inputs is huge and extreme magnitudes are not tested", "anchors": ["e3x/ops/safe.py:normalize", "e3x/ops/safe.py:normalize_and_return_norm", "e3x/ops/safe.py:norm"]}
{"id": "C85", "title": "Sums over neighbours in floating point arithmetic, in any order", "statement": "With rounding in every addition and the terms of each node added in any order (scatter-add on accelerators is not deterministic), every entry of indexed_sum with sparse indices is finite and differs from the exact sum by at most 2 m u times the sum of the magnitudes of its terms, plus 2 m tiny, if m u <= 1/64 for m summands and the sum of magnitudes is below about half the largest number. Listing the same pairs in another order changes the result by at most twice this. Equality cannot be expected: in float32 two orders of the same three terms give 1 and 1 + 2^-23.", "quantifier": "all index lists, values, orders of summation and rounding functions (float32, float64, bfloat16, with and without subnormal numbers)", "why_tests_cant": "the order of summation is chosen by the device and may differ from run to run", "anchors": ["e3x/ops/indexed.py:indexed_sum"]}
{"id": "C86", "title": "Attention weights in floating point arithmetic", "statement": "With rounding in every operation, an exponential function that is accurate to a few units, and sums in any order: if the largest logit of a node belongs to a pair whose multiplicative mask w is not smaller than about 128 m tiny/u, and all masks are between 0 and 1, then every weight that indexed_softmax (sparse indices) returns for this node is finite and not negative, differs from the exact softmax weight by at most 17 (m+1) u / w, and the weights of the node sum to one up to (2m+2) u. Logits may be of any size up to a quarter of the largest number. The condition on the mask cannot be dropped: the maximum is also taken over pairs with mask 0, and in float32 with logits 0 and -200 and masks 0 and 1 all weights of the node are NaN in any order of summation, although in exact arithmetic they are 0 and 1.", "quantifier": "all index lists, logits, masks, orders of summation, exponential and rounding functions", "why_tests_cant": "the failure needs a masked pair with a much larger logit; rounding errors and underflow depend on magnitudes and on the order of summation", "anchors": ["e3x/ops/indexed.py:indexed_softmax", "e3x/ops/indexed.py:indexed_max", "e3x/ops/indexed.py:indexed_sum", "e3x/nn/modules.py:MultiHeadAttention"]}
{"id": "C87", "title": "Cutoff and damping functions and their gradients in floating point arithmetic", "statement": "With rounding in every operation and an exponential function that is accurate to a few units, for every distance and cutoff (or decay constant) whose quotient (product) does not overflow: smooth_cutoff is finite, between 0 and 1, exactly 0 at and beyond the cutoff, and within 73 u of the exact value, although near the cutoff the difference in its denominator has lost its digits; smooth_damping is finite, between 0 and 1, and within 192 u of the exact value, also near distance zero where the difference in its denominator is rounded to zero. The gradients (jax.grad) of both are finite, and that of smooth_cutoff is exactly 0 at and beyond the cutoff. Without rounding they are the derivatives. This holds for float32, float64 and bfloat16; in float16 the gradient of smooth_cutoff just below the cutoff is NaN.", "quantifier": "all distances, cutoffs, decay constants, cotangents, exponential and rounding functions", "why_tests_cant": "cancellation, underflow and overflow occur in tiny intervals next to the cutoff and to zero that tests do not hit; all numbers of a format", "anchors": ["e3x/nn/functions/cutoff.py:smooth_cutoff", "e3x/nn/functions/damping.py:smooth_damping"]}
{"id": "C88", "title": "The switch function and its derivative in floating point arithmetic with infinities", "statement": "With rounding in every operation, overflow to infinity and an exponential function that is accurate to a few units: for every number x and every pair of limits x0 < x1 (whose difference is finite and not extremely small), smooth_switch returns a number between 0 and 1, never infinity or NaN, although the exponential function inside may overflow; it is exactly 0 for x <= x0 and exactly 1 for x >= x1, infinities included, and within 192 u of the documented function everywhere. Its derivative rule returns a finite tangent: the products of an infinite exponential function with zero are masked. Without rounding the programs compute the functions of C42. This holds for float32, float64 and bfloat16; in float16 the derivative of smooth_switch(x, 0, 1) at x = 3/32 is infinite, although the exact one is about 0.025.", "quantifier": "all numbers and infinities as arguments, limits, tangents, exponential and rounding functions", "why_tests_cant": "overflow and underflow occur in small intervals next to the limits that tests do not hit; all numbers of a format", "anchors": ["e3x/nn/functions/switch.py:smooth_switch", "e3x/nn/functions/switch.py:_smooth_switch_jvp_impl", "e3x/nn/functions/switch.py:_smooth_switch_exp"]}
{"id": "C89", "title": "Bernstein polynomials and their derivatives in floating point arithmetic", "statement": "With rounding in every operation, exponential function and logarithms that are accurate to a few units, and logarithms of binomial coefficients with absolute error beta <= 1/8: for every x in [0, 1] and every degree n with 16 n u <= 1, every Bernstein polynomial is computed by way of logarithms as a finite number that is not negative and within 8 beta + (48 n + 70) u of the exact polynomial (basic_bernstein: n (u + tiny) more, for the division by the limit). At 0 and 1 and outside of the interval the values are exact. The tangents of the custom derivative rule are finite and within n |t| times twice the error of the values plus 24 u (plus 10 tiny) of the derivative times t. Fewer than one polynomial is an error. Without rounding the programs compute the functions of C45 and C46.", "quantifier": "all arguments, degrees, limits, tangents, exponential, logarithm and rounding functions", "why_tests_cant": "the logarithms of large binomial coefficients and of small arguments cancel; an error bound for all numbers of a format and all degrees is not testable", "anchors": ["e3x/nn/functions/bernstein.py:_bernstein", "e3x/nn/functions/bernstein.py:_bernstein_jvp_impl", "e3x/nn/functions/bernstein.py:basic_bernstein"]}
{"id": "C90", "title": "Dense and Tensor layers are equivariant up to rounding errors, in any order of contraction", "statement": "With rounding in every operation, and the sums of products of an einsum evaluated in any way that distributivity, associativity and commutativity allow (XLA and einsum choose the contraction path): the layers Dense and Tensor accept the same inputs as without rounding, and every entry of their outputs is finite and within 2 k u of the exact entry relative to the sum of the magnitudes of the terms, plus the effect of underflow, if no term passes through more than k roundings, k u <= 1/64, and the magnitudes are below half the largest number. Two evaluations of the same layer differ by at most the sum of their bounds. If the input is rotated and reflected (and rounded), the output is the rotated and reflected output up to these errors, whatever contraction is chosen for the one and for the other.", "quantifier": "all inputs, weights, shapes, degrees, rotations, orders of evaluation and rounding functions (float32, float64, bfloat16, with and without subnormal numbers)", "why_tests_cant": "tests compare with a tolerance for a few random inputs on one device; the order of evaluation differs between devices and shapes", "anchors": ["e3x/nn/modules.py:Dense", "e3x/nn/modules.py:Tensor"]}
{"id": "C91", "title": "Spherical and solid harmonics in floating point arithmetic are accurate to a few roundings and equivariant up to them", "statement": "In floating point arithmetic that rounds every operation, spherical_harmonics and solid_harmonics return numbers of the documented shape that differ from the exact harmonics by at most twice the number of roundings times the unit roundoff, times the normalisation constant, the length of the vector to the power of the degree and a factor that grows like the root of 2^degree at most (one for degrees 0 and 1), and the effect of underflow. This holds for every batch of vectors, every maximum degree, all normalisations, both orders of the entries, every order in which powers, monomials, coefficients and the matrix product are evaluated, and tables that are rounded when they are stored, unless intermediate results overflow. Without r_is_normalized the bound does not depend on the length of the vector. Errors for invalid arguments are the same as in exact arithmetic. Rotating the vector rotates the result up to these errors.", "quantifier": "every batch of vectors, maximum degree, normalisation and order of entries; every rounding function of a floating point format and every order of evaluation", "why_tests_cant": "A test compares a few vectors in one format on one machine; the bound is needed for all degrees, formats and orders of summation a compiler may choose.", "anchors": ["e3x/so3/irreps.py:spherical_harmonics", "e3x/so3/irreps.py:solid_harmonics", "e3x/so3/_common.py:_integer_powers", "e3x/ops/linalg.py:normalize"]}
{"id": "C92", "title": "Whole networks in floating point arithmetic: accurate, reproducible and equivariant up to rounding errors", "statement": "A network is any program of calls of Dense, Tensor, FusedTensor, TensorDense, MessagePass, change_max_degree_or_type and add on features of the nodes of a graph (dense or sparse neighbour lists, with basis functions of the edges). With rounding in every operation, and every einsum and every sum over neighbours evaluated in any order, the network accepts the same inputs as without rounding, and every number in every array that it computes is finite and within 2 k u of its exact value relative to the sum of the magnitudes of the terms, plus the effect of underflow, if no term passes through more than k roundings on its way through all layers, k u <= 1/64, and the magnitudes stay below half the largest number. Two runs with different orders of evaluation differ by at most the sum of their bounds. If the inputs and the basis functions are rotated and reflected, all results are the rotated (and reflected) results up to the sum of the bounds.", "quantifier": "all programs of such layers, inputs, weights, graphs, degrees, rotations, orders of evaluation and rounding functions (float32, float64, bfloat16, with and without subnormal numbers)", "why_tests_cant": "tests compare a single layer with a tolerance for random inputs; errors accumulate over layers and depend on the compiler and on the device", "anchors": ["e3x/nn/modules.py:Dense", "e3x/nn/modules.py:Tensor", "e3x/nn/modules.py:FusedTensor", "e3x/nn/modules.py:TensorDense", "e3x/nn/modules.py:MessagePass", "e3x/nn/features.py:add", "e3x/nn/features.py:change_max_degree_or_type", "e3x/ops/indexed.py:indexed_sum"]}
{"id": "C93", "title": "The dtypes of the results of layers, and when a network mixes them", "statement": "Operands of different dtypes are converted to the smallest dtype that holds all their numbers. Embed, Dense and attention return the dtype that their attribute dtype asks for; without it no layer rounds its inputs: the dtype of the result holds the dtypes of all arrays that are used. Tensor, FusedTensor, TensorDense and MessagePass return the smallest dtype that holds inputs, parameters and jax's default dtype (that of the Clebsch-Gordan coefficients), so the dtype that was asked for is returned exactly if it holds the inputs and the default dtype. Hence a program in which all arrays and layers use one dtype that holds the default dtype keeps this dtype and add never rejects its inputs; with Embed, Dense, attention, change_max_degree_or_type and add any dtype is kept; but the sum of x and Tensor(dtype=d)(x, x) is rejected (ValueError) for d = bfloat16 or float16, and for d = float32 in 64 bit mode.", "quantifier": "all programs of layer calls, dtypes of inputs, attributes dtype and param_dtype, shapes, with and without jax_enable_x64", "why_tests_cant": "tests use float32 throughout; the combinations of dtypes and layers in a network are unbounded", "anchors": ["e3x/nn/modules.py:Embed", "e3x/nn/modules.py:Dense", "e3x/nn/modules.py:Tensor", "e3x/nn/modules.py:FusedTensor", "e3x/nn/modules.py:TensorDense", "e3x/nn/modules.py:MessagePass", "e3x/nn/modules.py:MultiHeadAttention", "e3x/nn/features.py:add", "e3x/so3/irreps.py:clebsch_gordan"]}
{"id": "C94", "title": "Elementwise functions in floating point arithmetic approach the exact functions as the precision grows, except where their formula jumps", "statement": "If every operation and library function of a machine has an error of at most delta (relative to results above one, absolute below) and numbers below some bound do not overflow, then the gates of all activations, the cutoffs, damping, mappings, windows, switches, sinc functions and the Bernstein, Chebyshev, Gaussian and Fourier basis functions return finite numbers that are as close to the exact function as desired, for all machines that are precise enough and all inputs that are close enough. This holds at every input of the domain but a few that are listed for each function: zero for relu, leaky_relu, elu and relu6, the thresholds between a formula and its series for elu, celu, shifted_softplus, bent_identity, damped reciprocal mapping, switch, Bernstein and Chebyshev functions, the cutoff of smooth_cutoff, zero for smooth_damping, and the ends of rectangular windows. At other points where jnp.where selects between formulas (hard_tanh at -1 and 1, celu at 0, cosine_cutoff and sinc at the limit, relu6 at 1) errors in the comparison do no harm. For relu the exception is needed: inputs that approach zero from above give 1 at all precisions.", "quantifier": "all inputs, parameters, machines (rounding functions, library functions, formats with arbitrarily large precision) and inputs with errors", "why_tests_cant": "tests run in one or two formats; comparisons next to a threshold may be decided either way by a rounding error, and whether this matters needs all nearby inputs", "anchors": ["e3x/nn/activations.py:_gated_linear", "e3x/nn/activations.py:celu", "e3x/nn/activations.py:hard_tanh", "e3x/nn/functions/cutoff.py:smooth_cutoff", "e3x/nn/functions/cutoff.py:cosine_cutoff", "e3x/nn/functions/damping.py:smooth_damping", "e3x/nn/functions/mappings.py:reciprocal_mapping", "e3x/nn/functions/switch.py:smooth_switch", "e3x/nn/functions/window.py:triangular_window", "e3x/nn/functions/chebyshev.py:basic_chebyshev", "e3x/nn/functions/trigonometric.py:sinc"]}
{"id": "C95", "title": "Whole networks with activations and attention in floating point arithmetic approach the exact network as the precision grows", "statement": "A network is any program of calls of Dense, Tensor, FusedTensor, TensorDense, MessagePass, MultiHeadAttention (SelfAttention), change_max_degree_or_type, add and activations on features of the nodes of a graph. On a machine with rounding, with every einsum, every sum over neighbours and every normalisation of attention weights evaluated in any order and the gates of activations and the exponentials, quotients and roots of attention computed by their formulas, the network accepts the same inputs as without rounding, and every number in every array approaches that of the network without rounding as the precision grows: for every error, all machines that are precise enough return finite numbers with smaller errors. The only exceptions are inputs for which the argument of a gate, without rounding, is exactly one of the points where the gate jumps or changes its formula (zero for relu, leaky_relu, relu6 and elu; the threshold of the series for elu, selu, celu, shifted_softplus and bent_identity; none for silu, gelu, mish, serf, hard_tanh, soft_sign and hard_silu), and attention with a negative cutoff or with cutoffs that are zero on all edges with the same destination. If the inputs and the basis functions are rotated and reflected, all results are the rotated (and reflected) results up to any error on machines that are precise enough, even if the orders of evaluation differ.", "quantifier": "all programs of such layers, inputs, weights, graphs, degrees, rotations, orders of evaluation and machines (rounding functions, library functions, formats with arbitrarily large precision)", "why_tests_cant": "tests run one network in one format; errors pass through all later layers, and a comparison in an activation may be decided by a rounding error of an earlier layer", "anchors": ["e3x/nn/modules.py:Dense", "e3x/nn/modules.py:Tensor", "e3x/nn/modules.py:FusedTensor", "e3x/nn/modules.py:TensorDense", "e3x/nn/modules.py:MessagePass", "e3x/nn/features.py:add", "e3x/nn/features.py:change_max_degree_or_type", "e3x/nn/activations.py:_gated_linear", "e3x/ops/indexed.py:indexed_sum", "e3x/nn/modules.py:MultiHeadAttention", "e3x/ops/indexed.py:indexed_softmax"]}
{"id": "C96", "title": "Predictions for molecules in floating point arithmetic approach the exact predictions, and those for moved molecules agree, as the precision grows", "statement": "A model embeds the atomic numbers of a molecule (Embed), expands the displacement vectors of interacting atoms in basis functions (basis, with any radial functions, cutoff and damping that are computed by formulas like those of e3x) and applies a network of layers, activations and attention. Take a machine that rounds: positions are rounded when stored, displacements, norms, unit vectors, spherical harmonics (from a stored table), radial functions, cutoffs, damping and all layers are computed with rounding, in any orders of evaluation. The machine accepts the same molecules as the model without rounding, and every feature of every atom, the basis functions and the cutoffs approach those without rounding as the precision grows: for every error, all machines that are precise enough return finite numbers with smaller errors. The same holds for the sum of a scalar feature over all atoms (an energy) in any order of addition. If the molecule is rotated, reflected, shifted and numbered in another way, then, also with other orders of evaluation, the features are rotated and the energies agree up to any error on machines that are precise enough. The conditions are that interacting atoms do not coincide, that no distance is one of the points where a radial function, cutoff or damping changes its formula, and the conditions of the network (C95). All families of radial functions of e3x with basic, reciprocal and exponential mappings, both cutoffs, damping and sinc functions are covered, with a list of such distances for each.", "quantifier": "all molecules, positions, models, layers, weights, tables from any state of the cache, rotations, reflections, shifts, renumberings, orders of evaluation, and machines", "why_tests_cant": "tests compare a few molecules in one format with a tolerance; whether all errors of the pipeline vanish as the precision grows, and whether comparisons in it can be decided wrongly, needs all nearby inputs", "anchors": ["e3x/nn/wrappers.py:basis", "e3x/nn/modules.py:Embed", "e3x/so3/irreps.py:spherical_harmonics", "e3x/nn/modules.py:MessagePass", "e3x/nn/functions/bernstein.py:reciprocal_bernstein", "e3x/nn/functions/chebyshev.py:exponential_chebyshev", "e3x/nn/functions/cutoff.py:smooth_cutoff", "e3x/nn/functions/damping.py:smooth_damping", "e3x/nn/functions/trigonometric.py:sinc"]}
{"id": "C97", "title": "Batches of molecules: every molecule gets the results it has alone", "statement": "The atoms of several molecules can be put in one array, one molecule after the other, with pairs of atoms only within molecules and for every atom the index of its molecule (batch segment). A molecular model (Embed, basis, layers with message passing or attention on the pairs) then returns for every atom the features it returns if its molecule is alone; a model that accepts one molecule accepts every batch with at least one pair. Segment sums of a scalar feature plus a bias per atomic number are, entry by entry, the energies of the molecules; the sum over the batch is the sum of the energies of the molecules. Minus the derivative of the sum of all energies in the batch with respect to all positions are the forces of the single molecules, atom by atom, and conversely. The arrays made from configurations of one molecule (tiled atomic numbers, concatenated positions, shifted indices of pairs and repeated segments) are those of the configurations one after the other.", "quantifier": "all models, parameters, numbers and sizes of molecules, positions, lists of pairs, biases", "why_tests_cant": "a test compares a few batches; an influence of one molecule on another through an offset, a normalisation over all edges or a segment needs all batches, and forces are statements on derivatives", "anchors": ["docs/source/examples/md17_ethanol.ipynb", "e3x/nn/modules.py:MessagePass", "e3x/nn/modules.py:MultiHeadAttention", "e3x/nn/wrappers.py:basis", "e3x/ops/indexed.py:indexed_sum"]}
{"id": "C98", "title": "The networks of the documentation's examples respect the symmetries they claim", "statement": "The moment of inertia network maps masses and positions to a 3x3 matrix: for all weights it has a result for every list of points; if the points are rotated by R the matrix becomes R^T T R, if they are inverted it stays the same; the matrix is the sum of the matrices of the single points, so their order does not matter; every matrix comes from exactly one list of nine irreps, and it is symmetric exactly if the irreps of degree 1 are zero. The tetracubes network gives a shape the same class scores however it is turned and shifted; the pseudoscalars change sign for the mirror image, and without pseudotensors mirror images get the same scores. The first claims hold for every network of the library's layers in the place of the notebook's.", "quantifier": "all weights, all lists of points or cubes, all proper rotations with or without inversion, all shifts, all networks of layers", "why_tests_cant": "the notebooks show this for one rotation of one set of points with trained weights, up to rounding", "anchors": ["docs/source/examples/moment_of_inertia.ipynb:120-146", "docs/source/examples/tetracubes.ipynb:152-184", "e3x/nn/modules.py:TensorDense", "e3x/so3/irreps.py:clebsch_gordan"]}
{"id": "C99", "title": "Cartesian tensors of any degree from irreps", "statement": "The recipe of the documentation for Cartesian tensors (the sum over the coupling paths of the irreps multiplied with the Clebsch-Gordan coefficients, backwards) gives every tensor of every degree for exactly one choice of the irreps; the irreps can be read off the tensor by coupling its indices. If the irreps come from features of rotated and possibly reflected inputs, with even parity for even degrees and odd parity for odd degrees, and from any feature channels, then the tensor is rotated and reflected in each of its indices. For 3x3 tensors the irreps of degree 0 contribute the trace, those of degree 1 the antisymmetric part and those of degree 2 the symmetric traceless part.", "quantifier": "all degrees of tensors, all irreps, features, channels and tensors, all rotations with or without inversion", "why_tests_cant": "the documentation prints two examples with random numbers, of degrees 2 and 3", "anchors": ["docs/source/constructing_cartesian_tensors.rst:140-299", "e3x/so3/irreps.py:clebsch_gordan"]}
{"id": "C100", "title": "Setting defaults in Config changes the behaviour of calls that leave out the keyword", "statement": "After calls of the setters of Config, every function and module that is called without the keywords cartesian_order, normalization and use_fused_tensor behaves as if the values that were set last had been given (docs/source/changing_defaults.rst: call e3x.Config.set_normalization('orthonormal') at the start of the script); keywords that are given take precedence; lookup tables use the cache paths that were set last; and calls that leave out the order stay consistent with each other.", "quantifier": "all histories of setter calls, all calls with and without the keywords, all inputs, all states of the caches", "why_tests_cant": "a test sets one option in one process; whether a default is read when a function is defined or when it is called only shows for calls after a change, for every function with such a keyword", "anchors": ["e3x/config.py:Config", "docs/source/changing_defaults.rst", "e3x/so3/irreps.py:spherical_harmonics", "e3x/so3/irreps.py:solid_harmonics", "e3x/so3/rotations.py:wigner_d", "e3x/nn/modules.py:TensorDense", "e3x/nn/modules.py:MessagePass"]}
{"id": "C101", "title": "Dense and tensor products are the only equivariant linear maps and products", "statement": "Using the layers of the package loses nothing: an irrep of degree above zero that stays the same in all rotations is zero (so biases exist for scalars only); a linear map between irreps that commutes with the Wigner-D matrices of all proper rotations is zero between different degrees and a multiple of the identity otherwise; every linear layer on features that commutes with rotations and reflections is a Dense layer without bias for some kernel; every product of two irreps that is linear in both and commutes with rotations is a multiple of the product with the Clebsch-Gordan coefficients of the package (what Tensor layers weight), and so zero if the degrees violate the triangle inequality; and every layer that is linear in two inputs, acts on each channel separately and commutes with rotations and reflections of both inputs is a Tensor layer for some kernel.", "quantifier": "all degrees, all linear maps and products, all features, numbers of channels, both orders of irreps, all states of the caches", "why_tests_cant": "the claim is about all equivariant functions, of which a test can only try those it knows", "anchors": ["e3x/nn/modules.py:Dense", "e3x/nn/modules.py:Tensor", "e3x/so3/irreps.py:clebsch_gordan", "e3x/so3/rotations.py:wigner_d", "docs/source/overview.rst"]}
