# Formal model of google-research/e3x in Rocq (Coq 8.16.1)

## 1. What is modelled and how

The Python source in `/repo/e3x` is transcribed function by function into total Gallina
functions (`rocq/theories/*_Model.v`).  Every definition cites the file and lines it models.

Global modelling decisions (each is a simplification that is part of the trusted base):

* **Numbers.** Floating point arrays are modelled by exact real numbers (Coq `R`), integer arrays
  by `nat`/`Z`.  Rounding, overflow, NaN/inf and dtype promotion are *not* modelled, except in
  C83 to C92 and C94 to C96 (Float_Model: every operation is rounded; the formats are Flocq's) and C93 (Dtype_Model:
  the dtypes of arrays, with the promotion rules of jax and flax, which are trusted). Where the code
  compares against `finfo(dtype).eps`/`tiny`, the threshold is a parameter of the model
  (universally quantified, usually with `0 <= eps`, so `eps = 0` and every machine `eps` are covered).
* **Arrays.** Index lists are Coq lists. Feature arrays (`... parity, (L+1)^2, F`) are a record with
  sizes and a function `parity -> index -> feature -> R`; equality is pointwise inside the bounds.
  Batch dimensions of purely elementwise operations are modelled for one batch element.
* **Exceptions** are values of a `result` type (`Ok`/`Err kind`), and error branches are modelled.
* **jax's derivative rules** for the primitives used by activations and radial functions (exp, log,
  sqrt, maximum, where, custom_jvp, ...) are written out in AutoDiff_Model from jax's documentation;
  they are not in /repo.  Used by C81 and C82 only.
* **jax/numpy/sympy primitives** (`tile`, `repeat`, `delete`, `where`, `segment_sum`, `einsum`,
  `at[].set` with out-of-bounds updates dropped, `starmap`) are re-implemented as small list/sum
  functions; that these agree with the libraries is trusted.
* **Automatic differentiation** is modelled for the scalar functions of activations.py and
  functions/ (AutoDiff_Model, C81), and for basis and normalize (AutoDiff_Basis_Model, C82), not for
  whole networks; hand written derivative rules (`custom_jvp`) are modelled as functions and compared with `derivable_pt_lim`.
* **Randomness**: PRNG draws are universally quantified inputs.
* **Disk/process state**: caches are modelled as state threaded through request histories; crash
  points as arbitrary prefixes of the bytes written.

## 2. Trusted base

* Coq 8.16.1 kernel (`coqc`, cross-checked with `coqchk`).
* Axioms reported by `Print Assumptions` (standard library only): theorems about `nat`/`Z`/lists are
  closed; theorems about `R` use `ClassicalDedekindReals.sig_forall_dec`,
  `ClassicalDedekindReals.sig_not_dec` and `FunctionalExtensionality.functional_extensionality_dep`,
  a few use `Classical_Prop.classic`.
* The faithfulness of the transcription (comments cite file:lines), and the primitives listed above.
* sympy's `clebsch_gordan` is taken to be Racah's formula, `sp.simplify` to preserve the value of an
  expression; `jnp.take` with its default mode wraps negative indices and fills NaN outside the table.

### Coverage per source file

| file in /repo/e3x | modelled in | not modelled |
|---|---|---|
| `ops/indexed.py` | Indexed_Model (all functions; `indexed_min`/`indexed_max` are the RMin/RMax reductions of `_indexed_reduce`); Float_Indexed_Model (`indexed_sum` and `indexed_softmax` with rounding, sparse indices) | dtypes of the index arrays |
| `ops/safe.py` | Derivatives_Model, Irreps_Model; gradient of normalize in AutoDiff_Basis_Model; rounding, overflow and underflow in Float_Model | rounding in the derivative rule of norm; NaN and infinite inputs |
| `ops/helpers.py` | Derivatives_Model | `jax.jvp` itself (a derivative rule is an argument) |
| `nn/features.py` | Features_Model | — |
| `nn/activations.py` | Activations_Model; their gradients as programs in AutoDiff_Model | `jax.nn` internals (each activation is written out) |
| `nn/functions/*.py` | Radial_Model, Smooth; their gradients as programs in AutoDiff_Model; `smooth_cutoff` and `smooth_damping` with rounding in Float_Radial_Model, `smooth_switch` in Float_Switch_Model, `_bernstein` in Float_Bernstein_Model | rounding in the other functions |
| `nn/modules.py` | Modules_Model, Wrappers_Model (`ExponentialBasis`), Embed_Model; `Dense` and `Tensor` with rounding in Float_Einsum_Model, networks of all layers but attention in Float_Network_Model; dtypes in Dtype_Model | flax parameter collections, names and RNG streams; dropout keys are inputs |
| `nn/initializers.py` | Initializers_Model | the PRNG (draws are inputs) |
| `nn/wrappers.py` | Wrappers_Model; gradient of basis in AutoDiff_Basis_Model | the `ExponentialBasis` Flax parameter plumbing |
| `so3/irreps.py` | Irreps_Model, Tensor_Model, Float_Harmonics_Model | — |
| `so3/rotations.py` | Rotations_Model, Irreps_Model | `_wigner_d_euler` (not called anywhere in the package) |
| `so3/quadrature.py` | Quadrature_Model | the bytes of the shipped grid files |
| `so3/_symbolic.py` | Symbolic_Model, Clebsch_Model | sympy itself: `sp.Poly` is a monomial table, `sp.simplify` the identity, `clebsch_gordan` Racah's formula |
| `so3/_common.py` | Common_Model | — |
| `so3/_normalization.py` | Common_Model | — |
| `so3/_*_lut.py` | LUT_Model, Tensor_Model | the `.npz` encoding (any serialisation with a decoder) |
| `so3/_lookup_table_generation_utility.py` | LUT_Model | `_print_cache_usage_information` (prints only) |
| `matrix/matmat.py` | Matmat_Model | the PRNG |
| `config.py`, `util.py` | Common_Model, Defaults_Model | — |
| `version.py`, `__init__.py` | — | re-exports, version string |
| `docs/source/examples/*.ipynb` | Batch_Model, Examples_Model | the training loops, datasets and plots; the energies of md17_ethanol (with its batches), the networks of moment_of_inertia and tetracubes are modelled |
| `docs/source/constructing_cartesian_tensors.rst` | Cartesian_Model | — |

### Axioms per theorem

* closed under the global context (no axioms):
  C01_sparse_pairwise_indices_complete, C01_dense_pairwise_indices_rows, C01_pairwise_formats_agree, C01_pairwise_rejects_small, C02_sparse_to_dense_groups_sources, C02_sparse_to_dense_errors, C03_dense_to_sparse_lists_real_entries, C03_dense_to_sparse_default_keeps_all, C04_dense_sparse_dense_roundtrip, C04_dense_sparse_dense_all_padding, C04_sparse_dense_sparse_roundtrip, C05_default_padding_unambiguous_refuted, C05_default_padding_unambiguous_partial, C09_gather_src_sparse, C09_gather_src_dense, C09_gather_dst, C09_gather_out_of_range, C09_gather_formats_agree, C09_index_type_errors, C09_determine_index_type_sparse, C09_gather_batched, C09_gather_sparse_batched, C10_is_broadcastable_iff, C10_is_broadcastable_symmetric, C10_is_broadcastable_self_and_scalar, C11_config_histories, C11_config_errors, C12_cartesian_permutation_bijective, C12_cartesian_permutation_order, C12_cartesian_permutation_blocks, C12_cartesian_permutation_prefix, C13_wigner_entries_reordered, C13_block_start_total, C14_monomials_complete, C14_rotation_monomials_complete, C14_counts, C14_totals, C14_rows_inside_table, C14_rotation_rows_inside_table, C14_rows_distinct, C15_clebsch_gordan_history, C15_cold_table, C15_cached_degree_never_decreases, C16_spherical_harmonics_history, C16_cold_table, C16_prefix, C16_cached_degree_never_decreases, C17_wigner_d_history, C17_cold_table, C17_cached_degree_never_decreases, C18_tensor_conversion_history, C18_cold_table, C18_cached_degree_never_decreases, C19_crash_refuted, C19_write_error_refuted, C19_undamaged_path_partial, C19_undamaged_path_spherical_harmonics_partial, C20_clebsch_gordan_storage, C20_spherical_harmonics_storage, C20_wigner_d_storage, C20_tensor_conversion_storage, C31_shape_rejected, C40_mask_and_fans, C50_ndim, C52_precision, C52_num, C52_errors, C52_kinds, C52_shipped_tables, C52_lebedev_shipped, C52_orders, C53_multiplicities, C53_used_once, C53_tiles, C53_positions_in_matrix, C55_compression_indices, C55_expand_compressed, C55_compress_expanded, C55_scalars_and_errors, C59_entries, C59_block, C59_total, C59_rejected, C61_degree_masks, C61_duplication_indices, C71_rows, C71_other_numbers, C71_not_integer, C71_independent, C71_scalars, C90_direct, C90_contracted, C90_plans, C91_plan, C92_plan, C93_residual, C100_paths
* `ClassicalDedekindReals.sig_forall_dec`:
  C31_shape_accepted_iff, C32_change_components, C32_round_trip, C32_no_arguments, C32_invalid_shape, C32_negative_degree_accepted, C33_add_errors, C34_rotate_errors, C35_dense_formula, C36_tensor_errors, C37_fused_errors, C38_tensor_dense_product, C53_argument_errors, C53_missing_irreps, C58_negative_order, C97_prepared
* `ClassicalDedekindReals.sig_forall_dec`, `FunctionalExtensionality.functional_extensionality_dep`:
  C06_dense_sparse_reductions_agree, C06_padding_edges_ignored, C06_keepdims, C06_segments_are_reductions, C07_reductions_edge_order_independent, C07_reduce_argument_errors, C14_integer_powers, C24_rotations_are_orthogonal, C33_add_components, C33_add_commutative, C33_add_associative, C33_add_reflect, C33_add_rotate, C34_reflect_components, C34_reflect_involution, C34_reflect_rotate_commute, C34_reflect_change_commute, C34_rotate_components, C34_rotate_change_commute, C35_dense_equivariant, C35_dense_rotate, C35_dense_reflect, C36_tensor_formula, C36_tensor_equivariant, C36_tensor_rotate, C36_tensor_reflect, C36_forbidden_paths_irrelevant, C36_tensor_bilinear, C37_fused_formula, C37_fused_equivariant, C37_fused_rotate, C37_fused_reflect, C38_tensor_dense_equivariant, C38_message_pass_equivariant, C38_message_pass_sparse, C38_message_pass_dense, C38_renumber_sparse, C38_renumber_dense, C38_dense_sparse_agree, C38_message_pass_errors, C40_masked_weights_unused, C40_allowed_weights_used, C40_fused_masked_weights_unused, C48_triangular_window, C48_rectangular_window, C53_enough_irreps, C54_shift_cancels, C58_derivatives, C58_elementwise, C63_matrix_equivariant, C64_low_degrees, C64_tolerance, C64_exact, C64_rejected, C79_triangular_window, C79_rectangular_window, C79_continuous_gates, C85_sum, C85_order, C89_outside, C89_error, C90_evaluation, C90_two_evaluations, C90_dense, C90_tensor, C90_dense_equivariant, C91_range, C93_promotion, C93_dense, C93_tensor, C93_tensor_requested, C93_layers, C93_uniform, C93_low_precision, C93_no_rounding, C96_unknown, C98_centered, C99_degree_two, C99_degree_three
* `ClassicalDedekindReals.sig_forall_dec`, `ClassicalDedekindReals.sig_not_dec`, `FunctionalExtensionality.functional_extensionality_dep`:
  C08_softmax_formula, C08_softmax_distribution, C08_softmax_shift_invariant, C08_softmax_dense_distribution, C11_normalization_always_valid, C21_solid_harmonics_total, C21_solid_harmonics_deterministic, C21_rejected, C21_homogeneous, C21_parity, C21_direction_only, C21_short_vectors, C21_low_degrees, C22_laplace, C23_orthonormal, C23_complete, C25_rejected, C26_rotation, C26_composition, C26_zero_axis, C27_euler, C27_euler_product, C28_alignment, C28_antiparallel_partial, C28_diagonal_refuted, C30_norm, C30_normalize, C30_norm_derivative, C31_rounding, C38_weights_can_enlarge, C39_scores_invariant, C39_attention_equivariant, C39_self_attention_equivariant, C39_attention_sparse, C39_attention_dense, C39_shares_sum_to_one, C39_attention_errors, C40_shape_errors, C40_initial_kernel, C40_argument_errors, C40_named_initializers, C40_fused_initial_kernel, C41_cutoff_rejects, C42_smooth_switch_rejects, C44_reciprocal_mapping_rejects, C49_fourier, C49_sinc, C49_rejects, C51_any_angular_function, C51_total, C51_factorises, C51_degree_zero, C51_parity, C51_zero_vector, C51_rejected, C51_negative_degree, C53_pipeline, C54_traces, C56_total, C56_irreps_round_trip, C56_symmetric_traceless, C56_tensor_round_trip, C56_contraction, C56_rejected, C56_no_dimensions, C60_spherical_harmonics, C60_constants, C60_unknown_rejected, C60_index_orders, C60_tensors, C60_tensors_unknown_rejected, C64_accepts_converted, C66_real, C66_total, C66_orthonormal, C66_triangle, C66_complete, C66_exchange, C66_scalar_factor, C66_scalar_product, C66_cross_product, C67_checked, C67_traces, C71_initial, C76_positions, C77_unique, C79_sinc, C79_jumping_gates, C80_all_pairs, C83_norm, C83_single, C83_zero, C83_exact, C84_direction, C84_unit, C84_short, C88_infinite_argument, C88_exact, C91_amplification, C91_given, C91_solid, C91_spherical, C91_bound, C91_errors, C98_all_matrices, C98_symmetric, C99_every_tensor, C99_irreps_of_tensor, C99_parts, C100_defaults_partial
* `ClassicalDedekindReals.sig_forall_dec`, `ClassicalDedekindReals.sig_not_dec`, `Classical_Prop.classic`, `FunctionalExtensionality.functional_extensionality_dep`:
  C24_rotate, C24_rotate_solid, C25_total, C25_deterministic, C25_block_diagonal, C25_identity, C25_product, C25_orthogonal, C25_degree_one, C25_parity, C27_euler_inverse, C27_shape, C29_random, C29_no_perturbation, C29_displacement, C40_uniform_variance, C41_smooth_cutoff, C41_cosine_cutoff, C41_smooth_cutoff_negative, C42_smooth_switch, C42_smooth_switch_approximates, C42_smooth_switch_jvp, C43_smooth_damping, C43_smooth_damping_flat, C44_reciprocal_mapping, C44_exponential_mapping, C45_bernstein_partition_of_unity, C45_bernstein_values, C45_bernstein_rejects, C46_bernstein_jvp_partial, C46_bernstein_jvp_end_points, C46_bernstein_jvp_refuted, C47_basic_chebyshev_values, C47_chebyshev_polynomials, C47_basic_chebyshev_bounded, C47_basic_chebyshev_outside, C47_chebyshev_rejects, C48_smooth_window, C49_gaussian, C50_scalar_functions, C50_gated, C50_equivariant, C51_beyond_cutoff, C51_rotate, C56_equivariance, C57_inverse_softplus, C62_documented_formulas, C62_damped_taylor_error, C62_mapped_bases, C62_smooth_switch_formula_refuted, C62_other_docstrings_refuted, C65_exponential_basis, C66_rotate, C66_reflect, C67_commutes, C67_matrices, C67_tensor, C67_tensor_rotate, C67_fused_tensor, C67_fused_tensor_rotate, C67_tensor_dense, C67_message_pass, C67_attention, C67_self_attention, C67_matrix, C68_basis, C68_message_pass, C68_attention, C68_self_attention, C69_network, C69_scalars, C69_vectors, C69_molecule, C70_network, C70_carries, C70_renumber, C70_join, C70_batch, C70_formats, C70_receptive_field, C72_molecule, C72_total, C72_determined, C72_accepted, C73_forces, C73_conservation, C74_network, C74_surroundings, C74_far_atoms, C74_neighbour_list, C74_basis_bias_refuted, C75_every_molecule, C76_continuous, C76_energy, C77_forces_exist, C77_differentiable, C77_conservation, C78_smooth, C78_smooth_features, C78_energy_surface, C79_cutoff_smooth, C79_damping_smooth, C79_radial_smooth, C79_polynomials_smooth, C79_cosine_cutoff, C79_smooth_gates, C79_relu_jumps, C80_same_energy, C80_continuous, C80_forces_exist, C80_energy_surface, C81_sound, C81_activations, C81_guards_matter, C81_cutoffs, C81_damping, C81_reciprocal_mapping, C81_exponential_mapping, C81_switch, C81_windows, C81_reciprocal_basis, C81_exponential_basis, C81_basic_basis, C81_sinc, C82_finite, C82_zero_scalar, C82_zero_damped, C82_smooth_damping, C82_programs, C82_normalize, C82_normalize_zero, C82_guards_matter, C82_undamped, C83_formats, C83_overflow_avoided, C83_batch_refuted, C85_order_matters, C86_weights, C86_masked_refuted, C87_cutoff, C87_cutoff_gradient, C87_damping, C87_damping_gradient, C87_exact_cutoff, C87_exact_damping, C87_formats, C87_float16, C88_value, C88_tangent, C88_formats, C88_float16, C89_value, C89_tangent, C89_basic, C89_exact, C89_exact_basic, C89_rounded, C90_tensor_equivariant, C91_stored, C91_equivariant, C92_network, C92_given, C92_two_runs, C92_equivariant, C94_program, C94_formats, C94_precise_machines, C94_activations, C94_radial, C94_basis, C94_jump, C95_network, C95_given, C95_equivariant, C96_molecule, C96_total, C96_basis, C96_moved, C96_moved_total, C96_rejected, C96_table_error, C96_radial, C96_factors, C97_part, C97_features, C97_accepted, C97_energies, C97_total, C97_forces, C98_matrix_turns, C98_sum_over_points, C98_order_of_points, C98_shape, C98_logits, C98_mirror_images, C98_inertia_notebook, C98_shape_notebook, C99_turns, C100_consistent, C100_mixing, C100_documented_example_fails, C100_refuted, C100_exactly, C101_invariant_vectors, C101_linear, C101_product, C101_dense, C101_tensor

## 3. Layout

`*_Model.v` definitions only; `*_Spec.v` small independent specifications; `*_Proofs.v` lemmas;
`*_Props.v` the property theorems, each followed by `Print Assumptions` and preceded or followed by an
`Example` that instantiates its hypotheses on a concrete case.

## 4. Plan per property

### C01 Pairwise index lists enumerate every ordered pair exactly once
Model tile/repeat/delete(slice) on lists and both functions; prove the closed form of the lists by a general lemma about deleting every (n+1)-th element; NoDup + membership iff; errors.

### C02 sparse_to_dense_indices groups sources by destination
Model counts, `full`, row fill per batch; prove row = filter by destination ++ padding. Induction over lists.

### C03 dense_to_sparse_indices lists exactly the unpadded entries
Model the batch loop, masks, padding. Prove equality with the specification `filter`/`flat_map` and padding shape.

### C04 Dense/sparse index round trip preserves every neighbourhood
Compose the models of C02/C03; lemma: flat_map over destinations of filter = stable sort; Permutation.

### C05 Default pad_idx of sparse_to_dense_indices can collide with real indices
Model pad_idx=None. The property is expected to be false: prove a refutation with a witness, and the positive theorem under the extra hypothesis that sources are below max(dst)+1.

### C06 Dense and sparse indexed reductions agree
Model segment_sum/min/max and masked dense reductions over R lists; relate them through the conversions of C02/C03.

### C07 Indexed reductions do not depend on edge order
Permutation induction for the sparse reductions.

### C08 indexed_softmax is a probability distribution on each neighbourhood
Model indexed_softmax on top of the reductions; prove positivity, normalisation, shift invariance over R.

### C09 Gathering respects the index lists in both formats
Model the index type decision and gathers (JAX clamping semantics for out-of-range reads) on lists.

### C10 is_broadcastable decides array broadcasting
Model on lists of nat; specification: existence of a broadcast shape, defined independently on padded shapes.

### C11 Configuration setters behave like independent registers
State machine over setter calls; induction over histories.

### C12 Cartesian ordering is a block-preserving bijection with the documented order
Transcribe the permutation loops; prove NoDup/bounds/closed form for every degree.

### C13 Wigner-D entry reordering equals row and column reordering
Transcribe; prove the flattened index arithmetic equals row/column permutation.

### C14 Monomial enumeration is complete, duplicate free and matches the table sizes
Transcribe _partitions/_multicombinations; prove membership iff, NoDup and length = binomial closed forms by induction.

### C15 Clebsch-Gordan cache is transparent for every request history
State machine over requests with cache (max_degree, table); `generate` is parametrised by the coefficient function; starmap = map. Induction over histories.

### C16 Spherical-harmonics coefficient cache is transparent for every request history
As C15 for the spherical harmonics tables.

### C17 Wigner-D coefficient cache is transparent for every request history
As C15 for Wigner-D tables.

### C18 Tensor-conversion cache is transparent for every request history
As C15 for the conversion tables.

### C19 A crash while saving a cache must not make later lookups fail
Model save as a non-atomic write (prefix of bytes on crash) and load as in the code; expected false: refuted with a witness; positive part for missing file.

### C20 Compressed table storage is lossless
Model compress (nonzero/unravel) and decompress (scatter); prove round trip.

### C21 Spherical harmonics are homogeneous with parity (-1)^l
Symbolic_Model is the construction of _spherical_harmonics (sums a, b, pi) as polynomials over R; Irreps_Model evaluates the lookup table as the code does. Proved for the values returned by solid_harmonics/spherical_harmonics, for every cache state: homogeneity, parity, dependence on the direction only (vectors with squared length above the threshold of normalize; shorter ones are proved to be left unnormalised), degree 0 and 1 values, shapes, errors.

### C22 Solid harmonics satisfy Laplace's equation
The Laplacian of the polynomial is computed with formal derivatives (PolyDiff_Proofs), which are proved to be the analytic ones (PolyCalc_Proofs). Stated with derivable_pt_lim about the returned values.

### C23 Solid harmonics are orthonormal and complete among harmonic polynomials
Fischer inner product of polynomials: orthonormality of the basis by the adjointness of r^2 and the Laplacian; completeness by a dimension-free argument (a harmonic homogeneous polynomial orthogonal to all basis elements is zero).

### C24 Spherical harmonics rotate with Wigner-D matrices
The Laplacian and the Fischer product are invariant under orthogonal substitutions, so rotated harmonics stay in the span (C23) and the coefficients are the inner products that the Wigner-D table stores. Stated for the values returned by spherical_harmonics/solid_harmonics and wigner_d.

### C25 Wigner-D matrices form an orthogonal block-diagonal representation
From C23/C24 by uniqueness of coefficients: block structure, identity, products, orthogonality, degree-1 block, parity.

### C26 rotation(axis, angle) is a proper rotation about the axis
Model over R as 3x3 matrices; nsatz/ring with sin^2+cos^2=1.

### C27 Euler rotations are proper and euler_angles_from_rotation inverts them
As C26; atan2 specified; branch analysis for gimbal lock.

### C28 alignment_rotation maps u onto v
As C26; branch analysis for antiparallel vectors; the degenerate case u along (1,1,1) is a candidate refutation.

### C29 random_rotation always returns proper rotations
Draws universally quantified; quaternion algebra; branch for tiny norm.

### C30 norm and normalize are the Euclidean norm and unit scaling
Model norm with the guard; prove over R for vectors of any length; derivative by derivable_pt_lim.

### C31 Feature shape validation accepts exactly valid feature shapes
Model with integer square root; prove iff.

### C32 change_max_degree_or_type only drops or zero-pads, keeping every surviving irrep
Model branch by branch over the feature record; characterise by (degree, parity) component.

### C33 add is componentwise addition of irreps
Same component specification.

### C34 reflect is an involution acting by parity
Same.

### C35 Dense layers are equivariant
Model per-degree contraction; prove commutation with any block-diagonal matrix acting per degree.

### C36 Tensor layers are O(3)-equivariant and respect parity selection
Model kernel masks and both einsum paths; equivariance for any representation matrices satisfying the Clebsch-Gordan intertwining identity (explicit hypothesis, discharged in C67).

### C37 FusedTensor layers are O(3)-equivariant
Same hypotheses as C36.

### C38 Message passing is equivariant to rotations and node relabelling
Compose Dense/Tensor/indexed_sum models; equivariance, the formula 'a node receives the sum of the messages of its edges' for dense and sparse lists, renumbering of nodes and edges (with arbitrary contents of padding), agreement of dense and sparse lists.

### C39 Attention weights are rotation invariant
Compose; orthogonality of the representation gives invariance of dot products; formula with softmax shares for dense and sparse lists; errors.

### C40 Tensor kernel initialisation masks exactly the inactive paths and counts the active ones
Transcribe loops; mask and fans as exact counts of allowed paths; initial values; masked weights are unused and allowed ones used by Tensor, masked ones unused by FusedTensor.

### C41 Cutoff functions go from one to zero and vanish beyond the cutoff
Real analysis with stdlib exp/cos.

### C42 smooth_switch interpolates monotonically and its derivative rule is exact
Real analysis; derivative via derivable_pt_lim composition.

### C43 smooth_damping is zero at zero and approaches one
Real analysis.

### C44 Reciprocal and exponential mappings map [0,inf) into (0,1] decreasingly
Real analysis.

### C45 Bernstein basis functions are a partition of unity
Binomial theorem over R.

### C46 Bernstein derivative rule is the derivative of the function
Expected false outside [0,1]: refutation; positive theorem inside (0,1).

### C47 Chebyshev basis functions are bounded Chebyshev polynomials
cos(n arccos x) recurrence.

### C48 Window functions are local and sum to one
Telescoping sums of the switch / case analysis.

### C49 Gaussian, Fourier and sinc bases have the documented centres, ranges and supports
Real analysis.

### C50 Activations equal their scalar formula and are equivariant
Scalar identities over R; gate equivariance from degree-0 invariance.

### C51 basis factorises into angular and radial parts, is equivariant and vanishes beyond the cutoff
Arrays as lists of rows; callables are arbitrary functions on arrays that may raise. Values are proved to be products; rotation and parity follow from C24 and C21 and from the block structure of the Wigner-D matrices (damping acts on degrees > 0 only).

### C52 Quadrature grid selection is optimal
List model of the selection; argmin/argmax specification.

### C53 Matrix assembly consumes every irrep exactly once and never runs out
State machine for idx pointers; invariants over the double loop. The Clebsch-Gordan coefficients are an argument.

### C54 Traces read back the degree-0 part of each diagonal block
On the layout of C53; trace sums over R. Orthonormality of the Clebsch-Gordan coefficients is a hypothesis (discharged in C67).

### C55 Cartesian tensor compression/expansion is exact on symmetric tensors
List model of product/combinations_with_replacement; sorted tuples.

### C56 irreps_to_tensor and tensor_to_irreps are mutually inverse
Fischer inner product on polynomials: the detraced outer power is the harmonic projection of the monomials, so column t of the spherical-to-tensor matrix holds the inner products of the harmonics with the monomial t (s2t_entry); LUsolve and the inverse are arguments with a specification (solves_systems, inverts_matrices; least squares meets it). Round trips, symmetry, traces, contraction and rotation follow from completeness of the basis (C23) and from the Wigner-D matrices (C24).

### C57 inverse_softplus inverts softplus
Real analysis.

### C58 evaluate_derivatives returns the function and its iterated derivatives
Model as iteration of an abstract derivative operator.

### C59 Clebsch-Gordan slicing agrees between the two accessors
Entries of both arrays are entries of the lookup table (C15), whose values do not depend on the requested degree or the history of the cache.

### C60 Normalization only rescales each degree
Per-degree constants and index order of the returned values.

### C61 Degree masks and duplication indices address exactly the orders of each degree
List model of jnp.repeat; nth entry at l*l+k by induction on the number of degrees.

### C62 Radial functions compute the formulas in their documentation
Docstring formulas transcribed in Radial_Spec; equality proved where it holds, witnesses where it does not (smooth_switch, gaussian for limit != 1, sinc, triangular_window, basic_bernstein outside the interval).

### C63 Matrices assembled from irreps are equivariant
From the entry formula of C53, assuming the Clebsch-Gordan coefficients intertwine the Wigner-D matrices (discharged in C67).

### C64 is_traceless_symmetric recognises exactly the traceless symmetric tensors
itertools.permutations and jnp.transpose as list functions; every rearrangement of an index tuple is reached by some transposition and vice versa.

### C65 ExponentialBasis starts at initial_gamma and keeps gamma positive
From C51's model and C57.

### C66 Clebsch-Gordan arrays are orthonormal intertwiners
Racah's closed formula over R for the complex coefficients (sympy's clebsch_gordan is trusted to be it; sympy.simplify is the identity), and the code's sum over complex-to-real basis changes on pairs of reals. Recursions and orthonormality of Racah's formula by hypergeometric summation; invariance under infinitesimal rotations about y and z as polynomial identities; every rotation is reached by Euler angles and a derivative argument; reflections by parity.

### C67 Layers are equivariant with the package's own coefficients
Instantiates the hypotheses of C36-C39, C53, C54 and C63 (coefficients that intertwine, orthogonal block-diagonal matrices) with the arrays of C59/C66 and C25: cgf stands for any sequence of calls of clebsch_gordan in ready cache states (Equivariance_Spec.v).

### C68 Rotating a structure rotates the results of message passing and attention
From C51 (basis of rotated vectors), the parity and block structure of Wigner-D matrices (C25) and C67. Sparse edge lists of one structure.

### C69 Networks are equivariant under rotations, reflections and translations of a molecule
Networks are lists of calls that read earlier arrays (Network_Spec.v); induction over the calls with C35, C50, C32, C33, C67; degree 1 in Cartesian order is the rotation matrix itself (C25). Positions enter through displacement vectors.

### C70 A node only sees its neighbourhood
Two scenes (features, basis values, cutoffs, graph; Locality_Spec.v) and a relation between nodes that look alike up to distance k, defined by recursion on k with a matching of the incoming edges. Every layer preserves it (from the per-node formulas of C38 and C39), induction over the calls. Renumbering, joining, batching, formats and receptive field are instances.

### C71 Embed looks up rows and gives scalars
Embed_Model.v transcribes Embed; jnp.take (mode fill) maps an index to an optional row (None is NaN). Rows, out-of-range numbers, independence and errors by cases on the index; the initial table from the model of variance_scaling.

### C72 From atoms to predictions: energies do not depend on how a molecule is placed or numbered
Molecule_Spec.v composes Embed, basis and a network. Rigid motion by C69, renumbering by C70, success by run_like (Shapes_Proofs.v: whether a network succeeds depends only on the shapes of its inputs). Example: two atoms with energy 2 r^2.

### C73 Forces turn with the molecule and conserve momentum and angular momentum
Forces are defined by the Frechet derivative of the energy. The force law follows from C72 applied to displaced molecules; conservation by differentiating along translations and rotations about an axis (small_turn, no_work). Example with nonzero forces.

### C74 Pairs of atoms beyond the cutoff have no influence
Cutoff_Spec.v: edges whose basis values (and cutoffs, with attention) are zero are silent; nodes sound alike if everything up to k edges away is the same up to silent edges. A message along a silent edge is zero (linearity of the tensor product in the filters), so the sums over incoming edges agree; induction over the calls as for C70. Basis values vanish beyond the cutoff (C51). Attention is stated for molecules in which every atom that has neighbours has one within the cutoff (otherwise the code divides 0 by 0). Refuted for use_basis_bias=True.

### C75 A model that accepts one molecule accepts all molecules
Accept_Proofs.v: every layer succeeds for N' nodes and Q' edges if it succeeds for N nodes and Q edges with the same degrees, parities and features; induction over the calls.

### C76 Predictions are continuous functions of the positions
Classes of functions of the positions that are closed under sums, products, and composition with the user's functions (Regular_Proofs.v); a family of feature arrays is regular if all entries are in the class. Every layer maps regular families to regular families (from the per-node formulas), induction over the calls; displacement vectors, lengths, directions and spherical harmonics are in the class where atoms do not coincide. C76 takes continuous functions as the class; C76_positions shows that the admissible positions form an open set.

### C77 Forces exist and are unique
As C76, with the Frechet differentiable functions as the class (product rule and chain rule in Regular_Class_Proofs.v). Uniqueness from the definition.

### C78 Energies and forces are smooth
As C76, with the functions that can be differentiated n times for every n as the class. Example: a pair of atoms with the package's smooth cutoff and SiLU.

### C79 Which functions of the package give smooth, differentiable or continuous predictions
Parts_Props.v: closure of smooth functions under composition with exp, cos, ln, inverse; Chebyshev functions by their recurrence; the cosine cutoff by comparing one-sided second derivatives. Gates are determined by the activation (gate_unique). Kink_Props.v: a concrete model with relu whose predicted vector jumps. Bernstein and Chebyshev functions and the damped mapping are taken with eps = 0 (the code's branches for arguments within the rounding unit of the interval ends would jump by rounding errors); elu with alpha = 1, celu, shifted_softplus and bent_identity, which have such branches at zero, are not classified.

### C80 Energies do not jump when atoms enter or leave the neighbour list
Dynamics_Spec.v defines neighbour lists. By C74 the energy with any neighbour list is the energy with the list of all pairs, to which C76-C78 apply; C75 gives existence. The example has three atoms, one of which enters and leaves the list.

### C81 Gradients are finite and correct
AutoDiff_Model.v: programs as expressions over the jax primitives the code calls, evaluated over numbers that are finite or not (a number that is not finite stays so even times zero), with reverse-mode differentiation as jax defines it (both branches of where, balanced ties of maximum and minimum, custom rules). The programs are the lines of activations.py and functions/. C81_sound: where no comparison changes and nothing ties, a finite gradient is the partial derivative, by induction on programs. The other theorems: values are those of Radial_Model/Activations_Model, gradients are finite everywhere and correct outside the listed arguments. C81_guards_matter: dropping a guard makes the gradient at zero not finite. The derivative rules of the jax primitives are part of the trusted base (they are not in /repo); overflow and underflow are not modelled.

### C82 Gradients of basis functions with respect to displacements are finite and correct, also at the zero vector
AutoDiff_Basis_Model.v: the lines of basis and normalize as programs in the language of C81, to which the norm with its custom derivative rule is added. C82_programs: the programs compute what the model of basis (C51) returns, with the polynomials of the table. C82_finite: the chain rule of C81_sound, with the functions of the distance as arbitrary programs. C82_zero_scalar: along an axis the entry is even. C82_zero_damped: the angular part is bounded, so the entry vanishes faster than the displacement; C82_smooth_damping from C43. C82_guards_matter: programs with the same values and without the guards have gradients that are not finite. C82_undamped (finding): without damping the gradient at the zero vector is finite although the entry jumps there.

### C83 norm neither overflows nor loses accuracy in floating point arithmetic
Float_Model.v: the lines of norm with a rounding function applied after every operation; a result whose magnitude reaches the bound of the format is not finite and stays so. The order in which jnp.sum adds is an arbitrary binary tree whose leaves are the entries, each once, and any zeros. Float_Spec.v: what is assumed about rounding; Float_Formats.v proves it of float32, float64, bfloat16 and of flushing subnormal numbers to zero, with Flocq's definitions. The error is bounded by induction on the tree (Float_Proofs.v). C83_exact: without rounding it is the function norm of the other properties. C83_overflow_avoided: the textbook formula fails where norm does not. C83_batch_refuted (finding): the batch whose unit vector gets norm zero. float16 is not covered (its smallest normal number is too large for the scaled entries).

### C84 normalize returns unit vectors in floating point arithmetic
Same model; the threshold n * n > tiny is modelled with its rounding (an overflow gives infinity, which is above the threshold). The error of the quotient from the error of the norm; the length of the result by expanding squares.

### C85 Sums over neighbours in floating point arithmetic, in any order
Float_Indexed_Model.v: indexed_sum for sparse indices, one order of summation (a binary tree, as in C83) per node. C85_sum by induction on the tree with signed terms (Float_Sum_Proofs.v); C85_order from it, because permuting the edges permutes the terms. C85_order_matters: computed with Flocq's float32.

### C86 Attention weights in floating point arithmetic
Same model: the exact maximum, rounded differences, the exponential as a function of which an error bound is assumed (float_exp; a correctly rounded one is an instance), rounded products, sums and quotients. Float_Softmax_Proofs.v: the error of the denominator is relative because all numerators are between 0 and 1 and one of them is about w; the error of the difference of logits does not matter because |x| exp(x) <= 1 for x <= 0. The exact weights are those of C08. C86_masked_refuted (finding): all numerators underflow.

### C87 Cutoff and damping functions and their gradients in floating point arithmetic
Float_Radial_Model.v: the two functions and their reverse passes, operation by operation, with the rules of jax.lax (the derivative of a division multiplies by integer_pow(y, -2)). Float_Radial_Spec.v: 1 - u is the largest number below one, and u * u is far from underflow; C87_formats proves it of the formats. The exponent has an error of about u Z^2 where Z is the reciprocal of the true difference, and Z^2 exp(-Z/2) is bounded. C87_cutoff also uses that the exact function is Lipschitz, for the rounding of x / cutoff. C87_exact_cutoff and C87_exact_damping: with the identity for rounding the models compute the functions of C41 and C43 and their derivatives. C87_float16: computed.

### C88 The switch function and its derivative in floating point arithmetic with infinities
Float_Switch_Model.v: numbers are finite, infinite or NaN, and smooth_switch and its derivative rule are modelled operation by operation; a division by zero counts as NaN. C88_value: the argument of the exponential function has an error of at most 5 u M with M = 1/x + 1/(1-x), and the steepness of the logistic function there is at most exp(3 - M/2); the exact function is Lipschitz with constant 21, for the rounding of (x - x0) / (x1 - x0) (Float_Switch_Analysis.v). C88_infinite_argument: x = +-infinity. C88_tangent: if primal_out2 is not rounded to zero then primal_out is at least q, the root of the smallest number, hence the exponential function is at most about 2 / q; Float_Switch_Spec.v states what is needed of q, and C88_formats proves it of the formats. C88_exact: with the identity for rounding the models compute smooth_switch and smooth_switch_jvp of Radial_Model. C88_float16: the finding.

### C89 Bernstein polynomials and their derivatives in floating point arithmetic
Float_Bernstein_Model.v: _bernstein, its derivative rule and basic_bernstein operation by operation, for one entry of the input array. With w = -ln B the error of the exponent is at most 2 beta + u (12 n + 8 w + 1); the exponential function there is at most exp(5/4 - 7w/8) steep, so large w do no harm. C89_tangent: products and differences of the polynomials of one degree less. C89_basic: the polynomials are Lipschitz with constant n. C89_outside, C89_error: the masked branches and the error. C89_exact, C89_exact_basic: identity rounding gives the models of C45 and C46. C89_rounded, C89_instance: the assumptions hold for correctly rounded logarithms; float32 with 16 polynomials.

### C90 Dense and Tensor layers are equivariant up to rounding errors, in any order of contraction
Float_Einsum_Model.v: an evaluation of an einsum is an expression tree of sums and products of operands, each rounded; the layers take one for every entry of the output (and one more for the second einsum of Tensor). Float_Einsum_Spec.v: the tree evaluates the einsum if multiplying it out gives the products of the einsum, up to the order of terms and factors. C90_evaluation: by induction on the tree the error is ((1+u)^k - 1) times the magnitudes. C90_dense, C90_tensor: the same shapes and errors as Modules_Model, and accuracy; C90_dense_equivariant, C90_tensor_equivariant: with C35 and C67, for two evaluations. C90_plans: the term by term evaluation and the contraction of one operand after the other are such trees. C90_instance: float32.

### C91 Spherical and solid harmonics in floating point arithmetic are accurate to a few roundings and equivariant up to them
Float_Harmonics_Model: the model of spherical_harmonics with operands coordinates, stored table entries and stored constants, evaluated by an arbitrary expression that expands to the sum of monomials times coefficients (Float_Einsum_Model). The terms of a harmonic polynomial add up in magnitude to at most sqrt(binomial(2l, l)/2^l) |r|^l: Cauchy and Schwarz with the weights of the multinomial theorem and the norm of the polynomial under differentiation (Float_Harmonics_Proofs). float_eval_inexact bounds the roundings of the evaluation and of the operands; C84 gives the error of normalised coordinates; C24 gives equivariance.

### C92 Whole networks in floating point arithmetic: accurate, reproducible and equivariant up to rounding errors
Float_Network_Model: the programs of C69 over arrays of trees of additions and multiplications (leaves: inputs, weights, coefficients); every einsum and indexed sum is replaced by an arbitrary expression that expands to its sum of products (a plan), and the results of a layer are operands of the next. Layer by layer the exact value of the trees is the result of the exact model (for Dense, change and add on valid entries); the exact models respect equality of valid entries (C69 with the identity rotation), so this composes by induction over the program. C90's error theorem applies to the composed trees; C69 gives equivariance. Not modelled: activations and attention (division, exp), weights of MessagePass.

### C93 The dtypes of the results of layers, and when a network mixes them
Dtype_Model.v: the dtype of every intermediate array of the layers, with the promotion rules of jax and flax (trusted, restricted to bfloat16, float16, float32 and float64). Dtype_Spec.v defines a dtype as its set of finite numbers m 2^e and an order by inclusion; C93_promotion shows that promotion is the least upper bound. The results of the layers in closed form by cases, programs by induction over the calls.

### C94 Elementwise functions in floating point arithmetic approach the exact functions as the precision grows, except where their formula jumps
Float_Program_Model.v: an interpreter with rounding for the programs of AutoDiff_Model (the same programs whose values and gradients are the subject of C81 and C82), for any machine: a rounding function, a largest number and library functions. Float_Program_Spec.v defines precise machines, convergence (for every error there are delta and a bound such that all precise machines are close) and stable programs (divisors not zero, arguments inside of domains, comparisons decided or both branches of equal value). C94_program by induction over programs, with continuity of every operation; C94_formats and C94_precise_machines show that Flocq's formats are precise machines for every delta and bound. Then every function is shown to be stable outside of its exceptions (C94_activations, C94_radial, C94_basis); C94_jump is a counterexample at zero for relu.

### C95 Whole networks with activations and attention in floating point arithmetic approach the exact network as the precision grows
Float_Deep_Model.v: numbers that are known without rounding and on every machine (Float_Program_Model) are the leaves of the trees of Float_Network_Model, so that the layers of C92 (any order of evaluation) and the programs of gates of C94 can be composed. Float_Deep_Spec.v: numbers that approach their value without rounding; regular inputs (the arguments of gates avoid the exceptions of C94, along the network without rounding). C95_network by induction over the program: every layer maps arrays of converging numbers to such arrays (sums and products by C94_program, everything else moves entries), and the values without rounding are those of the layers (Float_Network_Proofs). C95_equivariant from C95_network and C69_network. Attention: dot products, maxima, exponentials of differences, their sums and quotients are programs of C94 on trees; the denominator is positive without rounding because a cutoff is, and the weights without rounding are those of indexed_softmax (Modules_Softmax_Proofs). Weights of edges that do not exist (masked, or without destination) have no influence and are modelled without rounding. C95_instance: relu, Dense, silu and a residual connection, for all non-zero inputs; C95_attention_instance: attention with three edges and any positive cutoffs.

### C96 Predictions for molecules in floating point arithmetic approach the exact predictions, and those for moved molecules agree, as the precision grows
Float_Molecule_Model.v: stored positions, displacements, norms, unit vectors, spherical harmonics as sums of products over the table (the plans of C91), radial functions as programs and compositions of programs, the factors of `basis`, embeddings, and the network of C95 give `float_predict`, with the error branches of `basis` and Embed; `float_total` adds a scalar over the atoms in a given order. Float_Molecule_Spec.v: `realizes` (a routine computes a function at all distances but exceptions), `runs_model`, `table_read` (any reachable cache, any schedule), `admissible`. C96_basis: basis functions and cutoffs. C96_molecule: acceptance is the same and features approach the prediction of C72's `predicts`; uniqueness of predictions is C72 for the unit rotation. C96_total: energies. C96_moved and C96_moved_total: moved molecules, with C72. C96_radial and C96_factors: the radial functions, cutoffs and damping of e3x meet `realizes` (values from C81, stability from C94); Bernstein polynomials run their primal formula. C96_case: two atoms with an exponential radial function, smooth cutoff, damping and a message-passing layer. C96_rejected, C96_table_error and C96_unknown: errors, and atomic numbers without an embedding.

### C97 Batches of molecules: every molecule gets the results it has alone
Batch_Model.v: `segment_sum`, the arrays of `prepare_batches` and the energies of the notebook md17_ethanol (documentation; the package has no such function, but relies on it in its examples). Batch_Spec.v: `batch` (molecules one after the other), `offset`, `labels`, `part`. C97_part: a molecule that is a part of a larger set of atoms, without pairs that lead to other atoms, gets the features it has alone (proved for all networks with `carries`, as for C72 and C75). C97_features, C97_accepted, C97_energies, C97_total, C97_prepared follow by induction over the molecules; C97_forces from the derivative as linear approximation: displacements of one molecule only, and finitely many neighbourhoods.

### C98 The networks of the documentation's examples respect the symmetries they claim
Modelled (Examples_Model.v): the two networks with the layers of Modules_Model.v, as functions of lists of points; [inertia_network] and [shape_network] are the calls in the notebooks, the theorems about turning hold for any list of calls. Proof: features of rotated points are rotated (the network theorem C69 and C68 for basis functions), the backwards coupling with the Clebsch-Gordan array is undone by its orthogonality (C66); sums over points from locality (C70) and run_sized; centred shapes do not depend on shifts. The training of the networks is not modelled.

### C99 Cartesian tensors of any degree from irreps
Modelled (Cartesian_Model.v): the two code snippets of the documentation (general_matrix, general_tensor) and the recursion over coupling paths that they are instances of (tensor_of; C99_degree_two and C99_degree_three prove that). Proof by induction on the degree: fixing the last index leaves a tensor of the next lower degree whose irreps are sums of couplings; completeness, orthogonality and equivariance of the Clebsch-Gordan array (C66, C67).

### C100 Setting defaults in Config changes the behaviour of calls that leave out the keyword
Modelled (Defaults_Model.v): an interpreter state with the attributes of Config and the defaults held by function objects, which Python evaluates once when import e3x executes the def and class statements; setter calls; calls of spherical_harmonics, solid_harmonics, wigner_d and the fields of TensorDense and MessagePass with and without the keywords; the paths that lookups read at call time. The documented claim (Defaults_Spec.setters_change_defaults) is false: C100_refuted, with the example of the documentation in C100_documented_example_fails. Proved: the values used for left out keywords in every history and precedence of given keywords (C100_defaults_partial), cache paths follow the setters (C100_paths), calls that leave out the order agree with each other across setter calls (C100_consistent), the claim holds for exactly the histories that end with the initial values or Schmidt normalization (C100_exactly), and mixing orders breaks equivariance as the documentation warns (C100_mixing).

### C101 Dense and tensor products are the only equivariant linear maps and products
Uses the models of wigner_d, clebsch_gordan and dense; Schur_Spec.v states invariance and equivariance for all proper rotations with the matrices wigner_d returns. Proof: an invariant irrep gives a harmonic polynomial that is constant on spheres (every direction is the z axis after a half turn), hence a power of r^2, which is orthogonal to harmonic polynomials (C101_invariant_vectors); coupling the coefficients of a linear map with the complete, orthonormal Clebsch-Gordan arrays (C66) gives invariant irreps, so only degree 0 remains (C101_linear); the same for products (C101_product) and for layers on features with parity (C101_dense). C101_tensor chooses the weight of every coupling path as the quotient of two sums over the products of C101_product and uses the formula of Tensor layers (C36_tensor_formula), with and without pseudotensors in inputs and output.

## 5. Findings

Statements from the documentation or natural expectations that are false of the modelled code. Each has a
machine-checked witness.

- `sparse_to_dense_indices` with the default padding value can produce a padding value equal to a real
  source index (C05).
- `sparse_to_dense`/`dense_to_sparse` round trip: an adjacency that contains only padding loses its rows
  (C04).
- A crash or write error while saving a lookup table leaves a torn cache file that later requests fail on
  (C19).
- The custom derivative of the Bernstein basis is nonzero where the function is constant (C46).
- Several docstring formulas of `nn.functions` differ from the code (C62: sign in `smooth_switch`, limits of
  the Gaussian basis, `sinc`, `triangular_window`, `basic_bernstein` outside the interval).
- `smooth_cutoff` exceeds one for x < -cutoff (C41). `rectangular_window` sums to two on interior cell
  boundaries (C48).
- `alignment_rotation(u, -u)` is the zero matrix for u along (1,1,1) (C28). The helper vector
  `u + roll(u)` is parallel to u there, so the rotation axis vanishes.
- `rotation` with a zero axis returns cos(angle/2)^2 times the identity (C26_zero_axis).
- `random_rotation` is orthogonal only up to 1e-35 in the branch |sin(phi)| < 1e-9 (C29).
- `change_max_degree_or_type` accepts some negative `max_degree` values, and features with an axis -2 of
  size zero pass the shape check (C32, C31).

- `MessagePass` accepts weights that do not broadcast to the gathered inputs but the other way round, because
  `is_broadcastable` is symmetric: inputs with one parity channel then give a result with two
  (C38_weights_can_enlarge).
- In `MultiHeadAttention` feature c of queries and keys belongs to head `c mod num_heads`, but the weights of
  head h multiply the value features `h * F/num_heads ... (h+1) * F/num_heads - 1`
  (visible in C39_attention_sparse: `head_score` sums over `a * H + h`, the share uses `c / (F / H)`).
- `MultiHeadAttention` with `num_heads=0` raises ZeroDivisionError, not ValueError (C39_attention_errors).
- `spherical_harmonics` does not normalise vectors whose squared length is at most the threshold of
  `normalize`; for them the result depends on the length (C21_short_vectors).
- `spherical_harmonics` of an empty batch with `r_is_normalized=False` raises, because `normalize` reduces an
  empty array; with `r_is_normalized=True` it returns an empty array (C21_solid_harmonics_total).
- `_polynomial_dot_product` returns an object without `.terms()` for polynomials of different degree, and the
  zero polynomial would be stored with one term; both are proved unreachable from the Wigner-D generator
  (`wigner_product`, `dmat_nonzero` in Symbolic_Proofs.v).
- `irreps_to_tensor` raises IndexError for an array without dimensions; only ValueError is documented
  (C56_no_dimensions).
- `Embed` documents its inputs as integers in [0, num_embeddings), but accepts all integers: negative numbers
  down to -num_embeddings select rows from the end of the table, all others silently give NaN
  (C71_other_numbers, C71_findings).
* `MessagePass(use_basis_bias=True)` adds a bias to the filters, so pairs of atoms beyond the cutoff keep contributing
  and energies jump when such pairs enter or leave the neighbour list (C74_basis_bias_refuted). The docstring does not
  mention this; the default is False.
* `MultiHeadAttention` with `cutoff_value`: if an atom has neighbours but all of them are beyond the cutoff, the softmax
  is 0/0. C70, C72 and C74 exclude this case (good_cutoffs, close_enough).
* `relu`, `relu6`, `leaky_relu`, `selu` and `elu` with alpha != 1 multiply features of positive degree with a gate that
  jumps when the scalar feature changes its sign, so predictions of networks with these activations are not
  continuous functions of the positions (C79_jumping_gates, C79_relu_jumps). The docstrings do not mention this. `silu`,
  `mish`, `gelu` and `serf` have smooth gates.
* Without a damping function, entries of `basis` with degree greater than zero jump at the zero vector, so they have no
  derivative there; `jax.grad` nevertheless returns a finite, non-zero number (C82_undamped). Nothing signals that this
  number is meaningless.
* `norm` scales by the largest entry of the whole array, not of each vector. In floating point, vectors that are shorter
  than the largest entry by more than about 24 decimal orders (float32: a factor of 2^80 suffices) therefore get norm
  zero, and `normalize` then returns them unnormalized; the result for one vector depends on the others in the batch
  (C83_batch_refuted). The docstring says that `norm` is equivalent to `jnp.linalg.norm` and more stable.
* `indexed_softmax` subtracts the maximum over all entries of a node, also over those whose `multiplicative_mask` is
  zero (pairs at or beyond the cutoff). If such an entry exceeds the others by more than about 100 (float32), all
  unmasked numerators underflow, the denominator is zero and the weights are NaN although the exact softmax is well
  defined (C86_masked_refuted). In an attention layer, a pair beyond the cutoff can thus make the features of an atom
  NaN, so the output is not independent of the choice of the neighbour list in floating point (compare C74).
* In float16, if every operation is rounded to that format, the gradient of `smooth_cutoff` is NaN for distances within
  about 0.2 percent below the cutoff (C87_float16): the derivative of the division needs the reciprocal of the squared
  denominator, which overflows, and is multiplied by an exponential that underflowed to zero. The guard `safe_x`
  protects the cutoff distance itself only. float32, float64 and bfloat16 are not affected (C87_cutoff_gradient).
* In float16 the derivative rule of `smooth_switch` returns infinity at x = 3/32 (limits 0 and 1; C88_float16): the mask
  tests whether primal_out2 is zero, but the product of the slope, the reciprocals and the exponential function
  overflows before primal_out2 underflows. float32, float64 and bfloat16 are not affected (C88_tangent).
* C93: the attribute `dtype` ("the dtype of the computation") of Tensor, FusedTensor, TensorDense and MessagePass is only applied to the parameters (modules.py:501, 930). The inputs are not converted, the mask of Tensor is float32 (modules.py:265, 314), and the Clebsch-Gordan coefficients have jax's default dtype (irreps.py:256), so with dtype=bfloat16 or float16 the result is float32, and with dtype=float32 in 64 bit mode it is float64. Dense and attention do return the dtype. A residual connection `add(x, Tensor(dtype=bfloat16)(x, x))` therefore raises ValueError (features.py:308): C93_residual.
- C100: the setters `Config.set_cartesian_order`, `set_normalization` and `set_use_fused_tensor` have no effect on any call. The
  defaults of keyword arguments and module fields are written `= Config.…`, which Python evaluates once, during `import e3x`, before
  a program can reach a setter. The example of docs/source/changing_defaults.rst, `Config.set_normalization('orthonormal')` at the
  start of a script, does not raise and stores the value, but `spherical_harmonics` still returns Racah normalized values
  (C100_documented_example_fails, C100_refuted). The setters for cache paths do work (C100_paths), since lookups read them when called.

## 6. Not modelled

Floating point rounding (except in C83 to C92 and C94 to C96), XLA compilation/fusion, flax module plumbing (parameter collections, RNG
streams, dtype promotion except in C93), `vmap`/`jit` transformations, the data files shipped with the package, the
sympy library, plotting/documentation code and the test-suite.
