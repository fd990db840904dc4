{
 "claims": [
  {
   "property": "C01",
   "status": "proved",
   "theorems": [
    "C01_sparse_pairwise_indices_complete",
    "C01_dense_pairwise_indices_rows",
    "C01_pairwise_formats_agree",
    "C01_pairwise_rejects_small"
   ],
   "note": "Sparse and dense all-pairs index lists, their equality as edge sets, and the ValueError for num < 2."
  },
  {
   "property": "C02",
   "status": "proved",
   "theorems": [
    "C02_sparse_to_dense_groups_sources",
    "C02_sparse_to_dense_errors"
   ],
   "note": ""
  },
  {
   "property": "C03",
   "status": "proved",
   "theorems": [
    "C03_dense_to_sparse_lists_real_entries",
    "C03_dense_to_sparse_default_keeps_all"
   ],
   "note": ""
  },
  {
   "property": "C04",
   "status": "proved",
   "theorems": [
    "C04_dense_sparse_dense_roundtrip",
    "C04_dense_sparse_dense_all_padding",
    "C04_sparse_dense_sparse_roundtrip"
   ],
   "note": "The dense->sparse->dense round trip is stated up to padding removal; an adjacency that holds only padding loses its rows (proved as C04_dense_sparse_dense_all_padding)."
  },
  {
   "property": "C05",
   "status": "partial",
   "theorems": [
    "C05_default_padding_unambiguous_refuted",
    "C05_default_padding_unambiguous_partial"
   ],
   "note": "The full claim is false of the code: the refuted theorem exhibits dst=[0,0,1], src=[5,6,2], where a real source equals the default padding value. The partial theorem proves it when all sources are below the number of rows."
  },
  {
   "property": "C06",
   "status": "proved",
   "theorems": [
    "C06_dense_sparse_reductions_agree",
    "C06_padding_edges_ignored",
    "C06_keepdims",
    "C06_segments_are_reductions"
   ],
   "note": ""
  },
  {
   "property": "C07",
   "status": "proved",
   "theorems": [
    "C07_reductions_edge_order_independent",
    "C07_reduce_argument_errors"
   ],
   "note": ""
  },
  {
   "property": "C08",
   "status": "proved",
   "theorems": [
    "C08_softmax_formula",
    "C08_softmax_distribution",
    "C08_softmax_shift_invariant",
    "C08_softmax_dense_distribution"
   ],
   "note": ""
  },
  {
   "property": "C09",
   "status": "proved",
   "theorems": [
    "C09_gather_src_sparse",
    "C09_gather_src_dense",
    "C09_gather_dst",
    "C09_gather_out_of_range",
    "C09_gather_formats_agree",
    "C09_index_type_errors",
    "C09_determine_index_type_sparse",
    "C09_gather_batched",
    "C09_gather_sparse_batched"
   ],
   "note": ""
  },
  {
   "property": "C10",
   "status": "proved",
   "theorems": [
    "C10_is_broadcastable_iff",
    "C10_is_broadcastable_symmetric",
    "C10_is_broadcastable_self_and_scalar"
   ],
   "note": ""
  },
  {
   "property": "C11",
   "status": "proved",
   "theorems": [
    "C11_config_histories",
    "C11_config_errors",
    "C11_normalization_always_valid"
   ],
   "note": "Histories of setter calls. Default arguments of functions are bound when the modules are imported and are not part of this model."
  },
  {
   "property": "C12",
   "status": "proved",
   "theorems": [
    "C12_cartesian_permutation_bijective",
    "C12_cartesian_permutation_order",
    "C12_cartesian_permutation_blocks",
    "C12_cartesian_permutation_prefix"
   ],
   "note": "The unspecified contents of jnp.empty are an arbitrary repeated value."
  },
  {
   "property": "C13",
   "status": "proved",
   "theorems": [
    "C13_wigner_entries_reordered",
    "C13_block_start_total"
   ],
   "note": ""
  },
  {
   "property": "C14",
   "status": "proved",
   "theorems": [
    "C14_monomials_complete",
    "C14_rotation_monomials_complete",
    "C14_counts",
    "C14_totals",
    "C14_rows_inside_table",
    "C14_rotation_rows_inside_table",
    "C14_rows_distinct",
    "C14_integer_powers"
   ],
   "note": ""
  },
  {
   "property": "C15",
   "status": "proved",
   "theorems": [
    "C15_clebsch_gordan_history",
    "C15_cold_table",
    "C15_cached_degree_never_decreases"
   ],
   "note": "The coefficient function (sympy) is an arbitrary function; the zero test of the storage format is assumed exact."
  },
  {
   "property": "C16",
   "status": "proved",
   "theorems": [
    "C16_spherical_harmonics_history",
    "C16_cold_table",
    "C16_prefix",
    "C16_cached_degree_never_decreases"
   ],
   "note": "Polynomial terms are an arbitrary function, assumed homogeneous with distinct monomials."
  },
  {
   "property": "C17",
   "status": "proved",
   "theorems": [
    "C17_wigner_d_history",
    "C17_cold_table",
    "C17_cached_degree_never_decreases"
   ],
   "note": "Polynomials and inner products are arbitrary functions, assumed homogeneous with distinct monomials."
  },
  {
   "property": "C18",
   "status": "proved",
   "theorems": [
    "C18_tensor_conversion_history",
    "C18_cold_table",
    "C18_cached_degree_never_decreases"
   ],
   "note": ""
  },
  {
   "property": "C19",
   "status": "partial",
   "theorems": [
    "C19_crash_refuted",
    "C19_write_error_refuted",
    "C19_undamaged_path_partial",
    "C19_undamaged_path_spherical_harmonics_partial"
   ],
   "note": "The full claim is false of the code: saving truncates the file in place and reads of a user cache are not guarded, so after an interrupted save every later request raises (C19_crash_refuted, C19_write_error_refuted). The partial theorems cover paths that hold no torn file."
  },
  {
   "property": "C20",
   "status": "proved",
   "theorems": [
    "C20_clebsch_gordan_storage",
    "C20_spherical_harmonics_storage",
    "C20_wigner_d_storage",
    "C20_tensor_conversion_storage"
   ],
   "note": ""
  },
  {
   "property": "C21",
   "status": "proved",
   "theorems": [
    "C21_solid_harmonics_total",
    "C21_solid_harmonics_deterministic",
    "C21_rejected",
    "C21_homogeneous",
    "C21_parity",
    "C21_direction_only",
    "C21_short_vectors",
    "C21_low_degrees"
   ],
   "note": ""
  },
  {
   "property": "C22",
   "status": "proved",
   "theorems": [
    "C22_laplace"
   ],
   "note": ""
  },
  {
   "property": "C23",
   "status": "proved",
   "theorems": [
    "C23_orthonormal",
    "C23_complete"
   ],
   "note": ""
  },
  {
   "property": "C24",
   "status": "proved",
   "theorems": [
    "C24_rotate",
    "C24_rotate_solid",
    "C24_rotations_are_orthogonal"
   ],
   "note": ""
  },
  {
   "property": "C25",
   "status": "proved",
   "theorems": [
    "C25_total",
    "C25_deterministic",
    "C25_rejected",
    "C25_block_diagonal",
    "C25_identity",
    "C25_product",
    "C25_orthogonal",
    "C25_degree_one",
    "C25_parity"
   ],
   "note": ""
  },
  {
   "property": "C26",
   "status": "proved",
   "theorems": [
    "C26_rotation",
    "C26_composition",
    "C26_zero_axis"
   ],
   "note": "C26_zero_axis records what happens without an axis: cos(angle/2)^2 times the identity."
  },
  {
   "property": "C27",
   "status": "proved",
   "theorems": [
    "C27_euler",
    "C27_euler_product",
    "C27_euler_inverse",
    "C27_shape"
   ],
   "note": ""
  },
  {
   "property": "C28",
   "status": "partial",
   "theorems": [
    "C28_alignment",
    "C28_antiparallel_partial",
    "C28_diagonal_refuted"
   ],
   "note": "The full claim is false of the code: for u=(1,1,1), v=-(1,1,1) alignment_rotation returns the zero matrix (C28_diagonal_refuted). C28_alignment covers all pairs that are not antiparallel; C28_antiparallel_partial covers antiparallel pairs away from the cube diagonals."
  },
  {
   "property": "C29",
   "status": "proved",
   "theorems": [
    "C29_random",
    "C29_no_perturbation",
    "C29_displacement"
   ],
   "note": "In the near-identity branch (|sin(phi)| < 1e-9) the interpolated quaternion is not exactly normalised; the theorem bounds the error by 1e-35."
  },
  {
   "property": "C30",
   "status": "proved",
   "theorems": [
    "C30_norm",
    "C30_normalize",
    "C30_norm_derivative"
   ],
   "note": ""
  },
  {
   "property": "C31",
   "status": "proved",
   "theorems": [
    "C31_shape_accepted_iff",
    "C31_shape_rejected",
    "C31_rounding"
   ],
   "note": ""
  },
  {
   "property": "C32",
   "status": "proved",
   "theorems": [
    "C32_change_components",
    "C32_round_trip",
    "C32_no_arguments",
    "C32_invalid_shape",
    "C32_negative_degree_accepted"
   ],
   "note": ""
  },
  {
   "property": "C33",
   "status": "proved",
   "theorems": [
    "C33_add_components",
    "C33_add_errors",
    "C33_add_commutative",
    "C33_add_associative",
    "C33_add_reflect",
    "C33_add_rotate"
   ],
   "note": ""
  },
  {
   "property": "C34",
   "status": "proved",
   "theorems": [
    "C34_reflect_components",
    "C34_reflect_involution",
    "C34_reflect_rotate_commute",
    "C34_reflect_change_commute",
    "C34_rotate_components",
    "C34_rotate_change_commute",
    "C34_rotate_errors"
   ],
   "note": ""
  },
  {
   "property": "C35",
   "status": "proved",
   "theorems": [
    "C35_dense_formula",
    "C35_dense_equivariant",
    "C35_dense_rotate",
    "C35_dense_reflect"
   ],
   "note": ""
  },
  {
   "property": "C36",
   "status": "proved",
   "theorems": [
    "C36_tensor_formula",
    "C36_tensor_errors",
    "C36_tensor_equivariant",
    "C36_tensor_rotate",
    "C36_tensor_reflect",
    "C36_forbidden_paths_irrelevant",
    "C36_tensor_bilinear"
   ],
   "note": ""
  },
  {
   "property": "C37",
   "status": "proved",
   "theorems": [
    "C37_fused_formula",
    "C37_fused_errors",
    "C37_fused_equivariant",
    "C37_fused_rotate",
    "C37_fused_reflect"
   ],
   "note": ""
  },
  {
   "property": "C38",
   "status": "proved",
   "theorems": [
    "C38_tensor_dense_equivariant",
    "C38_tensor_dense_product",
    "C38_message_pass_equivariant",
    "C38_message_pass_sparse",
    "C38_message_pass_dense",
    "C38_renumber_sparse",
    "C38_renumber_dense",
    "C38_dense_sparse_agree",
    "C38_message_pass_errors",
    "C38_weights_can_enlarge"
   ],
   "note": ""
  },
  {
   "property": "C39",
   "status": "proved",
   "theorems": [
    "C39_scores_invariant",
    "C39_attention_equivariant",
    "C39_self_attention_equivariant",
    "C39_attention_sparse",
    "C39_attention_dense",
    "C39_shares_sum_to_one",
    "C39_attention_errors"
   ],
   "note": ""
  },
  {
   "property": "C40",
   "status": "proved",
   "theorems": [
    "C40_mask_and_fans",
    "C40_shape_errors",
    "C40_initial_kernel",
    "C40_argument_errors",
    "C40_named_initializers",
    "C40_fused_initial_kernel",
    "C40_uniform_variance",
    "C40_masked_weights_unused",
    "C40_allowed_weights_used",
    "C40_fused_masked_weights_unused"
   ],
   "note": ""
  },
  {
   "property": "C41",
   "status": "proved",
   "theorems": [
    "C41_smooth_cutoff",
    "C41_cosine_cutoff",
    "C41_cutoff_rejects",
    "C41_smooth_cutoff_negative"
   ],
   "note": "smooth_cutoff is meant for x >= 0: for x < -cutoff its value exceeds one (C41_smooth_cutoff_negative)."
  },
  {
   "property": "C42",
   "status": "proved",
   "theorems": [
    "C42_smooth_switch",
    "C42_smooth_switch_approximates",
    "C42_smooth_switch_rejects",
    "C42_smooth_switch_jvp"
   ],
   "note": ""
  },
  {
   "property": "C43",
   "status": "proved",
   "theorems": [
    "C43_smooth_damping",
    "C43_smooth_damping_flat"
   ],
   "note": ""
  },
  {
   "property": "C44",
   "status": "proved",
   "theorems": [
    "C44_reciprocal_mapping",
    "C44_exponential_mapping",
    "C44_reciprocal_mapping_rejects"
   ],
   "note": ""
  },
  {
   "property": "C45",
   "status": "proved",
   "theorems": [
    "C45_bernstein_partition_of_unity",
    "C45_bernstein_values",
    "C45_bernstein_rejects"
   ],
   "note": ""
  },
  {
   "property": "C46",
   "status": "partial",
   "theorems": [
    "C46_bernstein_jvp_partial",
    "C46_bernstein_jvp_end_points",
    "C46_bernstein_jvp_refuted"
   ],
   "note": "False of the code outside [0,1] and in the clamping regions (C46_bernstein_jvp_refuted: the function is constant there but the rule reports slope -(num-1)). The partial theorem covers the open interval between the clamps, C46_bernstein_jvp_end_points the two end points."
  },
  {
   "property": "C47",
   "status": "proved",
   "theorems": [
    "C47_basic_chebyshev_values",
    "C47_chebyshev_polynomials",
    "C47_basic_chebyshev_bounded",
    "C47_basic_chebyshev_outside",
    "C47_chebyshev_rejects"
   ],
   "note": ""
  },
  {
   "property": "C48",
   "status": "proved",
   "theorems": [
    "C48_triangular_window",
    "C48_smooth_window",
    "C48_rectangular_window"
   ],
   "note": ""
  },
  {
   "property": "C49",
   "status": "proved",
   "theorems": [
    "C49_gaussian",
    "C49_fourier",
    "C49_sinc",
    "C49_rejects"
   ],
   "note": ""
  },
  {
   "property": "C50",
   "status": "proved",
   "theorems": [
    "C50_scalar_functions",
    "C50_gated",
    "C50_equivariant",
    "C50_ndim"
   ],
   "note": ""
  },
  {
   "property": "C51",
   "status": "proved",
   "theorems": [
    "C51_any_angular_function",
    "C51_total",
    "C51_factorises",
    "C51_degree_zero",
    "C51_beyond_cutoff",
    "C51_rotate",
    "C51_parity",
    "C51_zero_vector",
    "C51_rejected",
    "C51_negative_degree"
   ],
   "note": ""
  },
  {
   "property": "C52",
   "status": "proved",
   "theorems": [
    "C52_precision",
    "C52_num",
    "C52_errors",
    "C52_kinds",
    "C52_shipped_tables",
    "C52_lebedev_shipped",
    "C52_orders"
   ],
   "note": ""
  },
  {
   "property": "C53",
   "status": "proved",
   "theorems": [
    "C53_multiplicities",
    "C53_pipeline",
    "C53_enough_irreps",
    "C53_used_once",
    "C53_tiles",
    "C53_positions_in_matrix",
    "C53_argument_errors",
    "C53_missing_irreps"
   ],
   "note": ""
  },
  {
   "property": "C54",
   "status": "proved",
   "theorems": [
    "C54_traces",
    "C54_shift_cancels"
   ],
   "note": ""
  },
  {
   "property": "C55",
   "status": "proved",
   "theorems": [
    "C55_compression_indices",
    "C55_expand_compressed",
    "C55_compress_expanded",
    "C55_scalars_and_errors"
   ],
   "note": ""
  },
  {
   "property": "C56",
   "status": "proved",
   "theorems": [
    "C56_total",
    "C56_irreps_round_trip",
    "C56_symmetric_traceless",
    "C56_tensor_round_trip",
    "C56_contraction",
    "C56_equivariance",
    "C56_rejected",
    "C56_no_dimensions"
   ],
   "note": "sympy's LUsolve and matrix inverse are arguments, assumed to solve uniquely solvable systems and to invert invertible matrices."
  },
  {
   "property": "C57",
   "status": "proved",
   "theorems": [
    "C57_inverse_softplus"
   ],
   "note": ""
  },
  {
   "property": "C58",
   "status": "proved",
   "theorems": [
    "C58_derivatives",
    "C58_elementwise",
    "C58_negative_order"
   ],
   "note": ""
  },
  {
   "property": "C59",
   "status": "proved",
   "theorems": [
    "C59_entries",
    "C59_block",
    "C59_total",
    "C59_rejected"
   ],
   "note": ""
  },
  {
   "property": "C60",
   "status": "proved",
   "theorems": [
    "C60_spherical_harmonics",
    "C60_constants",
    "C60_unknown_rejected",
    "C60_index_orders",
    "C60_tensors",
    "C60_tensors_unknown_rejected"
   ],
   "note": "Tensor conversions remain mutually inverse in every normalization: C56_irreps_round_trip and C56_tensor_round_trip quantify over the normalization."
  },
  {
   "property": "C61",
   "status": "proved",
   "theorems": [
    "C61_degree_masks",
    "C61_duplication_indices"
   ],
   "note": ""
  },
  {
   "property": "C62",
   "status": "partial",
   "theorems": [
    "C62_documented_formulas",
    "C62_damped_taylor_error",
    "C62_mapped_bases",
    "C62_smooth_switch_formula_refuted",
    "C62_other_docstrings_refuted"
   ],
   "note": "Holds for the cutoffs, damping, mappings, Fourier basis, Gaussians with limit 1 and the composed bases; refuted for smooth_switch (sign), Gaussians with limit != 1, sinc, triangular_window and basic_bernstein outside the interval. The implementation behaves sensibly in each case (C42, C45, C48, C49); the docstrings are wrong."
  },
  {
   "property": "C63",
   "status": "proved",
   "theorems": [
    "C63_matrix_equivariant"
   ],
   "note": ""
  },
  {
   "property": "C64",
   "status": "proved",
   "theorems": [
    "C64_low_degrees",
    "C64_tolerance",
    "C64_exact",
    "C64_accepts_converted",
    "C64_rejected"
   ],
   "note": ""
  },
  {
   "property": "C65",
   "status": "proved",
   "theorems": [
    "C65_exponential_basis"
   ],
   "note": ""
  },
  {
   "property": "C66",
   "status": "proved",
   "theorems": [
    "C66_real",
    "C66_total",
    "C66_rotate",
    "C66_reflect",
    "C66_orthonormal",
    "C66_triangle",
    "C66_complete",
    "C66_exchange",
    "C66_scalar_factor",
    "C66_scalar_product",
    "C66_cross_product"
   ],
   "note": ""
  },
  {
   "property": "C67",
   "status": "proved",
   "theorems": [
    "C67_checked",
    "C67_commutes",
    "C67_matrices",
    "C67_tensor",
    "C67_tensor_rotate",
    "C67_fused_tensor",
    "C67_fused_tensor_rotate",
    "C67_tensor_dense",
    "C67_message_pass",
    "C67_attention",
    "C67_self_attention",
    "C67_matrix",
    "C67_traces"
   ],
   "note": ""
  },
  {
   "property": "C68",
   "status": "proved",
   "theorems": [
    "C68_basis",
    "C68_message_pass",
    "C68_attention",
    "C68_self_attention"
   ],
   "note": ""
  },
  {
   "property": "C69",
   "status": "proved",
   "theorems": [
    "C69_network",
    "C69_scalars",
    "C69_vectors",
    "C69_molecule"
   ],
   "note": ""
  },
  {
   "property": "C70",
   "status": "proved",
   "theorems": [
    "C70_network",
    "C70_carries",
    "C70_renumber",
    "C70_join",
    "C70_batch",
    "C70_formats",
    "C70_receptive_field"
   ],
   "note": ""
  },
  {
   "property": "C71",
   "status": "proved",
   "theorems": [
    "C71_rows",
    "C71_other_numbers",
    "C71_not_integer",
    "C71_independent",
    "C71_scalars",
    "C71_initial"
   ],
   "note": ""
  },
  {
   "property": "C72",
   "status": "proved",
   "theorems": [
    "C72_molecule",
    "C72_total",
    "C72_determined",
    "C72_accepted"
   ],
   "note": ""
  },
  {
   "property": "C73",
   "status": "proved",
   "theorems": [
    "C73_forces",
    "C73_conservation"
   ],
   "note": ""
  },
  {
   "property": "C74",
   "status": "proved",
   "theorems": [
    "C74_network",
    "C74_surroundings",
    "C74_far_atoms",
    "C74_neighbour_list",
    "C74_basis_bias_refuted"
   ],
   "note": "Proved for the default use_basis_bias=False, as the property states; C74_basis_bias_refuted shows that the guard is needed."
  },
  {
   "property": "C75",
   "status": "proved",
   "theorems": [
    "C75_every_molecule"
   ],
   "note": ""
  },
  {
   "property": "C76",
   "status": "proved",
   "theorems": [
    "C76_continuous",
    "C76_energy",
    "C76_positions"
   ],
   "note": ""
  },
  {
   "property": "C77",
   "status": "proved",
   "theorems": [
    "C77_forces_exist",
    "C77_differentiable",
    "C77_unique",
    "C77_conservation"
   ],
   "note": ""
  },
  {
   "property": "C78",
   "status": "proved",
   "theorems": [
    "C78_smooth",
    "C78_smooth_features",
    "C78_energy_surface"
   ],
   "note": ""
  },
  {
   "property": "C79",
   "status": "proved",
   "theorems": [
    "C79_cutoff_smooth",
    "C79_damping_smooth",
    "C79_radial_smooth",
    "C79_polynomials_smooth",
    "C79_cosine_cutoff",
    "C79_triangular_window",
    "C79_sinc",
    "C79_rectangular_window",
    "C79_smooth_gates",
    "C79_continuous_gates",
    "C79_jumping_gates",
    "C79_relu_jumps"
   ],
   "note": ""
  },
  {
   "property": "C80",
   "status": "proved",
   "theorems": [
    "C80_same_energy",
    "C80_continuous",
    "C80_forces_exist",
    "C80_energy_surface",
    "C80_all_pairs"
   ],
   "note": ""
  },
  {
   "property": "C81",
   "status": "proved",
   "theorems": [
    "C81_sound",
    "C81_activations",
    "C81_guards_matter",
    "C81_cutoffs",
    "C81_damping",
    "C81_reciprocal_mapping",
    "C81_exponential_mapping",
    "C81_switch",
    "C81_windows",
    "C81_reciprocal_basis",
    "C81_exponential_basis",
    "C81_basic_basis",
    "C81_sinc"
   ],
   "note": ""
  },
  {
   "property": "C82",
   "status": "proved",
   "theorems": [
    "C82_finite",
    "C82_zero_scalar",
    "C82_zero_damped",
    "C82_smooth_damping",
    "C82_programs",
    "C82_normalize",
    "C82_normalize_zero",
    "C82_guards_matter",
    "C82_undamped"
   ],
   "note": ""
  },
  {
   "property": "C83",
   "status": "proved",
   "theorems": [
    "C83_norm",
    "C83_single",
    "C83_zero",
    "C83_exact",
    "C83_formats",
    "C83_overflow_avoided",
    "C83_batch_refuted"
   ],
   "note": "The property states the conditions under which it holds; C83_batch_refuted shows that the condition on the other vectors of the batch cannot be dropped (finding)."
  },
  {
   "property": "C84",
   "status": "proved",
   "theorems": [
    "C84_direction",
    "C84_unit",
    "C84_short"
   ],
   "note": ""
  },
  {
   "property": "C85",
   "status": "proved",
   "theorems": [
    "C85_sum",
    "C85_order",
    "C85_order_matters"
   ],
   "note": ""
  },
  {
   "property": "C86",
   "status": "proved",
   "theorems": [
    "C86_weights",
    "C86_masked_refuted"
   ],
   "note": "The property states the condition under which it holds; C86_masked_refuted shows that the condition on the mask of the largest logit cannot be dropped (finding)."
  },
  {
   "property": "C87",
   "status": "proved",
   "theorems": [
    "C87_cutoff",
    "C87_cutoff_gradient",
    "C87_damping",
    "C87_damping_gradient",
    "C87_exact_cutoff",
    "C87_exact_damping",
    "C87_formats",
    "C87_float16"
   ],
   "note": ""
  },
  {
   "property": "C88",
   "status": "proved",
   "theorems": [
    "C88_value",
    "C88_infinite_argument",
    "C88_tangent",
    "C88_exact",
    "C88_formats",
    "C88_float16"
   ],
   "note": ""
  },
  {
   "property": "C89",
   "status": "proved",
   "theorems": [
    "C89_value",
    "C89_outside",
    "C89_tangent",
    "C89_basic",
    "C89_error",
    "C89_exact",
    "C89_exact_basic",
    "C89_rounded"
   ],
   "note": ""
  },
  {
   "property": "C90",
   "status": "proved",
   "theorems": [
    "C90_evaluation",
    "C90_two_evaluations",
    "C90_dense",
    "C90_tensor",
    "C90_dense_equivariant",
    "C90_tensor_equivariant",
    "C90_direct",
    "C90_contracted",
    "C90_plans"
   ],
   "note": ""
  },
  {
   "property": "C91",
   "status": "proved",
   "theorems": [
    "C91_amplification",
    "C91_given",
    "C91_solid",
    "C91_spherical",
    "C91_bound",
    "C91_errors",
    "C91_range",
    "C91_plan",
    "C91_stored",
    "C91_equivariant"
   ],
   "note": ""
  },
  {
   "property": "C92",
   "status": "proved",
   "theorems": [
    "C92_network",
    "C92_given",
    "C92_two_runs",
    "C92_equivariant",
    "C92_plan"
   ],
   "note": ""
  },
  {
   "property": "C93",
   "status": "proved",
   "theorems": [
    "C93_promotion",
    "C93_dense",
    "C93_tensor",
    "C93_tensor_requested",
    "C93_residual",
    "C93_layers",
    "C93_uniform",
    "C93_low_precision",
    "C93_no_rounding"
   ],
   "note": ""
  },
  {
   "property": "C94",
   "status": "proved",
   "theorems": [
    "C94_program",
    "C94_formats",
    "C94_precise_machines",
    "C94_activations",
    "C94_radial",
    "C94_basis",
    "C94_jump"
   ],
   "note": ""
  },
  {
   "property": "C95",
   "status": "proved",
   "theorems": [
    "C95_network",
    "C95_given",
    "C95_equivariant"
   ],
   "note": ""
  },
  {
   "property": "C96",
   "status": "proved",
   "theorems": [
    "C96_molecule",
    "C96_total",
    "C96_basis",
    "C96_moved",
    "C96_moved_total",
    "C96_rejected",
    "C96_table_error",
    "C96_unknown",
    "C96_radial",
    "C96_factors"
   ],
   "note": ""
  },
  {
   "property": "C97",
   "status": "proved",
   "theorems": [
    "C97_part",
    "C97_features",
    "C97_accepted",
    "C97_energies",
    "C97_total",
    "C97_forces",
    "C97_prepared"
   ],
   "note": ""
  },
  {
   "property": "C98",
   "status": "proved",
   "theorems": [
    "C98_matrix_turns",
    "C98_all_matrices",
    "C98_symmetric",
    "C98_sum_over_points",
    "C98_order_of_points",
    "C98_shape",
    "C98_logits",
    "C98_centered",
    "C98_mirror_images",
    "C98_inertia_notebook",
    "C98_shape_notebook"
   ],
   "note": ""
  },
  {
   "property": "C99",
   "status": "proved",
   "theorems": [
    "C99_every_tensor",
    "C99_irreps_of_tensor",
    "C99_turns",
    "C99_degree_two",
    "C99_degree_three",
    "C99_parts"
   ],
   "note": ""
  },
  {
   "property": "C100",
   "status": "partial",
   "theorems": [
    "C100_defaults_partial",
    "C100_paths",
    "C100_consistent",
    "C100_mixing",
    "C100_documented_example_fails",
    "C100_refuted",
    "C100_exactly"
   ],
   "note": "The documented claim is false for the three keyword defaults (C100_refuted, finding): they are evaluated once at import. Proved: what calls use instead, for every history, the cache paths, and consistency of default calls."
  },
  {
   "property": "C101",
   "status": "proved",
   "theorems": [
    "C101_invariant_vectors",
    "C101_linear",
    "C101_product",
    "C101_dense",
    "C101_tensor"
   ],
   "note": ""
  }
 ]
}
