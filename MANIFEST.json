{
 "claims": [
  {
   "property": "C01",
   "status": "proved",
   "theorems": [
    "C01_generate_all_complete",
    "C01_iterator_stops",
    "C01_stop_is_permanent_refuted"
   ],
   "note": "Also shows that an exhausted iterator restarts (C01_stop_is_permanent_refuted)."
  },
  {
   "property": "C02",
   "status": "proved",
   "theorems": [
    "C02_order_strictly_increasing",
    "C02_order_in_base_r_refuted"
   ],
   "note": "Holds for base r+1; the docstring's base r is refuted (C02_order_in_base_r_refuted)."
  },
  {
   "property": "C03",
   "status": "proved",
   "theorems": [
    "C03_generate_get_index",
    "C03_get_index_generate",
    "C03_generate_out_of_range",
    "C03_get_index_too_large",
    "C03_generate_is_nth"
   ],
   "note": ""
  },
  {
   "property": "C04",
   "status": "proved",
   "theorems": [
    "C04_cache_unobservable",
    "C04_cache_entries"
   ],
   "note": ""
  },
  {
   "property": "C05",
   "status": "proved",
   "theorems": [
    "C05_multi_cap_complete",
    "C05_generate_multi_cap_nth",
    "C05_mixed_radix_index",
    "C05_order",
    "C05_order_in_max_base_refuted",
    "C05_wraps_silently"
   ],
   "note": "Order holds for every base larger than all caps; the docstring's base max(r) is refuted. generate_multi_cap wraps out-of-range indices."
  },
  {
   "property": "C06",
   "status": "proved",
   "theorems": [
    "C06_exact_general_roundtrip",
    "C06_general_exact_roundtrip",
    "C06_general_to_exact_rejects",
    "C06_exact_norm_complete"
   ],
   "note": ""
  },
  {
   "property": "C07",
   "status": "proved",
   "theorems": [
    "C07_never_negative",
    "C07_never_negative_refuted",
    "C07_failure_changes_nothing",
    "C07_subtraction",
    "C07_subtraction_value",
    "C07_addition_value",
    "C07_operands_unchanged"
   ],
   "note": "Proved for programs that do not write to a list handed to MultiIndex(list) behind its back; without that restriction refuted (C07_never_negative_refuted: the constructor keeps a reference to the caller's list)."
  },
  {
   "property": "C08",
   "status": "proved",
   "theorems": [
    "C08_increasing_complete",
    "C08_non_decreasing_complete"
   ],
   "note": ""
  },
  {
   "property": "C09",
   "status": "proved",
   "theorems": [
    "C09_binom",
    "C09_binom_negative",
    "C09_multinom_words",
    "C09_multinom_positive",
    "C09_words_exist",
    "C09_multinom_general",
    "C09_multinomial_theorem"
   ],
   "note": ""
  },
  {
   "property": "C10",
   "status": "proved",
   "theorems": [
    "C10_arithmetic",
    "C10_ring_laws",
    "C10_different_moduli",
    "C10_comparison_same_modulus",
    "C10_compare_with_int"
   ],
   "note": "> and <= against a plain int always raise AttributeError (C10_compare_with_int)."
  },
  {
   "property": "C11",
   "status": "proved",
   "theorems": [
    "C11_composition",
    "C11_group_laws",
    "C11_two_line_any_order",
    "C11_empty_permutation_fails",
    "C11_one_based_roundtrip"
   ],
   "note": ""
  },
  {
   "property": "C12",
   "status": "proved",
   "theorems": [
    "C12_cycle_terminates",
    "C12_cycle_bound_irrelevant",
    "C12_cycles_partition",
    "C12_cycle_roundtrip",
    "C12_trivial_cycles_optional"
   ],
   "note": ""
  },
  {
   "property": "C13",
   "status": "proved",
   "theorems": [
    "C13_transposition_roundtrip"
   ],
   "note": ""
  },
  {
   "property": "C14",
   "status": "proved",
   "theorems": [
    "C14_sign_is_inversion_parity",
    "C14_sign_homomorphism",
    "C14_swap_flips_sign",
    "C14_sign_identity_inverse"
   ],
   "note": ""
  },
  {
   "property": "C15",
   "status": "proved",
   "theorems": [
    "C15_permutations_complete",
    "C15_subset_permutations_complete",
    "C15_increasing_complete",
    "C15_degenerate_k"
   ],
   "note": ""
  },
  {
   "property": "C16",
   "status": "proved",
   "theorems": [
    "C16_random_permutation",
    "C16_random_permutation_bijective",
    "C16_random_subsets"
   ],
   "note": ""
  },
  {
   "property": "C17",
   "status": "proved",
   "theorems": [
    "C17_construct_permutation",
    "C17_construct_permutation_general",
    "C17_construct_general_foreign_element"
   ],
   "note": ""
  },
  {
   "property": "C18",
   "status": "proved",
   "theorems": [
    "C18_permute_values",
    "C18_permute_positions",
    "C18_matrices"
   ],
   "note": ""
  },
  {
   "property": "C19",
   "status": "proved",
   "theorems": [
    "C19_cyclic_permutations",
    "C19_circularly_equivalent_iff_rotation",
    "C19_equivalence_relation",
    "C19_reflexive_refuted"
   ],
   "note": "Reflexivity fails for the empty sequence (C19_reflexive_refuted)."
  },
  {
   "property": "C20",
   "status": "proved",
   "theorems": [
    "C20_nfold_cartesian_product",
    "C20_n1_and_n0",
    "C20_count_refuted"
   ],
   "note": "Proved for n >= 2; n == 0 gives the empty set, so the count fails there (C20_count_refuted)."
  },
  {
   "property": "C21",
   "status": "proved",
   "theorems": [
    "C21_boundary_map_terms",
    "C21_boundary_of_boundary",
    "C21_matrix_product",
    "C21_matrix_entries"
   ],
   "note": ""
  },
  {
   "property": "C22",
   "status": "proved",
   "theorems": [
    "C22_boundary_orientation",
    "C22_sign_unique",
    "C22_low_dimension"
   ],
   "note": ""
  },
  {
   "property": "C23",
   "status": "proved",
   "theorems": [
    "C23_boundary_odd_incidence",
    "C23_boundary_order",
    "C23_boundary_of_boundary",
    "C23_manifold"
   ],
   "note": ""
  },
  {
   "property": "C24",
   "status": "proved",
   "theorems": [
    "C24_sub_simplices",
    "C24_count",
    "C24_fixed_dimension",
    "C24_fixed_dimension_range",
    "C24_opposite"
   ],
   "note": ""
  },
  {
   "property": "C25",
   "status": "proved",
   "theorems": [
    "C25_swap_simplex",
    "C25_swap_mesh",
    "C25_swap_vertex_fails",
    "C25_swap_boundary",
    "C25_has_same_orientation",
    "C25_consistent_orientation",
    "C25_swap_keeps_consistency",
    "C25_swap_one"
   ],
   "note": ""
  },
  {
   "property": "C26",
   "status": "proved",
   "theorems": [
    "C26_counts",
    "C26_small_resolution",
    "C26_area",
    "C26_conforming",
    "C26_covers",
    "C26_unit_square"
   ],
   "note": ""
  },
  {
   "property": "C27",
   "status": "proved",
   "theorems": [
    "C27_counts",
    "C27_one_vertex",
    "C27_index",
    "C27_vertices",
    "C27_area",
    "C27_conforming",
    "C27_covers",
    "C27_disjoint",
    "C27_triangle_vertices",
    "C27_equilateral_vertices"
   ],
   "note": ""
  },
  {
   "property": "C28",
   "status": "proved",
   "theorems": [
    "C28_counts",
    "C28_small_resolution",
    "C28_volume",
    "C28_conforming",
    "C28_covers"
   ],
   "note": ""
  },
  {
   "property": "C29",
   "status": "proved",
   "theorems": [
    "C29_create_smallest",
    "C29_intersection",
    "C29_union",
    "C29_union_smallest_refuted",
    "C29_is_empty",
    "C29_corner",
    "C29_corners_all",
    "C29_corners_distinct",
    "C29_midpoint",
    "C29_volume"
   ],
   "note": "union is the smallest box when both operands contain a point; an operand without points still enlarges it (C29_union_smallest_refuted)."
  },
  {
   "property": "C30",
   "status": "proved",
   "theorems": [
    "C30_find_leaf",
    "C30_find_leaf_below",
    "C30_leaves_overlap"
   ],
   "note": ""
  },
  {
   "property": "C31",
   "status": "proved",
   "theorems": [
    "C31_address",
    "C31_sibling",
    "C31_subdivide_non_leaf",
    "C31_subdivide_leaf",
    "C31_cut_subtree",
    "C31_orphan_refuted"
   ],
   "note": "For nodes of the tree; a node below a cut subtree is no longer reached by its address (C31_orphan_refuted)."
  },
  {
   "property": "C32",
   "status": "proved",
   "theorems": [
    "C32_contains",
    "C32_exact",
    "C32_exact_refuted"
   ],
   "note": "Containment for all trees, equality under the stated condition, failure without it (C32_exact_refuted)."
  },
  {
   "property": "C33",
   "status": "proved",
   "theorems": [
    "C33_complete",
    "C33_leaf_of_point",
    "C33_listed"
   ],
   "note": ""
  },
  {
   "property": "C34",
   "status": "proved",
   "theorems": [
    "C34_no_boundary",
    "C34_boundary_dropped",
    "C34_boundary_last"
   ],
   "note": ""
  },
  {
   "property": "C35",
   "status": "proved",
   "theorems": [
    "C35_inverse"
   ],
   "note": ""
  },
  {
   "property": "C36",
   "status": "proved",
   "theorems": [
    "C36_vector_values",
    "C36_vector_bijection",
    "C36_vector_inverse"
   ],
   "note": ""
  },
  {
   "property": "C37",
   "status": "proved",
   "theorems": [
    "C37_identification",
    "C37_same_weights"
   ],
   "note": ""
  },
  {
   "property": "C38",
   "status": "proved",
   "theorems": [
    "C38_boundary_dropped",
    "C38_boundary_last",
    "C38_boundary_last_refuted"
   ],
   "note": "Proved when no boundary simplex is a whole mesh simplex; otherwise the interior functions of that simplex are not placed last (C38_boundary_last_refuted)."
  },
  {
   "property": "C39",
   "status": "proved",
   "theorems": [
    "C39_add",
    "C39_sub",
    "C39_scale",
    "C39_outer",
    "C39_truediv",
    "C39_mul",
    "C39_mul_degree_limit_refuted",
    "C39_pow",
    "C39_pow_multiindex"
   ],
   "note": ""
  },
  {
   "property": "C40",
   "status": "proved",
   "theorems": [
    "C40_degree_elevate",
    "C40_degree_elevate_coefficients",
    "C40_derivative",
    "C40_derivative_real"
   ],
   "note": ""
  },
  {
   "property": "C41",
   "status": "proved",
   "theorems": [
    "C41_add",
    "C41_sub",
    "C41_scale",
    "C41_outer",
    "C41_truediv",
    "C41_mul",
    "C41_mul_degree_limit_refuted",
    "C41_pow",
    "C41_pow_multiindex",
    "C41_pow_multiindex_scalar_refuted",
    "C41_unit_polynomial"
   ],
   "note": ""
  },
  {
   "property": "C42",
   "status": "proved",
   "theorems": [
    "C42_degree_elevate",
    "C42_derivative",
    "C42_derivative_real"
   ],
   "note": ""
  },
  {
   "property": "C43",
   "status": "proved",
   "theorems": [
    "C43_basis_nonnegative",
    "C43_partition_of_unity",
    "C43_convex_hull",
    "C43_vertex_values"
   ],
   "note": ""
  },
  {
   "property": "C44",
   "status": "proved",
   "theorems": [
    "C44_nodal_values",
    "C44_points",
    "C44_unisolvence"
   ],
   "note": ""
  },
  {
   "property": "C45",
   "status": "proved",
   "theorems": [
    "C45_add",
    "C45_sub",
    "C45_scale",
    "C45_outer",
    "C45_truediv",
    "C45_mul",
    "C45_mul_degree_limit_refuted",
    "C45_pow",
    "C45_pow_multiindex",
    "C45_pow_multiindex_scalar_refuted",
    "C45_degree_elevate",
    "C45_derivative",
    "C45_derivative_real",
    "C45_unit_polynomial"
   ],
   "note": ""
  },
  {
   "property": "C46",
   "status": "proved",
   "theorems": [
    "C46_cache_entries",
    "C46_cache_equals_computation"
   ],
   "note": ""
  },
  {
   "property": "C47",
   "status": "proved",
   "theorems": [
    "C47_integral_unique",
    "C47_integrate_unit_simplex",
    "C47_bernstein_basis_fn",
    "C47_homogeneous",
    "C47_table",
    "C47_individual_table",
    "C47_l2_inner_product",
    "C47_l2_definite",
    "C47_l2_degree_limit_refuted"
   ],
   "note": ""
  },
  {
   "property": "C48",
   "status": "proved",
   "theorems": [
    "C48_conversion_keeps_values",
    "C48_round_trip",
    "C48_bernstein_degree_limit_refuted"
   ],
   "note": "Conversion to the Bernstein basis needs twice the degree below 20: C48_bernstein_degree_limit_refuted shows the assertion error from degree 10."
  },
  {
   "property": "C49",
   "status": "proved",
   "theorems": [
    "C49_positive",
    "C49_negative",
    "C49_inside_refuted",
    "C49_inside",
    "C49_embedded",
    "C49_embedded_hull",
    "C49_in_subspace",
    "C49_second_function",
    "C49_vertex",
    "C49_unit_simplex"
   ],
   "note": ""
  },
  {
   "property": "C50",
   "status": "proved",
   "theorems": [
    "C50_constructor",
    "C50_constructor_default",
    "C50_constructor_default_refuted",
    "C50_evaluate",
    "C50_restrict",
    "C50_add",
    "C50_sub",
    "C50_scale",
    "C50_truediv",
    "C50_outer",
    "C50_getitem",
    "C50_elevate",
    "C50_mul",
    "C50_pow",
    "C50_pow_zero",
    "C50_pow_multi_index_lagrange",
    "C50_pow_multi_index_bernstein",
    "C50_zero_unit",
    "C50_restrict_refuted",
    "C50_elevate_refuted",
    "C50_mul_refuted",
    "C50_add_refuted",
    "C50_mul_mixed_refuted",
    "C50_pow_multi_index_refuted",
    "C50_unit_refuted"
   ],
   "note": "Values proved for meshes whose degrees of freedom are all kept (C50_constructor, C50_evaluate, sums of equal degree and multiples also with dropped ones); the failures named in the statement are the _refuted theorems."
  },
  {
   "property": "C51",
   "status": "proved",
   "theorems": [
    "C51_boundary_orientation",
    "C51_not_a_face",
    "C51_edge_endpoints_refuted"
   ],
   "note": "Also shows where the documented behaviour fails (see the _refuted theorem)."
  },
  {
   "property": "C52",
   "status": "proved",
   "theorems": [
    "C52_neighbour",
    "C52_neighbour_symmetric",
    "C52_opposite_vertex",
    "C52_edge_index"
   ],
   "note": ""
  },
  {
   "property": "C53",
   "status": "proved",
   "theorems": [
    "C53_preimage",
    "C53_vector_preimage"
   ],
   "note": ""
  },
  {
   "property": "C54",
   "status": "proved",
   "theorems": [
    "C54_interleaved_boundary_last",
    "C54_sequential_boundary_last_refuted"
   ],
   "note": "Interleaved ordering proved; with sequential ordering the boundary functions are not last (C54_sequential_boundary_last_refuted)."
  },
  {
   "property": "C55",
   "status": "proved",
   "theorems": [
    "C55_constructor_total",
    "C55_monomial_evaluation",
    "C55_bernstein_evaluation",
    "C55_degree_limit_refuted"
   ],
   "note": ""
  },
  {
   "property": "C56",
   "status": "proved",
   "theorems": [
    "C56_bernstein",
    "C56_bernstein_integral",
    "C56_lagrange",
    "C56_monomial"
   ],
   "note": ""
  },
  {
   "property": "C57",
   "status": "proved",
   "theorems": [
    "C57_derivative",
    "C57_commute",
    "C57_hessian",
    "C57_jacobian"
   ],
   "note": ""
  },
  {
   "property": "C58",
   "status": "proved",
   "theorems": [
    "C58_degree_elevated",
    "C58_barycentric"
   ],
   "note": ""
  },
  {
   "property": "C59",
   "status": "proved",
   "theorems": [
    "C59_basis_function",
    "C59_basis",
    "C59_scalar_target_refuted"
   ],
   "note": "Target dimension 1 is refuted (C59_scalar_target_refuted: degree and dimension exchanged)."
  },
  {
   "property": "C60",
   "status": "proved",
   "theorems": [
    "C60_terminates",
    "C60_complete",
    "C60_default_arguments_refuted"
   ],
   "note": "The principal axis (numpy eigenvectors) is an arbitrary function. C60_default_arguments_refuted: the defaults raise TypeError."
  },
  {
   "property": "C61",
   "status": "proved",
   "theorems": [
    "C61_annulus",
    "C61_disc",
    "C61_small_resolution"
   ],
   "note": ""
  },
  {
   "property": "C62",
   "status": "proved",
   "theorems": [
    "C62_counts",
    "C62_volume",
    "C62_conforming",
    "C62_covers"
   ],
   "note": ""
  },
  {
   "property": "C64",
   "status": "proved",
   "theorems": [
    "C64_swap",
    "C64_affine_image",
    "C64_unit",
    "C64_zero_iff_degenerate",
    "C64_gram",
    "C64_permutation",
    "C64_congruent",
    "C64_base_height"
   ],
   "note": ""
  },
  {
   "property": "C65",
   "status": "proved",
   "theorems": [
    "C65_centroid",
    "C65_trilinear",
    "C65_trilinear_round_trip",
    "C65_incenter",
    "C65_circumcenter",
    "C65_face_normal",
    "C65_diameter",
    "C65_equilateral"
   ],
   "note": ""
  },
  {
   "property": "C63",
   "status": "proved",
   "theorems": [
    "C63_from_unit",
    "C63_to_unit",
    "C63_to_unit_embedded",
    "C63_degenerate",
    "C63_transformation",
    "C63_transformation_segments",
    "C63_transformation_segments_refuted"
   ],
   "note": ""
  },
  {
   "property": "C66",
   "status": "proved",
   "theorems": [
    "C66_constructor",
    "C66_evaluation",
    "C66_bernstein_evaluation",
    "C66_bernstein_hull",
    "C66_bernstein_vertices",
    "C66_lagrange_nodal",
    "C66_add",
    "C66_sub",
    "C66_scale",
    "C66_truediv",
    "C66_vector_scale",
    "C66_getitem",
    "C66_degree_elevate",
    "C66_mul",
    "C66_pow",
    "C66_pow_multi_index",
    "C66_zero_unit",
    "C66_partial_derivative",
    "C66_partial_derivative_real",
    "C66_derivative",
    "C66_to_monomial",
    "C66_basis_fn",
    "C66_basis",
    "C66_dual_lagrange",
    "C66_vector_basis_fn",
    "C66_vector_basis",
    "C66_pow_zero_refuted",
    "C66_embedded_refuted"
   ],
   "note": "str(vertices) is abstracted to a reflexive comparison. Findings: degree of the zeroth Lagrange power (C66_pow_zero_refuted), evaluation on embedded simplices (C66_embedded_refuted)."
  },
  {
   "property": "C67",
   "status": "proved",
   "theorems": [
    "C67_integral_unique",
    "C67_integral_interval",
    "C67_integrate_simplex",
    "C67_negative_orientation",
    "C67_integrate_polynomial_simplex",
    "C67_homogeneous_embedded",
    "C67_l2_inner_product",
    "C67_l2_definite",
    "C67_dual_bernstein",
    "C67_dual_bernstein_pairing",
    "C67_dual_bernstein_monomial",
    "C67_unit_basis_refuted"
   ],
   "note": ""
  },
  {
   "property": "C68",
   "status": "proved",
   "theorems": [
    "C68_call",
    "C68_single",
    "C68_outside",
    "C68_pow_zero_refuted",
    "C68_orientation_refuted"
   ],
   "note": "Proved for positively oriented simplices; failures for negative orientation and p**0 are the _refuted theorems."
  },
  {
   "property": "C69",
   "status": "proved",
   "theorems": [
    "C69_shared_values",
    "C69_call"
   ],
   "note": ""
  },
  {
   "property": "C70",
   "status": "proved",
   "theorems": [
    "C70_weak_derivative",
    "C70_weak_derivative_refuted"
   ],
   "note": "Proved when no degrees of freedom are dropped; otherwise refuted (C70_weak_derivative_refuted)."
  },
  {
   "property": "C71",
   "status": "proved",
   "theorems": [
    "C71_basis",
    "C71_dual",
    "C71_biorthogonal"
   ],
   "note": ""
  },
  {
   "property": "C72",
   "status": "proved",
   "theorems": [
    "C72_unit_triangle",
    "C72_unit_tetrahedron",
    "C72_triangle",
    "C72_tetrahedron",
    "C72_triangle_decimal",
    "C72_tetrahedron_decimal",
    "C72_triangle_exact_refuted",
    "C72_degree_error"
   ],
   "note": "Exactness for the triangle with n = 4 is refuted even for constants (C72_triangle_exact_refuted); the error bound is proved instead."
  },
  {
   "property": "C73",
   "status": "proved",
   "theorems": [
    "C73_unit_interval",
    "C73_interval",
    "C73_interval_error",
    "C73_reversed_refuted"
   ],
   "note": "The Gauss points and weights come from sympy and enter as a hypothesis on their moments. From a to b with b < a the sign is wrong (C73_reversed_refuted)."
  },
  {
   "property": "C74",
   "status": "proved",
   "theorems": [
    "C74_univariate",
    "C74_multivariate",
    "C74_associative",
    "C74_optional_parameter_refuted"
   ],
   "note": "A function with an optional second parameter counts as multivariate, so composing it with a number-valued function raises TypeError (C74_optional_parameter_refuted)."
  },
  {
   "property": "C75",
   "status": "proved",
   "theorems": [
    "C75_periodic",
    "C75_positive_angle",
    "C75_centered_angle",
    "C75_constrain",
    "C75_relative_error",
    "C75_degrees",
    "C75_ordinary_relative_error"
   ],
   "note": ""
  },
  {
   "property": "C76",
   "status": "proved",
   "theorems": [
    "C76_compute_angle",
    "C76_length_error",
    "C76_short_vectors_refuted",
    "C76_parallel",
    "C76_parallel_iff"
   ],
   "note": "Outside dimension 3 vectors with a norm below the tolerance get the angle 0 even if they are orthogonal (C76_short_vectors_refuted)."
  },
  {
   "property": "C77",
   "status": "proved",
   "theorems": [
    "C77_distance",
    "C77_distance_error",
    "C77_direction"
   ],
   "note": ""
  },
  {
   "property": "C78",
   "status": "proved",
   "theorems": [
    "C78_orthogonal",
    "C78_zero_error",
    "C78_one_dimension_refuted"
   ],
   "note": "In dimension 1 the returned vector is not orthogonal (C78_one_dimension_refuted)."
  },
  {
   "property": "C79",
   "status": "proved",
   "theorems": [
    "C79_dial",
    "C79_position"
   ],
   "note": ""
  },
  {
   "property": "C80",
   "status": "proved",
   "theorems": [
    "C80_hat",
    "C80_axis_angle",
    "C80_zero_axis",
    "C80_compose",
    "C80_rodrigues",
    "C80_unit_tolerance_refuted"
   ],
   "note": "rodrigues_formula_matrix accepts axes of norm within 1e-10 of 1, for which the result is not exactly a rotation (C80_unit_tolerance_refuted)."
  },
  {
   "property": "C81",
   "status": "proved",
   "theorems": [
    "C81_compute_rotation",
    "C81_opposite_refuted"
   ],
   "note": "For opposite vectors the documented fixing of orthogonal vectors fails (C81_opposite_refuted)."
  },
  {
   "property": "C82",
   "status": "proved",
   "theorems": [
    "C82_round_trip",
    "C82_identity",
    "C82_near_identity",
    "C82_half_turn",
    "C82_half_turn_overwrites_refuted",
    "C82_near_half_turn_refuted"
   ],
   "note": "At half turns a column of the matrix of the caller is overwritten (C82_half_turn_overwrites_refuted). Close to half turns the axis is wrong by more than 1e-6 (C82_near_half_turn_refuted); no error bound is proved there."
  },
  {
   "property": "C83",
   "status": "proved",
   "theorems": [
    "C83_frame",
    "C83_exact_column_refuted"
   ],
   "note": "Within 1e-10 of the coordinate axis the column is not exactly parallel to v (C83_exact_column_refuted)."
  },
  {
   "property": "C84",
   "status": "proved",
   "theorems": [
    "C84_rotation_2",
    "C84_rotation_3",
    "C84_move",
    "C84_orientation",
    "C84_move_2",
    "C84_columns",
    "C84_random_rigid_motion"
   ],
   "note": ""
  },
  {
   "property": "C85",
   "status": "proved",
   "theorems": [
    "C85_edges",
    "C85_diameter"
   ],
   "note": ""
  },
  {
   "property": "C86",
   "status": "proved",
   "theorems": [
    "C86_area",
    "C86_area_plane",
    "C86_altitudes",
    "C86_altitude_feet",
    "C86_dual_edges"
   ],
   "note": ""
  },
  {
   "property": "C87",
   "status": "proved",
   "theorems": [
    "C87_normal",
    "C87_normal_plane",
    "C87_basis",
    "C87_plane_coordinates"
   ],
   "note": ""
  },
  {
   "property": "C88",
   "status": "proved",
   "theorems": [
    "C88_round_trip",
    "C88_nearest",
    "C88_inside",
    "C88_inside_plane",
    "C88_off_plane_refuted"
   ],
   "note": "In three dimensions inside_triangle tests the orthogonal projection of the point to the plane, so points off the plane can be reported inside (C88_off_plane_refuted)."
  },
  {
   "property": "C89",
   "status": "proved",
   "theorems": [
    "C89_trilinear",
    "C89_round_trip"
   ],
   "note": ""
  },
  {
   "property": "C90",
   "status": "proved",
   "theorems": [
    "C90_centroid",
    "C90_circumcenter",
    "C90_orthocenter",
    "C90_incenter",
    "C90_small_refuted"
   ],
   "note": "For planar triangles with edges below 1e-12 the angles are taken to be 0 and circumcenter is wrong (C90_small_refuted)."
  },
  {
   "property": "C91",
   "status": "proved",
   "theorems": [
    "C91_angles",
    "C91_is_degenerate",
    "C91_point_refuted",
    "C91_large_tolerance_refuted"
   ],
   "note": "A triangle with three equal vertices is not reported as degenerate (nan, C91_point_refuted); for eps above pi/2 the test is not monotone (C91_large_tolerance_refuted)."
  },
  {
   "property": "C92",
   "status": "proved",
   "theorems": [
    "C92_interval",
    "C92_vector",
    "C92_plane",
    "C92_subspace",
    "C92_subspace_default",
    "C92_one_dimension_refuted",
    "C92_oblique"
   ],
   "note": "For one-dimensional spaces subspace_projection_map raises AssertionError for every basis (C92_one_dimension_refuted)."
  },
  {
   "property": "C93",
   "status": "proved",
   "theorems": [
    "C93_basis_matrix",
    "C93_basis_matrix_shape",
    "C93_cartesian",
    "C93_metric",
    "C93_metric_number",
    "C93_broadcast_refuted"
   ],
   "note": "Vectors of length one are broadcast instead of rejected (C93_broadcast_refuted)."
  },
  {
   "property": "C94",
   "status": "proved",
   "theorems": [
    "C94_round_trip",
    "C94_least_squares",
    "C94_transform",
    "C94_transform_square",
    "C94_columns",
    "C94_bilinear",
    "C94_bilinear_rejected",
    "C94_shear_refuted",
    "C94_reflection_refuted"
   ],
   "note": "The determinant test accepts bases that are not orthonormal and then changes the values of the form (C94_shear_refuted), and rejects orthonormal bases with determinant -1 (C94_reflection_refuted)."
  },
  {
   "property": "C95",
   "status": "proved",
   "theorems": [
    "C95_inner_product",
    "C95_empty",
    "C95_qr",
    "C95_same"
   ],
   "note": ""
  },
  {
   "property": "C96",
   "status": "proved",
   "theorems": [
    "C96_forward",
    "C96_central",
    "C96_coordinate",
    "C96_forward_affine",
    "C96_central_quadratic",
    "C96_forward_exception",
    "C96_central_exception",
    "C96_discrete",
    "C96_forward_error",
    "C96_central_error",
    "C96_exception_refuted"
   ],
   "note": "If f raises, the caller's array stays perturbed (C96_exception_refuted)."
  },
  {
   "property": "C97",
   "status": "proved",
   "theorems": [
    "C97_jacobian",
    "C97_rows",
    "C97_linear",
    "C97_shape",
    "C97_univariate",
    "C97_identity_refuted"
   ],
   "note": "A function returning its argument itself yields the zero Jacobian (C97_identity_refuted)."
  },
  {
   "property": "C98",
   "status": "proved",
   "theorems": [
    "C98_forward",
    "C98_central",
    "C98_quadratic",
    "C98_cubic",
    "C98_cubic_diagonal",
    "C98_diagonal",
    "C98_symmetric",
    "C98_forward_error",
    "C98_central_error",
    "C98_mixed"
   ],
   "note": ""
  },
  {
   "property": "C99",
   "status": "proved",
   "theorems": [
    "C99_closed",
    "C99_open",
    "C99_half_open",
    "C99_closed_uniform",
    "C99_closed_values",
    "C99_open_uniform",
    "C99_open_values"
   ],
   "note": ""
  },
  {
   "property": "C100",
   "status": "proved",
   "theorems": [
    "C100_cube",
    "C100_ball",
    "C100_disc",
    "C100_ball_uniform",
    "C100_simplex",
    "C100_simplex_uniform",
    "C100_outcomes"
   ],
   "note": ""
  },
  {
   "property": "C101",
   "status": "proved",
   "theorems": [
    "C101_surface",
    "C101_rotation",
    "C101_circle"
   ],
   "note": ""
  },
  {
   "property": "C102",
   "status": "proved",
   "theorems": [
    "C102_points",
    "C102_too_few",
    "C102_equal",
    "C102_univariate",
    "C102_error_bound",
    "C102_false_positives",
    "C102_symmetric",
    "C102_large_tolerance",
    "C102_negative",
    "C102_collinear_refuted",
    "C102_transitive_refuted",
    "C102_components_refuted"
   ],
   "note": "Different points do not suffice in several dimensions (C102_collinear_refuted); not transitive (C102_transitive_refuted); further components of the second polynomial are ignored, in the other order an IndexError (C102_components_refuted). Calls such as piecewise_polynomials_equal(p, q, 2) in the tests pass 2 as relative tolerance and accept everything (C102_large_tolerance)."
  },
  {
   "property": "C103",
   "status": "proved",
   "theorems": [
    "C103_points",
    "C103_equal",
    "C103_false_positives",
    "C103_segment",
    "C103_piecewise",
    "C103_piecewise_equal",
    "C103_piecewise_segments",
    "C103_domain_refuted"
   ],
   "note": "Only the simplices of the first polynomial are compared (C103_domain_refuted)."
  },
  {
   "property": "C104",
   "status": "proved",
   "theorems": [
    "C104_vertex_normals",
    "C104_reversed",
    "C104_flat",
    "C104_unused_vertex",
    "C104_degenerate_triangle",
    "C104_rigid_motion",
    "C104_unused_refuted",
    "C104_degenerate_refuted"
   ],
   "note": "Natural numbers as indices. A vertex of no triangle gets nan (C104_unused_refuted); one triangle without area spoils the normals of its vertices, whatever the weight (C104_degenerate_refuted)."
  },
  {
   "property": "C105",
   "status": "proved",
   "theorems": [
    "C105_volume_gradient"
   ],
   "note": ""
  },
  {
   "property": "C106",
   "status": "proved",
   "theorems": [
    "C106_area_gradient",
    "C106_reversed",
    "C106_flat",
    "C106_boundary_refuted",
    "C106_interior_refuted"
   ],
   "note": "1 / tan is modelled as cos / sin. The rows are not normals of the surface at boundary vertices (C106_boundary_refuted) and nan at interior vertices of flat meshes (C106_interior_refuted)."
  },
  {
   "property": "C107",
   "status": "proved",
   "theorems": [
    "C107_centroid",
    "C107_no_area",
    "C107_centroids",
    "C107_centroids_plane",
    "C107_num_vertices",
    "C107_num_vertices_empty"
   ],
   "note": "centroids allocates rows of length three, so planar meshes raise ValueError (C107_centroids_plane) although centroid accepts them."
  },
  {
   "property": "C108",
   "status": "proved",
   "theorems": [
    "C108_unique_permutations",
    "C108_empty_refuted",
    "C108_array",
    "C108_gradient",
    "C108_hessian",
    "C108_errors"
   ],
   "note": "The order in which set(permutations(t)) is enumerated is arbitrary in the theorems. _unique_permutations(()) yields nothing although () has one permutation (C108_empty_refuted). numpy's bound on the number of axes (32) is not modelled."
  },
  {
   "property": "C109",
   "status": "proved",
   "theorems": [
    "C109_embed",
    "C109_embed_isometry",
    "C109_embed_cloud",
    "C109_mean",
    "C109_mean_affine",
    "C109_median",
    "C109_median_majority",
    "C109_order",
    "C109_empty",
    "C109_numbers"
   ],
   "note": "Real numbers without rounding; nan is modelled as None."
  },
  {
   "property": "C110",
   "status": "proved",
   "theorems": [
    "C110_axis",
    "C110_line",
    "C110_collinear",
    "C110_docstring_refuted",
    "C110_documented_sum",
    "C110_no_coordinates"
   ],
   "note": "np.linalg.eigh is an argument of the model with the documented contract as hypothesis, only for the matrix it is applied to. The sum in the documentation is identically zero (C110_docstring_refuted, C110_documented_sum); the code maximises the sum of squares."
  },
  {
   "property": "C111",
   "status": "proved",
   "theorems": [
    "C111_split",
    "C111_pieces",
    "C111_join",
    "C111_short",
    "C111_long_refuted",
    "C111_empty_separator",
    "C111_body",
    "C111_body_array",
    "C111_numerals",
    "C111_sequence",
    "C111_sequence_errors"
   ],
   "note": "Strings are lists of ASCII characters. The documentation of split_long_str says that all parts are shorter than the threshold; a piece without separator may be longer (C111_long_refuted)."
  },
  {
   "property": "C112",
   "status": "proved",
   "theorems": [
    "C112_best",
    "C112_nice",
    "C112_number",
    "C112_exact",
    "C112_plain",
    "C112_small_refuted",
    "C112_large_n_refuted",
    "C112_array"
   ],
   "note": "Numbers are the rationals that floats denote; the difference compared with 1e-10 is not rounded; str of a float is an argument. 2**-40 is shown as 0 (C112_small_refuted); with n = 1024 the number 1/1024 is shown as 1 / 1000 (C112_large_n_refuted)."
  },
  {
   "property": "C113",
   "status": "proved",
   "theorems": [
    "C113_program",
    "C113_renders",
    "C113_nesting",
    "C113_pop",
    "C113_count",
    "C113_count_refuted",
    "C113_empty_block_refuted",
    "C113_scope",
    "C113_negative_refuted"
   ],
   "note": "print_trace is not modelled. count_num_lines is one more than the number of finished lines (C113_count_refuted), wc of an empty string raises IndexError (C113_empty_block_refuted), negative depths are not restored by nesting (C113_negative_refuted)."
  },
  {
   "property": "C114",
   "status": "proved",
   "theorems": [
    "C114_monomial_fn",
    "C114_monomial",
    "C114_bernstein_fn",
    "C114_bernstein",
    "C114_lagrange_of",
    "C114_expanded",
    "C114_exponent_refuted",
    "C114_variable_refuted",
    "C114_bernstein_constant_refuted",
    "C114_lagrange_simplex_refuted",
    "C114_lagrange_fn",
    "C114_lagrange",
    "C114_lagrange_formula"
   ],
   "note": "The reading of LaTeX (LatexRead.v) is part of the statement: it scans the string into digits, variables, powers, fractions and operators and evaluates the result with the usual precedence, from left to right. Coefficients are the rationals that floats denote. Scalar valued polynomials. x^10 is read as x times 0 (C114_exponent_refuted), x_10 as x_1 times 0 (C114_variable_refuted), a constant Bernstein polynomial raises IndexError (C114_bernstein_constant_refuted), '3 2 x' is shown for 6 x (C114_lagrange_simplex_refuted). Lagrange basis of the unit simplex: the coefficients are integers over a product of factorials, at most 720 for degrees up to six, so the limit of 1000 for denominators does no harm; the coefficients are taken as exact."
  },
  {
   "property": "C115",
   "status": "proved",
   "theorems": [
    "C115_triangle_limit",
    "C115_tetrahedron_limit",
    "C115_triangle",
    "C115_tetrahedron",
    "C115_triangle_lipschitz",
    "C115_tetrahedron_lipschitz",
    "C115_triangle_converges",
    "C115_tetrahedron_converges",
    "C115_triangle_exact",
    "C115_tetrahedron_exact",
    "C115_tetrahedron_vertices",
    "C115_none"
   ],
   "note": "Over the real numbers; f returns a number; the integral is the iterated Riemann integral (simplex_integral)."
  },
  {
   "property": "C116",
   "status": "proved",
   "theorems": [
    "C116_interval",
    "C116_interval_fixed",
    "C116_unit_interval",
    "C116_unit_triangle",
    "C116_unit_tetrahedron",
    "C116_triangle",
    "C116_tetrahedron",
    "C116_midpoint"
   ],
   "note": "Over the real numbers; f returns a number. scipy is a parameter; its contract (accurate1, accurate2, accurate3) is a hypothesis about the one integrand, met by exact integration (exact2_ok, exact3_ok)."
  },
  {
   "property": "C117",
   "status": "proved",
   "theorems": [
    "C117_compact_injective",
    "C117_compact_list",
    "C117_unknown_basis",
    "C117_monomial_injective",
    "C117_bernstein_injective",
    "C117_full_list",
    "C117_lagrange_injective",
    "C117_lagrange_list"
   ],
   "note": "Strings are lists of ASCII characters. The full strings of the Lagrange basis are told apart through the functions they denote (C114), with the bounds of C114 (dimension at most 9, degree at most 6). Two monomials in different numbers of variables can have the same full string (x_1)."
  },
  {
   "property": "C118",
   "status": "proved",
   "theorems": [
    "C118_multiindex",
    "C118_permutation",
    "C118_modulo",
    "C118_str",
    "C118_modulo_str",
    "C118_polynomial_exchange",
    "C118_polynomial_refuted"
   ],
   "note": "Finding: C118_polynomial_refuted and C118_polynomial_exchange show that the arguments printed for a polynomial exchange degree and dimension. The representations of polynomials also name a module algebra.polynomial that does not exist and print numpy arrays without commas; only the order of the arguments is modelled. Strings are lists of ASCII characters, numbers are Python ints, and the reader of Python calls is part of the statement."
  },
  {
   "property": "C119",
   "status": "proved",
   "theorems": [
    "C119_permutations",
    "C119_increasing",
    "C119_subset",
    "C119_subset_refuted",
    "C119_empty_refuted",
    "C119_simplex",
    "C119_vertex_refuted",
    "C119_random"
   ],
   "note": "Findings: C119_subset_refuted (a float instead of an integer, wrong for 23 elements), C119_empty_refuted, C119_vertex_refuted. The true division of integers is the double nearest to the exact quotient (Flocq); its overflow is not modelled. scipy.special.binom is taken as exact."
  },
  {
   "property": "C120",
   "status": "proved",
   "theorems": [
    "C120_degenerate",
    "C120_similar",
    "C120_extreme",
    "C120_flat",
    "C120_coincident_refuted",
    "C120_point_refuted",
    "C120_is_equal",
    "C120_symmetric",
    "C120_reflexive",
    "C120_negative_tolerance",
    "C120_dimension_refuted",
    "C120_transitive_refuted"
   ],
   "note": "Findings: C120_coincident_refuted (all vertices in one point: nan < eps is False), C120_point_refuted, C120_dimension_refuted, C120_transitive_refuted. Simplices with a face without volume (other than coincident vertices) are left out."
  },
  {
   "property": "C121",
   "status": "proved",
   "theorems": [
    "C121_unit",
    "C121_unit_distinct",
    "C121_lists",
    "C121_int_arrays",
    "C121_float_arrays",
    "C121_float_arrays_refuted",
    "C121_list_array_refuted"
   ],
   "note": "Findings: C121_float_arrays_refuted (vertices 1.0 and 1.000000001 have the same identifier), C121_list_array_refuted (list and array of the same vertices). numpy's printing is modelled for lines up to 75 characters, up to 1000 cells and coordinates shown without exponent."
  },
  {
   "property": "C122",
   "status": "proved",
   "theorems": [
    "C122_modulo",
    "C122_ints",
    "C122_ints_refuted",
    "C122_moduli_refuted",
    "C122_multiindex",
    "C122_lengths_refuted",
    "C122_changed_refuted",
    "C122_components",
    "C122_list_refuted",
    "C122_shared_refuted",
    "C122_separate"
   ],
   "note": "Findings: C122_ints_refuted (IntegerModuloN(2**61, 2**62) == 2**61 but the hash values differ), C122_moduli_refuted and C122_lengths_refuted (ValueError from a dictionary lookup), C122_changed_refuted (a key changed by item assignment), C122_list_refuted and C122_shared_refuted (the list is not copied). Dictionaries are modelled without deletion and without the identity shortcut of CPython."
  },
  {
   "property": "C123",
   "status": "proved",
   "theorems": [
    "C123_submodules",
    "C123_import_path",
    "C123_submodules_refuted",
    "C123_files",
    "C123_once",
    "C123_root_refuted",
    "C123_private_refuted"
   ],
   "note": "Findings: C123_submodules_refuted (str.replace('.py', '') also removes the start of names such as .pyplot), C123_root_refuted (IndexError for the path '.'), C123_private_refuted (names with two underscores). Symbolic links are not modelled; pkgutil.walk_packages is an argument."
  },
  {
   "property": "C124",
   "status": "proved",
   "theorems": [
    "C124_identifiers",
    "C124_general_names",
    "C124_specific_names",
    "C124_kinds",
    "C124_general_refuted",
    "C124_docstring",
    "C124_filled"
   ],
   "note": "Finding: C124_general_refuted (dimension and degree are concatenated without a separator). The polynomial classes look a specific function up in the local names of the constructor, so there a clash has no effect. The hash value is an argument."
  },
  {
   "property": "C125",
   "status": "proved",
   "theorems": [
    "C125_code_str",
    "C125_simplex",
    "C125_precision_refuted"
   ],
   "note": "Finding: C125_precision_refuted. The body (CodeGen.v) and the hash value are arguments; that a body has no letter v is read off the source (return, np.array, x, numbers, operators, brackets)."
  }
 ]
}