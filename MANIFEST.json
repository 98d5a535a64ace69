{
 "claims": [
  {
   "property": "C01",
   "status": "proved",
   "theorems": [
    "C01_make_lattice_exact",
    "C01_make_lattice_count_all",
    "C01_make_lattice_count_interior"
   ],
   "note": ""
  },
  {
   "property": "C02",
   "status": "proved",
   "theorems": [
    "C02_mis_exact"
   ],
   "note": ""
  },
  {
   "property": "C03",
   "status": "proved",
   "theorems": [
    "C03_index_iterator_exact",
    "C03_on_polynomial_set_layout",
    "C03_on_polynomial_set_order",
    "C03_on_sym_polynomial_set_layout"
   ],
   "note": ""
  },
  {
   "property": "C04",
   "status": "proved",
   "theorems": [
    "C04_triangle_index_bijection",
    "C04_tetrahedron_index_bijection",
    "C04_triangle_every_entry_written",
    "C04_tetrahedron_every_entry_written"
   ],
   "note": ""
  },
  {
   "property": "C05",
   "status": "proved",
   "theorems": [
    "C05_entity_closure_dofs",
    "C05_every_cell_topology_admissible"
   ],
   "note": ""
  },
  {
   "property": "C06",
   "status": "proved",
   "theorems": [
    "C06_connectivity",
    "C06_connectivity_domain",
    "C06_containment_preorder"
   ],
   "note": ""
  },
  {
   "property": "C07",
   "status": "proved",
   "theorems": [
    "C07_concatenated_numbering",
    "C07_unknown_entity_refused",
    "C07_nodal_enriched_numbering"
   ],
   "note": ""
  },
  {
   "property": "C08",
   "status": "proved",
   "theorems": [
    "C08_mixed_tabulation_block_diagonal"
   ],
   "note": ""
  },
  {
   "property": "C09",
   "status": "proved",
   "theorems": [
    "C09_enriched_tabulation_stacks",
    "C09_tensor_valued_tabulation_refuted",
    "C09_construction_checks",
    "C09_other_shapes_refused",
    "C09_singleton_constituents"
   ],
   "note": "The claim holds for scalar and vector valued constituents; C09_other_shapes_refused and C09_singleton_constituents settle every other value shape, so the literal claim fails for tensors."
  },
  {
   "property": "C10",
   "status": "proved",
   "theorems": [
    "C10_construction_iff_unisolvent",
    "C10_nodal_basis"
   ],
   "note": ""
  },
  {
   "property": "C11",
   "status": "proved",
   "theorems": [
    "C11_dual_riesz_is_action",
    "C11_zero_order_derivatives_refuted"
   ],
   "note": ""
  },
  {
   "property": "C12",
   "status": "proved",
   "theorems": [
    "C12_triangle_jets_exact",
    "C12_tetrahedron_jets_exact",
    "C12_line_jets_exact",
    "C12_reversed_line_refuted",
    "C12_jet_keys",
    "C12_triangle_never_raises",
    "C12_tetrahedron_never_raises",
    "C12_line_never_raises"
   ],
   "note": "Exact for triangle, tetrahedron and lines with increasing vertices; reversed lines refuted."
  },
  {
   "property": "C13",
   "status": "proved",
   "theorems": [
    "C13_restriction_keeps_functions",
    "C13_bad_indices_refused",
    "C13_bubble_is_codim_restriction",
    "C13_simplex_domain_selects_admissible_dofs",
    "C13_product_domain_selects_admissible_dofs",
    "C13_interior_selects_top_dofs",
    "C13_unknown_domain_refused",
    "C13_nested_product_domain_refuted"
   ],
   "note": ""
  },
  {
   "property": "C14",
   "status": "proved",
   "theorems": [
    "C14_flattened_numbering",
    "C14_product_skeleton",
    "C14_flattened_cell_topology",
    "C14_product_numbering",
    "C14_product_partition",
    "C14_agrees_with_cell_topology",
    "C14_product_nodes",
    "C14_unsupported_nodes_refused"
   ],
   "note": ""
  },
  {
   "property": "C15",
   "status": "proved",
   "theorems": [
    "C15_flattened_tabulation",
    "C15_product_tabulation",
    "C15_default_entity",
    "C15_bad_entity_refused",
    "C15_two_vectors_refused",
    "C15_three_components_refuted"
   ],
   "note": ""
  },
  {
   "property": "C16",
   "status": "proved",
   "theorems": [
    "C16_dimensions",
    "C16_product_entities",
    "C16_product_vertices",
    "C16_vertex_numbers_valid"
   ],
   "note": ""
  },
  {
   "property": "C17",
   "status": "proved",
   "theorems": [
    "C17_flatten_unflatten",
    "C17_product_cells_admissible",
    "C17_cube_topologies",
    "C17_insertion_order_refuted"
   ],
   "note": ""
  },
  {
   "property": "C18",
   "status": "proved",
   "theorems": [
    "C18_entity_transform",
    "C18_simplex_formula",
    "C18_vertices_and_cell",
    "C18_default_cells_refuted",
    "C18_nested_refused"
   ],
   "note": ""
  },
  {
   "property": "C19",
   "status": "proved",
   "theorems": [
    "C19_vertices_to_vertices",
    "C19_degenerate_refused",
    "C19_count_mismatch_refused",
    "C19_unit_simplex"
   ],
   "note": ""
  },
  {
   "property": "C20",
   "status": "proved",
   "theorems": [
    "C20_simplex_normal",
    "C20_builtin_normal",
    "C20_line_normal",
    "C20_ufc_triangle_normal",
    "C20_ufc_triangle_outward_refuted",
    "C20_ufc_tetrahedron_normal",
    "C20_ufc_tetrahedron_unit_refuted",
    "C20_scaled_normal",
    "C20_ufc_tetrahedron_scaled_normal",
    "C20_edge_tangent",
    "C20_tangents",
    "C20_simplex_reference_normal",
    "C20_reference_normal_dim_refused",
    "C20_cube_reference_normal",
    "C20_product_reference_normal",
    "C20_product_reference_normal_refused",
    "C20_decompositions_exist"
   ],
   "note": "svd and qr are parameters with their specification; C20_decompositions_exist shows it is satisfiable in every real closed field. Edge tangents: C20_edge_tangent, C20_tangents. Two UFC claims refuted."
  },
  {
   "property": "C21",
   "status": "proved",
   "theorems": [
    "C21_hull",
    "C21_product_slices",
    "C21_monotone",
    "C21_tolerance",
    "C21_errors",
    "C21_length_unchecked_refuted",
    "C21_nonvacuous"
   ],
   "note": ""
  },
  {
   "property": "C22",
   "status": "proved",
   "theorems": [
    "C22_eval_is_jacobi_polynomial",
    "C22_deriv_is_derivative",
    "C22_batch_rows",
    "C22_deriv_batch_rows",
    "C22_legendre",
    "C22_regular_witness",
    "C22_regular_needed"
   ],
   "note": ""
  },
  {
   "property": "C23",
   "status": "proved",
   "theorems": [
    "C23_triangle_prefix",
    "C23_tetrahedron_prefix",
    "C23_triangle_orthonormal_dubiner",
    "C23_triangle_degree0_refuted",
    "C23_tetrahedron_orthonormal_dubiner",
    "C23_tetrahedron_degree0_refuted",
    "C23_line_orthonormal",
    "C23_line_derivative",
    "C23_sqrt_witness_algC",
    "C23_sqrt_witness_rcf"
   ],
   "note": "Degrees at least 1; the degree-0 tables are not normalised (refuted)."
  },
  {
   "property": "C24",
   "status": "proved",
   "theorems": [
    "C24_lagrange_tables",
    "C24_keys",
    "C24_snapping",
    "C24_near_node_refuted",
    "C24_nonvacuous"
   ],
   "note": ""
  },
  {
   "property": "C25",
   "status": "proved",
   "theorems": [
    "C25_tables",
    "C25_top_order",
    "C25_top_order_refuted",
    "C25_partition_of_unity",
    "C25_nonnegative",
    "C25_nondegenerate",
    "C25_degenerate",
    "C25_entity_ids",
    "C25_degree_zero_refused",
    "C25_unordered_refuted"
   ],
   "note": "All derivative orders except order = degree, which the code gets wrong from degree 2 on (refuted)."
  },
  {
   "property": "C26",
   "status": "proved",
   "theorems": [
    "C26_point_evaluation",
    "C26_component_point_evaluation",
    "C26_point_derivative",
    "C26_point_normal_derivative",
    "C26_point_components",
    "C26_pointwise_inner_product",
    "C26_integral_moment",
    "C26_integral_moment_call",
    "C26_normal_derivative_moment",
    "C26_divergence_moment",
    "C26_tensor_divergence_moment",
    "C26_frobenius_moment",
    "C26_component_moments",
    "C26_monk_moment",
    "C26_face_tangent_moment",
    "C26_legendre_directional_moment",
    "C26_legendre_bidirectional_moment",
    "C26_second_normal_derivative_refuted",
    "C26_repeated_points_refuted",
    "C26_vector_moment_call_refuted",
    "C26_face_tangent_refuted",
    "C26_normal_normal_refuted",
    "C26_scalar_frobenius_refuted",
    "C26_tensor_bidirectional_refuted",
    "C26_divergence_shape_refuted"
   ],
   "note": "One theorem per functional class; classes that do not act as documented are refuted."
  },
  {
   "property": "C27",
   "status": "proved",
   "theorems": [
    "C27_iterated",
    "C27_product"
   ],
   "note": ""
  },
  {
   "property": "C28",
   "status": "proved",
   "theorems": [
    "C28_interval",
    "C28_triangle",
    "C28_tetrahedron",
    "C28_cube",
    "C28_cube_positive",
    "C28_points_exist",
    "C28_positive"
   ],
   "note": "The Newton iteration is a parameter: the points are assumed to be the roots, whose existence is C28_points_exist."
  },
  {
   "property": "C29",
   "status": "proved",
   "theorems": [
    "C29_kmv_triangle",
    "C29_kmv_tetrahedron",
    "C29_kmv_refused",
    "C29_kmv_other_cell_refuted",
    "C29_triangle",
    "C29_tetrahedron"
   ],
   "note": "Exact rational tables; residuals below an explicit bound, lifted to all polynomials of the nominal degree."
  },
  {
   "property": "C30",
   "status": "proved",
   "theorems": [
    "C30_canonical_exact",
    "C30_default_is_canonical",
    "C30_cell",
    "C30_refused",
    "C30_refused_product",
    "C30_num_points"
   ],
   "note": ""
  },
  {
   "property": "C31",
   "status": "proved",
   "theorems": [
    "C31_check_format_variant",
    "C31_default_degree",
    "C31_exact_strings_refuted"
   ],
   "note": ""
  },
  {
   "property": "C32",
   "status": "proved",
   "theorems": [
    "C32_trace_dofs",
    "C32_trace_nodes",
    "C32_product_points",
    "C32_tabulate_facet",
    "C32_nodal",
    "C32_tabulate_non_facet",
    "C32_tabulate_no_such_facet",
    "C32_simplex_and_quadrilateral",
    "C32_product_cells",
    "C32_refused",
    "C32_tabulate_without_entity",
    "C32_no_unique_facet_nan",
    "C32_derivatives_without_entity_refuted"
   ],
   "note": ""
  },
  {
   "property": "C33",
   "status": "proved",
   "theorems": [
    "C33_hdiv_scalar",
    "C33_hdiv_no_zero_form",
    "C33_hdiv_direction",
    "C33_hcurl_scalar",
    "C33_hdiv_vector",
    "C33_hcurl_vector",
    "C33_rotated_second_factor_refuted",
    "C33_wrong_form_refused",
    "C33_vector_nodes",
    "C33_scalar_nodes_refuted"
   ],
   "note": "Rotation of the second factor and node preservation of scalar elements refuted."
  },
  {
   "property": "C34",
   "status": "proved",
   "theorems": [
    "C34_lagrange",
    "C34_lagrange_degree_zero_refuted",
    "C34_discontinuous_lagrange",
    "C34_crouzeix_raviart",
    "C34_hermite",
    "C34_morley_argyris_bell",
    "C34_argyris_low_degree_refuted",
    "C34_taylor_p0",
    "C34_gauss_line_elements",
    "C34_raviart_thomas",
    "C34_raviart_thomas_line_integral",
    "C34_discontinuous_raviart_thomas",
    "C34_nedelec",
    "C34_brezzi_douglas_marini",
    "C34_nedelec_second_kind",
    "C34_nedelec_second_kind_refused",
    "C34_regge_hhj",
    "C34_fixed_degree",
    "C34_bdfm",
    "C34_discontinuous_element",
    "C34_bubbles",
    "C34_kmv_triangle",
    "C34_kmv_tetrahedron",
    "C34_kmv_refused"
   ],
   "note": "Entity dofs and sizes of every family; the dimension of constrained spaces is taken from their documentation."
  },
  {
   "property": "C35",
   "status": "proved",
   "theorems": [
    "C35_numbering",
    "C35_interval",
    "C35_degree_zero_refused",
    "C35_simplex_refused",
    "C35_independent",
    "C35_placement",
    "C35_interval_by_quadrilateral_misplaced",
    "C35_default_lines_misplaced"
   ],
   "note": ""
  },
  {
   "property": "C36",
   "status": "proved",
   "theorems": [
    "C36_coefficients_padded",
    "C36_value_shapes_checked",
    "C36_derivative_matrices_merged"
   ],
   "note": ""
  },
  {
   "property": "C37",
   "status": "proved",
   "theorems": [
    "C37_dual",
    "C37_kronecker",
    "C37_exact",
    "C37_iff_unisolvent",
    "C37_wrong_points_refused",
    "C37_instance"
   ],
   "note": ""
  },
  {
   "property": "C38",
   "status": "proved",
   "theorems": [
    "C38_dual",
    "C38_tabulate",
    "C38_point_cell_refuted",
    "C38_broadcast_refuted"
   ],
   "note": ""
  },
  {
   "property": "C39",
   "status": "proved",
   "theorems": [
    "C39_rec_jacobi_monic",
    "C39_rec_jacobi01_shifted",
    "C39_rec_jacobi01_refusals",
    "C39_jacobi_table",
    "C39_normalised_variant_raises",
    "C39_rec_jacobi_orthogonal"
   ],
   "note": ""
  },
  {
   "property": "C40",
   "status": "proved",
   "theorems": [
    "C40_ufc_cell_exact",
    "C40_ufc_cell_refuses_rest",
    "C40_dimension",
    "C40_flatten_reference_cube",
    "C40_nested_cube_refuted",
    "C40_simplex_factories"
   ],
   "note": "The literal claim about nested product cubes fails (C40_nested_cube_refuted); C40_flatten_reference_cube decides every cell."
  },
  {
   "property": "C41",
   "status": "proved",
   "theorems": [
    "C41_volume"
   ],
   "note": ""
  },
  {
   "property": "C42",
   "status": "proved",
   "theorems": [
    "C42_simplex_topology_complete"
   ],
   "note": ""
  },
  {
   "property": "C43",
   "status": "proved",
   "theorems": [
    "C43_gauss_rule",
    "C43_eigh_exists",
    "C43_refusals",
    "C43_gauss_jacobi"
   ],
   "note": ""
  },
  {
   "property": "C44",
   "status": "proved",
   "theorems": [
    "C44_gll_rule",
    "C44_gll_refused",
    "C44_other_weights_refuted",
    "C44_lobatto_rule"
   ],
   "note": ""
  },
  {
   "property": "C45",
   "status": "proved",
   "theorems": [
    "C45_gauss_legendre_rule",
    "C45_leggauss_exists"
   ],
   "note": ""
  },
  {
   "property": "C46",
   "status": "proved",
   "theorems": [
    "C46_newton_step",
    "C46_radau_rule",
    "C46_zero_points_refused",
    "C46_lgr_exists",
    "C46_weights_positive",
    "C46_docstring_degree_refuted"
   ],
   "note": ""
  },
  {
   "property": "C47",
   "status": "proved",
   "theorems": [
    "C47_orthonormal_set_spans_Pn",
    "C47_lagrange",
    "C47_discontinuous_lagrange",
    "C47_crouzeix_raviart",
    "C47_lagrange_degree_zero_refuted"
   ],
   "note": ""
  },
  {
   "property": "C48",
   "status": "proved",
   "theorems": [
    "C48_rt_field_value",
    "C48_raviart_thomas",
    "C48_discontinuous_raviart_thomas",
    "C48_raviart_thomas_rank",
    "C48_raviart_thomas_conforming"
   ],
   "note": "Exact arithmetic over a real closed field. svd, qr, set.pop, sqrt and the Newton iteration for the Gauss-Jacobi points are parameters constrained by their specifications. The integral variant's moments are not part of this claim (C34 covers its nodes' placement)."
  },
  {
   "property": "C49",
   "status": "proved",
   "theorems": [
    "C49_union_orthonormal",
    "C49_union_members",
    "C49_union_span",
    "C49_union_dimension",
    "C49_union_same_span_refuted"
   ],
   "note": "Floating point is abstracted; svd is any function returning a correct decomposition."
  },
  {
   "property": "C50",
   "status": "proved",
   "theorems": [
    "C50_lagrange_trace",
    "C50_lagrange_conforming"
   ],
   "note": "Exact arithmetic; the square roots in the expansion normalisation are a parameter."
  },
  {
   "property": "C51",
   "status": "proved",
   "theorems": [
    "C51_cubic_hermite",
    "C51_hermite_conforming"
   ],
   "note": "Exact arithmetic; the square roots in the expansion normalisation are a parameter."
  },
  {
   "property": "C52",
   "status": "proved",
   "theorems": [
    "C52_morley",
    "C52_argyris",
    "C52_quintic_argyris",
    "C52_argyris_c1"
   ],
   "note": "Exact arithmetic; the square roots in the expansion normalisation, numpy's svd and qr and set.pop are parameters with their contracts."
  },
  {
   "property": "C53",
   "status": "proved",
   "theorems": [
    "C53_taylor",
    "C53_mean",
    "C53_degree_zero"
   ],
   "note": "Exact arithmetic; the square roots in the expansion normalisation and the Newton iteration for the quadrature points are parameters with their contracts."
  },
  {
   "property": "C54",
   "status": "proved",
   "theorems": [
    "C54_dpc",
    "C54_dpc_degree_zero",
    "C54_dofs",
    "C54_refused",
    "C54_nodes_inside",
    "C54_hexahedron_nodes_inside_refuted"
   ],
   "note": "Exact arithmetic; the square roots in the expansion normalisation are a parameter with its contract. The Point at degree 0 has no expansion set in the model."
  },
  {
   "property": "C55",
   "status": "proved",
   "theorems": [
    "C55_regge",
    "C55_nodes",
    "C55_conforming",
    "C55_refused"
   ],
   "note": "Exact arithmetic; the square roots in the expansion normalisation are a parameter with its contract."
  },
  {
   "property": "C56",
   "status": "proved",
   "theorems": [
    "C56_hhj",
    "C56_nodes",
    "C56_conforming",
    "C56_refused"
   ],
   "note": "Exact arithmetic; square roots, svd, qr and set.pop are parameters with their contracts; C56_example shows that they exist."
  },
  {
   "property": "C57",
   "status": "proved",
   "theorems": [
    "C57_bell",
    "C57_bell_c1",
    "C57_bell_reduced",
    "C57_bell_other_triangles_refuted"
   ],
   "note": "Exact arithmetic; square roots, svd, qr, set.pop and the Gauss points are parameters with their contracts; C57_example shows that they exist."
  },
  {
   "property": "C58",
   "status": "proved",
   "theorems": [
    "C58_project_refuted"
   ],
   "note": "Exact arithmetic; scalar functions and sets; the table of the expansion set at the points is a parameter, so that every expansion set is covered. C58_example gives a case whose coefficient is 1."
  },
  {
   "property": "C59",
   "status": "proved",
   "theorems": [
    "C59_crouzeix_raviart",
    "C59_weak_conformity"
   ],
   "note": "Exact arithmetic. The mean of a linear function over a simplex is written as the average of its vertex values."
  },
  {
   "property": "C60",
   "status": "proved",
   "theorems": [
    "C60_support",
    "C60_listed_nonzero",
    "C60_tensor_refuted",
    "C60_other_cells_refuted",
    "C60_conforming_closure",
    "C60_lagrange",
    "C60_hermite"
   ],
   "note": "Exact arithmetic; every value shape; the cache on the element is not modelled."
  }
 ]
}