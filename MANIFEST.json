{
 "claims": [
  {
   "property": "C01",
   "status": "proved",
   "theorems": [
    "C01_simplex_sets_complete"
   ],
   "note": ""
  },
  {
   "property": "C02",
   "status": "proved",
   "theorems": [
    "C02_tensor_sets_complete"
   ],
   "note": ""
  },
  {
   "property": "C03",
   "status": "proved",
   "theorems": [
    "C03_prism_set_complete",
    "C03_pyramid_set",
    "C03_polynomial_set_dispatch"
   ],
   "note": ""
  },
  {
   "property": "C04",
   "status": "proved",
   "theorems": [
    "C04_vector_sets"
   ],
   "note": ""
  },
  {
   "property": "C05",
   "status": "proved",
   "theorems": [
    "C05_raviart_thomas_enrichment"
   ],
   "note": ""
  },
  {
   "property": "C06",
   "status": "proved",
   "theorems": [
    "C06_nedelec_enrichment"
   ],
   "note": "also proves that the members span the whole space S_n, not only the count"
  },
  {
   "property": "C07",
   "status": "proved",
   "theorems": [
    "C07_tensor_hdiv_hcurl"
   ],
   "note": ""
  },
  {
   "property": "C08",
   "status": "proved",
   "theorems": [
    "C08_serendipity_superlinear"
   ],
   "note": ""
  },
  {
   "property": "C09",
   "status": "partial",
   "theorems": [
    "C09_hdiv_serendipity_div_free_partial",
    "C09_hdiv_serendipity_div_free_refuted"
   ],
   "note": "true in 3D; false in 2D for every order (sign of the second component in polysets.py)"
  },
  {
   "property": "C10",
   "status": "partial",
   "theorems": [
    "C10_hcurl_serendipity_curl_free_partial",
    "C10_hcurl_serendipity_curl_free_refuted"
   ],
   "note": "true in 3D; in 2D the first of the two fields is not rotation free"
  },
  {
   "property": "C24",
   "status": "proved",
   "theorems": [
    "C24_cache_text_round_trip"
   ],
   "note": "matrix entries are rationals in lowest terms; other sympy entries are not modelled"
  },
  {
   "property": "C25",
   "status": "proved",
   "theorems": [
    "C25_cache_is_a_map"
   ],
   "note": "sha256 is an arbitrary function with 64 character values that does not collide on the identifiers used"
  },
  {
   "property": "C26",
   "status": "partial",
   "theorems": [
    "C26_crash_safe_partial",
    "C26_crash_safe_refuted"
   ],
   "note": "false: cutting the text inside the last number loads a wrong matrix, an empty file makes the load raise; the partial theorem bounds the damage to the last entry"
  },
  {
   "property": "C27",
   "status": "proved",
   "theorems": [
    "C27_cache_identifier_injective"
   ],
   "note": ""
  },
  {
   "property": "C63",
   "status": "proved",
   "theorems": [
    "C63_cache_transparent"
   ],
   "note": ""
  },
  {
   "property": "C28",
   "status": "partial",
   "theorems": [
    "C28_registry_partial",
    "C28_failed_registration_unchanged_refuted"
   ],
   "note": "holds for successful histories; a failing registration leaves the names handled before the conflict registered"
  },
  {
   "property": "C29",
   "status": "proved",
   "theorems": [
    "C29_create_element_orders"
   ],
   "note": ""
  },
  {
   "property": "C16",
   "status": "proved",
   "theorems": [
    "C16_ciarlet_duality"
   ],
   "note": "over the reals; the dual matrix is inverted by Gauss-Jordan elimination with pivoting"
  },
  {
   "property": "C17",
   "status": "proved",
   "theorems": [
    "C17_l2_dual",
    "C17_l2_dual_exists"
   ],
   "note": ""
  },
  {
   "property": "C64",
   "status": "proved",
   "theorems": [
    "C64_exists_iff_unisolvent"
   ],
   "note": ""
  },
  {
   "property": "C21",
   "status": "proved",
   "theorems": [
    "C21_entity_dofs_partition",
    "C21_direct_elements"
   ],
   "note": "for direct elements exactly when as many entities as functions are given"
  },
  {
   "property": "C22",
   "status": "proved",
   "theorems": [
    "C22_enriched_element"
   ],
   "note": ""
  },
  {
   "property": "C23",
   "status": "partial",
   "theorems": [
    "C23_tabulate_orders_partial",
    "C23_unknown_order_refuted"
   ],
   "note": "orderings proved; an unknown ordering name is accepted silently for scalar elements"
  },
  {
   "property": "C62",
   "status": "partial",
   "theorems": [
    "C62_history_independent_partial",
    "C62_history_independent_refuted",
    "C62_enriched_refuted"
   ],
   "note": "false in general: the tensor flag is ignored after the first call, and an enriched element that raised once returns a truncated list on the next call"
  },
  {
   "property": "C65",
   "status": "proved",
   "theorems": [
    "C65_map_to_cell"
   ],
   "note": "the fall-back for unimplemented mappings is not modelled"
  },
  {
   "property": "C14",
   "status": "proved",
   "theorems": [
    "C14_named_quadrature"
   ],
   "note": ""
  },
  {
   "property": "C15",
   "status": "proved",
   "theorems": [
    "C15_equispaced_quadrature"
   ],
   "note": ""
  },
  {
   "property": "C38",
   "status": "proved",
   "theorems": [
    "C38_pull_back_push_forward",
    "C38_inverse_transpose_adjoint"
   ],
   "note": "affine maps in one to three dimensions, on symfem functions"
  },
  {
   "property": "C39",
   "status": "proved",
   "theorems": [
    "C39_piola_traces",
    "C39_surface_covariant_refuted"
   ],
   "note": "affine maps in one to three dimensions; a separate witness shows that the covariant map of a triangle in 3D loses a component; the integral over the mapped cell is symfem's own pull-back definition"
  },
  {
   "property": "C66",
   "status": "partial",
   "theorems": [
    "C66_get_mapping_partial",
    "C66_get_mapping_refuted"
   ],
   "note": "any global name of the module is accepted"
  },
  {
   "property": "C30",
   "status": "partial",
   "theorems": [
    "C30_maps_are_inverse_partial",
    "C30_parallelogram_in_3d_partial",
    "C30_vertices_to_vertices",
    "C30_pyramid_inverse_refuted",
    "C30_triangle_in_3d_refuted",
    "C30_vertical_parallelogram_refuted",
    "C30_non_parallelogram_rejected"
   ],
   "note": "Inverse maps proved for intervals, 2D triangles/parallelograms, tetrahedra, parallelepipeds, affine prisms and (self maps) 3D parallelograms; refuted for the pyramid, for triangles embedded in 3D and for vertical parallelograms."
  },
  {
   "property": "C31",
   "status": "partial",
   "theorems": [
    "C31_contains_decides_membership_partial",
    "C31_tetrahedron_refuted"
   ],
   "note": "Proved for every default cell and every non-degenerate 2D triangle; refuted for general tetrahedra (sign of one test); other general cells raise NotImplementedError."
  },
  {
   "property": "C32",
   "status": "partial",
   "theorems": [
    "C32_on_edge_inside_partial",
    "C32_on_edge_refuted",
    "C32_on_face_refuted"
   ],
   "note": "on_edge is exact for points of the cell; outside the cell it is true on the line through an edge; on_face always raises."
  },
  {
   "property": "C33",
   "status": "proved",
   "theorems": [
    "C33_limits_describe_the_cell",
    "C33_volume_scales"
   ],
   "note": "All cell types with limits (Coquelicot is_RInt)."
  },
  {
   "property": "C34",
   "status": "proved",
   "theorems": [
    "C34_tangents_and_normals"
   ],
   "note": "Any dimension for tangents; orientation included."
  },
  {
   "property": "C35",
   "status": "proved",
   "theorems": [
    "C35_tables_are_the_faces_of_the_hull",
    "C35_tables_without_repetition",
    "C35_lexicographic_numbering",
    "C35_sub_entity_vertices",
    "C35_edges_of_faces",
    "C35_euler",
    "C35_dual_polygon"
   ],
   "note": "Edges and faces are characterised as the exposed faces of the convex hull."
  },
  {
   "property": "C36",
   "status": "proved",
   "theorems": [
    "C36_z_order_lists_every_entity_once"
   ],
   "note": "All cell types, dual polygons of any size."
  },
  {
   "property": "C37",
   "status": "partial",
   "theorems": [
    "C37_lattice_is_the_interior_half_lattice",
    "C37_lattice_of_general_cells",
    "C37_lattice_with_lines",
    "C37_dual_lattice",
    "C37_interval_refuted",
    "C37_prism_refuted"
   ],
   "note": "Proved for triangle, tetrahedron, quadrilateral, hexahedron and for make_lattice_with_lines; refuted for the interval (last point missing) and the prism (points on the boundary)."
  },
  {
   "property": "C40",
   "status": "partial",
   "theorems": [
    "C40_add_sub_pointwise",
    "C40_incompatible_rejected_partial",
    "C40_list_truncation_refuted",
    "C40_neg_pow_pointwise",
    "C40_scaling_pointwise",
    "C40_matrix_products_partial",
    "C40_vector_times_matrix_refuted",
    "C40_dot_cross_norm_partial",
    "C40_matrix_dot_refuted"
   ],
   "note": "Operations are pointwise on compatible shapes; refuted: adding a list of another length truncates, vector @ matrix and matrix dot are wrong or raise."
  },
  {
   "property": "C41",
   "status": "proved",
   "theorems": [
    "C41_subs_simultaneous",
    "C41_subs_single",
    "C41_subs_defined",
    "C41_reserved_symbols_refuted"
   ],
   "note": "For expressions without the reserved DUMMY_i placeholders; a witness shows that exclusion is needed."
  },
  {
   "property": "C42",
   "status": "proved",
   "theorems": [
    "C42_gradient_and_hessian_are_derivatives",
    "C42_vector_derivative",
    "C42_curl_grad_is_zero",
    "C42_div_curl_is_zero",
    "C42_laplacian_is_trace_of_hessian",
    "C42_directional_derivative",
    "C42_product_rule"
   ],
   "note": "Derivatives are genuine partial derivatives (is_derive)."
  },
  {
   "property": "C43",
   "status": "partial",
   "theorems": [
    "C43_tensor_product_cells",
    "C43_simplices_partial",
    "C43_prism_partial",
    "C43_maximum_degree_refuted"
   ],
   "note": "Tensor cells in full; simplices only an upper bound; refuted: x+y on a triangle gives 2, the zero function gives -3."
  },
  {
   "property": "C44",
   "status": "partial",
   "theorems": [
    "C44_single_iteration_partial",
    "C44_nested_iteration_refuted",
    "C44_zip_and_matrix_refuted"
   ],
   "note": "A single loop visits every component; nested loops over the same object do not, zip(v, v) does not, and matrices cannot be iterated."
  },
  {
   "property": "C46",
   "status": "partial",
   "theorems": [
    "C46_simplices",
    "C46_point_in_quadrilateral_partial",
    "C46_clockwise_quadrilateral_refuted",
    "C46_floats_accept"
   ],
   "note": "Simplices in full, quadrilaterals with counterclockwise convex boundary; refuted for clockwise quadrilaterals (every point is rejected)."
  },
  {
   "property": "C67",
   "status": "partial",
   "theorems": [
    "C67_none_means_disjoint",
    "C67_some_is_the_intersection_partial",
    "C67_tetrahedra_refuted"
   ],
   "note": "None is only returned for disjoint interiors; a returned cell is the intersection except for tetrahedra, where a witness shows it is not."
  },
  {
   "property": "C47",
   "status": "partial",
   "theorems": [
    "C47_allequal_partial",
    "C47_expression_refuted",
    "C47_truncation_refuted"
   ],
   "note": "Correct if lists have equal lengths and the second argument holds no bare sympy expression; refuted otherwise: everything equals a sympy expression, and lists are truncated."
  },
  {
   "property": "C49",
   "status": "partial",
   "theorems": [
    "C49_nth_partial",
    "C49_nth_refuted"
   ],
   "note": "Correct except for 13 and for the numbers from 100 on that end in 11, 12 or 13."
  },
  {
   "property": "C48",
   "status": "proved",
   "theorems": [
    "C48_functionals_linear"
   ],
   "note": "All 14 evaluation methods, for functions built by the python operators * and +; includes uniqueness of the value. sympy.integrate is taken to return the iterated Riemann integral when it returns."
  },
  {
   "property": "C68",
   "status": "partial",
   "theorems": [
    "C68_point_evaluations",
    "C68_derivative_evaluations",
    "C68_vector_evaluations",
    "C68_inner_product_evaluation",
    "C68_integral_moments",
    "C68_divergence_moments",
    "C68_inner_product_moment_refuted"
   ],
   "note": "Refuted for InnerProductIntegralMoment, which multiplies by the jacobian twice. DerivativeIntegralMoment and IntegralOfDirectionalMultiderivative are modelled (C48) but their values are not characterised."
  },
  {
   "property": "C50",
   "status": "partial",
   "theorems": [
    "C50_specification_read",
    "C50_moments_numbered",
    "C50_vertices_rejected",
    "C50_by_dimension_partial",
    "C50_by_dimension_refuted"
   ],
   "note": "Exactly one degree of freedom per (argument, entity, basis function), in lexicographic order, attached to its entity, with the data of the specification; order by dimension holds when only dimension-named or only codimension-named arguments are given, and is refuted when faces and facets are mixed."
  },
  {
   "property": "C69",
   "status": "partial",
   "theorems": [
    "C69_function_input_read",
    "C69_function_input_meaning",
    "C69_sympy_matrix_refuted"
   ],
   "note": "Holds for every input, except that a sympy matrix, announced by the type FunctionInput, raises ValueError."
  },
  {
   "property": "C45",
   "status": "partial",
   "theorems": [
    "C45_evaluation_partial",
    "C45_clockwise_quadrilateral_refuted",
    "C45_unary_operations",
    "C45_unary_operations_succeed",
    "C45_arithmetic_values",
    "C45_arithmetic_domain",
    "C45_binary_operations_succeed",
    "C45_different_cells_rejected",
    "C45_integral_interval",
    "C45_integral_triangles_partial",
    "C45_integral_tetrahedra_refuted",
    "C45_map_pieces",
    "C45_equality_partial",
    "C45_equality_refuted",
    "C45_constructor_pieces",
    "C45_subs_other_variable_refuted"
   ],
   "note": "Evaluation is exact except for clockwise quadrilaterals (refuted); operations act piece by piece without exception; the integral is that of the evaluated function on intervals, is the sum over the common parts for triangles, and is refuted for tetrahedra; __eq__ and substitution of other variables are refuted."
  },
  {
   "property": "C19",
   "status": "proved",
   "theorems": [
    "C19_lagrange_points",
    "C19_lagrange_unisolvent",
    "C19_lagrange_traces",
    "C19_lagrange_basis",
    "C19_lagrange_order_zero",
    "C19_lagrange_interval_variants"
   ],
   "note": "Every non-degenerate interval, triangle and tetrahedron, every order, equispaced points; includes traces on sub-entities and duality/reproduction of get_basis_functions. Order 0 separately."
  },
  {
   "property": "C20",
   "status": "partial",
   "theorems": [
    "C20_q_points",
    "C20_q_basis",
    "C20_tensor_factorisation_partial",
    "C20_order_zero",
    "C20_tensor_factorisation_refuted"
   ],
   "note": "Every order, equispaced points: the permutation is one, and the tensor products are the basis functions of the element. Refuted for the variant gll from order 3 on: the factorisation uses the equispaced interval element whatever the variant."
  },
  {
   "property": "C12",
   "status": "proved",
   "theorems": [
    "C12_derivative_tables",
    "C12_arguments"
   ],
   "note": "All seven cells including the pyramid (there at every point with z <> 1, where its rational functions have a pole), every order, number of derivatives and choice of distinct variables. Rejections of wrong arguments included."
  },
  {
   "property": "C13",
   "status": "proved",
   "theorems": [
    "C13_index_maps",
    "C13_pyramid_index"
   ],
   "note": "The numbering of derivatives, of polynomials on triangles and tetrahedra, and of the pyramid's polynomials."
  },
  {
   "property": "C11",
   "status": "proved",
   "theorems": [
    "C11_interval",
    "C11_orthonormal"
   ],
   "note": "Every order and variable. [integrate] stands for sympy's definite integration and is assumed to return the integral where it exists."
  },
  {
   "property": "C70",
   "status": "partial",
   "theorems": [
    "C70_orthogonal",
    "C70_orthonormal_partial",
    "C70_orthonormal_refuted"
   ],
   "note": "Orthogonality on all seven cells with the limits of the code. Orthonormality needs that no axis variable x_i (i < dimension) is passed at another position than i: otherwise the sequential substitution in integral() identifies variables and the norms are wrong (refuted for the quadrilateral with variables x_1, x_2)."
  },
  {
   "property": "C51",
   "status": "partial",
   "theorems": [
    "C51_partition_of_unity",
    "C51_other_dimensions",
    "C51_numbering",
    "C51_creation_partial",
    "C51_entities",
    "C51_creation_refuted"
   ],
   "note": "Non-negativity, sum, count, basis property and numbering proved for all orders on interval, triangle and tetrahedron; the element exists for all orders on intervals and triangles and up to order 3 on tetrahedra. Refuted: on tetrahedra no Bernstein element of order >= 4 can be created (cell name misspelt in bernstein.py:222, interior dofs missing)."
  },
  {
   "property": "C52",
   "status": "proved",
   "theorems": [
    "C52_bubble_simplex",
    "C52_bubble_tensor",
    "C52_bubble_rejects"
   ],
   "note": "Every order, every nondegenerate simplex (equispaced variant) and the default interval, quadrilateral and hexahedron (every variant with a rule for that order except legendre and lobatto): the functions are exactly a basis of the polynomials that vanish on the boundary, with as many dofs, and dual functions exist. Quadrilaterals and hexahedra with other vertices are not modelled."
  },
  {
   "property": "C53",
   "status": "partial",
   "theorems": [
    "C53_enriched_partial",
    "C53_enriched_dependent",
    "C53_enriched_refuted"
   ],
   "note": "Proved for the orders 1 and 2 on every triangle. Refuted for every order >= 3: create_element accepts the order but the set is dependent and get_basis_functions raises ValueError (the cubic bubble lies in the Lagrange space)."
  },
  {
   "property": "C54",
   "status": "partial",
   "theorems": [
    "C54_odd_orders",
    "C54_tetrahedron",
    "C54_rejects",
    "C54_even_orders",
    "C54_refuted"
   ],
   "note": "Odd orders: unisolvent with dual basis on every nondegenerate triangle, for every variant with a symmetric rule; order 1 on every nondegenerate tetrahedron; other cells, order 0 and tetrahedra of higher order rejected. Refuted for every even order: create_element accepts it on the default triangle, but a polynomial of that degree vanishes at all the dof points and get_basis_functions raises ValueError."
  },
  {
   "property": "C57",
   "status": "proved",
   "theorems": [
    "C57_dual_order_one",
    "C57_dual_order_zero",
    "C57_dual_rejects",
    "C57_dual_entities"
   ],
   "note": "Every polygon of at least three triangles (with fewer the sub-triangles are degenerate): pieces agree wherever sub-triangles meet, the functions sum to one on the polygon, function j is one at vertex 2j; order 0 is the constant one."
  },
  {
   "property": "C58",
   "status": "partial",
   "theorems": [
    "C58_normal_jump",
    "C58_refuted"
   ],
   "note": "Refuted for every polygon of at least three triangles and every function: the coefficients of dual.py:305-306 are attached to different edges of neighbouring sub-triangles, so that the normal component jumps by 1/n (over the edge length) on an interior edge. The Raviart-Thomas functions of the fine space enter through their defining moments."
  },
  {
   "property": "C59",
   "status": "partial",
   "theorems": [
    "C59_hct",
    "C59_reduced_hct",
    "C59_alfeld_sorokina",
    "C59_macro_refusals",
    "C59_iso_interval",
    "C59_iso_triangle",
    "C59_iso_quadrilateral_partial",
    "C59_p1_macro",
    "C59_iso_quadrilateral_clockwise",
    "C59_iso_quadrilateral_refuted"
   ],
   "note": "HCT, reduced HCT (values, gradients, linear normal derivatives) and Alfeld-Sorokina (values and divergences) on the default triangle, the only one accepted; P1-iso-P2 on all intervals, triangles and counter-clockwise parallelograms, P1 macro on all triangles. Refuted for parallelograms numbered clockwise: the element is created and no function can be evaluated anywhere."
  },
  {
   "property": "C71",
   "status": "proved",
   "theorems": [
    "C71_hct_unisolvent",
    "C71_reduced_hct_unisolvent",
    "C71_alfeld_sorokina_unisolvent",
    "C71_degrees_of_freedom"
   ],
   "note": "The values are those of the modelled evaluation of functionals on piecewise functions; the dual matrix is inverted by the modelled LU inverse."
  },
  {
   "property": "C72",
   "status": "partial",
   "theorems": [
    "C72_p1_macro_moment",
    "C72_macro_integral_refuted"
   ],
   "note": "Refuted on every triangle: the moment of the fourth P1 macro function evaluates to 1/2, the integral against the weight is 1/6, because the function is written in the parameters of the whole triangle before it is integrated over the parameters of the sub-triangle (functionals.py:989-1016, piecewise_functions.py:443-465)."
  },
  {
   "property": "C73",
   "status": "proved",
   "theorems": [
    "C73_default_cells",
    "C73_hermite",
    "C73_bell_dofs",
    "C73_hermite_dofs",
    "C73_normal_dofs",
    "C73_value_dofs",
    "C73_rejects"
   ],
   "note": "Hermite on every nondegenerate simplex, the others on their default cells (Bell's and Bogner-Fox-Schmit's dual bases on other cells are not treated)."
  },
  {
   "property": "C74",
   "status": "partial",
   "theorems": [
    "C74_kmv_partial",
    "C74_kmv_refuted",
    "C74_kmv_rejects"
   ],
   "note": "Triangles of orders 1, 2, 3 and tetrahedra of order 1 have a dual basis. Refuted for tetrahedra of order 2, which the class accepts: the 23 functions are independent but one combination vanishes at all 23 points, so get_basis_functions raises (kmv.py:40-66, where no face bubble vanishes on all the other faces)."
  },
  {
   "property": "C55",
   "status": "partial",
   "theorems": [
    "C55_kmv_rules_partial",
    "C55_kmv_order_3",
    "C55_kmv_rules_refuted"
   ],
   "note": "Exact to degree 1 and 3 (triangle, orders 1, 2) and 1 and 4 (tetrahedron, orders 1, 2), all weights positive. Refuted for order 3 on triangles: the weights add to 1/2 - sqrt(7)/15 and those on the edges are negative (signs in kmv.py:123-160)."
  },
  {
   "property": "C60",
   "status": "partial",
   "theorems": [
    "C60_bell_partial",
    "C60_bell_refuted"
   ],
   "note": "Holds on the reference triangle, as stated. The class accepts any triangle with the same polynomials: refuted on the triangle (0,0), (2,0), (0,1)."
  },
  {
   "property": "C75",
   "status": "partial",
   "theorems": [
    "C75_default_cells_partial",
    "C75_hermite",
    "C75_bell_refuted"
   ],
   "note": "Bell, Argyris and Bogner-Fox-Schmit are C1, Kong-Mulder-Veldhuizen C0 on their default cells, Hermite C0 on every nondegenerate simplex. Refuted for Bell on other triangles, which the class accepts: a function with vanishing degrees of freedom on the closure of an edge has a nonzero normal derivative there."
  },
  {
   "property": "C18",
   "status": "partial",
   "theorems": [
    "C18_default_cells_partial",
    "C18_simplices_partial",
    "C18_regge_integral_partial",
    "C18_arnold_winther_partial",
    "C18_rejected",
    "C18_arnold_winther_refuted",
    "C18_trimmed_serendipity_refuted"
   ],
   "note": "34 families, all orders that create_element accepts, default variants: on the default cells the element is created, the number of functions is the dimension in closed form, there are as many degrees of freedom and each is on an existing sub-entity; on simplices with any vertices for the ten families that accept them. Refuted: trimmed serendipity H(curl) on the hexahedron raises AssertionError for every order >= 4 (too few degrees of freedom), Arnold-Winther of order 5 raises it on every nondegenerate triangle without a horizontal edge (aw.py:100-104 counts the degree in x only). Bernstein, Bubble, Crouzeix-Raviart, dual, macro and nodal elements are treated in C51-C59, C71-C75; the remaining families (e.g. TNT, Guzman-Neilan, Wu-Xu, transition) and the variant legendre are not modelled here."
  },
  {
   "property": "C56",
   "status": "partial",
   "theorems": [
    "C56_degree_attributes_partial",
    "C56_trimmed_serendipity_partial",
    "C56_trimmed_subdegree_refuted"
   ],
   "note": "All four attributes for 32 families, every order that create_element accepts, default cells; of the two trimmed serendipity families all but lagrange_subdegree, which is refuted: on quadrilaterals of order 7 it is 2, but the space contains all functions of degree 3 in each variable. Missing: other cells than the default ones, other families."
  },
  {
   "property": "C76",
   "status": "proved",
   "theorems": [
    "C76_vector_lagrange",
    "C76_matrix_lagrange",
    "C76_symmetric_lagrange",
    "C76_lagrange_located",
    "C76_lagrange_conforming",
    "C76_q_conforming",
    "C76_vector_q",
    "C76_vector_q_conforming",
    "C76_dpc",
    "C76_dpc_interval",
    "C76_dpc_discontinuous",
    "C76_prism_lagrange",
    "C76_vector_prism_lagrange",
    "C76_prism_conforming",
    "C76_conforming_crouzeix_raviart",
    "C76_rejected"
   ],
   "note": "Equispaced points for the Lagrange elements on simplices and prisms, every rule for Q elements; Q and DPC on their default cells."
  },
  {
   "property": "C77",
   "status": "proved",
   "theorems": [
    "C77_raviart_thomas",
    "C77_nedelec_first_kind",
    "C77_bdm",
    "C77_nedelec_second_kind"
   ],
   "note": "Equispaced Lagrange elements in the moments (the default); the reference cells."
  },
  {
   "property": "C78",
   "status": "proved",
   "theorems": [
    "C78_qdiv",
    "C78_qcurl",
    "C78_rejected"
   ],
   "note": "Every variant other than legendre and lobatto (whose Q elements are not modelled) with point rules up to the order, in particular equispaced, the default."
  },
  {
   "property": "C61",
   "status": "partial",
   "theorems": [
    "C61_dimension_partial",
    "C61_dimension_refuted"
   ],
   "note": "The direct serendipity element of order n has 4n functions and 15 more from order 4 on; this is the number of the serendipity element at the orders 1, 2, 3, 8 and at no other. Refuted e.g. at order 4 (31 instead of 17): the interior functions are made with DPC of order 4 instead of order - 4 (direct_serendipity.py:76)."
  },
  {
   "property": "C79",
   "status": "partial",
   "theorems": [
    "C79_independent",
    "C79_reproduces_partial",
    "C79_reproduces_refuted"
   ],
   "note": "Independence for every order; polynomials are reproduced up to order 8. Refuted for every order from 9 on: x^7 y^2 is not a combination (the interior functions always have degree 4 besides the bubble)."
  },
  {
   "property": "C80",
   "status": "partial",
   "theorems": [
    "C80_order_one_partial",
    "C80_refuted"
   ],
   "note": "Holds at order 1. Refuted for every order from 2 on: the function y (1 - y) belongs to the edge x = 0 and does not vanish on the edge x = 1."
  },
  {
   "property": "C81",
   "status": "proved",
   "theorems": [
    "C81_serendipity_dual",
    "C81_serendipity_continuous"
   ],
   "note": "Every order on the reference interval, quadrilateral and hexahedron; the variants legendre and lobatto and cells with other vertices are not covered."
  },
  {
   "property": "C82",
   "status": "proved",
   "theorems": [
    "C82_serendipity_hdiv",
    "C82_serendipity_hcurl_square",
    "C82_rejected"
   ],
   "note": "Every order; variants legendre and lobatto are not covered. The fields of degree n + 1 are those of the code (whose divergence on the quadrilateral is not zero, see C09)."
  },
  {
   "property": "C83",
   "status": "proved",
   "theorems": [
    "C83_serendipity_hcurl_cube"
   ],
   "note": "Every order; variants legendre and lobatto are not covered; cells with other vertices are refused (C82_rejected)."
  },
  {
   "property": "C84",
   "status": "partial",
   "theorems": [
    "C84_arnold_winther",
    "C84_nonconforming_partial",
    "C84_nonconforming_refuted",
    "C84_mardal_tai_winther"
   ],
   "note": "Arnold-Winther (every order, every triangle) and Mardal-Tai-Winther hold in full. The nonconforming element has the right space on the reference triangle; refuted on other triangles, which are accepted but given the functions of the reference triangle."
  },
  {
   "property": "C85",
   "status": "proved",
   "theorems": [
    "C85_transition_basis",
    "C85_transition_traces",
    "C85_transition_degrees",
    "C85_transition_polynomials"
   ],
   "note": "For the variant equispaced (the default)."
  },
  {
   "property": "C86",
   "status": "proved",
   "theorems": [
    "C86_taylor_basis",
    "C86_taylor_functionals",
    "C86_taylor_functions"
   ],
   "note": "Every order on every interval, triangle and tetrahedron of full dimension."
  },
  {
   "property": "C87",
   "status": "proved",
   "theorems": [
    "C87_bernardi_raugel_basis",
    "C87_bernardi_raugel_conforming",
    "C87_bernardi_raugel_functionals",
    "C87_bernardi_raugel_default_only",
    "C87_bernardi_raugel_quadratic_basis",
    "C87_bernardi_raugel_quadratic_conforming",
    "C87_bernardi_raugel_quadratic_functionals",
    "C87_bernardi_raugel_quadratic_cells"
   ],
   "note": "Order 1 on both cells, order 2 on the tetrahedron (the only cell on which the class accepts it)."
  }
 ]
}
