{
 "claims": [
  {
   "property": "C01",
   "status": "partial",
   "theorems": [
    "C01_reserved_deque_refuted",
    "C01_rotated_push_back_is_lost",
    "C01_reserved_deque_partial",
    "C01_back_only_histories",
    "C01_histories_without_push_back",
    "C01_init_list_if_first_zero",
    "C01_init_list_refuted"
   ],
   "note": "The full claim is refuted (push_back ignores first_; the initializer_list constructor leaves first_ indeterminate). Proved: every history whose push_backs happen while the front is unrotated, in particular histories without front operations and histories without push_back."
  },
  {
   "property": "C02",
   "status": "partial",
   "theorems": [
    "C02_overflow_array_sequence_partial",
    "C02_init_list",
    "C02_equality",
    "C02_push_front_always_asserts",
    "C02_push_front_release_effect",
    "C02_push_front_refuted"
   ],
   "note": "Proved for all histories of push_back/pop_back/resize/clear/assign, the initializer_list constructor and operator==. push_front is refuted: it always fails an assert, and without asserts it overwrites the contents and does not grow."
  },
  {
   "property": "C03",
   "status": "proved",
   "theorems": [
    "C03_histories",
    "C03_buffer_fits",
    "C03_no_leak",
    "C03_copies_are_independent",
    "C03_swap",
    "C03_copy_of_empty_refuted",
    "C03_self_move_refuted",
    "C03_throwing_copy_assignment_refuted"
   ],
   "note": "all legal histories, all allocators; the three undefined cases are proved undefined"
  },
  {
   "property": "C04",
   "status": "partial",
   "theorems": [
    "C04_size_is_the_index_tree",
    "C04_size_counts_next_digits",
    "C04_size_zero_iff_complete",
    "C04_blocked_interleaved_empty_block_refuted"
   ],
   "note": "Proved for every nesting in which BlockedInterleaved is applied to a basis without empty blocks. With an empty block size() is refuted (C04_blocked_interleaved_empty_block_refuted). Prefixes that are not prefixes of valid indices are out of scope."
  },
  {
   "property": "C05",
   "status": "proved",
   "theorems": [
    "C05_dimension_counts_global_indices",
    "C05_dimension_counts_admitted_indices"
   ],
   "note": "For every well-formed nesting; the version counting admitted indices assumes that no block of the index tree is empty (an empty block is itself 'admitted' by size()==0)."
  },
  {
   "property": "C06",
   "status": "proved",
   "theorems": [
    "C06_local_index_is_valid",
    "C06_every_local_dof_has_an_index"
   ],
   "note": "For every well-formed nesting and element."
  },
  {
   "property": "C07",
   "status": "proved",
   "theorems": [
    "C07_every_local_dof_is_a_leaf_dof",
    "C07_indices_identify_dofs"
   ],
   "note": "For every well-formed nesting and pair of elements; also: each local index is exactly one DOF of exactly one leaf."
  },
  {
   "property": "C08",
   "status": "proved",
   "theorems": [
    "C08_admitted_indices_occur",
    "C08_index_tree_is_covered"
   ],
   "note": "For every well-formed nesting without empty blocks; C08_index_tree_is_covered has no such condition."
  },
  {
   "property": "C09",
   "status": "proved",
   "theorems": [
    "C09_descriptor_agrees_with_size",
    "C09_descriptor_describes_index_tree"
   ],
   "note": "For every well-formed nesting for which containerDescriptor() is well-formed C++ (the model returns None for instantiations that do not compile)."
  },
  {
   "property": "C10",
   "status": "proved",
   "theorems": [
    "C10_index_lengths",
    "C10_buffer_never_overflows"
   ],
   "note": "Every history of a local view; an overflow of the reserved multi-index capacity would be None."
  },
  {
   "property": "C11",
   "status": "proved",
   "theorems": [
    "C11_size_at_most_maxsize"
   ],
   "note": "For every well-formed nesting and element."
  },
  {
   "property": "C12",
   "status": "proved",
   "theorems": [
    "C12_children_are_consecutive",
    "C12_leaves_partition_the_local_indices",
    "C12_leaf_indices_in_range"
   ],
   "note": "For every tree, any previous state, any offset."
  },
  {
   "property": "C13",
   "status": "proved",
   "theorems": [
    "C13_tree_indices_number_the_tree",
    "C13_tree_indices_survive_bind",
    "C13_tree_indices_of_a_view"
   ],
   "note": "For every tree and every history."
  },
  {
   "property": "C14",
   "status": "proved",
   "theorems": [
    "C14_bound_view_is_history_independent",
    "C14_bound_element",
    "C14_index_of_a_leaf_dof"
   ],
   "note": "For every history of bind, unbind and copy."
  },
  {
   "property": "C15",
   "status": "proved",
   "theorems": [
    "C15_nesting_concatenates",
    "C15_nested_tree",
    "C15_subspace_view_is_the_root_view"
   ],
   "note": "Every path, every nesting depth."
  },
  {
   "property": "C16",
   "status": "partial",
   "theorems": [
    "C16_taylor_hood_is_the_documented_composite",
    "C16_taylor_hood_valid_and_gap_free",
    "C16_hybrid_indices",
    "C16_hybrid_refuted"
   ],
   "note": "Proved for the flat interleaved variant. The hybrid variant is refuted: C16_hybrid_indices shows what it computes and C16_hybrid_refuted that all velocity components share their indices."
  },
  {
   "property": "C17",
   "status": "proved",
   "theorems": [
    "C17_indices_are_transformed_in_order",
    "C17_bijections_carry_over",
    "C17_nested_transformations_compose"
   ],
   "note": "Any transformation; bijectivity is stated on the indices admitted by the transformation's size()."
  },
  {
   "property": "C18",
   "status": "partial",
   "theorems": [
    "C18_share_an_index_iff_honoured",
    "C18_only_requested_dofs_are_unified",
    "C18_share_an_index_iff_unified_partial",
    "C18_gap_free_and_counted",
    "C18_size_counts_unified_classes_partial",
    "C18_independent_of_call_order",
    "C18_defined_iff_in_range",
    "C18_equivalence_closure_refuted"
   ],
   "note": "Proved for every flat well-formed basis and every list of calls: which DOFs share an index (each DOF is unified with its largest smaller requested partner only), gap-freeness, size() and dimension() count these classes. The full claim (equivalence closure) holds if any two smaller partners of a DOF are requested as well (_partial theorems) and is refuted in general."
  },
  {
   "property": "C19",
   "status": "partial",
   "theorems": [
    "C19_descriptor_has_size_iff_nothing_unified_partial",
    "C19_descriptor_too_large_refuted"
   ],
   "note": "Refuted as soon as two different DOFs are unified: the descriptor is that of the raw basis. It is right exactly if nothing was unified."
  },
  {
   "property": "C20",
   "status": "proved",
   "theorems": [
    "C20_nothing_outside_the_subdomain",
    "C20_inside_equals_subdomain_basis"
   ],
   "note": "Sibling offsets are C12, which covers restricted nodes."
  },
  {
   "property": "C21",
   "status": "partial",
   "theorems": [
    "C21_resize_returns_iff_compatible",
    "C21_resized_blocks_have_basis_size",
    "C21_basis_indices_name_entries",
    "C21_basis_indices_address_scalars_partial",
    "C21_distinct_indices_distinct_entries",
    "C21_empty_basis_refuted",
    "C21_deep_container_refuted"
   ],
   "note": "resize() has no undefined behavior and returns normally exactly for compatible containers; then all blocks have the basis sizes, all indices name entries, distinct indices distinct ones. That every index gives a scalar is proved for entries of scalar or fixed-size type; refuted for deeper dynamic containers and for empty bases."
  },
  {
   "property": "C22",
   "status": "partial",
   "theorems": [
    "C22_defined_iff_known",
    "C22_container_has_described_shape",
    "C22_basis_container",
    "C22_istl_vector_partial",
    "C22_istl_unit_array_refuted"
   ],
   "note": "makeContainer proved for every descriptor and every basis; makeISTLVector proved except for arrays of length one holding a block vector, where it is refuted (CTAD copy deduction drops a level)."
  },
  {
   "property": "C23",
   "status": "proved",
   "theorems": [
    "C23_follows_digits_then_zeros",
    "C23_hybrid_access_agrees",
    "C23_static_index_is_path",
    "C23_write_read_back",
    "C23_bad_digits_rejected",
    "C23_tuple_digit_out_of_range_refuted"
   ],
   "note": "Digits then zeros, write/read-back, static indices, rejection of bad digits without tuples. Out-of-range digits of tuples are accepted by the code (C23_tuple_digit_out_of_range_refuted)."
  },
  {
   "property": "C24",
   "status": "partial",
   "theorems": [
    "C24_flat_view_partial",
    "C24_vector_of_blocks_refuted",
    "C24_array_of_vectors_refuted"
   ],
   "note": "Proved for scalars, vectors and matrices of scalars, and nested arrays of those of static size; refuted for vectors of blocks (not flattened) and arrays of dynamic vectors (do not compile)."
  },
  {
   "property": "C25",
   "status": "proved",
   "theorems": [
    "C25_throws_iff_resize_throws",
    "C25_marked_dofs_are_interpolated",
    "C25_other_dofs_unchanged",
    "C25_other_entries_unchanged",
    "C25_agreeing_value",
    "C25_order_independent",
    "C25_last_element_wins"
   ],
   "note": "For every basis nesting, subspace, container with fixed-size entries, mask and element order; local interpolation values are parameters."
  },
  {
   "property": "C26",
   "status": "proved",
   "theorems": [
    "C26_histories_are_defined",
    "C26_bound_state",
    "C26_value_is_the_weighted_sum",
    "C26_derivative_is_the_weighted_sum",
    "C26_linear_in_coefficients",
    "C26_copies_and_derivatives_agree"
   ],
   "note": "Values and derivatives are the coefficient-weighted sums for every history of new/bind/unbind/copy/assign/derivative/coefficient updates. derivative() rereads the coefficient vector, so it has the coefficients current at the call (same as the origin's unless changed since its bind). A scalar range for several leaves is excluded (each leaf overwrites it). Assignment is modelled with nodes holding elements by value; see C51 for the aliasing in the code."
  },
  {
   "property": "C27",
   "status": "proved",
   "theorems": [
    "C27_relative_order",
    "C27_facet_orientation",
    "C27_edge_orientation",
    "C27_shared_facet"
   ],
   "note": "faceOrientations: depends on the relative order of the ids only (any element, any dimension); facets of 3-D elements and edges in 2-D/3-D: the index is one of the documented ones and takes the local numbering to the documented global one; two elements sharing a facet agree."
  },
  {
   "property": "C28",
   "status": "proved",
   "theorems": [
    "C28_lagrange_indices"
   ],
   "note": "All orders the constructor accepts (3-D: at most 17), dimensions 1-3, mixed element types. Grid, mapper, reference element and local keys enter as contracts (Mapper_spec, Lagrange_spec). Also: the Lagrange leaf satisfies the contract of a leaf basis and indices are distinct within an element."
  },
  {
   "property": "C29",
   "status": "proved",
   "theorems": [
    "C29_layout_matches_shape_functions",
    "C29_layout_counts_interior_points",
    "C29_maxnode_bounds",
    "C29_pyramid_order_above_2"
   ],
   "note": "Layout totals equal the number of Lagrange lattice points for simplices and cubes of every dimension and order, prisms of every order, pyramids up to order 2 (the pre-basis constructor rejects higher orders, where the layout is shown to be too small); per-subentity interior counts; maxNodeSize bound for every type. The subentity types of reference elements (dune-geometry) are modelled by their recursion."
  },
  {
   "property": "C30",
   "status": "proved",
   "theorems": [
    "C30_mapper_leaf"
   ],
   "note": "Indices of mapper-based leaf bases for every grid, layout and key assignment meeting the written contracts; MCMGMapper is external and enters as the contract mapper_ok."
  },
  {
   "property": "C31",
   "status": "proved",
   "theorems": [
    "C31_dg_blocks"
   ],
   "note": "LagrangeDG on every (mixed) grid of dimension 1 to 3 and every order; also proves that the closed-form layouts equal the lattice counts."
  },
  {
   "property": "C32",
   "status": "proved",
   "theorems": [
    "C32_index_set",
    "C32_foreign_types",
    "C32_indices_are_stable",
    "C32_reinsertion"
   ],
   "note": "any host satisfying the mapper/reference-element contract, any insertion history; closed form of the state"
  },
  {
   "property": "C33",
   "status": "proved",
   "theorems": [
    "C33_elements",
    "C33_intersections",
    "C33_element_without_intersections_refuted",
    "C33_interface",
    "C33_interface_contains",
    "C33_skeleton_contains"
   ],
   "note": "element iterator, intersection iterator, interface, skeleton; an element without any intersection makes the iterator undefined (refutation theorem)"
  },
  {
   "property": "C34",
   "status": "proved",
   "theorems": [
    "C34_subentity_dofs",
    "C34_boundary_dofs",
    "C34_boundary_indices"
   ],
   "note": "any basis expression (and subspace bases), any history of bindings; reference element inclusion and local keys are parameters"
  },
  {
   "property": "C35",
   "status": "partial",
   "theorems": [
    "C35_bspline_numbering",
    "C35_ctor_knots",
    "C35_ctor_uniform",
    "C35_repeated_knot_refuted"
   ],
   "note": "Proved for every dimension and order and every knot vector with one grid element per non-empty knot span, which both constructors guarantee when knots are not repeated. C35_repeated_knot_refuted: with a repeated knot the constructor counts an element for the empty span and binding to the last element reads past the knot vector."
  },
  {
   "property": "C36",
   "status": "partial",
   "theorems": [
    "C36_line",
    "C36_square_partial",
    "C36_consecutive_refuted",
    "C36_unique_refuted",
    "C36_dim3_refuted"
   ],
   "note": "Proved completely in 1-D. In 2-D with at least two functions per direction: unique, on the right subentity, consecutive on vertices and edges; interior indices have gaps exactly when there are two or more interior rows of interior functions (C36_consecutive_refuted, base sizes-1 instead of sizes-2). Duplicate keys for a direction with a single function and in 3-D (documented as not implemented)."
  },
  {
   "property": "C37",
   "status": "proved",
   "theorems": [
    "C37_cox_de_boor",
    "C37_partition_of_unity",
    "C37_ctor_open"
   ],
   "note": "Any dimension, orders, knot vectors with one element per non-empty span; partition of unity for open knot vectors at every real point, nonnegativity on the closed element, equality with Cox-de Boor on the half-open element."
  },
  {
   "property": "C38",
   "status": "proved",
   "theorems": [
    "C38_derivatives"
   ],
   "note": "evaluateJacobian, evaluate of order one and two, in local coordinates, at every point."
  },
  {
   "property": "C39",
   "status": "proved",
   "theorems": [
    "C39_evaluates",
    "C39_derivative",
    "C39_derivative_any_container",
    "C39_iterated_derivative",
    "C39_eventually_zero",
    "C39_equality"
   ],
   "note": "All coefficient lists; exact reals."
  },
  {
   "property": "C40",
   "status": "proved",
   "theorems": [
    "C40_exponents1",
    "C40_exponents2",
    "C40_exponents3",
    "C40_dim1",
    "C40_dim2",
    "C40_dim3"
   ],
   "note": "All orders, all points; dimensions 1, 2, 3 as in the code."
  },
  {
   "property": "C41",
   "status": "proved",
   "theorems": [
    "C41_derivative",
    "C41_four_times",
    "C41_iterated_derivative"
   ],
   "note": "All integer factors; exact reals."
  },
  {
   "property": "C42",
   "status": "partial",
   "theorems": [
    "C42_geometry_in_ancestor_partial",
    "C42_local_inverts_global",
    "C42_global_inverts_local",
    "C42_copied_coarse_element_refuted"
   ],
   "note": "Proved for fineElement, global and local after every history of constructions, binds and copies. coarseElement is proved for bound objects and for copies whose coarse element is the fine element; refuted for the other copies (copy constructors point coarseElementPtr_ at storedFineElement_)."
  },
  {
   "property": "C43",
   "status": "partial",
   "theorems": [
    "C43_distance_is_l1_distance_partial",
    "C43_distance_is_attained",
    "C43_distance_zero_iff_inside",
    "C43_distance_to_pyramid_refuted",
    "C43_check_inside_is_distance",
    "C43_check_inside_zero"
   ],
   "note": "Zero set, tolerance test and attainment for every topology and dimension; equality with the l1-distance for all products of a simplex and a cube (in 3-D everything but the pyramid); refuted for the 3-D pyramid."
  },
  {
   "property": "C44",
   "status": "proved",
   "theorems": [
    "C44_located_in_the_fine_set",
    "C44_fine_value",
    "C44_same_point"
   ],
   "note": "All grids, depths and points, with the child chosen at each level a minimiser of the distance function."
  },
  {
   "property": "C45",
   "status": "proved",
   "theorems": [
    "C45_first_minimiser",
    "C45_nearest_facet",
    "C45_unit_outer_normal"
   ],
   "note": "Every polytope given by facet centers and normals and every point inside; first minimiser also for points outside."
  },
  {
   "property": "C46",
   "status": "proved",
   "theorems": [
    "C46_raviart_thomas",
    "C46_exactly_one_side",
    "C46_boundary_facets",
    "C46_self_neighbour_refuted",
    "C46_single_prism_type_refuted",
    "C46_brezzi_douglas_marini"
   ],
   "note": "RT and BDM maps modelled with truncating byte stores; element-is-own-neighbour and single-prism-type cases refuted"
  },
  {
   "property": "C47",
   "status": "proved",
   "theorems": [
    "C47_nedelec",
    "C47_shared_edges_agree",
    "C47_edge_orientations"
   ],
   "note": "Nedelec map (order 1) and computeEdgeOrientations"
  },
  {
   "property": "C48",
   "status": "proved",
   "theorems": [
    "C48_contravariant_round_trip",
    "C48_covariant_round_trip",
    "C48_flux",
    "C48_tangential",
    "C48_normal_trace_continuous",
    "C48_jacobian_contravariant",
    "C48_jacobian_covariant",
    "C48_partial",
    "C48_partial_hypotheses",
    "C48_interpolation",
    "C48_nonaffine_jacobian_refuted"
   ],
   "note": "round trips, fluxes, tangential components, Jacobians (affine; the documented non-affine restriction is refuted), partial(), interpolation"
  },
  {
   "property": "C49",
   "status": "partial",
   "theorems": [
    "C49_bind_state",
    "C49_value",
    "C49_derivative",
    "C49_cached_derivative",
    "C49_derivative_of_unbound_coarse_function_refuted"
   ],
   "note": "bind/unbind/bound/localContext and values after every history for all grid functions; the derivative of an unbound coarse-on-fine local function is refuted (dereferences an empty optional)."
  },
  {
   "property": "C50",
   "status": "proved",
   "theorems": [
    "C50_scalar_to_itself",
    "C50_component_is_path",
    "C50_distinct_leaves_distinct_components"
   ],
   "note": ""
  },
  {
   "property": "C51",
   "status": "partial",
   "theorems": [
    "C51_view_state_is_a_value",
    "C51_tree_follows_its_view",
    "C51_copies_are_independent",
    "C51_assignment_aliases_refuted"
   ],
   "note": "Proved for every history as long as the view was not assigned from another view since its last bind (copy construction is fine). Refuted for copy assignment: the implicit memberwise assignment copies pointers into the right hand side, so rebinding, unbinding or destroying it changes or invalidates the tree of the left hand side."
  },
  {
   "property": "C52",
   "status": "proved",
   "theorems": [
    "C52_degrees_of_freedom",
    "C52_interpolation_inverse",
    "C52_reproduces_polynomials",
    "C52_derivatives",
    "C52_partial_method",
    "C52_continuous",
    "C52_gradients_agree_at_vertices",
    "C52_layout_matches_keys",
    "C52_common_coefficients"
   ],
   "note": "exact reals; affine simplex geometry and positive mesh sizes are hypotheses; all dimensions the code supports"
  },
  {
   "property": "C53",
   "status": "partial",
   "theorems": [
    "C53_bind",
    "C53_degrees_of_freedom",
    "C53_interpolation_inverse",
    "C53_reproduces_polynomials",
    "C53_derivatives",
    "C53_partial_method",
    "C53_common_normals",
    "C53_agree_at_vertices",
    "C53_gradients_agree_at_midpoints",
    "C53_layout_matches_keys",
    "C53_common_coefficients",
    "C53_update_same",
    "C53_update_refuted"
   ],
   "note": "All parts proved, except the last, which is refuted: update() recomputes the edge orientations with the mapper of the old grid view (C53_update_refuted; views are modelled as values, so the finding concerns updates to a different grid view or views that do not follow grid changes)."
  },
  {
   "property": "C54",
   "status": "proved",
   "theorems": [
    "C54_degrees_of_freedom",
    "C54_interpolation_inverse",
    "C54_reproduces_polynomials",
    "C54_derivatives",
    "C54_partial_method",
    "C54_bind",
    "C54_agree_at_vertices",
    "C54_continuously_differentiable",
    "C54_layout_matches_keys",
    "C54_common_coefficients",
    "C54_update"
   ],
   "note": "exact reals; affine geometries; the grid view and its vertex mapper enter as the contract triangle_view"
  },
  {
   "property": "C55",
   "status": "proved",
   "theorems": [
    "C55_average_mesh_size"
   ],
   "note": "volumes are positive reals; the mapper enters as the contract mapper_ok"
  },
  {
   "property": "C56",
   "status": "partial",
   "theorems": [
    "C56_local_basis_partial",
    "C56_interpolation_partial",
    "C56_morley_interpolation",
    "C56_copied_interpolation_refuted",
    "C56_assignment_refuted"
   ],
   "note": "Local basis proved for finite elements never assigned to, interpolation for those bound themselves since (all for Morley). Refuted otherwise: copied Hermite and Argyris interpolations keep a pointer to the mesh sizes of the original, and assignment copies the pointer of the local basis, which no later bind repairs."
  },
  {
   "property": "C57",
   "status": "partial",
   "theorems": [
    "C57_raviart_thomas",
    "C57_rt_pyramid_without_interior_refuted",
    "C57_bdm1",
    "C57_bdm2_refuted",
    "C57_bdm2_partial",
    "C57_nedelec",
    "C57_hierarchical_lagrange",
    "C57_hierarchical_with_bubble",
    "C57_refined_lagrange",
    "C57_rannacher_turek",
    "C57_sizes"
   ],
   "note": "The number of shape functions per subentity is external (dune-localfunctions) and enters as the standard count (Families_spec). Proved for all bases but second order Brezzi-Douglas-Marini, which is refuted: dofLayout() reserves dim*(k-1)*3 = 6 indices per element for 3 (triangle) or 2 (quadrilateral) interior functions, so dimension() is too large and indices are unused (C57_bdm2_refuted; what remains: C57_bdm2_partial). For lowest order Raviart-Thomas on pyramids the layout expects one interior function."
  },
  {
   "property": "C58",
   "status": "partial",
   "theorems": [
    "C58_update",
    "C58_grid_view",
    "C58_numbering_partial",
    "C58_lagrange_checks",
    "C58_taylor_hood_grid_view_refuted",
    "C58_taylor_hood_grid_view_stays",
    "C58_morley_mapper_stays",
    "C58_morley_refuted",
    "C58_periodic_refuted",
    "C58_composite_atomic_refuted",
    "C58_unchecked_update_refuted"
   ],
   "note": "update equals fresh construction after any history for all bases but Taylor-Hood, Morley and periodic ones (C58_update); for the first two sizes and indices are up to date (C58_numbering_partial); the refuted theorems show what stays stale"
  },
  {
   "property": "C59",
   "status": "partial",
   "theorems": [
    "C59_hermite",
    "C59_morley",
    "C59_argyris",
    "C59_hermite_1d_refuted"
   ],
   "note": "proved in two and three dimensions; the one-dimensional Hermite element is refuted"
  },
  {
   "property": "C60",
   "status": "partial",
   "theorems": [
    "C60_safe",
    "C60_independent",
    "C60_composed_refuted",
    "C60_transferred_refuted",
    "C60_derivative_refuted",
    "C60_vector_refuted",
    "C60_assign_refuted"
   ],
   "note": "Proved for every program that keeps a grid function alive and unchanged while local functions referring to it are used (C60_safe, C60_independent). That every local function outlives its grid function is refuted: composed functions, transferred functions, temporaries passed as vectors."
  },
  {
   "property": "C61",
   "status": "partial",
   "theorems": [
    "C61_agree",
    "C61_derivatives_agree",
    "C61_no_global_face_normals",
    "C61_discontinuous_refuted"
   ],
   "note": "proved for points where the elements agree on the value; at other points refuted (C61_discontinuous_refuted), functions containing a face normal function cannot be evaluated globally (C61_no_global_face_normals)"
  },
  {
   "property": "C62",
   "status": "partial",
   "theorems": [
    "C62_sequence",
    "C62_values",
    "C62_ranges",
    "C62_range_entries",
    "C62_copying_refuted"
   ],
   "note": "proved, but the documented copying of the callables is refuted for l-values (C62_copying_refuted)"
  },
  {
   "property": "C63",
   "status": "proved",
   "theorems": [
    "C63_basis_functions_single_valued",
    "C63_shape_functions",
    "C63_functions_follow_basis_functions",
    "C63_continuous"
   ],
   "note": "Contracts: of the grid (shared faces have the same vertices, ids_ok and faces_ok) and of the shape functions (shapes_ok), the latter proved for the products of one-dimensional factors on lines, triangles, quadrilaterals, tetrahedra, hexahedra and prisms of every order; for pyramids it is a hypothesis. A leaf switched off in one of the elements by a restricted basis is excluded (the function is zero there)."
  },
  {
   "property": "C64",
   "status": "partial",
   "theorems": [
    "C64_lowest_order_shape_functions",
    "C64_hexahedra_order_one_refuted",
    "C64_raviart_thomas",
    "C64_lowest_order",
    "C64_brezzi_douglas_marini",
    "C64_functions_follow_basis_functions",
    "C64_normal_component_continuous"
   ],
   "note": "Proved for all orders and element types that the code supports in two dimensions and for lowest order in three, for any finite elements with the stated facet fluxes (lowest order: explicit shape functions of triangles, quadrilaterals, tetrahedra, hexahedra, prisms). Refuted for order one on hexahedra."
  },
  {
   "property": "C65",
   "status": "proved",
   "theorems": [
    "C65_edge_shape_functions",
    "C65_nedelec",
    "C65_tangential_component_continuous"
   ],
   "note": "For any finite elements whose functions have the stated tangential components on faces; the lowest-order functions (the only ones the code admits) are given explicitly for triangles, squares, tetrahedra and hexahedra and shown to have them. The geometry map is the grid's (contract: affine-consistent tangents at common points)."
  },
  {
   "property": "C66",
   "status": "proved",
   "theorems": [
    "C66_interpolation_reproduces_coefficients",
    "C66_interpolation_in_place"
   ],
   "note": "for finite elements whose degrees of freedom are dual to their shape functions (hypothesis dual, met by the cubic Hermite example) and scalar coefficients"
  },
  {
   "property": "C67",
   "status": "proved",
   "theorems": [
    "C67_functions_of_the_position",
    "C67_agrees_at_the_nodes",
    "C67_shape_functions_are_nodal",
    "C67_shared_dofs_share_the_node",
    "C67_interpolation_is_nodal",
    "C67_order_independent"
   ],
   "note": "local interpolation and shape functions of dune-localfunctions by their contract (values in the Lagrange points, Lagrange property); the latter proved for the product shape functions of C63"
  },
  {
   "property": "C68",
   "status": "proved",
   "theorems": [
    "C68_ctor_simple_knots",
    "C68_uniform_simple_knots",
    "C68_continuous",
    "C68_gradient_continuous",
    "C68_second_derivatives_continuous"
   ],
   "note": "For the values, Jacobians and first and second partial derivatives the code computes (model of C35-C38), in exact arithmetic; higher derivatives are not provided by the code. Knot vectors with one element per non-empty span as in C35."
  },
  {
   "property": "C69",
   "status": "proved",
   "theorems": [
    "C69_values_determine_the_coefficients",
    "C69_function_depends_on_its_dofs_only",
    "C69_coefficients_are_unique",
    "C69_admitted_coefficients_are_unique",
    "C69_dual_elements_are_independent",
    "C69_dual_elements_without_derivatives",
    "C69_lagrange_elements_are_independent"
   ],
   "note": "exact real arithmetic; finite elements enter through the contract of independent shape functions, which is derived from duality and from the Lagrange property"
  },
  {
   "property": "C70",
   "status": "proved",
   "theorems": [
    "C70_functions_of_an_element_are_independent",
    "C70_values_determine_the_coefficients",
    "C70_coefficients_are_unique",
    "C70_splines_meet_the_contract"
   ],
   "note": "exact real arithmetic; knot spans shorter than the tolerance of the code count as empty"
  },
  {
   "property": "C71",
   "status": "proved",
   "theorems": [
    "C71_spline_spaces_contain_polynomials",
    "C71_greville_coefficients",
    "C71_open_knots_are_full",
    "C71_ctor_full",
    "C71_without_open_knots_refuted"
   ],
   "note": "exact real arithmetic; stated for knot vectors whose elements all have order+1 functions per direction (shown for open ones); the refuted theorem is about makeOpen = false"
  },
  {
   "property": "C72",
   "status": "partial",
   "theorems": [
    "C72_transformed_basis_renames_coefficients",
    "C72_periodic_functions_are_raw_functions",
    "C72_periodic_functions_agree_at_unified_dofs_partial",
    "C72_requested_periodicity_suffices",
    "C72_periodic_coefficients_are_unique",
    "C72_periodic_in_the_nodes"
   ],
   "note": "Proved for transformed bases in full; for periodic bases in full with 'unified' as the code defines it (only the request to the largest smaller partner of a DOF is honoured, C18); with the equivalence closure of all requests only if partners_requested, since C18 is refuted otherwise."
  },
  {
   "property": "C73",
   "status": "proved",
   "theorems": [
    "C73_local_interpolation_decides",
    "C73_contained_functions_are_reproduced",
    "C73_interpolant_is_the_function"
   ],
   "note": "Source and target may have different trees, indices and ranges. The contract of local finite elements (duality) is a hypothesis, as in C66; the example interpolates continuous into discontinuous linear functions."
  },
  {
   "property": "C74",
   "status": "proved",
   "theorems": [
    "C74_interpolation_into_periodic_bases",
    "C74_periodic_values",
    "C74_periodic_functions_are_reproduced"
   ],
   "note": "For flat raw bases (those that periodic() supports); 0 < dimension, since resizing a vector to size 0 throws (C21). Which requests are honoured is C18."
  },
  {
   "property": "C75",
   "status": "proved",
   "theorems": [
    "C75_alone",
    "C75_no_data_race",
    "C75_threads_do_not_interfere",
    "C75_threads_can_finish",
    "C75_coefficients_afterwards",
    "C75_concurrent_evaluation_refuted",
    "C75_evaluation_races_refuted"
   ],
   "note": "Any number of threads, programs and schedules. Operations: construction, bind, unbind, evaluation, copy, derivative, writing coefficients. Assignment of local functions is left out (C51). Evaluating the same object in two threads, or copying it meanwhile, is refuted to be safe."
  },
  {
   "property": "C76",
   "status": "proved",
   "theorems": [
    "C76_resize_again",
    "C76_completed",
    "C76_interrupted_container",
    "C76_progress",
    "C76_retry",
    "C76_twice",
    "C76_atomic_refuted"
   ],
   "note": "Exceptions at any call into foreign code (construction of the local function, bind, local interpolation), depending on the history. Exceptions thrown by resize() itself are reported (Refused) but the container they leave is not modelled. Containers whose entries are solid as in C25."
  },
  {
   "property": "C77",
   "status": "partial",
   "theorems": [
    "C77_bound_finite_elements_partial",
    "C77_copies_refuted"
   ],
   "note": "Finite elements that were themselves bound, whatever the history. The claim for copies of bound finite elements is refuted."
  },
  {
   "property": "C78",
   "status": "proved",
   "theorems": [
    "C78_values",
    "C78_derivatives",
    "C78_interpolation_by_components"
   ],
   "note": "Values and derivatives for arbitrary histories; interpolation by components under the agreement hypothesis of C25."
  },
  {
   "property": "C79",
   "status": "proved",
   "theorems": [
    "C79_chain_rule",
    "C79_gradient"
   ],
   "note": "C79_chain_rule for arbitrary differentiable geometries, C79_gradient for affine ones; contracts of finite elements and geometries in derivatives_ok"
  },
  {
   "property": "C80",
   "status": "proved",
   "theorems": [
    "C80_argyris_continuously_differentiable",
    "C80_hermite_agreement",
    "C80_morley_agreement"
   ],
   "note": "one theorem per basis; the finite elements are those the pre-basis' node binds (construct, node_bind), the leaf may sit anywhere in a tree of bases"
  },
  {
   "property": "C81",
   "status": "proved",
   "theorems": [
    "C81_argyris",
    "C81_hermite",
    "C81_morley",
    "C81_functions_of_the_space_are_reproduced"
   ],
   "note": "General reproduction theorem for any basis with agreeing local interpolations; nodal agreement and polynomial reproduction for Argyris, Morley and (reduced) cubic Hermite."
  },
  {
   "property": "C82",
   "status": "proved",
   "theorems": [
    "C82_degrees_of_freedom_are_preserved",
    "C82_nedelec",
    "C82_raviart_thomas",
    "C82_brezzi_douglas_marini"
   ],
   "note": "For all element types and orders with a finite element; the local interpolations of dune-localfunctions enter by their contract, met in the examples by midpoint evaluation of lowest order."
  },
  {
   "property": "C83",
   "status": "partial",
   "theorems": [
    "C83_the_array_holds_the_interpolation_partial",
    "C83_arrays_that_do_not_fit_are_rejected",
    "C83_bases_with_blocks_are_rejected",
    "C83_arrays_of_other_types_refuted"
   ],
   "note": "Proved for arrays of double, bool and int, including rejection of everything that does not fit; false for arrays of other types, which are silently left unchanged (C83_arrays_of_other_types_refuted)."
  },
  {
   "property": "C84",
   "status": "partial",
   "theorems": [
    "C84_python_functions_partial",
    "C84_blocks_share_coefficients_refuted",
    "C84_short_arrays_refuted"
   ],
   "note": "Proved for all histories over flat bases and arrays of the right length; false for bases with blocks and arrays that are too short, which the code does not reject."
  },
  {
   "property": "C85",
   "status": "partial",
   "theorems": [
    "C85_held_objects_are_usable_partial",
    "C85_tree_refuted",
    "C85_finite_element_refuted",
    "C85_element_refuted",
    "C85_grid_view_refuted",
    "C85_new_grid_view_refuted",
    "C85_grid_view_function_refuted"
   ],
   "note": "Proved for all histories of the methods that have a keep_alive; false for tree(), finiteElement(), element(), the gridView property and its setter, and GridViewFunction(f)."
  },
  {
   "property": "C86",
   "status": "partial",
   "theorems": [
    "C86_objects_live_as_long_as_reachable_partial",
    "C86_everything_is_freed_partial",
    "C86_unbind_refuted",
    "C86_function_basis_refuted"
   ],
   "note": "Proved for all histories without unbind() and f.basis, which leak (refuted)."
  },
  {
   "property": "C87",
   "status": "partial",
   "theorems": [
    "C87_composite_defaults",
    "C87_power_defaults",
    "C87_operators",
    "C87_texts_are_unambiguous",
    "C87_described_bases_are_built",
    "C87_only_described_bases_are_built",
    "C87_exceptions",
    "C87_different_trees_different_types",
    "C87_types_stand_for_one_basis",
    "C87_subspace_bases",
    "C87_interleaved_composites_refuted"
   ],
   "note": "Names of types for all trees; composites with layout interleaved refuted: accepted by Python, but no C++ basis."
  },
  {
   "property": "C88",
   "status": "partial",
   "theorems": [
    "C88_nodes_describe_the_view_partial",
    "C88_children_are_available",
    "C88_children_are_snapshots",
    "C88_stale_children_refuted"
   ],
   "note": "nodes obtained since the last bind; older ones are copies that keep the former element's numbers (refuted)"
  },
  {
   "property": "C89",
   "status": "partial",
   "theorems": [
    "C89_nested_subspaces_join",
    "C89_trivial_subspace",
    "C89_numbers_agree_partial",
    "C89_large_bases_refuted"
   ],
   "note": "numbers below 2^31 (refuted above); nested subspaces fully"
  },
  {
   "property": "C90",
   "status": "proved",
   "theorems": [
    "C90_hierarchical_lagrange",
    "C90_hierarchical_with_bubble",
    "C90_refined_lagrange",
    "C90_rannacher_turek",
    "C90_hat_is_linear_in_the_parts"
   ],
   "note": "For all coefficients, conforming simplex grids of dimension 1-3 and all points of shared faces. The shape functions are those of dune-localfunctions, written as formulas in SimplexFunctions_spec; examples on two triangles and on a triangle with a square."
  },
  {
   "property": "C91",
   "status": "proved",
   "theorems": [
    "C91_one_element_decides",
    "C91_depends_on_the_elements_of_the_dof",
    "C91_linear_in_the_dofs",
    "C91_linear",
    "C91_calls_for_different_dofs_commute",
    "C91_masks_join",
    "C91_mask_and_complement",
    "C91_boundary_values"
   ],
   "note": "8 theorems; hypotheses are those of C25 (call_ok); combined_functions relates the local coefficients computed by the finite element's own interpolation (dune-localfunctions)."
  },
  {
   "property": "C92",
   "status": "partial",
   "theorems": [
    "C92_views_follow_their_basis",
    "C92_updates_reach_views",
    "C92_views_need_their_basis",
    "C92_other_objects_do_not_matter",
    "C92_subspace_views",
    "C92_nested_subspaces",
    "C92_temporary_subspace_basis",
    "C92_spline_factories",
    "C92_assignment_refuted",
    "C92_temporary_subspace_basis_refuted",
    "C92_spline_factory_refuted"
   ],
   "note": "All programs and all nestings. The full claim fails for three uses: assigning a basis with another run-time order to the basis of a view leaves the old finite elements in the view (C92_assignment_refuted), tree() of a view of a destroyed (e.g. temporary) SubspaceBasis is undefined although bind works (C92_temporary_subspace_basis_refuted), and the factory returned by bSpline() refers to the caller's knot vector (C92_spline_factory_refuted). The positive theorems exclude exactly these."
  },
  {
   "property": "C93",
   "status": "proved",
   "theorems": [
    "C93_boundary_dofs_decide_traces",
    "C93_traces_decide_boundary_dofs",
    "C93_lagrange",
    "C93_hierarchical",
    "C93_refined",
    "C93_rannacher_turek",
    "C93_raviart_thomas",
    "C93_brezzi_douglas_marini",
    "C93_nedelec",
    "C93_boundary_values"
   ],
   "note": "General theorem for any basis whose shape functions have a trace only on the facets they belong to, the converse for nodal bases, and instances for Lagrange, hierarchical and refined Lagrange, Rannacher-Turek, Raviart-Thomas, Brezzi-Douglas-Marini and Nedelec bases; the Dirichlet idiom with masks. The trace contract of the finite elements is that of C63, C64, C65 and C90 (proved there for concrete shape functions)."
  },
  {
   "property": "C94",
   "status": "proved",
   "theorems": [
    "C94_grid_functions_are_interpolated",
    "C94_represented_functions_are_reproduced",
    "C94_interpolant_is_the_function",
    "C94_down_and_up_again",
    "C94_round_trip",
    "C94_prolongation_is_exact",
    "C94_linear_functions_are_nodal",
    "C94_affine_maps_keep_linear_functions"
   ],
   "note": "interpolation of any nesting of grid functions; exact transfer between nested grid views"
  },
  {
   "property": "C95",
   "status": "partial",
   "theorems": [
    "C95_dimension_counts_transformed_indices",
    "C95_merging_dimension_refuted"
   ],
   "note": "Proved for transformations that are one-to-one on the indices of the raw basis. Refuted for merging ones: GenericIndexingTransformation always reports the dimension of the wrapped pre-basis."
  },
  {
   "property": "C96",
   "status": "proved",
   "theorems": [
    "C96_hash_depends_on_digits_only",
    "C96_equal_keys_have_equal_hashes",
    "C96_conversion_to_the_static_type",
    "C96_hash_tables_are_maps"
   ],
   "note": "Hash of digits (Dune::hash_combine) is any function; the hash table of the standard library is modelled as an array of buckets without rehashing."
  },
  {
   "property": "C97",
   "status": "partial",
   "theorems": [
    "C97_evaluation_stays_in_range",
    "C97_constructed_bases",
    "C97_uniform_bases",
    "C97_few_knots_refuted"
   ],
   "note": "proved for open knot vectors and for at least order+2 knots; refuted for knot vectors with no more knots than the order (C97_few_knots_refuted), which the constructors accept"
  },
  {
   "property": "C98",
   "status": "proved",
   "theorems": [
    "C98_assign_value",
    "C98_marks",
    "C98_marks_iff_resizable",
    "C98_python_flags",
    "C98_dirichlet_values"
   ],
   "note": "C98_assign_value (operator= of the backend), C98_marks and C98_marks_iff_resizable (the marker container), C98_dirichlet_values (interpolation with it as mask), C98_python_flags (the array of the Python example, for bases with flat indices). The assignment operators of container types that accept a scalar are a contract (assignment_ok); Example C98_bitset shows that std::bitset does not meet it."
  },
  {
   "property": "C99",
   "status": "proved",
   "theorems": [
    "C99_boundary_value_problem",
    "C99_assembly",
    "C99_order_is_irrelevant",
    "C99_dirichlet",
    "C99_symmetric"
   ],
   "note": "C99_assembly (no access fails, pattern, entries, bilinear and linear form), C99_order_is_irrelevant, C99_dirichlet (solutions after elimination are those of the weak form with Dirichlet values), C99_boundary_value_problem (the same with the flags that forEachBoundaryDOF sets), C99_symmetric. In C99_dirichlet, Dirichlet DOFs have to belong to an element of the grid view; C99_boundary_value_problem shows this for boundary DOFs. dune-istl matrices are modelled by size, pattern and values; numbers are exact."
  },
  {
   "property": "C100",
   "status": "proved",
   "theorems": [
    "C100_no_aliasing",
    "C100_stokes_matrix",
    "C100_dirichlet_rows",
    "C100_solutions"
   ],
   "note": "C100_no_aliasing, C100_stokes_matrix (accesses succeed, entries), C100_dirichlet_rows and C100_solutions (rows of the identity). dune-istl matrices are modelled by stored blocks and values; the flags are a function of the index (see C98); Example C100_repeated_index is a periodic mesh with one cell."
  },
  {
   "property": "C101",
   "status": "proved",
   "theorems": [
    "C101_dg_assembly"
   ],
   "note": "C101_dg_assembly. dune-istl matrices are modelled by size, pattern and values; numbers are exact; index(i)[0] is modelled for indices with one digit."
  },
  {
   "property": "C102",
   "status": "proved",
   "theorems": [
    "C102_local_assemblers",
    "C102_poisson",
    "C102_energy",
    "C102_gradient_is_unique"
   ],
   "note": "local assemblers compute the quadratures; global system is the weak form of the Poisson equation; energy not negative; gradients of solutions unique. The number of shape functions of a leaf is the local size of the view"
  },
  {
   "property": "C103",
   "status": "proved",
   "theorems": [
    "C103_element_matrix",
    "C103_stokes"
   ],
   "note": "element matrix through the bound tree; global matrix with C100. The global theorem takes the element matrix of a new view bound to the element; C103_element_matrix holds for any view bound before"
  },
  {
   "property": "C104",
   "status": "proved",
   "theorems": [
    "C104_mixed_assemblers"
   ],
   "note": "element matrix and vector through the bound tree, for any view bound before"
  },
  {
   "property": "C105",
   "status": "partial",
   "theorems": [
    "C105_element_matrix_partial",
    "C105_transposed_system_is_consistent",
    "C105_consistency_refuted"
   ],
   "note": "The element matrix is computed without leaving it and is given for all data by C105_element_matrix_partial, with the derivative on the test function. Consistency is refuted for the matrix as written (C105_consistency_refuted) and proved for its transpose on a domain of one element. Consistency with neighbouring elements is C106."
  },
  {
   "property": "C106",
   "status": "partial",
   "theorems": [
    "C106_coupling_matrix",
    "C106_consistency_error",
    "C106_same_rules",
    "C106_residual",
    "C106_mesh_consistency_refuted"
   ],
   "note": "Coupling matrix proved for all data; at a continuous solution the assembled form is the source term plus two explicit errors: line 93 takes the derivative of the test function, and the two rules on an interior face differ; C106_residual says so for the residual of the assembled system. The claim without these errors is refuted by a mesh of two elements."
  }
 ]
}