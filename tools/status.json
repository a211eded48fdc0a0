{
"C01": [
"partial",
"The full claim is refuted (push_back ignores first_; the initializer_list constructor leaves first_ indeterminate). Proved: every history whose push_backs happen while the front is unrotated, in particular histories without front operations and histories without push_back."
],
"C02": [
"partial",
"Proved for all histories of push_back/pop_back/resize/clear/assign, the initializer_list constructor and operator==. push_front is refuted: it always fails an assert, and without asserts it overwrites the contents and does not grow."
],
"C03": [
"proved",
"all legal histories, all allocators; the three undefined cases are proved undefined"
],
"C04": [
"partial",
"Proved for every nesting in which BlockedInterleaved is applied to a basis without empty blocks. With an empty block size() is refuted (C04_blocked_interleaved_empty_block_refuted). Prefixes that are not prefixes of valid indices are out of scope."
],
"C05": [
"proved",
"For every well-formed nesting; the version counting admitted indices assumes that no block of the index tree is empty (an empty block is itself 'admitted' by size()==0)."
],
"C06": [
"proved",
"For every well-formed nesting and element."
],
"C07": [
"proved",
"For every well-formed nesting and pair of elements; also: each local index is exactly one DOF of exactly one leaf."
],
"C08": [
"proved",
"For every well-formed nesting without empty blocks; C08_index_tree_is_covered has no such condition."
],
"C09": [
"proved",
"For every well-formed nesting for which containerDescriptor() is well-formed C++ (the model returns None for instantiations that do not compile)."
],
"C10": [
"proved",
"Every history of a local view; an overflow of the reserved multi-index capacity would be None."
],
"C11": [
"proved",
"For every well-formed nesting and element."
],
"C12": [
"proved",
"For every tree, any previous state, any offset."
],
"C13": [
"proved",
"For every tree and every history."
],
"C14": [
"proved",
"For every history of bind, unbind and copy."
],
"C15": [
"proved",
"Every path, every nesting depth."
],
"C16": [
"partial",
"Proved for the flat interleaved variant. The hybrid variant is refuted: C16_hybrid_indices shows what it computes and C16_hybrid_refuted that all velocity components share their indices."
],
"C17": [
"proved",
"Any transformation; bijectivity is stated on the indices admitted by the transformation's size()."
],
"C18": [
"partial",
"Proved for every flat well-formed basis and every list of calls: which DOFs share an index (each DOF is unified with its largest smaller requested partner only), gap-freeness, size() and dimension() count these classes. The full claim (equivalence closure) holds if any two smaller partners of a DOF are requested as well (_partial theorems) and is refuted in general."
],
"C19": [
"partial",
"Refuted as soon as two different DOFs are unified: the descriptor is that of the raw basis. It is right exactly if nothing was unified."
],
"C20": [
"proved",
"Sibling offsets are C12, which covers restricted nodes."
],
"C21": [
"partial",
"resize() has no undefined behavior and returns normally exactly for compatible containers; then all blocks have the basis sizes, all indices name entries, distinct indices distinct ones. That every index gives a scalar is proved for entries of scalar or fixed-size type; refuted for deeper dynamic containers and for empty bases."
],
"C22": [
"partial",
"makeContainer proved for every descriptor and every basis; makeISTLVector proved except for arrays of length one holding a block vector, where it is refuted (CTAD copy deduction drops a level)."
],
"C23": [
"proved",
"Digits then zeros, write/read-back, static indices, rejection of bad digits without tuples. Out-of-range digits of tuples are accepted by the code (C23_tuple_digit_out_of_range_refuted)."
],
"C24": [
"partial",
"Proved for scalars, vectors and matrices of scalars, and nested arrays of those of static size; refuted for vectors of blocks (not flattened) and arrays of dynamic vectors (do not compile)."
],
"C25": [
"proved",
"For every basis nesting, subspace, container with fixed-size entries, mask and element order; local interpolation values are parameters."
],
"C26": [
"proved",
"Values and derivatives are the coefficient-weighted sums for every history of new/bind/unbind/copy/assign/derivative/coefficient updates. derivative() rereads the coefficient vector, so it has the coefficients current at the call (same as the origin's unless changed since its bind). A scalar range for several leaves is excluded (each leaf overwrites it). Assignment is modelled with nodes holding elements by value; see C51 for the aliasing in the code."
],
"C27": [
"proved",
"faceOrientations: depends on the relative order of the ids only (any element, any dimension); facets of 3-D elements and edges in 2-D/3-D: the index is one of the documented ones and takes the local numbering to the documented global one; two elements sharing a facet agree."
],
"C28": [
"proved",
"All orders the constructor accepts (3-D: at most 17), dimensions 1-3, mixed element types. Grid, mapper, reference element and local keys enter as contracts (Mapper_spec, Lagrange_spec). Also: the Lagrange leaf satisfies the contract of a leaf basis and indices are distinct within an element."
],
"C29": [
"proved",
"Layout totals equal the number of Lagrange lattice points for simplices and cubes of every dimension and order, prisms of every order, pyramids up to order 2 (the pre-basis constructor rejects higher orders, where the layout is shown to be too small); per-subentity interior counts; maxNodeSize bound for every type. The subentity types of reference elements (dune-geometry) are modelled by their recursion."
],
"C30": [
"proved",
"Indices of mapper-based leaf bases for every grid, layout and key assignment meeting the written contracts; MCMGMapper is external and enters as the contract mapper_ok."
],
"C31": [
"proved",
"LagrangeDG on every (mixed) grid of dimension 1 to 3 and every order; also proves that the closed-form layouts equal the lattice counts."
],
"C32": [
"proved",
"any host satisfying the mapper/reference-element contract, any insertion history; closed form of the state"
],
"C33": [
"proved",
"element iterator, intersection iterator, interface, skeleton; an element without any intersection makes the iterator undefined (refutation theorem)"
],
"C34": [
"proved",
"any basis expression (and subspace bases), any history of bindings; reference element inclusion and local keys are parameters"
],
"C35": [
"partial",
"Proved for every dimension and order and every knot vector with one grid element per non-empty knot span, which both constructors guarantee when knots are not repeated. C35_repeated_knot_refuted: with a repeated knot the constructor counts an element for the empty span and binding to the last element reads past the knot vector."
],
"C36": [
"partial",
"Proved completely in 1-D. In 2-D with at least two functions per direction: unique, on the right subentity, consecutive on vertices and edges; interior indices have gaps exactly when there are two or more interior rows of interior functions (C36_consecutive_refuted, base sizes-1 instead of sizes-2). Duplicate keys for a direction with a single function and in 3-D (documented as not implemented)."
],
"C37": [
"proved",
"Any dimension, orders, knot vectors with one element per non-empty span; partition of unity for open knot vectors at every real point, nonnegativity on the closed element, equality with Cox-de Boor on the half-open element."
],
"C38": [
"proved",
"evaluateJacobian, evaluate of order one and two, in local coordinates, at every point."
],
"C39": [
"proved",
"All coefficient lists; exact reals."
],
"C40": [
"proved",
"All orders, all points; dimensions 1, 2, 3 as in the code."
],
"C41": [
"proved",
"All integer factors; exact reals."
],
"C42": [
"partial",
"Proved for fineElement, global and local after every history of constructions, binds and copies. coarseElement is proved for bound objects and for copies whose coarse element is the fine element; refuted for the other copies (copy constructors point coarseElementPtr_ at storedFineElement_)."
],
"C43": [
"partial",
"Zero set, tolerance test and attainment for every topology and dimension; equality with the l1-distance for all products of a simplex and a cube (in 3-D everything but the pyramid); refuted for the 3-D pyramid."
],
"C44": [
"proved",
"All grids, depths and points, with the child chosen at each level a minimiser of the distance function."
],
"C45": [
"proved",
"Every polytope given by facet centers and normals and every point inside; first minimiser also for points outside."
],
"C46": [
"proved",
"RT and BDM maps modelled with truncating byte stores; element-is-own-neighbour and single-prism-type cases refuted"
],
"C47": [
"proved",
"Nedelec map (order 1) and computeEdgeOrientations"
],
"C48": [
"proved",
"round trips, fluxes, tangential components, Jacobians (affine; the documented non-affine restriction is refuted), partial(), interpolation"
],
"C49": [
"partial",
"bind/unbind/bound/localContext and values after every history for all grid functions; the derivative of an unbound coarse-on-fine local function is refuted (dereferences an empty optional)."
],
"C50": [
"proved",
""
],
"C51": [
"partial",
"Proved for every history as long as the view was not assigned from another view since its last bind (copy construction is fine). Refuted for copy assignment: the implicit memberwise assignment copies pointers into the right hand side, so rebinding, unbinding or destroying it changes or invalidates the tree of the left hand side."
],
"C52": [
"proved",
"exact reals; affine simplex geometry and positive mesh sizes are hypotheses; all dimensions the code supports"
],
"C53": [
"partial",
"All parts proved, except the last, which is refuted: update() recomputes the edge orientations with the mapper of the old grid view (C53_update_refuted; views are modelled as values, so the finding concerns updates to a different grid view or views that do not follow grid changes)."
],
"C54": [
"proved",
"exact reals; affine geometries; the grid view and its vertex mapper enter as the contract triangle_view"
],
"C55": [
"proved",
"volumes are positive reals; the mapper enters as the contract mapper_ok"
],
"C56": [
"partial",
"Local basis proved for finite elements never assigned to, interpolation for those bound themselves since (all for Morley). Refuted otherwise: copied Hermite and Argyris interpolations keep a pointer to the mesh sizes of the original, and assignment copies the pointer of the local basis, which no later bind repairs."
],
"C57": [
"partial",
"The number of shape functions per subentity is external (dune-localfunctions) and enters as the standard count (Families_spec). Proved for all bases but second order Brezzi-Douglas-Marini, which is refuted: dofLayout() reserves dim*(k-1)*3 = 6 indices per element for 3 (triangle) or 2 (quadrilateral) interior functions, so dimension() is too large and indices are unused (C57_bdm2_refuted; what remains: C57_bdm2_partial). For lowest order Raviart-Thomas on pyramids the layout expects one interior function."
],
"C58": [
"partial",
"update equals fresh construction after any history for all bases but Taylor-Hood, Morley and periodic ones (C58_update); for the first two sizes and indices are up to date (C58_numbering_partial); the refuted theorems show what stays stale"
],
"C59": [
"partial",
"proved in two and three dimensions; the one-dimensional Hermite element is refuted"
],
"C60": [
"partial",
"Proved for every program that keeps a grid function alive and unchanged while local functions referring to it are used (C60_safe, C60_independent). That every local function outlives its grid function is refuted: composed functions, transferred functions, temporaries passed as vectors."
],
"C61": [
"partial",
"proved for points where the elements agree on the value; at other points refuted (C61_discontinuous_refuted), functions containing a face normal function cannot be evaluated globally (C61_no_global_face_normals)"
],
"C62": [
"partial",
"proved, but the documented copying of the callables is refuted for l-values (C62_copying_refuted)"
],
"C63": [
"proved",
"Contracts: of the grid (shared faces have the same vertices, ids_ok and faces_ok) and of the shape functions (shapes_ok), the latter proved for the products of one-dimensional factors on lines, triangles, quadrilaterals, tetrahedra, hexahedra and prisms of every order; for pyramids it is a hypothesis. A leaf switched off in one of the elements by a restricted basis is excluded (the function is zero there)."
],
"C64": [
"partial",
"Proved for all orders and element types that the code supports in two dimensions and for lowest order in three, for any finite elements with the stated facet fluxes (lowest order: explicit shape functions of triangles, quadrilaterals, tetrahedra, hexahedra, prisms). Refuted for order one on hexahedra."
],
"C65": [
"proved",
"For any finite elements whose functions have the stated tangential components on faces; the lowest-order functions (the only ones the code admits) are given explicitly for triangles, squares, tetrahedra and hexahedra and shown to have them. The geometry map is the grid's (contract: affine-consistent tangents at common points)."
],
"C66": [
"proved",
"for finite elements whose degrees of freedom are dual to their shape functions (hypothesis dual, met by the cubic Hermite example) and scalar coefficients"
],
"C67": [
"proved",
"local interpolation and shape functions of dune-localfunctions by their contract (values in the Lagrange points, Lagrange property); the latter proved for the product shape functions of C63"
],
"C68": [
"proved",
"For the values, Jacobians and first and second partial derivatives the code computes (model of C35-C38), in exact arithmetic; higher derivatives are not provided by the code. Knot vectors with one element per non-empty span as in C35."
],
"C69": [
"proved",
"exact real arithmetic; finite elements enter through the contract of independent shape functions, which is derived from duality and from the Lagrange property"
],
"C70": [
"proved",
"exact real arithmetic; knot spans shorter than the tolerance of the code count as empty"
],
"C71": [
"proved",
"exact real arithmetic; stated for knot vectors whose elements all have order+1 functions per direction (shown for open ones); the refuted theorem is about makeOpen = false"
],
"C72": [
"partial",
"Proved for transformed bases in full; for periodic bases in full with 'unified' as the code defines it (only the request to the largest smaller partner of a DOF is honoured, C18); with the equivalence closure of all requests only if partners_requested, since C18 is refuted otherwise."
],
"C73": [
"proved",
"Source and target may have different trees, indices and ranges. The contract of local finite elements (duality) is a hypothesis, as in C66; the example interpolates continuous into discontinuous linear functions."
],
"C74": [
"proved",
"For flat raw bases (those that periodic() supports); 0 < dimension, since resizing a vector to size 0 throws (C21). Which requests are honoured is C18."
],
"C75": [
"proved",
"Any number of threads, programs and schedules. Operations: construction, bind, unbind, evaluation, copy, derivative, writing coefficients. Assignment of local functions is left out (C51). Evaluating the same object in two threads, or copying it meanwhile, is refuted to be safe."
],
"C76": [
"proved",
"Exceptions at any call into foreign code (construction of the local function, bind, local interpolation), depending on the history. Exceptions thrown by resize() itself are reported (Refused) but the container they leave is not modelled. Containers whose entries are solid as in C25."
],
"C77": [
"partial",
"Finite elements that were themselves bound, whatever the history. The claim for copies of bound finite elements is refuted."
],
"C78": [
"proved",
"Values and derivatives for arbitrary histories; interpolation by components under the agreement hypothesis of C25."
],
"C79": [
"proved",
"C79_chain_rule for arbitrary differentiable geometries, C79_gradient for affine ones; contracts of finite elements and geometries in derivatives_ok"
],
"C80": [
"proved",
"one theorem per basis; the finite elements are those the pre-basis' node binds (construct, node_bind), the leaf may sit anywhere in a tree of bases"
],
"C81": [
"proved",
"General reproduction theorem for any basis with agreeing local interpolations; nodal agreement and polynomial reproduction for Argyris, Morley and (reduced) cubic Hermite."
],
"C82": [
"proved",
"For all element types and orders with a finite element; the local interpolations of dune-localfunctions enter by their contract, met in the examples by midpoint evaluation of lowest order."
],
"C83": [
"partial",
"Proved for arrays of double, bool and int, including rejection of everything that does not fit; false for arrays of other types, which are silently left unchanged (C83_arrays_of_other_types_refuted)."
],
"C84": [
"partial",
"Proved for all histories over flat bases and arrays of the right length; false for bases with blocks and arrays that are too short, which the code does not reject."
],
"C85": [
"partial",
"Proved for all histories of the methods that have a keep_alive; false for tree(), finiteElement(), element(), the gridView property and its setter, and GridViewFunction(f)."
],
"C86": [
"partial",
"Proved for all histories without unbind() and f.basis, which leak (refuted)."
],
"C87": [
"partial",
"Names of types for all trees; composites with layout interleaved refuted: accepted by Python, but no C++ basis."
],
"C88": [
"partial",
"nodes obtained since the last bind; older ones are copies that keep the former element's numbers (refuted)"
],
"C89": [
"partial",
"numbers below 2^31 (refuted above); nested subspaces fully"
],
"C90": [
"proved",
"For all coefficients, conforming simplex grids of dimension 1-3 and all points of shared faces. The shape functions are those of dune-localfunctions, written as formulas in SimplexFunctions_spec; examples on two triangles and on a triangle with a square."
],
"C91": [
"proved",
"8 theorems; hypotheses are those of C25 (call_ok); combined_functions relates the local coefficients computed by the finite element's own interpolation (dune-localfunctions)."
],
"C92": [
"partial",
"All programs and all nestings. The full claim fails for three uses: assigning a basis with another run-time order to the basis of a view leaves the old finite elements in the view (C92_assignment_refuted), tree() of a view of a destroyed (e.g. temporary) SubspaceBasis is undefined although bind works (C92_temporary_subspace_basis_refuted), and the factory returned by bSpline() refers to the caller's knot vector (C92_spline_factory_refuted). The positive theorems exclude exactly these."
],
"C93": [
"proved",
"General theorem for any basis whose shape functions have a trace only on the facets they belong to, the converse for nodal bases, and instances for Lagrange, hierarchical and refined Lagrange, Rannacher-Turek, Raviart-Thomas, Brezzi-Douglas-Marini and Nedelec bases; the Dirichlet idiom with masks. The trace contract of the finite elements is that of C63, C64, C65 and C90 (proved there for concrete shape functions)."
],
"C94": [
"proved",
"interpolation of any nesting of grid functions; exact transfer between nested grid views"
],
"C95": [
"partial",
"Proved for transformations that are one-to-one on the indices of the raw basis. Refuted for merging ones: GenericIndexingTransformation always reports the dimension of the wrapped pre-basis."
],
"C96": [
"proved",
"Hash of digits (Dune::hash_combine) is any function; the hash table of the standard library is modelled as an array of buckets without rehashing."
],
"C97": [
"partial",
"proved for open knot vectors and for at least order+2 knots; refuted for knot vectors with no more knots than the order (C97_few_knots_refuted), which the constructors accept"
],
"C98": [
"proved",
"C98_assign_value (operator= of the backend), C98_marks and C98_marks_iff_resizable (the marker container), C98_dirichlet_values (interpolation with it as mask), C98_python_flags (the array of the Python example, for bases with flat indices). The assignment operators of container types that accept a scalar are a contract (assignment_ok); Example C98_bitset shows that std::bitset does not meet it."
],
"C99": [
"proved",
"C99_assembly (no access fails, pattern, entries, bilinear and linear form), C99_order_is_irrelevant, C99_dirichlet (solutions after elimination are those of the weak form with Dirichlet values), C99_boundary_value_problem (the same with the flags that forEachBoundaryDOF sets), C99_symmetric. In C99_dirichlet, Dirichlet DOFs have to belong to an element of the grid view; C99_boundary_value_problem shows this for boundary DOFs. dune-istl matrices are modelled by size, pattern and values; numbers are exact."
],
"C100": [
"proved",
"C100_no_aliasing, C100_stokes_matrix (accesses succeed, entries), C100_dirichlet_rows and C100_solutions (rows of the identity). dune-istl matrices are modelled by stored blocks and values; the flags are a function of the index (see C98); Example C100_repeated_index is a periodic mesh with one cell."
],
"C101": [
"proved",
"C101_dg_assembly. dune-istl matrices are modelled by size, pattern and values; numbers are exact; index(i)[0] is modelled for indices with one digit."
],
"C102": [
"proved",
"local assemblers compute the quadratures; global system is the weak form of the Poisson equation; energy not negative; gradients of solutions unique. The number of shape functions of a leaf is the local size of the view"
],
"C103": [
"proved",
"element matrix through the bound tree; global matrix with C100. The global theorem takes the element matrix of a new view bound to the element; C103_element_matrix holds for any view bound before"
],
"C104": [
"proved",
"element matrix and vector through the bound tree, for any view bound before"
],
"C105": [
"partial",
"The element matrix is computed without leaving it and is given for all data by C105_element_matrix_partial, with the derivative on the test function. Consistency is refuted for the matrix as written (C105_consistency_refuted) and proved for its transpose on a domain of one element. Consistency with neighbouring elements is C106."
],
"C106": [
"partial",
"Coupling matrix proved for all data; at a continuous solution the assembled form is the source term plus two explicit errors: line 93 takes the derivative of the test function, and the two rules on an interior face differ; C106_residual says so for the residual of the assembled system. The claim without these errors is refuted by a mesh of two elements."
]
}