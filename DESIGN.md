# Formal model of dune-functions in Rocq (Coq 8.16.1)

## Layout

* `properties.jsonl`: the properties.
* `rocq/theories/<Topic>_model.v`: the model. Each definition cites the file and lines in /repo it models and says what it simplifies.
* `rocq/theories/<Topic>_spec.v`: small, separate specification (mathematical objects only, no model helper), where the statement needs one.
* `rocq/theories/<Topic>_proofs.v` and others: lemmas.
* `rocq/theories/<Topic>_props.v`: the property theorems `Cnn_...`, each with an `Example` that meets its hypotheses, and `Print Assumptions`.
* `MANIFEST.json`: property -> theorems (generated by `tools/gen_manifest.py`).
* `seeded/LOG.jsonl`: wrong-program experiments (`tools/mutate.py` edits a scratch copy of the model, rebuilds everything that depends on it and records which theorems fail).

## Modelling conventions

* `std::size_t` is `nat` (no wrap-around: index counts of a grid in memory do not reach 2^64); where wrap-around or bit width matters (orientation bytes) it is modelled with explicit truncation.
* Exceptions, failing `assert`s, out-of-range accesses, division by zero, null and dangling dereferences are outcomes of their own (`None` or a named constructor), never a default value.
* Real arithmetic is exact (`R` of the standard library) unless a property is about the tolerance constants the code uses; those constants are then part of the model. Rounding is not modelled.
* Where aliasing matters (local views, copied finite elements, geometries in ancestors, type-erased objects) the model has explicit objects and pointers between them; elsewhere values are copied.
* External components (dune-grid, dune-geometry, dune-localfunctions, dune-typetree, dune-istl) are parameters with explicitly stated contracts: records in the `_spec.v` files, hypotheses of the theorems and never axioms. `Example`s build grids, mappers and keys that satisfy them.
* If the claimed property is false of the faithful model we prove `..._refuted` with a witness (or for all instances) and, separately, the strongest guarded version we can (`..._partial`).

## Property by property

| Id | What is modelled | How it is proved | Outcome |
|----|----|----|----|
| C01 | ReservedDeque as (data, first, size) on a ring of n cells, every operation as written | refinement to `list` by induction over histories | push_back refuted after front operations; initializer_list constructor refuted |
| C02 | OverflowArray as (base, overflow, size) | refinement to `list` by induction over histories | push_front refuted, rest proved |
| C03 | PolymorphicSmallObject handles over an explicit heap/buffer store with object lifetimes and throwing copies | invariant by induction over histories, all allocators | proved; copying an empty object, self-move and throwing copy assignment shown undefined |
| C04-C11 | pre-basis combinators (leaf, power with 4 strategies, dynamic power, composite, restricted, Taylor-Hood, transformed) writing into an index buffer; `size`, `dimension`, `maxNodeSize`, `indices`, `containerDescriptor` as written | structural induction over basis expressions against an abstract index tree (`Basis_spec.meaning`) | proved for every nesting; `size` of BlockedInterleaved with an empty block refuted |
| C12-C14 | node trees with offset/size/treeIndex, `bindTree`, `initializeTree`, the local view as a state machine | induction over trees and histories | proved |
| C15 | subspace basis and local view | equational, every path and depth | proved |
| C16 | Taylor-Hood `indicesImp`/`sizeImp`, both variants | equality with the composite/power construction | hybrid variant refuted |
| C17 | TransformedIndexPreBasis with arbitrary callbacks; stacks of callback transformations | equational + transport of bijection; induction over the stack | proved |
| C18-C19 | the constructor loop of the periodic basis over the ordered pair set; its descriptor | loop invariant | exact characterization; equivalence closure and descriptor refuted in general |
| C20 | binding of restricted nodes | induction over trees | proved |
| C21-C23 | nested containers as a type-indexed tree, ISTL `resize`, `operator[]`, `makeContainer`, `makeISTLVector`, `resolveStaticMultiIndex` | mutual induction on container type and index tree | proved up to the refuted cases named in MANIFEST.json |
| C24 | flatVectorView as nested div/mod access | induction over nesting | vectors of blocks and arrays of dynamic vectors refuted |
| C25 | element loop of `interpolate` on top of the basis and container models | invariant over the element list; commutation under consistency | proved |
| C26 | DiscreteGlobalBasisFunction, its local functions and derivatives, on the basis model | induction over trees and histories | proved |
| C27-C28 | FaceOrientations bit computations, permutation tables for each order, the Lagrange pre-basis' index computation | case analysis on vertex order; arithmetic for all orders | proved |
| C29 | dofLayout/maxNodeSize counts on reference elements given by their recursion | binomial identities by induction on dimension and order | proved |
| C30-C31 | mapper-based leaf numbering, LagrangeDG | arithmetic of block offsets under the mapper contract | proved |
| C32-C33 | SubDomainIndexSet insertion, filtered element and intersection iterators | invariant by induction over insertion histories and iterator steps | proved; an element without intersections refuted |
| C34 | SubEntityDOFs table, forEachBoundaryDOF | loop invariant | proved |
| C35-C38 | B-spline index arithmetic, local keys, Cox-de Boor table, Jacobian, second derivatives, tensor product | induction on the order over R; `derivable_pt_lim` | proved for knot vectors with one element per non-empty span; repeated knots, local keys in 2-D/3-D refuted |
| C39-C41 | Polynomial, MonomialSet, trigonometric functions | induction; `derivable_pt_lim` | proved |
| C42-C45 | geometry in ancestor (with pointer semantics of copies), reference element distance, closest descendant, closest facet | induction over levels/dimension/lists | coarseElement of copies and 3-D pyramid distance refuted |
| C46-C48 | orientation bytes of RT/BDM/Nedelec, Piola maps, GlobalValuedLocalFiniteElement | case analysis, bit arithmetic, linear algebra over R | proved; self-neighbours, single prism type, non-affine Jacobian refuted |
| C49-C50 | state machines of the local functions of all grid functions; HierarchicNodeToRangeMap | induction over histories / trees | derivative of an unbound coarse-on-fine function refuted |
| C51 | local views with the pointer structure of their nodes (who points to whose element storage) | invariant by induction over histories of new/bind/unbind/copy/assign/destroy | assignment refuted |
| C52 | cubic Hermite (1-D, 2-D, 3-D, reduced): reference basis by its coefficient matrices, transformation, interpolation, layout, keys | exact rational linear algebra checked by the kernel, linear algebra over R for arbitrary simplices | proved |
| C53 | Morley: reference basis, transformation with orientations, interpolation, layout, keys, update | as C52; common edges from the orientation model (C47) | update refuted |
| C54 | Argyris: reference basis, transformation with mesh sizes and orientations, interpolation, layout, keys, update | as C53; traces on edges as polynomials of degree 5 and 4 | proved |
| C55 | computeAverageSubEntityMeshSize | loop invariant over elements and subentities | proved |
| C56 | the pointer structure of copied and assigned transformed finite elements | invariant by induction over histories | copied Hermite/Argyris interpolation and assignment refuted |
| C57 | DOF layouts of RT, BDM, Nedelec, hierarchical Lagrange (with bubble), refined Lagrange; Rannacher-Turek indices | counts against polynomial spaces, C30 | second order BDM refuted |
| C58 | construction, initializeIndices and update of every class of pre-basis and of nestings; grid views are handles whose content changes with the grid | induction over histories and over the nesting; the update loops do not depend on old contents | Taylor-Hood gridView(), Morley, periodic, atomicity refuted |
| C59 | FunctionalDescriptor, its constructors and the overload picked by a braced list; the descriptor tables of Hermite, Morley, Argyris elements | interpolate() of the C52–C54 models is compared entry by entry with the iterated directional derivatives the descriptor names | one-dimensional Hermite refuted |
| C60 | grid functions as objects in a memory, the references their local functions keep, copying, assignment, type erasure, derivative, destruction (Lifetime_model.v on top of LocalFunction_model.v) | a program on values (Lifetime_spec.v) is refined by the program on objects: cells owned by the variables are disjoint, every reference of a local function points to a live cell of its variable | moves and std::ref not modelled; composed and most transferred functions refuted |
| C61 | operator() of all grid functions, on values of grid functions (GlobalEval_model.v); HierarchicSearch and geometry().local are parameters | induction over the nesting; contracts: elements are unions of their children with matching coordinates, the search finds an element containing the point | 
| C62 | function objects made of callables, type-erased functions, the variables of the user and programs on them (Callables_model.v); derivative range types | refinement to a program on sequences of callables (Callables_spec.v), induction over programs; induction over the order for the range types | 
| C63 | Lagrange basis (C28's model) and discrete functions (C26's model); shape functions of dune-localfunctions as products of one-dimensional factors over the sides of the reference element (Conforming_spec.v), or any that keep the contract `shapes_ok` | the shape functions of a face determine each other from both sides by the weights of the vertices (symmetry of edges, triangles, quadrilaterals), local numbers by C28, coefficients by C07; reference elements by a verified checker |
| C64 | orientation bits (C46's model), numbering (C57's), Piola transform (C48's), discrete functions (C26's); the finite elements by the flux of their functions through facets (`fluxes_ok`), for lowest order explicitly | a function with flux through the common facet has a partner on the other side with the same number; signs by C46, fluxes by C48; hexahedra of order one refuted: two gluings that differ by a quarter turn force all facet functions to be constant |
| C65 | edge bits (C47's model), numbering (C57's), covariant Piola transform (C48's), discrete functions (C26's); the finite elements by the tangential components of their functions on faces (`edge_functions_ok`), for lowest order explicitly | an edge function of a face depends only on the weights of the face's vertices and the direction of the edge; both sides have the same weights, and by C47 the same direction; the Piola transform keeps tangential components |
| C66 | interpolate() for discrete functions with the cached derivative (CachedDerivativeLocalFunction) and the component function, on top of C25's and C26's models; finite elements by the contract that their degrees of freedom are dual to the shape functions (`dual`) | by C26 the bound local function and its derivative are the combinations of shape functions, so `dual` makes every leaf write the function's own coefficients; simulation by C25's model with these values, also when the source reads the vector that is written |
| C67 | interpolate() (C25's model), Lagrange numbering (C28's), discrete functions (C26's); Lagrange points by their vertex weights (`nodes_ok`), functions that agree on shared faces (`single_valued`) | by C28 equal numbers mean equal vertex weights, hence the same location on a shared face; so elements agree (C25's hypothesis), values and order independence follow; functions of the position are single valued because a point of a face only depends on the weights of its vertices; shape functions are 1 or 0 in the Lagrange points because some factor vanishes unless all coordinates agree |
| C68 | B-spline evaluation and numbering (C35-C38's model) | two pieces at a common knot of multiplicity m: the tables of order m are the same unit vector (induction on the order from both sides), higher orders and derivatives follow by the recursion; sums over the functions of an element are sums over all functions because inactive ones vanish |
| C69 | discrete functions over basis trees (C26's model) | the difference of two functions on an element is a combination of shape functions with the differences of the coefficients; independence makes these zero; every index of the basis belongs to a leaf on some element (C07) |
| C70 | B-spline evaluation and numbering (C35-C38's model) | one direction: differentiating a vanishing combination gives one of order p-1 with the differences of the coefficients, so by induction all coefficients agree, and either one of them is zero at a boundary without open knots or the partition of unity makes them zero; tensor products by induction over the directions |
| C71 | the same | Marsden's identity by induction on the order; comparing coefficients of y gives the powers of x, tensor products the monomials |
| C72 | `DiscreteFunction_model.v` with the basis replaced by `transformed_pb` / `periodic_pb` | simulation between local functions over both bases for every program; for periodic bases the numbering of C18 and a representative of each class |
| C73 | `Projection_model.v` with a source that has another basis than the target | the loop with cached local functions of the source does what the loop of C25 does with the local coefficients; duality for functions in both spaces |
| C74 | `Interpolate_model.v`, `Projection_model.v` over `transformed_pb` / `periodic_pb` | the loop over a transformed basis is a sequence of writes to the images of the raw indices; numbering of C18; C73 for the reproduction |
| C75 | the memory accesses of the operations on local functions, one at a time, of any number of threads under any schedule (`Threads_model.v`) | each operation accesses its own cells and the coefficients of its element only and has C26's result; threads with separate cells keep the invariant of running alone | evaluating one object in two threads refuted |
| C76 | interpolate() with exceptions from the function, bind or allocation at any call (`Interrupt_model.v`) | an interrupted run is a prefix of the writes of C25; resizing again is the identity; writes forget what they overwrite | atomicity refuted |
| C77 | finite elements of the B-spline basis as objects with addresses (`BSplineCopies_model.v`) | invariant over histories: localBasis_ refers to its own finite element | copies of bound finite elements refuted |
| C78 | DiscreteFunction_model.v, Interpolate_model.v and Basis_model.v, with the whole function at a path and the subspace function at the path extended by `q`; Components_props.v states what makes one the component of the other (`component_of`, `covers`, `interpolate_each`) | Values and derivatives: both are weighted sums (C26) over the same leaf node, so the entries agree. Interpolation: the effect of each call is characterised entry by entry, an induction over the components gives the effect of all of them, and shared degrees of freedom get one value. | proved |
| C79 | DiscreteFunction_model.v (evaluation of values and of derivatives); Derivative_spec.v states that the finite elements' Jacobians are derivatives and that jacobianInverse belongs to the geometry (`derivatives_ok`) | Values and derivatives are weighted sums (C26); the derivative along a line is the sum of the derivatives of the shape functions, and the inverse Jacobian applied to the velocity of the image gives back the local direction. | proved |
| C80 | Argyris_model.v, Morley_model.v, Hermite_model.v with HermiteBasis_model.v, Mapper_model.v, DiscreteFunction_model.v; NodalFunctions_spec.v states which finite element a leaf uses | The restriction of the discrete function to an element is a polynomial with a gradient and with the coefficients the element reads from the vector (NodalFunctions_proofs.v, the inverse of the geometry in Nodal_inverse.v). The conformity theorems C52, C53, C54 and the shared indices of common subentities then give the agreement. | proved |
| C81 | Interpolate_model.v, DiscreteFunction_model.v, Argyris_model.v, Morley_model.v, Hermite_model.v with HermiteBasis_model.v, Mapper_model.v; Reproduction_spec.v says when local interpolations agree on shared degrees of freedom and when a function belongs to the space element by element | Local interpolations of neighbours agree (same vertex positions, same oriented normals, same mesh sizes), so each coefficient is the one of every element that reads it, whatever the order of the elements (C25). C52, C53, C54 turn the coefficients into values and derivatives. Reproduction_p1.v and the examples in ArgyrisInterpolation_props.v, MorleyInterpolation_props.v and HermiteInterpolation_props.v meet the hypotheses on two triangles. | proved |
| C82 | Interpolate_model.v, DiscreteFunction_model.v, Piola_model.v (`gv_interpolate`), Orientation_model.v, Families_model.v; DofPreservation_spec.v has the contract of the local interpolations of dune-localfunctions (moments of the normal component with the sign of the bit, averages along edges, duality) and of the geometry (common facets have opposite area vectors, common edges the same or opposite edge vectors) | The pulled back field has the flux density of the field (C48), neighbours have opposite bits (C46) or bits that fit the common edge (C47), so they write the same coefficient; duality turns the coefficients back into moments. HDivInterpolation_examples.v and HCurlInterpolation_examples.v meet the hypotheses on a triangle and a quadrilateral for every field. | proved |
| C83 | PyArrays_model.v: numpy arrays (type, shape, writeable, entries) on a heap, pybind11's choice of overload, interpolate.hh on top of Interpolate_model.v with the array as container without resize | Size test and C21 show that resize changes nothing for flat bases and throws for others; C25 gives the entries. For element types other than double, bool and int the call returns without having changed the array | partial: `C83_arrays_of_other_types_refuted` |
| C84 | PyArrays_model.v: HierarchicVectorWrapper over a Python vector, histories with assignments to the array on top of DiscreteFunction_model.v; PyArrays_spec.v has the histories as a user sees them | Histories are mapped to histories of C26 whose coefficients are those of the array at each time; for flat bases the access is x[k]. With blocks all functions of a block share an entry, and the length is not checked | partial: `C84_blocks_share_coefficients_refuted`, `C84_short_arrays_refuted` |
| C85 | PyLifetime_model.v: objects with reference counts, keep_alive edges, the references of their C++ parts, and freeing by sweeping objects of count zero; one operation per method of the bindings | Invariant: what a living object owns is alive, and whatever its C++ part refers to is reached through keep_alive edges. Six methods lack a keep_alive and are excluded; each has a history that leaves a dangling object | partial: `C85_*_refuted` |
| C86 | as C85 | Sweeping reaches a state in which every living object has a positive count (the number of living objects decreases); keep_alive edges point to older objects and nothing owns a local view, so counts lead back to a variable. unbind() and f.basis leak | partial: `C86_unbind_refuted`, `C86_function_basis_refuted` |
| C87 | python/dune/functions/{tree,globalbasis,subspacebasis}.py as functions on strings; spec: cutting a text into words, brackets and commas, and which basis a C++ type stands for | induction over trees; unambiguity by induction over types | composites with layout "interleaved" get a type that stands for no basis (refuted) |
| C88 | PyView_model: nodes handed to Python are the tree of the view or deep copies of children (tree.hh, globalbasis.hh) | invariant over histories: each variable is tracked by its path and by whether a bind came after it | partial: nodes obtained since the last bind; refuted for older ones |
| C89 | PyView_model: numbers converted to int; subspace bases of subspace bases as nested views | induction over the nesting; C06, C11 and C14 for the numbers | partial: numbers below 2^31; refuted above |
| C90 | Families_model (layouts and indices of the four bases) with the shape functions of dune-localfunctions as formulas in SimplexFunctions_spec (products of barycentric coordinates; piecewise linear functions of the refined triangle; unit values in facet centers) | the trace of a shape function on a face depends only on the weights of the vertices of its subentity, or is zero if the subentity is not part of the face; with C57 both sides have the same indices | proved |
| C91 | the model of interpolate() of C25, unchanged, for arbitrary value types | naturality of every model function in the value type (a run with symbolic values, evaluated afterwards) gives locality and linearity; the run as a list of writes that is the same for every mask gives the mask theorems | proved |
| C92 | BasisLifetime_model: memory cells for bases, views, subspace bases, knot vectors and factories; trees as made by makeNode with the pointers into the pre-basis (address and position) or the values they hold; all calls as steps; objects and update of Update_model | invariants of all programs: pointers of a view go to its basis, its tree is the one the current pre-basis would make (depends only on the kind of the pre-basis, which update keeps); reading through the pointers gives the nodes of Basis_model | proved except for three refuted uses (assignment of another kind, temporary subspace basis, temporary knot vector) |
| C93 | SubEntityDOFs_model (forEachBoundaryDOF), DiscreteFunction_model, Interpolate_model; traces as weighted sums of the entries of a value (value, normal or tangential component); contracts of shape functions from C63, C64, C65, C90 | the indices that forEachBoundaryDOF visits are those of local DOFs that belong to a boundary facet or its subentities (C34); all other shape functions have no trace there; conversely evaluate in the node; masks by C91 | proved |
| C94 | GridInterp_model: interpolate.hh 107-260 with the local functions of LocalFunction_model (any nesting of analytic, discrete, normal, composed, coarse-on-fine and fine-on-coarse functions), evaluations thread the state of the local function | simulation by the C25 model; the value of a bound local function depends on the element only; located points lie in the coarse element they came from; nodal bases reproduce spaces preserved by geometryInFather; linear functions on simplices of any dimension | proved; that polynomials of higher degree are determined by their nodes is a hypothesis (contract of dune-localfunctions) |
| C95 | GenericIndexingTransformation, indexTransformation, transformIndices as factories; stacks as an inductive relation (GenericTransform_model/_spec) | induction over the stack; counting | partial: dimension() is too large as soon as two indices are merged |
| C96 | hash_value and == of OverflowArray and StaticMultiIndex, conversion to the base class; std::unordered_map as an array of buckets (IndexKeys_model/_spec) | invariant of C02 for the key objects; induction over buckets and assignments | proved |
| C97 | `BSplineBounds_model`: the loops over knot vector and table as array accesses that can fail, unsigned differences | loop invariants: rows computed so far are those of C37's table, the others are zero; the sizes of the copied rows bound all later accesses | proved for open knot vectors and for at least order+2 knots; refuted for fewer knots than order+1 |
| C98 | BoundaryMarks_model.v: operator= of the vector backend (recursiveAssign), and resize / assign false / mark as in the examples; on top of Container_model, SubEntityDOFs_model and Interpolate_model | induction over container types for the assignment; the final flags from the addresses of the basis indices (C21) and the visited indices (C34); the boundary values from C91 and C93 | proved |
| C99 | Assembly_model.v: occupation pattern, assembly and elimination loops of examples/poisson-pq2.cc on top of the local views of Basis_model; sparse matrices as size, pattern and values; element matrices are parameters | loop invariants for all weighted sums of the entries; entries from unit vectors; the elimination from the sum over stored entries | proved |
| C100 | Stokes_model.v: setOccupationPattern, matrixEntry, assembleStokesMatrix and the Dirichlet loop of examples/stokes-taylorhood.cc on top of the local views of Basis_model; block matrices as stored blocks and values by address; element matrices are parameters | shape of the indices from the index tree (C08), injectivity of matrixEntry on them; loop invariants for all entries; the last write to a diagonal entry decides | proved |
| C101 | AssemblyDG_model.v: pattern and assembly of examples/advection-reaction-dg.cc with two local views, on top of Assembly_model; intersections as lists of outside elements; element and intersection matrices are parameters | as C99, with invariants for pairs of elements | proved |
| C102 | `LocalAssembler_model.v`: the quadrature loops of `getLocalMatrix` and `getVolumeTerm` (poisson-pq2.cc:36-134) with checked writes; rules, geometry, shape functions and source term are parameters; specification in `LocalAssembler_spec.v` | loop invariants, exchange of sums; sums of squares; with C99 for the global system | proved |
| C103 | `StokesLocal_model.v`: `getLocalMatrix` of stokes-taylorhood.cc:49-160 on the tree of the bound view (`child(_0,k).localIndex(i)`), with checked access; global assembly from `Stokes_model.v`; specification in `StokesLocal_spec.v` | offsets of the bound tree, indices of an element in closed form, bilinear forms as loop invariants; C100 for the global matrix | proved |
| C104 | `MixedLocal_model.v`: `getLocalMatrix` and `getVolumeTerm` of poisson-mfem.cc:44-201 on the tree of the bound view, with checked access; specification in `MixedLocal_spec.v`; the loop over the elements is as in C99 and C100 and not modelled again | offsets of the bound tree, linear and bilinear forms as loop invariants | proved |
| C105 | `DGLocal_model.v`: `getLocalMatrix` of advection-reaction-dg.cc:39-128 with its intersection loop; specification in `DGLocal_spec.v` | bilinear forms as loop invariants | partial: `C105_element_matrix_partial` gives what the matrix is; the derivative of the volume term is on the test function (line 93 uses `jacobians[i]`, the row), so a solution of the equation does not fulfil the system that is solved (`C105_consistency_refuted`, one element, one dimension), but fulfils the transposed one (`C105_transposed_system_is_consistent`, on one element; the coupling between elements is that of C106) |
| C106 | `DGConsistency_model.v`: `getOffDiagonalLocalMatrix` of advection-reaction-dg.cc:130-169 into a rectangular matrix with checked access; the loop over the mesh is that of C101 (`dg_form`); specification in `DGConsistency_spec.v` | bilinear forms as loop invariants; face terms cancel for continuous functions | partial: proved for the coupling (`C106_coupling_matrix`) and up to two errors (volume term, different rules), which are given exactly (`C106_consistency_error`, and `C106_residual` for the residual of the system assembled by C101's loop with the right-hand side of C102); without that error it is refuted (`C106_mesh_consistency_refuted`). The two rules on an interior face differ in the example (orders (dim-1)k = 2 and k*k = 4 for its k = 2, dim = 2); their difference is the second error term, zero for equal rules (`C106_same_rules`), and not zero for the Gauss rules (Example `C106_rules_differ`; dune-geometry and dune-localfunctions are not available here: that order 2 and 4 mean the Gauss rules with two and three points, and that the local basis of the example has order 2, is assumed and not checked) |

Nothing in the list is left out as inexpressible. Not expressible in this kind of model, and therefore not claimed: C++ template instantiation itself (overload resolution, concept checks, `static_assert`; where an instantiation does not compile the model returns `None` or the theorem excludes the case), floating point rounding, running time and memory consumption.

## Findings

Statements one would expect to hold and that are false of the code. Each has a theorem.

| Where | What | Theorem |
|---|---|---|
| common/reserveddeque.hh | `push_back` writes at `size()` and ignores the rotated front; the initializer_list constructor leaves the front indeterminate | `C01_reserved_deque_refuted`, `C01_init_list_refuted` |
| common/overflowarray.hh | `push_front` asserts, and without asserts overwrites the contents and does not grow | `C02_push_front_refuted` |
| common/polymorphicsmallobject.hh | copying an empty object, self-move-assignment and a throwing copy assignment are undefined or leave a dangling handle | `C03_copy_of_empty_refuted`, `C03_self_move_refuted`, `C03_throwing_copy_assignment_refuted` |
| powerbasis.hh, dynamicpowerbasis.hh | `size(prefix)` for BlockedInterleaved over a basis with an empty block | `C04_blocked_interleaved_empty_block_refuted` |
| taylorhoodbasis.hh | `update(gv)` does not store the grid view: `gridView()` stays the first one for ever | `C58_taylor_hood_grid_view_refuted`, `C58_taylor_hood_grid_view_stays` |
| periodicbasis.hh, transformedindexbasis.hh | `update(gv)` keeps the identification of the old grid: indices of new DOFs are read out of bounds | `C58_periodic_refuted` |
| compositebasis.hh and others | an update that throws leaves the basis half-way; most bases check the element types in the constructor only | `C58_composite_atomic_refuted`, `C58_unchecked_update_refuted` |
| cubichermitebasis.hh, functionaldescriptor.hh | in one dimension `FunctionalDescriptor({1})` selects the constructor for normal derivatives; `isPartialDerivative()` does not compile when used | `C59_hermite_1d_refuted` |
| composedgridfunction.hh | the local function refers to the grid function object: dangling after its destruction, and after assignment the new outer function is applied to the old inner functions | `C60_composed_refuted`, `C60_assign_refuted` |
| coarsefunctiononfinegridview.hh, finefunctiononcoarsegridview.hh | the local function refers to the entity set of the wrapped function: `localFunction(derivative(f))` cannot be bound | `C60_transferred_refuted`, `C60_derivative_refuted` |
| discreteglobalbasisfunction.hh | makeDiscreteGlobalBasisFunction wraps a vector passed as r-value in a backend that refers to the temporary | `C60_vector_refuted` |
| facenormalgridfunction.hh, discreteglobalbasisfunction.hh | global evaluation throws as soon as a face normal function is involved; at element boundaries a discontinuous function has the value of the element found by the search | `C61_no_global_face_normals`, `C61_discontinuous_refuted` |
| differentiablefunctionfromcallables.hh | makeDifferentiableFunctionFromCallables keeps references to callables passed as l-values, though documented as copying them | `C62_copying_refuted` |
| bsplinebasis.hh | the copy constructor of BSplineLocalFiniteElement copies neither currentKnotSpan_ nor the members of the local basis: a copy of a bound finite element (auto fe = node.finiteElement()) reads uninitialized memory | `C77_copies_refuted` |
| discreteglobalbasisfunction.hh | operator() of local functions is const but writes a mutable buffer: two threads that evaluate the same object can get each other's values, and copying an object that is being evaluated is a data race | `C75_concurrent_evaluation_refuted`, `C75_evaluation_races_refuted` |
| taylorhoodbasis.hh | the hybrid variant gives all velocity components the same indices | `C16_hybrid_refuted` |
| periodicbasis.hh | pairs are not closed to an equivalence relation; the container descriptor is that of the raw basis | `C18_equivalence_closure_refuted`, `C19_descriptor_too_large_refuted` |
| backends/istlvectorbackend.hh | `resize` leaves deeper dynamic containers and empty bases without scalar entries | `C21_deep_container_refuted`, `C21_empty_basis_refuted` |
| backends/istlvectorfactory.hh | arrays of length one of block vectors lose a level | `C22_istl_unit_array_refuted` |
| common/indexaccess.hh | an out-of-range digit into a tuple is accepted | `C23_tuple_digit_out_of_range_refuted` |
| functionspacebases/flatvectorview.hh | vectors of blocks are not flattened; arrays of dynamic vectors do not compile | `C24_vector_of_blocks_refuted`, `C24_array_of_vectors_refuted` |
| common/subdomain.hh | iterating an element without intersections is undefined | `C33_element_without_intersections_refuted` |
| functionspacebases/bsplinebasis.hh | repeated knots; gaps and duplicates of the local keys | `C35_repeated_knot_refuted`, `C36_consecutive_refuted`, `C36_unique_refuted`, `C36_dim3_refuted` |
| functionspacebases/subspacelocalview.hh | the view keeps a pointer to the SubspaceBasis only to ask it for its path: subspaceBasis(basis, 0).localView() dangles, bind() works and tree() is undefined | `C92_temporary_subspace_basis_refuted` |
| functionspacebases/bsplinebasis.hh | the factory returned by bSpline() captures the knot vector by reference | `C92_spline_factory_refuted` |
| functionspacebases/lagrangebasis.hh | nodes copy the run-time order: after assigning a basis of another order, existing views keep the old finite elements | `C92_assignment_refuted` |
| functionspacebases/transformedindexbasis.hh | GenericIndexingTransformation::dimension() returns the dimension of the wrapped pre-basis, too large for transformations that merge indices | C95_merging_dimension_refuted |
| functionspacebases/bsplinebasis.hh | without makeOpen the constructors accept no more knots than the order (e.g. a box with fewer elements than the order); size_t differences wrap around and every evaluation leaves the arrays | `C97_few_knots_refuted` |
| backends/istlvectorbackend.hh | operator= stops at the first type that can be assigned the value: for std::bitset blocks "backend = true" sets one bit of every block only | C98_bitset (Example) |
| examples/advection-reaction-dg.cc:93 | the volume term takes the derivative of the test function (row index i) instead of the trial function (j); the face terms are right for rows as test functions, so solutions of the equation do not solve the discrete system | `C105_consistency_refuted`, `C106_consistency_error`, `C106_mesh_consistency_refuted` |
| examples/advection-reaction-dg.cc:104, 149 | the element matrix and the coupling matrix use rules of different order on the same face, so for second-order functions the jump terms of a continuous function do not cancel | `C106_consistency_error`, C106_rules_differ (Example) |
| common/geometryinancestor.hh | copies point `coarseElement()` at their fine element | `C42_copied_coarse_element_refuted` |
| gridfunctions/finefunctiononcoarsegridview.hh | the distance to the 3-D pyramid is not the l1-distance | `C43_distance_to_pyramid_refuted` |
| raviartthomasbasis.hh | orientation of elements that are their own neighbours (one-element periodic grids); grids with prisms as single type use the simplex element | `C46_self_neighbour_refuted`, `C46_single_prism_type_refuted` |
| globalvaluedlocalfiniteelement.hh | Jacobians on non-affine geometries (documented restriction) | `C48_nonaffine_jacobian_refuted` |
| gridfunctions/coarsefunctiononfinegridview.hh | derivative of an unbound local function dereferences an empty optional | `C49_derivative_of_unbound_coarse_function_refuted` |
| functionspacebases/defaultlocalview.hh and nodes | assigning a local view copies pointers into the right hand side | `C51_assignment_aliases_refuted` |
| functionspacebases/morleybasis.hh | `update` recomputes the edge orientations with the old mapper | `C53_update_refuted` |
| transformedfiniteelementmixin.hh, cubichermitebasis.hh, argyrisbasis.hh | copied interpolations keep pointing to the original's mesh sizes; assigned finite elements keep a local basis that refers to the right hand side, even after bind. So the positive result of C51 (a view is independent again once it is bound after an assignment) does not extend to the nodes of the Hermite, Morley and Argyris bases | `C56_copied_interpolation_refuted`, `C56_assignment_refuted` |
| brezzidouglasmarinibasis.hh | for k = 2 six indices are reserved per element for three or two interior functions | `C57_bdm2_refuted` |
| raviartthomasbasis.hh | order one on hexahedra: the four functions of a facet are identified by number only, so on grids whose hexahedra are turned with respect to each other normal components are discontinuous | `C64_hexahedra_order_one_refuted` |
| python/functions/interpolate.hh, globalbasis.hh | interpolate() into an array of float32, int64, ... or into a list writes a temporary copy and returns | `C83_arrays_of_other_types_refuted` |
| python/functions/tree.hh (child) | pybind11::cast of a reference copies the child, so a node kept across bind shows the sizes and local indices of the former element, while tree() follows the view | C88_stale_children_refuted |
| python/functions/globalbasis.hh (dimension, index) | conversion to int: negative dimension and indices from 2^31 DOFs on; len(basis) is right | C89_large_bases_refuted |
| python/functions/globalbasis.hh (asFunction) | over a basis with blocks all basis functions of a block use the same entry of the array; arrays that are too short are not rejected | `C84_blocks_share_coefficients_refuted`, `C84_short_arrays_refuted` |
| python/dune/functions/globalbasis.py | `Composite(..., layout="interleaved")` is accepted, but the generated C++ does not compile | `C87_interleaved_composites_refuted` |
| python/functions/globalbasis.hh, tree.hh | `view.tree()`, `tree.finiteElement()`, `view.element()`, `basis.gridView`, `basis.gridView = gv` and `GridViewFunction(f)` do not keep alive what they refer to | `C85_tree_refuted`, `C85_finite_element_refuted`, `C85_element_refuted`, `C85_grid_view_refuted`, `C85_new_grid_view_refuted`, `C85_grid_view_function_refuted` |
| python/functions/globalbasis.hh, discretefunction.hh | `view.unbind()` releases its reference to the element without giving it back; reading `f.basis` makes basis and function keep each other alive | `C86_unbind_refuted`, `C86_function_basis_refuted` |

## Which parts of the code are modelled

Modelled (headers below dune/functions; the model files cite the lines):

* common: reserveddeque, overflowarray, polymorphicsmallobject, typeerasure (ownership), indexaccess, geometryinancestor, mapperutilities, subdomain
* analyticfunctions: monomialset, polynomial, trigonometricfunction
* backends: containerfactory, istlvectorbackend, istlvectorfactory
* functionspacebases: argyrisbasis, basistags, boundarydofs, brezzidouglasmarinibasis, bsplinebasis, compositebasis, containerdescriptors, cubichermitebasis, defaultlocalview, dynamicpowerbasis, flatvectorview, globalvaluedlocalfiniteelement, hierarchicallagrangebasis, hierarchicallagrangewithelementbubblebasis, hierarchicnodetorangemap, interpolate, lagrangebasis, lagrangedgbasis, leafprebasismappermixin, leafprebasismixin, lfeprebasismixin, morleybasis, nedelecbasis, nodes, periodicbasis, powerbasis, rannacherturekbasis, raviartthomasbasis, refinedlagrangebasis, restrictedbasis, subentitydofs, subspacebasis, subspacelocalview, taylorhoodbasis, transformedfiniteelementmixin, transformedindexbasis
* gridfunctions: analyticgridviewfunction, coarsefunctiononfinegridview, composedgridfunction, discreteglobalbasisfunction, facenormalgridfunction, finefunctiononcoarsegridview, gridfunction and gridviewfunction (as wrappers)
* dune/python/functions: interpolate, hierarchicvectorwrapper, discretefunction, globalbasis, subspacebasis and tree (lifetimes; numerical effects of interpolate and asFunction)
* python/dune/functions: tree, globalbasis, subspacebasis (names of types)

Not modelled: the concept checks (concepts.hh, functionconcepts.hh), type computations (signature.hh, type_traits.hh, defaultderivativetraits.hh, localderivativetraits.hh, staticforloop.hh, squeezetensor.hh, utility.hh), thin adaptors (densevectorview.hh, gridviewentityset.hh, multiindex.hh), the rest of the Python bindings, tests, examples and everything in other DUNE modules (contracts only). In modelled headers: printing, member types, deprecated aliases.

## Trusted base

* Coq's kernel (8.16.1), including its `vm_compute` reduction, which some proofs use for exact rational computations.
* The reading of the C++ text that the comments in the model cite. There is no mechanical link between /repo and the model; `seeded/LOG.jsonl` shows that the theorems notice realistic deviations.
* The contracts of external modules, as written in the `_spec.v` files.
* The axioms that `Print Assumptions` lists. Only axioms of the standard library occur: those of its real numbers (`ClassicalDedekindReals.sig_forall_dec`, `ClassicalDedekindReals.sig_not_dec`), `FunctionalExtensionality.functional_extensionality_dep`, and `Classical_Prop.classic` (through lemmas of the library on real numbers). No axiom is added by this development.

### Print Assumptions, theorem by theorem

<!-- assumptions -->

**Closed under the global context (no axioms)** (231 theorems):

* `C01_reserved_deque_refuted`, `C01_rotated_push_back_is_lost`, `C01_reserved_deque_partial`, `C01_back_only_histories`, `C01_histories_without_push_back`, `C01_init_list_if_first_zero`, `C01_init_list_refuted`
* `C02_overflow_array_sequence_partial`, `C02_init_list`, `C02_equality`, `C02_push_front_always_asserts`, `C02_push_front_release_effect`, `C02_push_front_refuted`
* `C03_histories`, `C03_buffer_fits`, `C03_no_leak`, `C03_copies_are_independent`, `C03_swap`, `C03_copy_of_empty_refuted`, `C03_self_move_refuted`, `C03_throwing_copy_assignment_refuted`
* `C04_size_is_the_index_tree`, `C04_size_counts_next_digits`, `C04_size_zero_iff_complete`, `C04_blocked_interleaved_empty_block_refuted`
* `C05_dimension_counts_global_indices`, `C05_dimension_counts_admitted_indices`
* `C06_local_index_is_valid`, `C06_every_local_dof_has_an_index`
* `C07_every_local_dof_is_a_leaf_dof`, `C07_indices_identify_dofs`
* `C08_admitted_indices_occur`, `C08_index_tree_is_covered`
* `C09_descriptor_agrees_with_size`, `C09_descriptor_describes_index_tree`
* `C10_index_lengths`, `C10_buffer_never_overflows`
* `C11_size_at_most_maxsize`
* `C12_children_are_consecutive`, `C12_leaves_partition_the_local_indices`, `C12_leaf_indices_in_range`
* `C13_tree_indices_number_the_tree`, `C13_tree_indices_survive_bind`, `C13_tree_indices_of_a_view`
* `C14_bound_view_is_history_independent`, `C14_bound_element`, `C14_index_of_a_leaf_dof`
* `C15_nesting_concatenates`, `C15_nested_tree`, `C15_subspace_view_is_the_root_view`
* `C16_taylor_hood_is_the_documented_composite`, `C16_taylor_hood_valid_and_gap_free`, `C16_hybrid_indices`, `C16_hybrid_refuted`
* `C17_indices_are_transformed_in_order`, `C17_bijections_carry_over`, `C17_nested_transformations_compose`
* `C18_share_an_index_iff_honoured`, `C18_only_requested_dofs_are_unified`, `C18_share_an_index_iff_unified_partial`, `C18_gap_free_and_counted`, `C18_size_counts_unified_classes_partial`, `C18_independent_of_call_order`, `C18_defined_iff_in_range`, `C18_equivalence_closure_refuted`
* `C19_descriptor_has_size_iff_nothing_unified_partial`, `C19_descriptor_too_large_refuted`
* `C20_nothing_outside_the_subdomain`, `C20_inside_equals_subdomain_basis`
* `C21_resize_returns_iff_compatible`, `C21_resized_blocks_have_basis_size`, `C21_basis_indices_name_entries`, `C21_basis_indices_address_scalars_partial`, `C21_distinct_indices_distinct_entries`, `C21_empty_basis_refuted`, `C21_deep_container_refuted`
* `C22_defined_iff_known`, `C22_container_has_described_shape`, `C22_basis_container`, `C22_istl_vector_partial`, `C22_istl_unit_array_refuted`
* `C23_follows_digits_then_zeros`, `C23_hybrid_access_agrees`, `C23_static_index_is_path`, `C23_write_read_back`, `C23_bad_digits_rejected`, `C23_tuple_digit_out_of_range_refuted`
* `C24_flat_view_partial`, `C24_vector_of_blocks_refuted`, `C24_array_of_vectors_refuted`
* `C25_throws_iff_resize_throws`, `C25_marked_dofs_are_interpolated`, `C25_other_dofs_unchanged`, `C25_other_entries_unchanged`, `C25_agreeing_value`, `C25_order_independent`, `C25_last_element_wins`
* `C27_relative_order`, `C27_facet_orientation`, `C27_edge_orientation`, `C27_shared_facet`
* `C28_lagrange_indices`
* `C29_layout_matches_shape_functions`, `C29_layout_counts_interior_points`, `C29_maxnode_bounds`, `C29_pyramid_order_above_2`
* `C30_mapper_leaf`
* `C31_dg_blocks`
* `C32_index_set`, `C32_foreign_types`, `C32_indices_are_stable`, `C32_reinsertion`
* `C33_elements`, `C33_intersections`, `C33_element_without_intersections_refuted`, `C33_interface`, `C33_interface_contains`, `C33_skeleton_contains`
* `C34_subentity_dofs`, `C34_boundary_dofs`, `C34_boundary_indices`
* `C36_line`, `C36_square_partial`, `C36_consecutive_refuted`, `C36_unique_refuted`, `C36_dim3_refuted`
* `C40_exponents1`, `C40_exponents2`, `C40_exponents3`
* `C41_four_times`
* `C42_local_inverts_global`, `C42_global_inverts_local`
* `C46_raviart_thomas`, `C46_exactly_one_side`, `C46_boundary_facets`, `C46_self_neighbour_refuted`, `C46_single_prism_type_refuted`, `C46_brezzi_douglas_marini`
* `C47_nedelec`, `C47_shared_edges_agree`, `C47_edge_orientations`
* `C50_scalar_to_itself`, `C50_component_is_path`, `C50_distinct_leaves_distinct_components`
* `C51_view_state_is_a_value`, `C51_tree_follows_its_view`, `C51_copies_are_independent`, `C51_assignment_aliases_refuted`
* `C52_layout_matches_keys`
* `C53_layout_matches_keys`, `C53_update_same`
* `C54_layout_matches_keys`
* `C56_local_basis_partial`, `C56_interpolation_partial`, `C56_morley_interpolation`, `C56_copied_interpolation_refuted`, `C56_assignment_refuted`
* `C57_raviart_thomas`, `C57_rt_pyramid_without_interior_refuted`, `C57_bdm1`, `C57_bdm2_refuted`, `C57_bdm2_partial`, `C57_nedelec`, `C57_hierarchical_lagrange`, `C57_hierarchical_with_bubble`, `C57_refined_lagrange`, `C57_rannacher_turek`, `C57_sizes`
* `C62_sequence`, `C62_values`, `C62_ranges`, `C62_range_entries`, `C62_copying_refuted`
* `C74_interpolation_into_periodic_bases`, `C74_periodic_values`
* `C76_resize_again`, `C76_completed`, `C76_interrupted_container`, `C76_progress`, `C76_retry`, `C76_twice`, `C76_atomic_refuted`
* `C78_interpolation_by_components`
* `C84_blocks_share_coefficients_refuted`
* `C85_held_objects_are_usable_partial`, `C85_tree_refuted`, `C85_finite_element_refuted`, `C85_element_refuted`, `C85_grid_view_refuted`, `C85_new_grid_view_refuted`, `C85_grid_view_function_refuted`
* `C86_objects_live_as_long_as_reachable_partial`, `C86_everything_is_freed_partial`, `C86_unbind_refuted`, `C86_function_basis_refuted`
* `C87_composite_defaults`, `C87_power_defaults`, `C87_operators`, `C87_texts_are_unambiguous`, `C87_described_bases_are_built`, `C87_only_described_bases_are_built`, `C87_exceptions`, `C87_different_trees_different_types`, `C87_types_stand_for_one_basis`, `C87_subspace_bases`, `C87_interleaved_composites_refuted`
* `C88_nodes_describe_the_view_partial`, `C88_children_are_available`, `C88_children_are_snapshots`, `C88_stale_children_refuted`
* `C89_nested_subspaces_join`, `C89_trivial_subspace`, `C89_numbers_agree_partial`, `C89_large_bases_refuted`
* `C91_one_element_decides`, `C91_depends_on_the_elements_of_the_dof`, `C91_calls_for_different_dofs_commute`, `C91_masks_join`, `C91_mask_and_complement`, `C91_boundary_values`
* `C95_dimension_counts_transformed_indices`, `C95_merging_dimension_refuted`
* `C96_hash_depends_on_digits_only`, `C96_equal_keys_have_equal_hashes`, `C96_conversion_to_the_static_type`, `C96_hash_tables_are_maps`
* `C98_assign_value`, `C98_marks`, `C98_marks_iff_resizable`, `C98_python_flags`
* `C100_no_aliasing`

**`ClassicalDedekindReals.sig_forall_dec`** (20 theorems):

* `C26_histories_are_defined`, `C26_bound_state`, `C26_copies_and_derivatives_agree`
* `C39_derivative_any_container`
* `C42_geometry_in_ancestor_partial`, `C42_copied_coarse_element_refuted`
* `C44_located_in_the_fine_set`
* `C48_partial`
* `C52_common_coefficients`
* `C53_common_coefficients`
* `C54_common_coefficients`
* `C69_function_depends_on_its_dofs_only`
* `C72_transformed_basis_renames_coefficients`, `C72_periodic_functions_are_raw_functions`, `C72_periodic_functions_agree_at_unified_dofs_partial`, `C72_requested_periodicity_suffices`
* `C75_evaluation_races_refuted`
* `C84_short_arrays_refuted`
* `C91_linear_in_the_dofs`
* `C94_down_and_up_again`

**`ClassicalDedekindReals.sig_forall_dec`, `FunctionalExtensionality.functional_extensionality_dep`** (184 theorems):

* `C26_value_is_the_weighted_sum`, `C26_derivative_is_the_weighted_sum`, `C26_linear_in_coefficients`
* `C35_bspline_numbering`, `C35_ctor_knots`, `C35_ctor_uniform`, `C35_repeated_knot_refuted`
* `C37_cox_de_boor`, `C37_partition_of_unity`, `C37_ctor_open`
* `C38_derivatives`
* `C39_evaluates`, `C39_derivative`, `C39_iterated_derivative`, `C39_eventually_zero`, `C39_equality`
* `C40_dim1`, `C40_dim2`, `C40_dim3`
* `C43_distance_is_l1_distance_partial`, `C43_distance_is_attained`, `C43_distance_zero_iff_inside`, `C43_distance_to_pyramid_refuted`, `C43_check_inside_is_distance`, `C43_check_inside_zero`
* `C44_fine_value`, `C44_same_point`
* `C48_contravariant_round_trip`, `C48_covariant_round_trip`, `C48_flux`, `C48_tangential`, `C48_normal_trace_continuous`, `C48_jacobian_contravariant`, `C48_jacobian_covariant`, `C48_partial_hypotheses`, `C48_interpolation`, `C48_nonaffine_jacobian_refuted`
* `C49_bind_state`, `C49_value`, `C49_derivative`, `C49_cached_derivative`, `C49_derivative_of_unbound_coarse_function_refuted`
* `C52_degrees_of_freedom`, `C52_interpolation_inverse`, `C52_reproduces_polynomials`, `C52_derivatives`, `C52_partial_method`, `C52_continuous`, `C52_gradients_agree_at_vertices`
* `C59_hermite`, `C59_hermite_1d_refuted`
* `C60_safe`, `C60_independent`, `C60_composed_refuted`, `C60_transferred_refuted`, `C60_derivative_refuted`, `C60_vector_refuted`, `C60_assign_refuted`
* `C61_agree`, `C61_derivatives_agree`, `C61_no_global_face_normals`, `C61_discontinuous_refuted`
* `C63_basis_functions_single_valued`, `C63_shape_functions`, `C63_functions_follow_basis_functions`, `C63_continuous`
* `C64_lowest_order_shape_functions`, `C64_hexahedra_order_one_refuted`, `C64_raviart_thomas`, `C64_lowest_order`, `C64_brezzi_douglas_marini`, `C64_functions_follow_basis_functions`, `C64_normal_component_continuous`
* `C65_edge_shape_functions`, `C65_nedelec`, `C65_tangential_component_continuous`
* `C66_interpolation_reproduces_coefficients`, `C66_interpolation_in_place`
* `C67_functions_of_the_position`, `C67_agrees_at_the_nodes`, `C67_shape_functions_are_nodal`, `C67_shared_dofs_share_the_node`, `C67_interpolation_is_nodal`, `C67_order_independent`
* `C68_ctor_simple_knots`, `C68_uniform_simple_knots`, `C68_continuous`, `C68_gradient_continuous`, `C68_second_derivatives_continuous`
* `C69_values_determine_the_coefficients`, `C69_coefficients_are_unique`, `C69_admitted_coefficients_are_unique`, `C69_dual_elements_are_independent`, `C69_dual_elements_without_derivatives`, `C69_lagrange_elements_are_independent`
* `C70_functions_of_an_element_are_independent`, `C70_values_determine_the_coefficients`, `C70_coefficients_are_unique`, `C70_splines_meet_the_contract`
* `C71_spline_spaces_contain_polynomials`, `C71_greville_coefficients`, `C71_open_knots_are_full`, `C71_ctor_full`, `C71_without_open_knots_refuted`
* `C72_periodic_coefficients_are_unique`, `C72_periodic_in_the_nodes`
* `C73_local_interpolation_decides`, `C73_contained_functions_are_reproduced`, `C73_interpolant_is_the_function`
* `C74_periodic_functions_are_reproduced`
* `C75_alone`, `C75_no_data_race`, `C75_threads_do_not_interfere`, `C75_threads_can_finish`, `C75_coefficients_afterwards`, `C75_concurrent_evaluation_refuted`
* `C77_bound_finite_elements_partial`, `C77_copies_refuted`
* `C78_values`, `C78_derivatives`
* `C79_chain_rule`, `C79_gradient`
* `C81_functions_of_the_space_are_reproduced`
* `C82_degrees_of_freedom_are_preserved`, `C82_nedelec`, `C82_raviart_thomas`, `C82_brezzi_douglas_marini`
* `C83_the_array_holds_the_interpolation_partial`, `C83_arrays_that_do_not_fit_are_rejected`, `C83_bases_with_blocks_are_rejected`, `C83_arrays_of_other_types_refuted`
* `C84_python_functions_partial`
* `C90_hierarchical_lagrange`, `C90_hierarchical_with_bubble`, `C90_refined_lagrange`, `C90_rannacher_turek`, `C90_hat_is_linear_in_the_parts`
* `C91_linear`
* `C93_boundary_dofs_decide_traces`, `C93_traces_decide_boundary_dofs`, `C93_lagrange`, `C93_hierarchical`, `C93_refined`, `C93_rannacher_turek`, `C93_raviart_thomas`, `C93_brezzi_douglas_marini`, `C93_nedelec`, `C93_boundary_values`
* `C94_grid_functions_are_interpolated`, `C94_represented_functions_are_reproduced`, `C94_interpolant_is_the_function`, `C94_round_trip`, `C94_prolongation_is_exact`, `C94_linear_functions_are_nodal`, `C94_affine_maps_keep_linear_functions`
* `C97_evaluation_stays_in_range`, `C97_constructed_bases`, `C97_uniform_bases`, `C97_few_knots_refuted`
* `C98_dirichlet_values`
* `C99_boundary_value_problem`, `C99_assembly`, `C99_order_is_irrelevant`, `C99_dirichlet`, `C99_symmetric`
* `C100_stokes_matrix`, `C100_dirichlet_rows`, `C100_solutions`
* `C101_dg_assembly`
* `C102_local_assemblers`, `C102_poisson`, `C102_energy`, `C102_gradient_is_unique`
* `C103_element_matrix`, `C103_stokes`
* `C104_mixed_assemblers`
* `C105_element_matrix_partial`, `C105_transposed_system_is_consistent`, `C105_consistency_refuted`
* `C106_coupling_matrix`, `C106_consistency_error`, `C106_same_rules`, `C106_residual`, `C106_mesh_consistency_refuted`

**`ClassicalDedekindReals.sig_forall_dec`, `ClassicalDedekindReals.sig_not_dec`, `FunctionalExtensionality.functional_extensionality_dep`** (25 theorems):

* `C41_derivative`, `C41_iterated_derivative`
* `C45_first_minimiser`, `C45_nearest_facet`, `C45_unit_outer_normal`
* `C53_bind`, `C53_degrees_of_freedom`, `C53_interpolation_inverse`, `C53_reproduces_polynomials`, `C53_derivatives`, `C53_partial_method`, `C53_common_normals`, `C53_agree_at_vertices`, `C53_gradients_agree_at_midpoints`, `C53_update_refuted`
* `C54_degrees_of_freedom`, `C54_interpolation_inverse`, `C54_reproduces_polynomials`, `C54_derivatives`, `C54_partial_method`, `C54_agree_at_vertices`
* `C59_morley`, `C59_argyris`
* `C80_morley_agreement`
* `C81_morley`

**`ClassicalDedekindReals.sig_forall_dec`, `ClassicalDedekindReals.sig_not_dec`, `Classical_Prop.classic`, `FunctionalExtensionality.functional_extensionality_dep`** (30 theorems):

* `C54_bind`, `C54_continuously_differentiable`, `C54_update`
* `C55_average_mesh_size`
* `C58_update`, `C58_grid_view`, `C58_numbering_partial`, `C58_lagrange_checks`, `C58_taylor_hood_grid_view_refuted`, `C58_taylor_hood_grid_view_stays`, `C58_morley_mapper_stays`, `C58_morley_refuted`, `C58_periodic_refuted`, `C58_composite_atomic_refuted`, `C58_unchecked_update_refuted`
* `C80_argyris_continuously_differentiable`, `C80_hermite_agreement`
* `C81_argyris`, `C81_hermite`
* `C92_views_follow_their_basis`, `C92_updates_reach_views`, `C92_views_need_their_basis`, `C92_other_objects_do_not_matter`, `C92_subspace_views`, `C92_nested_subspaces`, `C92_temporary_subspace_basis`, `C92_spline_factories`, `C92_assignment_refuted`, `C92_temporary_subspace_basis_refuted`, `C92_spline_factory_refuted`

<!-- end of assumptions -->
