#!/usr/bin/env python3
"""Writes /verif/properties.jsonl.  One tuple per property."""
import json, os
P = []
def p(title, statement, quant, why, *anchors):
    P.append(dict(id="C%02d" % (len(P)+1), title=title, statement=statement,
                  quantifier=quant, why_tests_cant=why, anchors=list(anchors)))

FB="dune/functions/functionspacebases/"; CO="dune/functions/common/"
BE="dune/functions/backends/"; GF="dune/functions/gridfunctions/"; AF="dune/functions/analyticfunctions/"

p("ReservedDeque behaves as a bounded double-ended queue",
  "After any history of construction, push_back, push_front, pop_back, pop_front, resize, clear and element assignment on a ReservedDeque that never exceeds its capacity, size(), front(), back(), operator[] and iteration return exactly what the same history on an ordinary mathematical sequence returns.",
  "every element type, every capacity n>0, every finite history of operations that respects the capacity",
  "the failing histories depend on how pops/pushes at the front interleave with pushes at the back; histories are unbounded",
  CO+"reserveddeque.hh: ReservedDeque")
p("OverflowArray behaves as a bounded sequence",
  "After any history of push_back, push_front, pop_back, resize, clear, assignment and element writes on an OverflowArray, its size, its elements, front()/back(), iteration and == agree with the same history on a mathematical sequence, independent of where the base/overflow boundary lies; the base array is a prefix of the contents.",
  "every base size, every capacity, every history of operations within the capacity",
  "correctness must hold for all base/overflow splits and all histories",
  CO+"overflowarray.hh: OverflowArray")
p("Type-erased objects own exactly one object and have value semantics",
  "For any history of constructing, copying, moving, copy-assigning, move-assigning and destroying type-erased objects (small-buffer or heap stored), every wrapped object is destroyed exactly once, none is used after destruction, a copy is equal to and independent from its source, and a moved-to object holds the source's value. The exceptions are undefined behaviour in every history: copying an empty object, move-assigning a buffer-stored object to itself, and using an object after its copy assignment threw.",
  "every buffer size, every wrapped-object size (buffer or heap), every history over any number of handles, including self-assignment and empty objects, every choice of free addresses by the allocator",
  "memory-safety over histories; wrong interleavings only show as leaks/double frees for particular sequences",
  CO+"polymorphicsmallobject.hh: PolymorphicSmallObject", CO+"typeerasure.hh: TypeErasureBase")
p("basis.size(prefix) describes one index tree",
  "For any basis built by nesting power (4 strategies, static or dynamic exponent), composite (2 strategies), restricted and leaf pre-bases, size(prefix) equals, for every prefix of a valid multi-index, the number of children of that prefix in the index tree obtained by merging the children's trees as documented for the strategy, and is 0 exactly at complete indices.",
  "every nesting depth and shape, every exponent, every leaf dimension, every prefix",
  "infinitely many nestings and prefixes; strategy interaction (e.g. interleaving over blocked children) is combinatorial",
  FB+"dynamicpowerbasis.hh: sizeImpl", FB+"powerbasis.hh: size", FB+"compositebasis.hh: size", FB+"leafprebasismixin.hh: size")
p("dimension() counts the basis functions",
  "basis.dimension() equals the number of complete multi-indices admitted by size(prefix), and the number of distinct multi-indices reachable through local views.",
  "every nested basis and grid", "needs all nestings and sizes",
  FB+"dynamicpowerbasis.hh: dimension", FB+"compositebasis.hh: dimension", FB+"leafprebasismixin.hh")
p("Every local index is a valid complete multi-index",
  "For every element and every local DOF, localView.index(i) has each digit smaller than size() of the preceding prefix, and size(index)==0.",
  "every nested basis, element, local DOF", "universal over grids and nestings",
  FB+"dynamicpowerbasis.hh: indicesImpl", FB+"compositebasis.hh: indices", FB+"defaultlocalview.hh: bind, index")
p("Multi-indices identify DOFs uniquely",
  "Two local DOFs, on the same or different elements, get the same multi-index exactly if they sit at the same leaf of the local tree and the leaf basis gives them the same flat index.",
  "every nested basis, pairs of elements and local DOFs", "all pairs over all grids and nestings",
  FB+"dynamicpowerbasis.hh: indicesImpl", FB+"compositebasis.hh: indices")
p("Multi-indices are contiguous (no gaps)",
  "Every multi-index admitted by size(prefix) (each digit below the size of the prefix, size 0 at the end) is the index of some local DOF on some element.",
  "every nested basis whose leaf bases are gap-free", "global surjectivity over arbitrary grids/nestings",
  FB+"dynamicpowerbasis.hh", FB+"compositebasis.hh")
p("containerDescriptor() agrees with size(prefix)",
  "Whenever a basis reports a known container descriptor, walking the descriptor along any valid prefix gives a node whose size() equals basis.size(prefix), and the walk ends in a value placeholder exactly at complete multi-indices.",
  "every nested basis with known descriptor, every prefix", "descriptor algebra has many overloads; arbitrary nesting",
  FB+"containerdescriptors.hh: appendToTree, flatLexicographic, flatLexicographicN, flatInterleavedN, makeDescriptor, makeUniformDescriptor", FB+"dynamicpowerbasis.hh: containerDescriptorImpl", FB+"compositebasis.hh: containerDescriptor")
p("Multi-index lengths respect the static bounds",
  "Every multi-index has length between minMultiIndexSize and maxMultiIndexSize, and no intermediate multi-index or prefix built during indices() or size() exceeds multiIndexBufferSize (so no reserved-capacity overflow).",
  "every nested basis, element, DOF and prefix", "capacity overflow would depend on nesting",
  FB+"dynamicpowerbasis.hh: maxMultiIndexSize, multiIndexBufferSize", FB+"compositebasis.hh: maxMultiIndexSize", FB+"defaultlocalview.hh: MultiIndexStorage")
p("localView.maxSize() bounds localView.size()",
  "For every element localView.size() <= localView.maxSize().",
  "every nested basis and element", "every grid and nesting",
  FB+"dynamicpowerbasis.hh: maxNodeSize", FB+"compositebasis.hh: maxNodeSize", FB+"leafprebasismappermixin.hh: initializeIndices")
p("Local indices of the leaves partition the element's DOFs",
  "After bind, each inner node's size is the sum of its children's sizes, children's local index ranges are consecutive and disjoint, and every local index in [0,localView.size()) is localIndex(i) of exactly one leaf and exactly one i.",
  "every tree shape, element and previous binding state", "tree shapes and rebind histories unbounded",
  FB+"nodes.hh: BasisNodeMixin::localIndex, InnerBasisNodeMixin::bind, bindTree")
p("Tree indices are a consecutive numbering of the tree",
  "treeIndex() takes each value in [0,number of nodes) exactly once, the root has 0, and it does not depend on the bound element.",
  "every tree shape and binding history", "all tree shapes",
  FB+"nodes.hh: initializeTree", FB+"defaultlocalview.hh: DefaultLocalView")
p("A local view depends only on the element it was last bound to",
  "After any history of bind/unbind/copy, a bound view's size, tree and indices equal those of a fresh view bound to the same element; index(node.localIndex(i)) is the index of the i-th DOF of that node.",
  "every basis and every bind/unbind/copy history", "buffers are reused between bindings; histories unbounded",
  FB+"defaultlocalview.hh: bind, unbind, DefaultLocalView(const DefaultLocalView&)")
p("A subspace basis is a consistent view of its root basis",
  "subspaceBasis(basis,path).localView() has the root view's indices, its tree is the root tree's descendant at path, nesting subspace bases is the same as concatenating the paths, and every local index used by its tree maps to the multi-index the root basis gives to that DOF.",
  "every basis, every path, every nesting of subspace bases", "arbitrary nesting",
  FB+"subspacebasis.hh: SubspaceBasis", FB+"subspacelocalview.hh: SubspaceLocalView")
p("Taylor-Hood indices are valid, unique and contiguous",
  "For both index variants (flat interleaved velocity, hybrid blocked velocity) the Taylor-Hood basis numbers DOFs as documented: as CompositePreBasis<BlockedLexicographic, PowerPreBasis<IMS,Q2,dim>, Q1>; i.e. valid w.r.t. size(prefix), unique and gap free.",
  "every dimension, every pair of leaf bases, every element", "needs all grids; hybrid variant is not exercised by tests",
  FB+"taylorhoodbasis.hh: TaylorHoodPreBasis::indicesImp, sizeImp, containerDescriptor")
p("An index-transformed basis transforms exactly its raw basis' indices",
  "TransformedIndexPreBasis yields for each local DOF the user transformation applied to the raw index, in the same order; if the transformation is a bijection between raw and transformed valid indices then validity, uniqueness and contiguity carry over.",
  "every raw basis, every user transformation, every element", "arbitrary user callbacks",
  FB+"transformedindexbasis.hh: TransformedIndexPreBasis::indices, GenericIndexingTransformation")
p("Periodic basis unifies exactly the requested DOFs",
  "Two DOFs share an index in the periodic basis iff they are related by the equivalence closure of the pairs passed to unifyIndexPair; indices are gap free and size()/dimension() count the classes.",
  "every raw dimension, every finite sequence of unifyIndexPair calls", "arbitrary pair sets; closure is a global property",
  FB+"periodicbasis.hh: PeriodicIndexSet::unifyIndexPair, PeriodicIndexingTransformation")
p("Periodic basis' container descriptor fits its indices",
  "containerDescriptor() of a periodic basis describes a container with exactly size() entries.",
  "every raw basis and pair set", "any pair set",
  FB+"periodicbasis.hh: PeriodicIndexingTransformation::containerDescriptor")
p("Restricted basis lives exactly on the sub-domain",
  "On elements outside the sub-domain all nodes are empty and no index is produced; inside, the view equals that of the sub-domain basis; siblings in a composite tree keep consecutive local indices in both cases.",
  "every sub-domain, tree, element and rebind history", "arbitrary sub-domains and rebinding sequences",
  FB+"restrictedbasis.hh: RestrictedPreBasis::Node::bind, indices")
p("Vector backend resize makes every basis index addressable",
  "If istlVectorBackend(v).resize(basis) returns normally on a nested container, then every multi-index of the basis addresses an existing scalar entry; otherwise an exception is thrown, never silent mis-sizing. Distinct multi-indices address distinct entries.",
  "every nested container type/shape (with prior content), every index tree", "container shapes x index trees unbounded",
  BE+"istlvectorbackend.hh: ISTLVectorBackend::resize, operator[]", CO+"indexaccess.hh: resolveDynamicMultiIndex")
p("makeContainer builds a container with the basis' shape",
  "makeContainer(descriptor, value) yields a container in which every multi-index of the described tree addresses an entry equal to value, and there are no other entries.",
  "every descriptor without Unknown nodes", "every descriptor shape",
  BE+"containerfactory.hh: makeContainer", BE+"istlvectorfactory.hh: makeISTLVector")
p("Multi-index access pads with zeros and is stable",
  "Accessing a nested container by a multi-index follows the digits in order, continuing with digit 0 when the index is shorter than the container is deep; writes through one index are read back through it and do not disturb other entries.",
  "every nested container, every index", "all shapes and indices",
  CO+"indexaccess.hh: hybridIndexAccess, resolveDynamicMultiIndex, resolveStaticMultiIndex, ShiftedDynamicMultiIndex")
p("Flat vector view enumerates every scalar exactly once",
  "flatVectorView(v) has size equal to the number of scalars in v, entry i is the i-th scalar in nested lexicographic order, and writing entry i changes only that scalar.",
  "every nesting of FieldVector/FieldMatrix/array/vector/scalar", "every nesting and size",
  FB+"flatvectorview.hh: FlatVectorView")
p("interpolate writes exactly the marked DOFs",
  "interpolate(basis,coeff,f,bitVector) leaves every unmarked coefficient unchanged and sets every marked DOF of every visited element to the local interpolation value; when neighbouring elements agree on shared DOFs the result is independent of the element order.",
  "every basis, function, mask, grid traversal order", "all traversal orders, masks",
  FB+"interpolate.hh: interpolateLocal, interpolate")
p("Discrete function evaluation is the coefficient-weighted sum",
  "A DiscreteGlobalBasisFunction's local function, bound to e, evaluates at x to the sum over the local DOFs of coefficient times shape function for each leaf, is linear in the coefficient vector, and copies/derivatives obtained from a bound local function are bound to the same element with the same coefficients.",
  "every basis tree, coefficient vector, element, point and bind/copy history", "all coefficients, histories",
  GF+"discreteglobalbasisfunction.hh: LocalFunctionBase, LocalFunction::operator()")
p("Face orientation identifies how an element sees a face",
  "The orientation computed for a triangular or quadrilateral face is determined by the relative order of the global vertex ids only, is a legal table row, and two elements sharing the face obtain orientations that map a common reference numbering to their own local numbering.",
  "every assignment of distinct global vertex ids, every local vertex permutation", "all vertex numberings",
  FB+"lagrangebasis.hh: FaceOrientations")
p("High-order Lagrange face DOFs match across elements",
  "For every polynomial order, elements sharing an edge, triangle or quadrilateral face assign the same global index to the DOF at the same geometric Lagrange point, and different indices to different points.",
  "every order k, every pair of local vertex numberings of the shared face, every face point", "unbounded order and all relative orientations",
  FB+"lagrangebasis.hh: LagrangePreBasis::permuteFaceDOF, face DOF permutation tables")
p("Lagrange DOF layout matches the shape functions",
  "For every order and element type, the number of DOFs attached by the layout to all subentities equals the number of Lagrange shape functions of that element, and maxNodeSize() bounds it.",
  "every order, dimension, element type (simplex, cube, prism, pyramid)", "unbounded order/dimension",
  FB+"lagrangebasis.hh: dofLayout, maxNodeSize")
p("Mapper-based leaf indices are unique and contiguous",
  "For layouts that match the local keys, the indices computed from the mapper are below dimension(), distinct within each element, equal on different elements iff they denote the same DOF of the same subentity, and gap free; initializeIndices yields an upper bound of the node size.",
  "every grid, layout and local key assignment satisfying the documented contract", "all grids",
  FB+"leafprebasismappermixin.hh: subIndexRange, LeafPreBasisMapperMixin")
p("Discontinuous Lagrange indices of elements are disjoint consecutive blocks",
  "LagrangeDG assigns each element its own consecutive index block; blocks tile [0,dimension()) also on mixed-element grids.",
  "every grid of mixed element types, every order", "all grids and orders",
  FB+"lagrangedgbasis.hh: LagrangeDGPreBasis")
p("Sub-domain index set is a consecutive numbering for any insertion history",
  "After inserting any sequence of elements (with repetitions), for each geometry type the indices of contained (sub)entities are exactly 0..size(type)-1 without repetition, contains() holds exactly for inserted elements' subentities, size(codim) adds up, re-inserting changes nothing, indices never change later.",
  "every host grid, every insertion sequence", "insertion histories unbounded",
  CO+"subdomain.hh: SubDomainIndexSet::insertElement, index, subIndex, size, types, contains")
p("Sub-domain iteration visits exactly the contained entities and intersections",
  "Iterating a sub-domain grid view's elements, or the intersections of a sub-domain interface/skeleton, visits every host element/intersection satisfying the predicate exactly once, in host order, and nothing else.",
  "every host grid and predicate", "all grids/predicates",
  CO+"subdomain.hh: GlobalIntersectionIterator, SubDomainGridView, SubDomainInterface, SubDomainSkeleton")
p("subEntityDOFs selects exactly the DOFs on a subentity's closure",
  "After bind, iteration yields each local DOF attached to the subentity or its subsubentities exactly once and contains(i) answers the same; state from earlier bindings never leaks; forEachBoundaryDOF visits exactly the DOFs on boundary intersections.",
  "every local view, subentity, bind history", "all trees and bindings",
  FB+"subentitydofs.hh: SubEntityDOFs::bind, contains", FB+"boundarydofs.hh: forEachBoundaryDOF")
p("B-spline DOF numbering is valid, locally unique and contiguous",
  "For any knot vectors, orders and element, the tensor-product B-spline indices are below dimension(), distinct on an element, and each B-spline index is active on exactly the elements of its knot support, so all indices occur.",
  "every dimension, order, knot vector, element", "unbounded orders/knots",
  FB+"bsplinebasis.hh: BSplinePreBasis::indices, dimension, BSplineLocalFiniteElement::bind, size")
p("B-spline local DOF keys are consistent",
  "Each local B-spline DOF is assigned to a subentity of the reference cube such that local DOF (subentity, codim, index) triples are unique and consecutive per subentity.",
  "every per-direction size vector", "all sizes and dimensions",
  FB+"bsplinebasis.hh: BSplineLocalCoefficients::init")
p("B-splines form a nonnegative partition of unity",
  "On every non-degenerate knot span of an open knot vector the values returned for the local shape functions are nonnegative and sum to one, and equal the Cox-de Boor functions.",
  "every order, knot vector, span, point of the span", "real-valued continuum of points/knots",
  FB+"bsplinebasis.hh: evaluateFunction, evaluateFunctionFull")
p("B-spline derivatives are the derivatives",
  "The values returned by evaluateJacobian are the derivatives of the values returned by evaluateFunction at every point of the element; higher partial derivatives likewise.",
  "every order, knot vector, span and point", "continuum",
  FB+"bsplinebasis.hh: evaluateJacobian, evaluateAll, evaluate")
p("Polynomial evaluates and differentiates correctly",
  "Polynomial p(x) equals sum c_i x^i for all coefficient containers, derivative(p) is the derivative of p, iterating it k times gives the k-th derivative, differentiation lowers the number of coefficients by one, and p==q compares coefficients.",
  "every coefficient sequence and x", "infinitely many coefficients",
  AF+"polynomial.hh: Polynomial, polynomialDerivative")
p("MonomialSet lists each monomial once with correct derivatives",
  "In 1, 2 and 3 dimensions MonomialSet of order k lists each monomial of total degree <= k exactly once, ordered by degree, has the documented size, and its derivative and second derivative objects return the exact partial derivatives of the listed monomials.",
  "every maximal order, every point", "unbounded order; continuum",
  AF+"monomialset.hh: MonomialSet")
p("Trigonometric function derivative is exact",
  "derivative(TrigonometricFunction<K,s,c>) is the derivative of s*sin+c*cos, and four differentiations return the original function.",
  "all coefficients and points", "continuum",
  AF+"trigonometricfunction.hh: TrigonometricFunction")
p("Geometry in ancestor composes and inverts",
  "GeometryInAncestor::global is the composition of the geometryInFather maps from the element up to the bound ancestor, and local its inverse; coarseElement() is the nearest ancestor the predicate selects; copies behave like the original, after every history of binds and copies.",
  "every refinement depth and path", "unbounded depth",
  CO+"geometryinancestor.hh: GeometryInAncestor")
p("Reference element distance is the l1-distance",
  "The helper used to find the sub-element containing a point returns the l1-distance to the reference element, is zero exactly inside, and the inside test with tolerance accepts exactly the points of distance <= tolerance.",
  "every dimension, topology and point", "continuum and all topologies",
  GF+"finefunctiononcoarsegridview.hh: distance, checkInside")
p("Fine function on coarse grid evaluates in a closest descendant",
  "Evaluating a fine-grid function at a coarse local coordinate follows, at each level, a child of minimal distance to the point, terminating at an element of the fine entity set.",
  "every refinement tree and point", "trees unbounded",
  GF+"finefunctiononcoarsegridview.hh: evaluateInDescendent")
p("Facet normal functions select a closest facet",
  "closestFaceIndex returns a facet minimising the distance to the point, the first in case of ties.",
  "every list of facets and point", "continuum",
  GF+"facenormalgridfunction.hh: closestFaceIndex")
p("Facet orientation bits of H(div) bases are consistent",
  "For two elements sharing a facet, exactly one of them has the orientation bit set in Raviart-Thomas and BDM bases, boundary facets have none, and the orientation-dependent finite element variant index stays in range and encodes all bits.",
  "every grid with distinct element indices", "all grids",
  FB+"raviartthomasbasis.hh: RaviartThomasLocalFiniteElementMap::update", FB+"brezzidouglasmarinibasis.hh: BrezziDouglasMariniLocalFiniteElementMap::update")
p("Edge orientation bits of H(curl) bases are consistent",
  "For every edge, all elements sharing it agree on the global direction of the edge implied by their orientation bit, for any local numbering of its vertices.",
  "every grid with distinct vertex indices", "all grids/numberings",
  FB+"nedelecbasis.hh: Nedelec1stKindLocalFiniteElementMap::update", CO+"mapperutilities.hh: computeEdgeOrientations")
p("Piola transforms are inverted by their interpolation counterparts",
  "For an invertible Jacobian, mapping a reference shape function value with the covariant or contravariant Piola transform and pulling it back with the corresponding local-valued function yields the original value, and contravariant transforms preserve facet fluxes / covariant transforms preserve tangential components.",
  "every invertible Jacobian and value", "continuum",
  FB+"globalvaluedlocalfiniteelement.hh: ContravariantPiolaTransformator, CovariantPiolaTransformator")
p("Local functions keep a consistent bind state",
  "For analytic, composed, discrete and coarse/fine grid functions: after any history of bind/unbind/copy/derivative, bound() reports whether an element is bound, localContext() returns it, and a derivative local function is bound to the same element as its origin.",
  "every history", "histories unbounded",
  GF+"analyticgridviewfunction.hh: LocalAnalyticGridViewFunction", GF+"composedgridfunction.hh: ComposedGridFunction", GF+"coarsefunctiononfinegridview.hh", GF+"discreteglobalbasisfunction.hh")
p("Hierarchic node-to-range map selects a consistent component",
  "The default node-to-range map sends different leaf tree paths to different components of a range shaped like the tree, and a scalar range to itself.",
  "every tree and range shape", "all tree shapes",
  FB+"hierarchicnodetorangemap.hh: HierarchicNodeToRangeMap")
p("Local views are independent values",
  "After any history of constructing, copying, assigning, binding, unbinding and destroying local views, each bound view's tree() refers to the element of that view, whatever is done to other views.",
  "every history of operations on any number of views", "histories unbounded; aliasing shows only for particular interleavings",
  FB+"defaultlocalview.hh: DefaultLocalView(const DefaultLocalView&), bind, unbind", FB+"lagrangebasis.hh: LagrangeNode::bind, element, finiteElement")
p("Cubic Hermite functions have the coefficients their degrees of freedom say, and fit together continuously",
  "On every nondegenerate simplex (dimension 1, 2, 3; reduced in 2): the coefficients of a function of the cubic Hermite space are its values and mesh-size-scaled gradients at the vertices and its values at the barycentres of the triangles; interpolation returns exactly these coefficients and reproduces cubic (reduced: quadratic) polynomials; Jacobians, Hessians and partial() are the derivatives of the shape functions; functions on two elements with common coefficients agree on the common facet, and their gradients at common vertices; the DOF layout matches the local keys.",
  "every simplex, positive mesh sizes, coefficient vector, point, function with a gradient", "continuum of geometries, coefficients and points",
  FB+"cubichermitebasis.hh: CubicHermiteReferenceLocalBasis, CubicHermiteLocalInterpolation, CubicHermiteLocalFiniteElement::transform, CubicHermitePreBasis", FB+"transformedfiniteelementmixin.hh: TransformedLocalBasis")
p("Morley functions have the coefficients their degrees of freedom say, and gradients agree at common edge midpoints",
  "On every nondegenerate triangle: the coefficients of a function of the Morley space are its values at the vertices and its normal derivatives at the edge midpoints; interpolation returns exactly these coefficients and reproduces quadratic polynomials; Jacobians, Hessians and partial() are the derivatives of the shape functions; a finite element may be bound any number of times; on a grid, elements give a common edge the same normal, functions with common coefficients agree at common vertices and have the same gradient at the midpoints of common edges; the DOF layout matches the local keys; after update(gridView) the basis is usable on that grid view.",
  "every triangle, orientation, coefficient vector, point, function with a gradient, history of binds, grid of triangles",
  "continuum of geometries, coefficients and points, all grids",
  FB+"morleybasis.hh: MorleyReferenceLocalBasis, MorleyLocalInterpolation, MorleyLocalFiniteElement, MorleyNode, MorleyPreBasis",
  CO+"mapperutilities.hh: computeEdgeOrientations")
p("Argyris functions have the coefficients their degrees of freedom say, and are globally continuously differentiable",
  "On every nondegenerate triangle: the coefficients of a function of the Argyris space are its values, mesh-size-scaled gradients and Hessians at the vertices and its normal derivatives at the edge midpoints; interpolation returns exactly these coefficients and reproduces polynomials of degree 5; Jacobians, Hessians and partial() are the derivatives of the shape functions; on a grid every element can be bound, elements give common vertices the same mesh size and common edges the same normal, and functions with common coefficients have the same values and gradients on the whole common edge; the DOF layout matches the local keys; after update(gridView) the pre-basis is that of the new grid view.",
  "every triangle, mesh sizes, orientations, coefficient vector, point, function with a gradient and Hessian, grid of triangles",
  "continuum of geometries, coefficients and points, all grids",
  FB+"argyrisbasis.hh: ArgyrisReferenceLocalBasis, ArgyrisLocalInterpolation, ArgyrisLocalFiniteElement, ArgyrisNode, ArgyrisPreBasis", CO+"mapperutilities.hh: computeAverageSubEntityMeshSize, computeEdgeOrientations")
p("The average mesh size of an entity is the root of the average volume of its elements",
  "computeAverageSubEntityMeshSize returns, for every index of the mapper, the positive number whose dim-th power is the average volume of exactly those elements that the entity is a subentity of.",
  "every grid view, mapper layout and mapper, positive volumes",
  "all grids and layouts", CO+"mapperutilities.hh: MapperElementSubIndices, computeAverageSubEntityMeshSize")
p("Copies of Hermite, Morley and Argyris finite elements are independent values",
  "After any history of constructing, binding, copying, assigning and destroying finite elements of the cubic Hermite, Morley and Argyris bases, localBasis() and localInterpolation() of each bound finite element work with the element that finite element was last bound to (or the one it took over when copied), whatever happens to other finite elements.",
  "every history of operations on any number of finite elements", "unbounded histories and aliasing between objects",
  FB+"transformedfiniteelementmixin.hh: TransformedFiniteElementMixin, TransformedLocalBasis", FB+"cubichermitebasis.hh: CubicHermiteLocalFiniteElement", FB+"argyrisbasis.hh: ArgyrisLocalFiniteElement", FB+"morleybasis.hh: MorleyLocalFiniteElement")
p("H(div), H(curl), hierarchical, refined and nonconforming bases number exactly the shape functions of their finite elements",
  "For the Raviart-Thomas, Brezzi-Douglas-Marini, Nedelec, hierarchical Lagrange (with and without bubble), refined Lagrange and Rannacher-Turek bases on every grid view and order they support: local indices are distinct and smaller than dimension(), two local indices are equal iff they are the same degree of freedom of the same grid entity, every index below dimension() is used by some element, and maxNodeSize() bounds the number of shape functions.",
  "every grid view, element type and order for which there is a finite element",
  "all grids, all supported orders and types; the upstream tests of the second order Brezzi-Douglas-Marini basis are disabled",
  FB+"raviartthomasbasis.hh: RaviartThomasPreBasis::dofLayout", FB+"brezzidouglasmarinibasis.hh: BrezziDouglasMariniPreBasis::dofLayout", FB+"nedelecbasis.hh: NedelecPreBasis", FB+"hierarchicallagrangebasis.hh", FB+"hierarchicallagrangewithelementbubblebasis.hh", FB+"refinedlagrangebasis.hh: dofLayout", FB+"rannacherturekbasis.hh: RannacherTurekPreBasis")
p("update(gridView) leaves a basis as if newly created",
  "A global basis is created from a factory, the grid is adapted and basis.update(gridView) is called, any number of times, some of the calls throwing. After a final update(gv), the basis is in the same state as a basis newly created from the same factory on gv: gridView(), sizes, indices, node sizes, element orientations and mesh sizes all agree. This holds for all shipped leaf bases and for power, composite and restricted bases built from them, but not for Taylor-Hood bases (gridView() stays the old one), Morley bases (orientations are computed with the mapper of the first grid) and periodic bases (the identification of the first grid is kept). An update that throws may leave a composite basis half-way, and only Lagrange bases check in update what their constructor checks.",
  "all nestings of bases, all grids and grid views, all sequences of grid changes and updates, including ones that throw",
  "a test adapts one grid once or twice; stale tables only show for particular combinations of grid views, and the combination of bases is unbounded",
  FB+"defaultglobalbasis.hh: DefaultGlobalBasis::update", FB+"lagrangebasis.hh: LagrangePreBasis::update", FB+"leafprebasismappermixin.hh: LeafPreBasisMapperMixin::update, initializeIndices", FB+"taylorhoodbasis.hh: TaylorHoodPreBasis::update", FB+"morleybasis.hh: MorleyPreBasis::update", FB+"transformedindexbasis.hh: TransformedIndexPreBasis::update", FB+"restrictedbasis.hh: RestrictedPreBasis::update", FB+"compositebasis.hh: CompositePreBasis::update", FB+"raviartthomasbasis.hh: RaviartThomasLocalFiniteElementMap::update")
p("functionalDescriptor(i) describes the i-th degree of freedom",
  "For the cubic Hermite, reduced cubic Hermite, Morley and Argyris elements, localInterpolation().functionalDescriptor(i) says what the i-th degree of freedom is: for every differentiable function, the i-th number computed by interpolate() is the partial derivative of the order partialDerivativeOrder() at the point of the i-th local key, in units of the mesh size there to the power of the order, or, if normalDerivativeOrder() is 1, the derivative in the direction of a unit vector normal to the edge of the local key. This holds in two and three dimensions but not for the one-dimensional Hermite element, where the derivative is described as a normal derivative.",
  "all triangles, tetrahedra, mesh sizes, orientations and differentiable functions",
  "a test interpolates a few functions on a few triangles",
  FB+"functionaldescriptor.hh: FunctionalDescriptor", FB+"cubichermitebasis.hh: CubicHermiteLocalInterpolation::functionalDescriptor", FB+"morleybasis.hh: MorleyLocalInterpolation::functionalDescriptor", FB+"argyrisbasis.hh: ArgyrisLocalInterpolation::functionalDescriptor")
p("Local functions and the lifetime of grid functions",
  "A program may create, copy, differentiate, assign, type-erase and destroy grid functions (analytic, face normal, discrete, composed, transferred to a finer or coarser grid view, nested in each other) and their local functions in any order. As long as the objects a discrete function refers to exist, and the grid function exists unchanged for those local functions that refer to it, no destroyed object is used and every bound local function computes the values of the grid function it was created from. Local functions of analytic, face normal and discrete functions, also of discrete functions transferred to another grid view, do not need the grid function any more. Local functions of composed functions, and of other functions transferred to another grid view, do: localFunction(derivative(f)) of such a function dangles, as does makeDiscreteGlobalBasisFunction with a temporary vector, and assigning to a composed function changes part of its existing local functions.",
  "all programs over grid functions of any nesting, all grids and all histories of creation, assignment and destruction",
  "reading a destroyed object need not fail in a test, and the nestings and histories are infinite",
  GF+"composedgridfunction.hh: ComposedGridFunction::LocalFunction", GF+"coarsefunctiononfinegridview.hh: CoarseFunctionOnFineGridView", GF+"finefunctiononcoarsegridview.hh: FineFunctionOnCoarseGridView", GF+"discreteglobalbasisfunction.hh: makeDiscreteGlobalBasisFunction", GF+"analyticgridviewfunction.hh: AnalyticGridViewFunction", GF+"facenormalgridfunction.hh: FaceNormalGridFunction")
p("Global and local evaluation of grid functions agree",
  "If a point lies in an element, then calling a grid function with the global coordinate and calling its local function, bound to that element, with the local coordinate give the same value. This holds for analytic functions, for discrete functions at points where all elements containing the point agree on the value, for their compositions, and for functions transferred to a finer or coarser grid view, nested in any way, and for their derivatives. Where the elements disagree, global evaluation returns the value of the element that the search finds. A function with a face normal function in it cannot be evaluated globally: the call throws.",
  "all grids with nested elements, all searches that find an element containing the point, all nestings of grid functions, all points and all elements containing them",
  "the grids, nestings and points are infinite, and the element found by the search is the choice of another module",
  GF+"discreteglobalbasisfunction.hh: DiscreteGlobalBasisFunction::operator()", GF+"composedgridfunction.hh: ComposedGridFunction::operator()", GF+"coarsefunctiononfinegridview.hh: CoarseFunctionOnFineGridView::operator()", GF+"finefunctiononcoarsegridview.hh: FineFunctionOnCoarseGridView::operator()", GF+"analyticgridviewfunction.hh: AnalyticGridViewFunction::operator()", GF+"facenormalgridfunction.hh: FaceNormalGridFunction::operator()")
p("A function made of callables is the sequence of its derivatives",
  "makeDifferentiableFunctionFromCallables(tag, f0, ..., fn) returns a function whose derivative of order k evaluates fk for k <= n, and whose derivative of order n+1 throws NotImplemented. This stays true for copies, for type-erased copies (DifferentiableFunction) and for derivatives of these, in any order; a plain callable in a DifferentiableFunction can be evaluated, and its derivative throws. If the callables are passed as temporaries then nothing that happens later changes the values. If they are passed as variables then, unlike documented, they are not copied: the function follows later changes of the variable and dangles after its end. With the default derivative traits the ranges of the derivatives exist for scalar functions up to order two and for vector valued functions for order one (all orders for scalar functions of one variable), and have one entry per component and tuple of directions.",
  "all programs that create, copy, type-erase and differentiate such functions and change or destroy the variables passed to them, all numbers of callables, all orders and dimensions",
  "the programs, orders and dimensions are infinite, and reading a destroyed variable need not fail in a test",
  CO+"differentiablefunctionfromcallables.hh: DifferentiableFunctionFromCallables, makeDifferentiableFunctionFromCallables", CO+"differentiablefunction.hh: DifferentiableFunction", CO+"differentiablefunction_imp.hh: derivativeIfImplemented", CO+"defaultderivativetraits.hh: DefaultDerivativeTraits", CO+"signature.hh: derivativeSignatureTags")
p("Lagrange functions are continuous across elements",
  "Let two elements share a vertex, edge or face. At a point of it, given in the local coordinates of either element, a discrete function has the same value in both elements, for every entry of its range that belongs to a Lagrange basis; this holds for every coefficient vector, for every order the Lagrange basis accepts, whatever tree the Lagrange basis is part of, and whichever way the elements number and orient the shared face. The global basis function with any number has the same value there in both elements (zero if it belongs to one of them only).",
  "all conforming grids of dimension one to three with simplices, cubes and prisms, all orders accepted, all numberings of vertices, all trees of bases, all coefficients, all points",
  "orders, grids, local numberings and points are infinite; a wrong orientation shows only in particular pairs of local numberings and orders",
  FB+"lagrangebasis.hh: LagrangePreBasis::indices, FaceOrientations, LagrangeFaceDOFPermutation", GF+"discreteglobalbasisfunction.hh: DiscreteGlobalBasisFunction::LocalFunction::operator()")
p("Raviart-Thomas and Brezzi-Douglas-Marini functions have continuous normal components",
  "For every conforming grid and every function from a Raviart-Thomas (or BDM) basis, at every point of a facet shared by two elements the normal component computed on the two elements is the same, whatever the coefficients are and whatever tree the basis is part of.",
  "all grids of elements in two and three dimensions with any local numbering and any element indices, all geometries, all points of shared facets, all coefficients",
  "the sign conventions, the numbering and the Piola transform interact for every combination of element indices, element types, facet numbers and orientations; a test fixes one grid",
  FB+"raviartthomasbasis.hh: RaviartThomasLocalFiniteElementMap::update, find, RaviartThomasPreBasis::dofLayout",
  FB+"brezzidouglasmarinibasis.hh: BrezziDouglasMariniLocalFiniteElementMap",
  FB+"globalvaluedlocalfiniteelement.hh: ContravariantPiolaTransformator::apply")
p("Nedelec functions have continuous tangential components",
  "For every conforming grid and every function from a Nedelec basis of the first kind, at every point of a face or edge shared by several elements the component in any direction tangential to it is the same on all of them, whatever the coefficients are and whatever tree the basis is part of.",
  "all grids of simplices and cubes in two and three dimensions with any local numbering and any global ids, all geometries, all points of shared faces and edges, all tangential directions, all coefficients",
  "edge orientations come from global ids and the element's own numbering; a wrong sign shows only for particular combinations of ids, numberings and element types, and a test fixes one grid",
  FB+"nedelecbasis.hh: Nedelec1stKindLocalFiniteElementMap::update, find, NedelecPreBasis",
  FB+"globalvaluedlocalfiniteelement.hh: CovariantPiolaTransformator::apply")
p("Interpolating a discrete function into its own space reproduces it",
  "Interpolating a discrete function into the (sub)space basis it was made of gives back its coefficients, whichever leaves use the derivative for their degrees of freedom: after the call every marked degree of freedom of the given elements has exactly the coefficient the function had, all others are as the resize left them, and nothing but the resize can throw. The target may be the very vector the function refers to: then the call has the effect of the resize alone.",
  "all (sub)space bases, all unisolvent finite elements with degrees of freedom that use values or derivatives, all coefficients, all bit vectors, all target containers, all element ranges, aliased or separate target",
  "the call binds a view, the function and its cached derivative element by element while it writes to a vector the function may refer to; tests interpolate one function once",
  FB+"interpolate.hh: interpolate, interpolateLocal, ComponentFunction, CachedDerivativeLocalFunction", GF+"discreteglobalbasisfunction.hh: DiscreteGlobalBasisFunction, LocalFunction::bind, operator(), derivative")
p("Interpolation into Lagrange spaces is nodal",
  "For every conforming grid, interpolating a function of the global coordinates (or any function with one value where elements meet) into a basis made of Lagrange bases gives every marked degree of freedom the value of the function in its Lagrange point. All elements that share a degree of freedom agree about this value, so the result does not depend on the order in which the grid view lists them. The discrete function with the result as coefficients agrees with the function in all Lagrange points of all elements.",
  "all grids of simplices, cubes and prisms up to three dimensions with any local numbering and vertex ids, all orders, all trees of Lagrange bases, all functions, all element orders, all bit vectors and containers",
  "whether two elements mean the same point by a shared degree of freedom depends on the numbering of both; a test compares a few grids and cannot vary the iteration order",
  FB+"interpolate.hh: interpolate, interpolateLocal", FB+"lagrangebasis.hh: LagrangePreBasis::indices, computeFaceOrientations, permuteFaceDOF", GF+"discreteglobalbasisfunction.hh")
p("Spline functions are smooth across element boundaries",
  "A function in a B-spline space of order p whose inner knots occur at most m times has the same value at a common point of two elements, no matter from which of them it is evaluated, if m <= p. The same holds for its first derivatives in global coordinates if m < p in the direction of the derivative, and for the second derivatives with one or two further orders. Both constructors give simple inner knots, so spaces of order 1, 2 and 3 are continuous, once and twice continuously differentiable.",
  "all dimensions, orders and knot vectors with one element per non-empty span, all pairs of elements with a common point, all common points, all coefficients, all derivatives of order at most two",
  "every element evaluates its own polynomials from a table and its own indices; a test compares them in a few points for a few knot vectors",
  FB + "bsplinebasis.hh: BSplinePreBasis::evaluateFunction, evaluateJacobian, evaluate, indices", FB + "bsplinebasis.hh: BSplineLocalBasis")
p("A discrete function determines its coefficients",
  "If the shape functions of every leaf are linearly independent on each element - which holds for Lagrange elements and for all elements whose degrees of freedom are dual to the shape functions - two coefficient vectors that give the same values on an element have the same entries for all degrees of freedom of the basis or subspace basis on this element. So two vectors that represent the same function are equal at every index of the basis. Conversely, values on an element depend on nothing but these entries.",
  "all basis trees, all subspace bases, all elements, all coefficient vectors and blocked coefficients, all finite elements with independent shape functions",
  "the statement is about all pairs of coefficient vectors; a wrong index or a degree of freedom that is read twice or never can go unnoticed with the vectors of a test",
  GF + "discreteglobalbasisfunction.hh: DiscreteGlobalBasisFunctionBase::LocalFunctionBase::bind, LocalFunction::operator()",
  "dune/functions/functionspacebases/defaultlocalview.hh: DefaultLocalView::index")
p("The spline functions of an element are linearly independent",
  "A combination of the shape functions of a B-spline element that vanishes at all points inside the element has zero coefficients. So two spline functions that agree inside one element have the same coefficients for all functions of this element, and two that agree on all elements are equal coefficient by coefficient.",
  "all dimensions, orders and sorted knot vectors with one element per non-empty span, open or not, with repeated knots or not; all elements, all coefficients",
  "tests evaluate a basis in finitely many points for a few knot vectors; that no combination vanishes is a statement about all of them",
  FB + "bsplinebasis.hh: BSplinePreBasis::evaluateFunction, evaluateAll, indices",
  FB + "bsplinebasis.hh: BSplineLocalBasis::evaluateFunction")
p("Spline spaces contain the polynomials",
  "For open knot vectors every polynomial whose degree in each variable is at most the order of the basis in this direction is a spline function: there are coefficients, the same for all elements, that give its value at every point of every element. The coordinate functions are obtained with the mean values of order consecutive knots (Greville abscissae) as coefficients. With makeOpen = false and a positive order not even constants are contained.",
  "all dimensions, all orders, all open knot vectors, all polynomials of the degrees admitted, all elements and points",
  "tests can try a few polynomials in a few points; the statement is about all of them and all knot vectors",
  FB + "bsplinebasis.hh: BSplinePreBasis::evaluateFunction, indices",
  FB + "bsplinebasis.hh: BSplinePreBasis::BSplinePreBasis")
p("Functions over transformed and periodic bases are functions of the raw basis with renamed coefficients",
  "A DiscreteGlobalBasisFunction over a basis made with transformIndices(raw, t) is the function over the raw basis whose coefficient at raw index m is the given coefficient at t(m): every program of creating, binding, copying, assigning, unbinding and differentiating local functions and changing coefficients sees the same contexts and values with both. For periodic(raw, pairs) over a flat raw basis this means: its functions (and their derivatives) are exactly the functions of the raw basis whose coefficients agree at unified DOFs; a raw function with equal coefficients at all requested pairs is always one of them; the coefficients of a function are unique if the raw shape functions are independent; and for Lagrange elements the function takes the same value in the nodes of unified DOFs.",
  "all raw bases, subspace paths, transformations defined on the raw indices, finite elements and geometries, all programs using local functions, all coefficient vectors, elements and points; for periodic bases all sequences of unifyIndexPair calls between existing DOFs",
  "tests evaluate a few functions over one or two periodic bases; the equality of the function spaces concerns all coefficient vectors and all sets of requests",
  FB+"transformedindexbasis.hh: TransformedIndexPreBasis::indices", FB+"periodicbasis.hh: PeriodicIndexingTransformation", GF+"discreteglobalbasisfunction.hh: LocalFunction::bind, operator()")
p("Interpolating a discrete function into another basis keeps what that basis can represent",
  "interpolate(basis, vector, f[, bitVector]) with a discrete function f over another basis gives every marked DOF of a visited element the coefficient that the local finite element delivers for f on one of these elements, whatever the trees and indices of the two bases are, and leaves the other entries alone; it throws only if the vector cannot be resized. If f is also a function of the target basis, the result is its coefficient vector there, and the discrete function with the result is f again.",
  "all source and target bases, subspace paths, ranges, coefficient vectors, vector types, marks, element sequences and finite elements whose degrees of freedom are dual to their shape functions, with and without derivatives",
  "tests interpolate a few functions between a few pairs of bases; the claim concerns every pair and every function in the intersection of the spaces",
  FB + "interpolate.hh: interpolate, Impl::CachedDerivativeLocalFunction, ComponentFunction", GF + "discreteglobalbasisfunction.hh: LocalFunction")
p("Interpolation into periodic bases",
  "interpolate(periodicBasis, vector, f) is defined for vectors of numbers (or of blocks with one number) and gives every marked DOF a value that a visited element delivers for one of the raw DOFs unified to it; unmarked and unvisited DOFs keep their values, new entries are zero. If f has the same values at unified DOFs, every DOF gets the value of each of its raw DOFs; and a discrete function that is a function of the raw basis with equal coefficients at unified DOFs is reproduced: the result represents the same function, with the same derivative.",
  "all flat raw bases with at least one DOF, subspace paths, sequences of unifyIndexPair calls between existing DOFs, vectors, marks, element sequences, local interpolations; for the last part all source bases and functions",
  "a test uses one grid, one pairing of boundary DOFs and a function that happens to be periodic",
  FB + "interpolate.hh: interpolate", FB + "periodicbasis.hh: PeriodicIndexingTransformation", FB + "transformedindexbasis.hh: TransformedIndexPreBasis", BE + "istlvectorbackend.hh: ISTLVectorBackend::resize, operator[]")
p("Threads with their own local functions do not interfere",
  "Threads that work at the same time on the same basis, grid function and coefficient vector do not disturb each other as long as no local function object that one thread constructs, binds, unbinds or evaluates is used by another one, and no coefficient written by one thread is written by another one or belongs to an element another one visits. Then there is no data race under any schedule, every evaluation returns the value of the discrete function on the bound element, just as if the thread ran alone, every thread can be run to its end, and afterwards the coefficient vector holds what each thread wrote. In particular threads may copy a common prototype that nobody changes. (Evaluating the same local function object in two threads is not covered although operator() is const, nor is copying one that is being evaluated: both are races.)",
  "every number of threads, all their programs, every schedule, all bases, coefficients and points",
  "interleavings cannot be enumerated by tests, and data races rarely show in test runs",
  GF+"discreteglobalbasisfunction.hh: DiscreteGlobalBasisFunction::LocalFunction (evaluationBuffer_, localDoFs_, localView_), DiscreteGlobalBasisFunctionDerivative::LocalFunction",
  FB+"defaultlocalview.hh: DefaultLocalView",
  FB+"lagrangebasis.hh: LagrangeNode (cache_)")
p("An interrupted interpolation can be repeated",
  "If the function (or its local function, or binding, or an allocation) throws while interpolate(basis, coeff, f, bitVector) runs, at whatever point, the coefficient vector has the size the basis asks for, each DOF has its previous value or, if it is marked, an interpolation value, the elements before the interruption are finished and the DOFs that belong only to later ones are as before. After any number of interrupted attempts, also with other functions, a call that is not interrupted gives exactly the vector it would have given without the attempts; interpolating twice is the same as interpolating once. (The call is not atomic: the vector may be partly interpolated.)",
  "every basis, container, mask, function, element order, every point of failure and every number of failed attempts",
  "the points of failure and the histories of failed attempts are unbounded",
  FB+"interpolate.hh: interpolate, Imp::interpolateLocal", BE+"istlvectorbackend.hh: ISTLVectorBackend::resize")
p("Copies of B-spline finite elements",
  "After any history of constructing, binding, copying and destroying finite elements of a B-spline basis, size() and localBasis() of each finite element belong to the element it was last bound to (or the one it took over when copied), whatever happens to other finite elements. (Only part of it holds: a finite element that was itself bound works; a copy of a bound one is not bound, its size and shape functions are read from uninitialized members until it is itself bound.)",
  "all histories of operations on finite elements, all knot vectors, elements and points",
  "the histories are unbounded, and a copy that reads uninitialized memory may pass a test by chance",
  FB+"bsplinebasis.hh: BSplineLocalFiniteElement (copy constructor, bind, size), BSplineLocalBasis")
p("Functions over subspace bases are the components of functions over the whole basis",
  "Let g be the discrete function over subspaceBasis(basis, q) and f the one over the basis itself, with the same coefficient vector. Local functions of g and f, however they came to be bound to an element, have the same entries and the same derivatives at every leaf below q. And interpolating the components of a function one after the other, each into its subspace basis, leaves the same vector as interpolating the function as a whole, whenever the elements agree on the values of shared degrees of freedom and the components together contain all leaves.",
  "all nestings of bases, tree paths, grids, coefficient vectors, histories of local functions, containers, masks and points of evaluation",
  "the subspace view shares the whole tree and index machinery; an offset or a path that is wrong for one nesting only shows on that nesting, and tests compare a few fixed Taylor-Hood bases",
  FB+"subspacebasis.hh: SubspaceBasis", FB+"subspacelocalview.hh: SubspaceLocalView", GF+"discreteglobalbasisfunction.hh: DiscreteGlobalBasisFunction::LocalFunction", FB+"interpolate.hh: interpolate")
p("derivative(f) is the derivative of f",
  "Let f be a discrete function whose finite elements return in evaluateJacobian the derivatives of what they return in evaluateFunction, on elements with differentiable geometries and their inverse Jacobians. On every element, however the local functions came to be bound, the derivative of every entry of the values of f along a line in local coordinates is the entry of derivative(f) applied to the velocity of the image of the line. If the geometry is affine, the row of derivative(f) is the gradient of the entry of f with respect to global coordinates.",
  "all nestings of bases, vector-valued leaves and coefficients, grids, coefficient vectors, histories of local functions, elements, points and directions",
  "tests compare a few derivatives with finite differences or with an analytic function; a transposed Jacobian or a mixed up component shows only for some element shapes and some bases",
  GF+"discreteglobalbasisfunction.hh: DiscreteGlobalBasisFunctionDerivative::LocalFunction::operator()",
  GF+"discreteglobalbasisfunction.hh: DiscreteGlobalBasisFunction::LocalFunction::operator()")
p("Discrete functions of Argyris, Morley and cubic Hermite bases have the promised continuity",
  "Discrete functions over an Argyris basis have, at every point of a common edge of two triangles, the same value and the same derivative in both, i.e. are continuously differentiable. Over a Morley basis they have the same value at common vertices and the same derivative at the midpoints of common edges. Over a (full or reduced) cubic Hermite basis in one, two or three dimensions they have the same value at every point of a common facet and the same value and derivative at common vertices. This holds for every coefficient vector, also if the basis is one leaf of a larger tree.",
  "all simplex grids, orderings and numberings of elements and vertices, mesh sizes, coefficient vectors, blockings, trees of bases, points of common facets",
  "a wrong orientation or scaling shows only for particular numberings of neighbouring elements; tests check jumps at quadrature points of one or two grids up to a tolerance",
  FB+"argyrisbasis.hh: ArgyrisPreBasis, ArgyrisNode",
  FB+"morleybasis.hh: MorleyPreBasis, MorleyNode",
  FB+"cubichermitebasis.hh: CubicHermitePreBasis, CubicHermiteNode",
  GF+"discreteglobalbasisfunction.hh: DiscreteGlobalBasisFunction")
p("Interpolation reproduces functions of the space and agrees with the function in the degrees of freedom",
  "A function whose restriction to every element is the combination of the shape functions with the coefficients its local interpolation returns is reproduced by interpolate(): the discrete function with the interpolated coefficients has its values everywhere. In particular polynomials of degree 5 (Argyris), 2 (Morley, reduced cubic Hermite) and 3 (cubic Hermite) are reproduced together with their derivatives. For any differentiable function the interpolant has the function's value and gradient (Argyris, Hermite) or value (Morley) at vertices, its normal derivative at midpoints of edges (Argyris, Morley) and its value at barycentres of triangles (Hermite).",
  "all bases, blockings, grids, numberings and orientations, mesh sizes, functions, orders of the elements, previous contents of the container",
  "neighbouring elements write the same coefficient; with a wrong sign, scaling or numbering the later one wins, which shows only on particular meshes and for particular functions",
  FB+"interpolate.hh: interpolate", FB+"argyrisbasis.hh: ArgyrisLocalInterpolation", FB+"morleybasis.hh: MorleyLocalInterpolation", FB+"cubichermitebasis.hh: CubicHermiteLocalInterpolation", GF+"discreteglobalbasisfunction.hh: DiscreteGlobalBasisFunction")
p("Interpolation preserves the degrees of freedom of every element: fluxes through facets and circulations along edges",
  "On every element that interpolate() visits, the local interpolation of the resulting discrete function returns what the local interpolation of the interpolated function returned. For Raviart-Thomas and Brezzi-Douglas-Marini bases this means that the discrete field has the same moments of the normal component on every facet, in particular the same flux, as the interpolated field; for Nedelec bases, that it has the same circulation along every edge; whatever the orientation bits of the elements and the order in which they are visited.",
  "all bases, grids of mixed element types and geometries, numberings and orientations, vector fields, orders of the elements, previous contents of the container",
  "both elements at a facet write its coefficient, each with its own sign, normal and Piola transformation; a disagreement shows only for particular pairs of orientations and is overwritten by the later element",
  FB+"interpolate.hh: interpolate", FB+"globalvaluedlocalfiniteelement.hh: GlobalValuedLocalInterpolation, ContravariantPiolaTransformator, CovariantPiolaTransformator", FB+"raviartthomasbasis.hh: RaviartThomasLocalFiniteElementMap", FB+"brezzidouglasmarinibasis.hh: BDMLocalFiniteElementMap", FB+"nedelecbasis.hh: Nedelec1stKindLocalFiniteElementMap")
p("basis.interpolate(x, f) of the Python bindings fills the caller's array",
  "When basis.interpolate(x, f) returns in Python, entry k of the array x holds the value that the interpolation gives for degree of freedom k of the basis, converted to the type of the array, for every degree of freedom of a visited element; other entries and other arrays are unchanged. When x cannot take the coefficients (wrong shape, read-only, basis with blocks) the call raises an exception and nothing changes.",
  "all bases and subspaces, functions, grids, orders of the elements, arrays of any type, shape and content",
  "tests use double arrays of the right size; whether the caller's array or a converted copy is written depends on the element type",
  "dune/python/functions/interpolate.hh: registerInterpolate", "dune/python/functions/globalbasis.hh: registerGlobalBasis", "dune/python/functions/hierarchicvectorwrapper.hh: HierarchicVectorWrapper", FB+"interpolate.hh: interpolate")
p("basis.asFunction(x) of the Python bindings is the function with coefficients x",
  "In Python the function basis.asFunction(x) has coefficient x[k] for basis function number k: after any history of creating, binding, unbinding, copying and differentiating local functions and of assignments to entries of x, a bound local function evaluates to the sum of basis functions times the entries that x had when it was bound.",
  "all bases, arrays, histories of operations on local functions and of assignments to the array, elements and points",
  "a history is unbounded, and the array is shared between Python and the C++ function, so later assignments show through or not depending on when a local function was bound",
  "dune/python/functions/globalbasis.hh: registerGlobalBasis (asFunction)", "dune/python/functions/hierarchicvectorwrapper.hh: HierarchicVectorWrapper", "dune/python/functions/discretefunction.hh: HierarchicPythonVector, registerDiscreteFunction", GF+"discreteglobalbasisfunction.hh: DiscreteGlobalBasisFunction")
p("Objects of the Python bindings never refer to freed objects",
  "Whatever a Python program does with grid views, bases, subspace bases, local views, discrete functions and the objects obtained from them, and in whatever order it deletes its variables: every object it still has a variable for can be used, that is, nothing its C++ part refers to directly or indirectly has been freed.",
  "all finite histories of creating, obtaining, binding, copying and deleting objects of the bindings",
  "a missing keep_alive shows only for particular orders of deletion, and then as undefined behaviour that usually goes unnoticed",
  "dune/python/functions/globalbasis.hh: registerBasisType, LocalViewWrapper", "dune/python/functions/subspacebasis.hh: registerSubspaceBasis", "dune/python/functions/discretefunction.hh: registerDiscreteFunction", "dune/python/functions/tree.hh: registerTree")
p("Objects of the Python bindings are freed when the program cannot reach them any more",
  "At any time the objects of the bindings that exist are those that the Python program can reach from its variables, through objects that own references to others; in particular all of them are freed once all variables are gone.",
  "all finite histories of creating, obtaining, binding, copying and deleting objects of the bindings",
  "a leaked reference has no effect that a test of results could see",
  "dune/python/functions/globalbasis.hh: LocalViewWrapper, registerBasisType", "dune/python/functions/discretefunction.hh: registerDiscreteFunction")
p("Python trees become the bases they describe",
"For every tree made with the classes of the Python module (Lagrange, Nedelec, RaviartThomas, Power, Composite, with any nesting, blocking and layout), defaultGlobalBasis(gridView, tree) names a C++ type that stands for exactly the basis the tree describes: the text is a well-formed type, can be read in one way only, its template arguments have the right order and values, different trees never get the same type, and Python raises exactly for trees with unsupported parts. subspaceBasis(basis, i, j, ...) stands for the subspace at (i, j, ...) below basis; nested calls join the paths.",
"all trees of any depth and any number of children, all orders and exponents, all layouts, all grid view types",
"Tests instantiate a handful of trees; the text is built recursively from strings, so an error in a separator, bracket or argument order may show only for some nesting.",
"python/dune/functions/globalbasis.py: preBasisTypeName, indexMergingStrategy, defaultGlobalBasis","python/dune/functions/tree.py: Lagrange, Nedelec, RaviartThomas, Composite, Power","python/dune/functions/subspacebasis.py: subspaceBasis")
p("Tree nodes in Python describe the bound element",
  "In Python, localView.tree() always is the tree of the view for the element it is bound to, however often the view is bound and unbound, and node.child(i) gives the child of the node: its size and local indices are those of the element the view is bound to. Nodes obtained since the last bind do; a node obtained by child(i) before it is a copy that keeps the numbers of the former element.",
  "all bases and nested subspace bases, all sequences of bind, unbind, tree() and child(i) on a view and on the nodes it has handed out",
  "Tests take the nodes anew on each element, on grids where all elements have equally many DOFs.",
  "dune/python/functions/tree.hh: child, size, localIndex", "dune/python/functions/globalbasis.hh: tree", FB+"nodes.hh: children_")
p("Python reports the numbers of the basis",
  "The dimension, the numbers of local DOFs and the multi-indices that Python programs see are those of the C++ basis, as long as they are below 2^31; local indices outside the range are never answered. A subspace basis of a subspace basis shows the same as the subspace basis for the joined path. (With 2^31 DOFs or more, dimension and index report negative numbers while len(basis) is right.)",
  "all nestings of bases, all lists of paths of nested subspace bases, all histories of bind and unbind, all local indices",
  "Bases in tests have a few thousand DOFs and subspaces are taken once; the claim is about every nesting and every size.",
  "dune/python/functions/globalbasis.hh: LocalViewWrapper::index, dimension, __len__, size, maxSize", "dune/python/functions/subspacebasis.hh: registerSubspaceBasis", FB+"subspacebasis.hh: SubspaceBasis", FB+"subspacelocalview.hh: SubspaceLocalView")
p("Functions of the simplex families are continuous",
  "Every discrete function of the hierarchical Lagrange basis of order one or two, of the hierarchical Lagrange basis with element bubbles, and of the refined Lagrange basis of order one has the same value from both sides at every point of every shared vertex, edge or facet. A discrete function of the Rannacher-Turek basis has the same value from both sides in the center of every shared facet.",
  "all coefficient vectors, all conforming grids of simplices of dimension one, two and three (for Rannacher-Turek simplices and cubes of any dimension), all pairs of elements with a common subentity, all points of it, every numbering of the vertices of the elements, every tree in which the leaf occurs",
  "A test evaluates a few functions in a few points of one grid; continuity has to hold for every function, every pair of neighbours and every relative orientation.",
  FB+"hierarchicallagrangebasis.hh: HierarchicalLagrangePreBasis", FB+"hierarchicallagrangewithelementbubblebasis.hh: HierarchicalLagrangeWithElementBubblePreBasis",
  FB+"refinedlagrangebasis.hh: RefinedLagrangePreBasis", FB+"rannacherturekbasis.hh: RannacherTurekPreBasis::indices", FB+"leafprebasismappermixin.hh: LeafPreBasisMapperMixin")
p("interpolate() is linear and local, and calls with masks fit together",
  "For every basis, subspace, vector type and mask: the coefficient that interpolate() stores for a marked DOF is one local coefficient of one element that has the DOF, and which one depends neither on the function nor on the contents of the vector; so functions whose local coefficients agree on the elements of a DOF get the same coefficient for it. Interpolating a linear combination of two functions into the same combination of two vectors gives that combination of the two results. Two calls that touch different DOFs may be exchanged; two calls with two masks are one call with their union; setting boundary values gives the same vector whether the first function was interpolated everywhere or only for the other DOFs, before or after, and the coefficients are those of calls without masks.",
  "all bases, subspaces, container types and contents, masks, element orders, functions, real factors, value types",
  "Tests interpolate a few functions on a few grids; linearity, locality and the interplay of masks are statements about all pairs of functions and all masks, also where elements disagree about a shared DOF.",
  "dune/functions/functionspacebases/interpolate.hh: interpolate, imp::interpolateLocal", "dune/functions/backends/istlvectorbackend.hh: resize, operator[]")
p("Local views and subspace bases show the current state of their basis, whatever happens to other objects",
  "After any program that creates, copies, moves, assigns, updates and destroys global bases, subspace bases, B-spline factories and local views, and adapts the grid: binding a local view (of a basis or of a subspace basis) whose basis exists gives the sizes, local and global indices and finite elements of a local view made just now; so views made before an update show the updated basis. What happens to copies of the basis, to other views and to subspace bases does not change what a view shows. tree() of a view of a subspace basis is the subtree at its path; a nested subspace basis refers to the root basis, so the subspace basis it was made from may be a temporary. A view whose basis was destroyed can neither be bound nor copied, in any continuation.",
  "all programs, i.e. all sequences of these calls on any number of objects; all nestings of pre-bases; all grids, elements, tree paths",
  "Tests use each object right after making it; dangling pointers and stale members show up only in particular orders of copies, updates and destructions, and undefined behaviour need not be visible when it happens.",
  "dune/functions/functionspacebases/defaultlocalview.hh: DefaultLocalView",
  "dune/functions/functionspacebases/defaultglobalbasis.hh: update, localView",
  "dune/functions/functionspacebases/subspacebasis.hh: SubspaceBasis",
  "dune/functions/functionspacebases/subspacelocalview.hh: SubspaceLocalView",
  "dune/functions/functionspacebases/bsplinebasis.hh: BasisFactory::bSpline")
p("The boundary DOFs are the DOFs that decide about the values on the boundary",
  "Two discrete functions whose coefficients agree for all DOFs that forEachBoundaryDOF visits have the same boundary values: the values themselves for Lagrange bases of any order (also discontinuous ones, and components of power and composite bases and of subspace bases), hierarchical and refined Lagrange bases; the values in the facet centers for Rannacher-Turek; the normal components for Raviart-Thomas and Brezzi-Douglas-Marini; the tangential components for Nedelec. Conversely, for nodal bases, functions with the same boundary values have the same coefficients for these DOFs, so no DOF is visited needlessly. Hence the usual way to set Dirichlet values (interpolate, mark the boundary DOFs, interpolate the boundary values with that mask) gives a function with the boundary values of the interpolant of the given function, and with all other coefficients as before.",
  "all nestings of bases, subspace paths, grids with any elements and boundary facets, coefficient vectors, points of boundary facets, interpolated functions, containers",
  "Tests set boundary values on one grid and look at a few coefficients; whether the visited DOFs suffice depends on which shape functions vanish on which facets of all element types and on the local keys of every leaf of the tree.",
  "dune/functions/functionspacebases/boundarydofs.hh: forEachBoundaryDOF",
  "dune/functions/functionspacebases/subentitydofs.hh: SubEntityDOFs",
  "dune/functions/functionspacebases/interpolate.hh: interpolate",
  "dune/functions/gridfunctions/discreteglobalbasisfunction.hh: DiscreteGlobalBasisFunction")
p("Interpolating any grid function, and transfer between grid views without loss",
"interpolate(basis, vector, f[, bitVector]) with any grid function f (analytic, discrete, face normal, composed, or a function transferred from a coarser or finer grid view, nested in any way) gives every marked DOF of a visited element the coefficient that the local finite element delivers for the values of f on one of these elements, leaves the other entries alone, and throws only if the vector cannot be resized; evaluations and cached derivatives on earlier elements have no influence. If f is a function of the basis, the result is its coefficient vector and the discrete function with it is f. Hence a discrete function on a coarse grid view interpolated on a finer grid view, whose local spaces contain the coarse ones, has the same values at every point; and seen from the coarse grid view again it is the original function, and interpolating it there gives the original coefficients.",
"all grid functions and nestings, refinement hierarchies, pairs of nested grid views, bases, subspace paths, finite elements with dual degrees of freedom, vectors, marks and orders of elements; linear functions on simplices of every dimension",
"tests transfer a few functions between two levels of one grid; the claim concerns every function, every hierarchy and every element, and local functions that keep state between elements",
"dune/functions/functionspacebases/interpolate.hh: interpolate, Impl::CachedDerivativeLocalFunction, ComponentFunction","dune/functions/gridfunctions/coarsefunctiononfinegridview.hh: CoarseFunctionOnFineGridView","dune/functions/gridfunctions/finefunctiononcoarsegridview.hh: FineFunctionOnCoarseGridView","dune/functions/common/geometryinancestor.hh: GeometryInAncestor")
p("dimension() of a basis with transformed indices counts its indices",
  "For a basis made by transformIndices with callbacks, wrapped any number of times, dimension() is the number of different multi-indices its local views produce. (Holds whenever the transformations are one-to-one; as soon as two indices are merged dimension() is too large.)",
  "every raw basis, every stack of callback transformations",
  "arbitrary callbacks and arbitrarily deep wrapping",
  "dune/functions/functionspacebases/transformedindexbasis.hh: GenericIndexingTransformation::dimension, transformIndices, indexTransformation")
p("Multi-indices can be used as keys",
  "Multi-indices that compare equal have the same hash value, whatever calls produced them, whatever their capacity and base size and whatever their memory held before; converting one to its static type keeps digits, hash value and comparison; so a hash table keyed by multi-indices is a map from digit sequences.",
  "every history of every key object, every hash function of the digits, every number of buckets, every sequence of assignments",
  "stale digits beyond the size depend on the history; collisions depend on the hash function",
  "dune/functions/common/overflowarray.hh: OverflowArray::hash_value, operator==",
  "dune/functions/common/multiindex.hh: StaticMultiIndex::hash_value, conversion to the digit")
p("Evaluating B-splines stays inside its arrays",
  "Evaluating the values and derivatives of B-splines on any element, at any point, reads and writes only existing entries of the knot vectors and of the intermediate tables, no unsigned difference wraps around, the assertion never fails, and the results are the values and derivatives of the B-splines of that element. (Holds for open knot vectors, and for others with at least order+2 knots; without makeOpen the constructors accept fewer knots, and if there are no more knots than the order every evaluation leaves the arrays.)",
  "every dimension, order, knot vector (with coinciding knots), element and point",
  "the accesses depend on the order, the number of knots and the element; out-of-range reads often go unnoticed",
  "dune/functions/functionspacebases/bsplinebasis.hh: BSplinePreBasis::evaluateFunction, evaluateFunctionFull, evaluateAll, evaluateJacobian, evaluate, BSplinePreBasis constructors")
p("A container of flags marks exactly the boundary DOFs, whatever it held before",
"Resizing a container of flags through istlVectorBackend for a basis, assigning false through the backend and then writing true through the backend for every index that forEachBoundaryDOF passes to its callback gives, for every basis (or subspace basis), container type and earlier contents for which the resize is accepted, a container where the flag of every DOF on a boundary facet is true and the flag of every other DOF is false; the only failure is the exception of resize. Assigning a value through the backend sets all scalar entries of nested containers and changes no sizes. Interpolating one function everywhere and a second one with this container as bit vector gives a function with the boundary values of the interpolant of the second one, and leaves the coefficients of all other DOFs alone.",
"all bases built from leaf bases, power and composite nodes, all grids with any set of boundary intersections, all container types and earlier contents, all pairs of interpolated functions",
"A test marks the DOFs of one grid and one freshly created container; it does not show that stale or aliased flags can never remain for other index trees and container types.",
"dune/functions/backends/istlvectorbackend.hh:ISTLVectorBackend::operator=", "dune/functions/functionspacebases/boundarydofs.hh:forEachBoundaryDOF", "dune/functions/functionspacebases/interpolate.hh:interpolate", "examples/stokes-taylorhood.cc:main", "examples/poisson-pq2.cc:boundaryTreatment")
p("Assembling with local views gives exactly the system of the weak form, and eliminating Dirichlet values keeps its solutions",
  "For a basis with flat indices, the loops that users write with one reused local view (occupation pattern from all pairs of indices of an element, then adding the element matrices and vectors at these indices) never leave the matrix, its pattern or the vector; the pattern holds exactly the pairs of DOFs with a common element; the entry for two DOFs is the bilinear form of the two global basis functions, that is, the sum over all elements and all local pairs with these numbers, and likewise for the right hand side, whatever the order of the elements; symmetric element matrices give a symmetric matrix. After the symmetric elimination of the Dirichlet DOFs (residual, identity rows, cleared columns) the matrix is still symmetric, and a vector solves the system if and only if it has the Dirichlet values at the marked DOFs and satisfies the weak form for all test functions that vanish there.",
  "all bases with flat indices built from leaf bases, power and composite nodes, all lists of elements, all element matrices and vectors, all sets of Dirichlet DOFs and values, all candidate solutions",
  "A test solves one problem on one grid and compares numbers up to a tolerance; it does not show for every basis and element matrix that no contribution is lost, doubled or put elsewhere.",
  "examples/poisson-pq2.cc:assembleLaplaceMatrix", "examples/poisson-pq2.cc:getOccupationPattern", "examples/poisson-pq2.cc:main", "dune/functions/functionspacebases/defaultlocalview.hh:DefaultLocalView::index", "dune/functions/functionspacebases/defaultlocalview.hh:DefaultLocalView::bind", "dune/functions/common/multiindex.hh:StaticMultiIndex")
p("Blocked multi-indices address the entries of a block matrix without aliasing, and rows of marked unknowns become rows of the identity",
  "For a composite basis of a blocked-interleaved velocity power basis and a pressure basis, with any leaf bases and number of components, the assembly of the Stokes example (occupation pattern by the first two digits of the indices, entries found from the digits of the row and column index) never accesses a block or an entry that is not stored; different pairs of unknowns have different entries; each entry is the sum of the element matrix entries whose local DOFs have these indices, over all elements. The loop that overwrites rows of marked unknowns, element by element, gives rows of the identity for exactly these unknowns, also where an index occurs more than once in an element, and leaves all other rows unchanged: the solutions are the vectors with the prescribed values at the marked unknowns that satisfy all other equations.",
  "all leaf bases, numbers of velocity components, lists of elements, element matrices, sets of marked unknowns, right hand sides and candidate solutions",
  "A test runs one mesh and looks at the solution; an aliased or missed entry in another mesh or a row that a later element overwrites wrongly need not be visible there.",
  "examples/stokes-taylorhood.cc:setOccupationPattern", "examples/stokes-taylorhood.cc:matrixEntry", "examples/stokes-taylorhood.cc:assembleStokesMatrix", "examples/stokes-taylorhood.cc:main", "dune/functions/functionspacebases/compositebasis.hh:CompositePreBasis", "dune/functions/functionspacebases/powerbasis.hh:PowerPreBasis")
p("Coupling neighbouring elements through a second local view gives exactly the form with intersection terms",
  "For a basis with flat indices (such as a discontinuous Galerkin basis), the assembly with one reused local view for the element and a new local view for the element on the other side of each intersection never leaves the matrix, its pattern or the vector: binding the second view does not disturb the first. The pattern holds exactly the pairs of a DOF of an element and a DOF of this element or of one of its neighbours. The matrix is that of the bilinear form with element terms and intersection terms (test function from inside, trial function from outside, boundary intersections skipped): each entry is the form of two basis functions; likewise the right hand side.",
  "all bases with flat indices built from leaf bases, power and composite nodes, all lists of elements and neighbour relations (also asymmetric, periodic or with several intersections between two elements), all element and intersection matrices",
  "A test assembles one grid; it does not show for every neighbour relation and basis that rows come from inside and columns from outside and that no entry is lost or out of the pattern.",
  "examples/advection-reaction-dg.cc:getOccupationPattern", "examples/advection-reaction-dg.cc:assembleStiffnessMatrix", "dune/functions/functionspacebases/defaultlocalview.hh:DefaultLocalView::bind", "dune/functions/functionspacebases/defaultlocalview.hh:DefaultLocalView::index")
p("The Poisson example assembles the weak form of the Poisson equation",
"Computing the element matrix and the element vector as the Poisson example does never leaves their bounds and gives the quadratures of the products of the gradients of the shape functions, and of the source term times the shape functions. The assembled matrix A and right hand side b then satisfy, for all coefficient vectors v and u, v.A u = the quadrature over all visited elements of grad v . grad u, and v.b = that of f v, where gradients on an element follow from those on the reference element by the chain rule. So A is symmetric; with positive weights v.A v is never negative, and zero only if grad v vanishes at all quadrature points; two solutions of the system with Dirichlet values have the same gradients at all quadrature points.",
"all flat bases with consistent indices, lists of elements, dimensions, quadrature rules, geometries, shape functions, source terms, coefficient vectors and Dirichlet data",
"The identities are for all coefficient vectors, quadrature rules and meshes; a test compares one solution on one mesh within a tolerance, where a wrong transformation of gradients is invisible on the unit grid.",
"examples/poisson-pq2.cc: getLocalMatrix, getVolumeTerm, assemblePoissonProblem")
p("The Stokes example assembles the weak form of the Stokes equations",
"Computing the element matrix of the Stokes example through the local indices of the children of the tree never leaves the matrix and mixes up no components: also for a view that was bound before, the bilinear form on the coefficients of two functions is the quadrature on the element of grad v : grad u - p div v - q div u. The blocked matrix assembled from these element matrices is that form on all visited elements, for all pairs of velocity-pressure functions given by their coefficients by multi-index, and it is symmetric.",
"all positive dimensions, velocity and pressure bases with consistent indices, lists of elements, quadrature rules, geometries, shape functions and coefficient vectors",
"The identity is for all pairs of functions and all meshes; a wrong component, sign or local index changes single entries, which a test that looks at one solution of a driven cavity by eye does not show.",
"examples/stokes-taylorhood.cc: getLocalMatrix, assembleStokesMatrix, dune/functions/functionspacebases/nodes.hh: BasisNodeMixin::localIndex")
p("The local assemblers of the mixed Poisson example give the mixed weak form",
"Computing the element matrix and vector of the mixed Poisson example through the local indices of the children of the tree never leaves them. Also for a view that was bound before, on the coefficients (by multi-index) of two flux-pressure functions the matrix is the quadrature on the element of sigma.tau + u div tau + v div sigma, with the divergence as trace of the transformed Jacobian, and the vector that of -f v; flux and pressure are not mixed up.",
"all dimensions, flux and pressure bases with consistent indices, elements, quadrature rules, geometries, shape functions, source terms and coefficient vectors",
"The identity is for all pairs of functions and all geometries; on the uniform grids of the example a wrong transformation or index can give the same picture.",
"examples/poisson-mfem.cc: getLocalMatrix, getVolumeTerm", "dune/functions/functionspacebases/nodes.hh: BasisNodeMixin::localIndex")
p("The element matrix of the advection-reaction example gives the weak form",
  "Computing the element matrix of the DG example never leaves it, and on the coefficients of two functions it is the quadrature of the advection-reaction form with its face terms, restricted to inflow at the boundary. With rows as test functions, a solution of the equation with zero inflow value fulfils the discrete equations.",
  "all dimensions, bases, elements, intersections, quadrature rules, geometries, shape functions, velocity fields, reaction coefficients and coefficient vectors",
  "The identity is for all pairs of functions; the example is only looked at, and the picture of a transposed operator can look like that of the right one.",
  "examples/advection-reaction-dg.cc: getLocalMatrix")
p("Solutions of the advection-reaction equation solve the discrete system of the DG example",
  "Assembling the coupling matrix of an interior face never leaves it and gives the flow through the face times the inside value of the test function times the outside value of the other one. For a continuous function that solves the equation and is zero at the inflow boundary the face terms of the assembled system cancel, and the discrete equations hold.",
  "all dimensions, bases, lists of elements with their intersections, rules, geometries, shape functions, velocity fields, reaction coefficients and coefficient vectors",
  "It is a statement on all meshes and all test functions; a test sees one discrete solution, which also differs from the exact one by the discretization error.",
  "examples/advection-reaction-dg.cc: getOffDiagonalLocalMatrix", "examples/advection-reaction-dg.cc: getLocalMatrix")
with open(os.path.join(os.path.dirname(__file__), "..", "properties.jsonl"), "w") as f:
    for d in P: f.write(json.dumps(d)+"\n")
print(len(P))
