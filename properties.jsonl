{"id": "C01", "title": "Simplex polynomial sets are complete and duplicate free", "statement": "For dim 1, 2 and 3 and any order, polynomial_set_1d(dim, order) returns every monomial of total degree at most order exactly once and nothing else, so the list is a linearly independent spanning set of the complete polynomial space; every other dim is rejected with ValueError.", "quantifier": "all orders n >= 0, all dims, all monomials, all linear combinations", "why_tests_cant": "Tests enumerate a few small orders; completeness and independence are claims about every order and every linear combination.", "anchors": ["symfem/polynomials/polysets.py:polynomial_set_1d"]}
{"id": "C02", "title": "Tensor-product polynomial sets are complete and duplicate free", "statement": "For dim 1, 2 and 3 and any order, quolynomial_set_1d(dim, order) returns every monomial whose exponents are all at most order exactly once and nothing else ((order+1)^dim functions, linearly independent).", "quantifier": "all orders n >= 0, dim in 1..3, all monomials", "why_tests_cant": "Unbounded orders; tests only count for small orders.", "anchors": ["symfem/polynomials/polysets.py:quolynomial_set_1d"]}
{"id": "C03", "title": "Prism and pyramid sets span what they should", "statement": "prism_polynomial_set_1d(3, order) returns every x^i y^j z^k with i+j <= order and k <= order exactly once; pyramid_polynomial_set_1d(3, order) contains (as functions away from the apex) every polynomial of total degree at most order, and has sum_{m=1}^{order+1} m^2 members; polynomial_set(cell, order) picks the set belonging to the cell and rejects every unknown cell name.", "quantifier": "all orders, all monomials, all cell names", "why_tests_cant": "Orders and cell names are unbounded.", "anchors": ["symfem/polynomials/polysets.py:prism_polynomial_set_1d", "symfem/polynomials/polysets.py:pyramid_polynomial_set_1d", "symfem/polynomials/polysets.py:polynomial_set"]}
{"id": "C04", "title": "Vector-valued polynomial sets are component-wise complete", "statement": "polynomial_set_vector, quolynomial_set_vector, serendipity_set_vector, prism_polynomial_set_vector(domain_dim, range_dim, order) contain, for every scalar member p and every component c < range_dim, the vector that has p in component c and 0 elsewhere, each exactly once, with exactly range_dim components, and nothing else.", "quantifier": "all orders, all domain dims, all range dims", "why_tests_cant": "Unbounded order and range dimension.", "anchors": ["symfem/polynomials/polysets.py:polynomial_set_vector", "symfem/polynomials/polysets.py:quolynomial_set_vector", "symfem/polynomials/polysets.py:serendipity_set_vector", "symfem/polynomials/polysets.py:prism_polynomial_set_vector"]}
{"id": "C05", "title": "Raviart-Thomas enrichment is x times homogeneous polynomials", "statement": "In 2D and 3D, Hdiv_polynomials(d, d, order) is exactly the list of fields p(x)*x where p runs once over the monomials of total degree order-1; so every member is homogeneous of degree order, the members are linearly independent, and none of them is a combination of polynomials of degree below order.", "quantifier": "all orders n >= 0, d in {2,3}, every point of space, every linear combination", "why_tests_cant": "Point-wise identities at every point and for every order cannot be sampled.", "anchors": ["symfem/polynomials/polysets.py:Hdiv_polynomials"]}
{"id": "C06", "title": "Nedelec enrichment fields are orthogonal to the position vector", "statement": "In 2D and 3D every member of Hcurl_polynomials(d, d, order) is homogeneous of degree order and satisfies x . p(x) = 0 at every point; the members are linearly independent and their number is the dimension of that space (order in 2D, order*(order+2) in 3D), so they are a basis of the Nedelec space S_order.", "quantifier": "all orders n >= 1, d in {2,3}, every point, every linear combination", "why_tests_cant": "Point-wise identity for every order and independence over all combinations.", "anchors": ["symfem/polynomials/polysets.py:Hcurl_polynomials"]}
{"id": "C07", "title": "Tensor-product H(div)/H(curl) spaces have the stated anisotropic degrees", "statement": "For d in {2,3}: quolynomial_set_vector(d,d,order-1) together with Hdiv_quolynomials(d,d,order) contains, each exactly once, the fields with a single monomial in component c whose exponent in variable c is <= order and whose other exponents are <= order-1; together with Hcurl_quolynomials(d,d,order) they contain exactly those whose exponent in variable c is <= order-1 and whose other exponents are <= order.", "quantifier": "all orders n >= 1, d in {2,3}, all components and monomials", "why_tests_cant": "Unbounded order.", "anchors": ["symfem/polynomials/polysets.py:Hdiv_quolynomials", "symfem/polynomials/polysets.py:Hcurl_quolynomials", "symfem/polynomials/polysets.py:quolynomial_set_vector"]}
{"id": "C08", "title": "Serendipity set is the superlinear-degree completion", "statement": "polynomial_set_1d(dim, order) together with serendipity_set_1d(dim, order) contains every monomial whose superlinear degree (total degree ignoring variables that enter linearly) is at most order exactly once, and nothing else.", "quantifier": "all orders n >= 1, dim in 1..3, all monomials", "why_tests_cant": "The recursion serendipity_indices must neither miss nor repeat an index for any order.", "anchors": ["symfem/polynomials/polysets.py:serendipity_indices", "symfem/polynomials/polysets.py:serendipity_set_1d"]}
{"id": "C09", "title": "H(div) serendipity enrichment is divergence free", "statement": "Every field returned by Hdiv_serendipity(d, d, order) has zero divergence everywhere, so that the divergence of the H(div) serendipity space of a given order is contained in the polynomials of degree order-1, in 2D and in 3D.", "quantifier": "all orders, d in {2,3}, every point", "why_tests_cant": "Point-wise identity for every order.", "anchors": ["symfem/polynomials/polysets.py:Hdiv_serendipity", "symfem/elements/serendipity.py:SerendipityDiv"]}
{"id": "C10", "title": "H(curl) serendipity gradients are curl free", "statement": "In 2D every field returned by Hcurl_serendipity(2, 2, order) has zero rotation everywhere (they are gradients); in 3D the fields built from serendipity_set_1d are gradients, hence curl free, and the remaining ones satisfy x . p = 0.", "quantifier": "all orders, d in {2,3}, every point", "why_tests_cant": "Point-wise identity for every order.", "anchors": ["symfem/polynomials/polysets.py:Hcurl_serendipity", "symfem/elements/serendipity.py:SerendipityCurl"]}
{"id": "C11", "title": "Interval orthogonal polynomials are orthogonal on [0,1]", "statement": "The polynomials returned by orthogonal_basis('interval', order, 0) are pairwise L2-orthogonal on [0,1]; the n-th one has degree exactly n, takes the value 1 at x=1 and (-1)^n at x=0, and its squared norm is 1/(2n+1); hence orthonormal_basis has unit norms.", "quantifier": "all orders, all pairs of indices", "why_tests_cant": "Three-term recurrence evaluated for unboundedly many orders; tests check order <= 4 or so.", "anchors": ["symfem/polynomials/legendre.py:orthogonal_basis_interval", "symfem/polynomials/legendre.py:orthonormal_basis"]}
{"id": "C12", "title": "Derivative tables of orthogonal bases are derivatives", "statement": "For orthogonal_basis(cell, order, derivs) on interval, triangle, quadrilateral, tetrahedron, hexahedron, prism and pyramid (away from its apex), entry [d][i] of the returned table is the d-th partial derivative of entry [0][i], for every multi-index d of total order at most derivs and every i.", "quantifier": "all orders, all numbers of derivatives, all indices, every point", "why_tests_cant": "The recurrences for the derivative tables are separate code from the polynomials; all (order, derivative, index) triples cannot be tested.", "anchors": ["symfem/polynomials/legendre.py:orthogonal_basis_interval", "symfem/polynomials/legendre.py:orthogonal_basis_triangle", "symfem/polynomials/legendre.py:orthogonal_basis_quadrilateral"]}
{"id": "C13", "title": "Index maps of orthogonal bases are bijections", "statement": "The index functions used to store derivatives and polynomials (triangular and tetrahedral numbering) map the admissible multi-indices bijectively onto an initial range of positions, so no entry of a table is overwritten or left unset.", "quantifier": "all orders / derivative counts, all multi-indices", "why_tests_cant": "Collisions may only appear at large order.", "anchors": ["symfem/polynomials/legendre.py:orthogonal_basis_triangle", "symfem/polynomials/legendre.py:orthogonal_basis_tetrahedron"]}
{"id": "C14", "title": "Named quadrature rules integrate polynomials exactly", "statement": "get_quadrature('legendre', n), ('lobatto' / 'gll', n) and ('radau', n) return points in [0,1] and positive weights summing to 1 such that the weighted sum equals the integral over [0,1] of every polynomial of degree at most 2n-1, 2n-3 and 2n-2 respectively.", "quantifier": "every supported n and every real polynomial up to the stated degree", "why_tests_cant": "Tests compare a handful of floating-point integrals; exactness is over all polynomials and involves nested radicals.", "anchors": ["symfem/quadrature.py:lobatto", "symfem/quadrature.py:radau", "symfem/quadrature.py:legendre"]}
{"id": "C15", "title": "Equispaced quadrature is the composite trapezium rule", "statement": "For every n >= 2 equispaced(n) returns the points i/(n-1), i=0..n-1, distinct and in [0,1], with positive weights summing to 1 that integrate every affine function exactly; get_quadrature rejects unknown rule names.", "quantifier": "all n >= 2, all affine functions, all names", "why_tests_cant": "Unbounded n.", "anchors": ["symfem/quadrature.py:equispaced", "symfem/quadrature.py:get_quadrature"]}
{"id": "C16", "title": "Ciarlet duality of basis functions", "statement": "For a Ciarlet element whose dual matrix is invertible, get_basis_functions returns functions phi_0..phi_{n-1} with dof_i(phi_j) = 1 if i = j and 0 otherwise; they span the same space as the polynomial set the element was given, and any function of that space equals the sum of its dof values times the basis functions.", "quantifier": "all polynomial sets, all lists of linear functionals, any field of scalars, any dimension of the space", "why_tests_cant": "Tests check concrete elements at low order; the claim is about every element definition.", "anchors": ["symfem/finite_element.py:CiarletElement.get_basis_functions", "symfem/finite_element.py:CiarletElement.get_dual_matrix", "symfem/finite_element.py:CiarletElement.get_polynomial_basis"]}
{"id": "C17", "title": "Dual basis polynomials (l2_dual)", "statement": "l2_dual(cell, poly) returns the basis of span(poly) that is L2-dual to poly: the integral over the cell of poly[i] times dual[j] is 1 if i = j and 0 otherwise, whenever the Gram matrix is invertible.", "quantifier": "all polynomial lists with an invertible Gram matrix, any cell", "why_tests_cant": "Unbounded list sizes and contents.", "anchors": ["symfem/polynomials/dual.py:l2_dual"]}
{"id": "C18", "title": "Element definitions have as many degrees of freedom as functions", "statement": "For every element family and every order accepted by create_element, the number of degrees of freedom defined equals the number of functions in the polynomial set, so creating the element never trips the internal size assertion.", "quantifier": "all families modelled, all admissible orders", "why_tests_cant": "Tests create each element only for the few orders listed in test/utils.py.", "anchors": ["symfem/finite_element.py:CiarletElement.__init__", "symfem/elements/lagrange.py:Lagrange", "symfem/elements/rt.py:RaviartThomas", "symfem/elements/nedelec.py:NedelecFirstKind", "symfem/elements/bdm.py:BDM", "symfem/elements/serendipity.py:Serendipity", "symfem/elements/bernstein.py:Bernstein", "symfem/elements/regge.py:Regge", "symfem/elements/hhj.py:HellanHerrmannJohnson"]}
{"id": "C19", "title": "Equispaced Lagrange elements are unisolvent at every order", "statement": "On the interval, triangle and tetrahedron, for every order n >= 1, a polynomial of degree at most n that vanishes at all Lagrange evaluation points of the element is zero; the evaluation points are pairwise distinct and lie in the cell, and every sub-entity's points lie on that sub-entity.", "quantifier": "all orders n >= 1, all polynomials of degree at most n", "why_tests_cant": "Existence of the basis for every order; tests invert the matrix for n <= 5.", "anchors": ["symfem/elements/lagrange.py:Lagrange"]}
{"id": "C20", "title": "Tensor factorisation of Q elements is consistent", "statement": "The permutation returned by Q.get_tensor_factorisation on quadrilaterals and hexahedra is a permutation of the degrees of freedom, and the tensor product of the one-dimensional basis functions it pairs with dof number d evaluates to 1 at the evaluation point of d and to 0 at all others.", "quantifier": "all orders n >= 1, quadrilateral and hexahedron, all variants", "why_tests_cant": "Tests factorise a few orders of the equispaced variant.", "anchors": ["symfem/elements/q.py:Q.get_tensor_factorisation", "symfem/finite_element.py:CiarletElement._get_basis_functions_tensor"]}
{"id": "C21", "title": "Entity DOF lists partition the degrees of freedom", "statement": "For every element, the lists entity_dofs(dim, number) over all sub-entities of the cell are increasing, pairwise disjoint and together contain every dof number 0..space_dim-1 exactly once, provided every dof is attached to a sub-entity of the cell.", "quantifier": "all elements, all lists of dofs", "why_tests_cant": "All element definitions, arbitrary numbers of dofs.", "anchors": ["symfem/finite_element.py:CiarletElement.entity_dofs", "symfem/finite_element.py:DirectElement.entity_dofs"]}
{"id": "C22", "title": "Enriched elements concatenate their sub-elements", "statement": "An EnrichedElement has the basis functions of its sub-elements in order; dof number k belongs to the sub-element s and local dof determined by the cumulative space dimensions; entity_dofs of the enriched element is the shifted union of the sub-elements' lists and again partitions 0..space_dim-1.", "quantifier": "any number of sub-elements of any size", "why_tests_cant": "Unbounded nesting and sizes.", "anchors": ["symfem/finite_element.py:EnrichedElement"]}
{"id": "C23", "title": "Tabulation orderings agree", "statement": "tabulate_basis returns, for each of the orderings 'xyz,xyz', 'xxyyzz', 'xx,yy,zz' and 'xyzxyz', the same values: component c of basis function b at point p sits at the documented position, nothing is lost or duplicated, and any other ordering name is rejected with ValueError.", "quantifier": "all elements (any number of functions and components), all point lists, all ordering names", "why_tests_cant": "Arbitrary sizes and names.", "anchors": ["symfem/finite_element.py:FiniteElement.tabulate_basis"]}
{"id": "C24", "title": "Cached matrices survive the text round trip", "statement": "matrix_from_string(matrix_to_string(M)) is M for every non-empty matrix of rational numbers, and different matrices have different texts.", "quantifier": "all matrices of any size with rational entries", "why_tests_cant": "Unbounded sizes and values.", "anchors": ["symfem/caching.py:matrix_to_string", "symfem/caching.py:matrix_from_string"]}
{"id": "C25", "title": "The matrix cache behaves like a map", "statement": "After any history of saves and loads, loading a key returns the matrix most recently saved under that key and type if there is one and it has the requested size, and nothing otherwise; saving never affects other keys or matrix types (hash collisions aside).", "quantifier": "all histories of cache operations, all keys, all matrices", "why_tests_cant": "Histories are unbounded.", "anchors": ["symfem/caching.py:load_cached_matrix", "symfem/caching.py:save_cached_matrix"]}
{"id": "C26", "title": "A crash while saving never yields a wrong cached matrix", "statement": "If the process dies at any point while save_cached_matrix is writing, a later load_cached_matrix either reports nothing cached or returns the matrix that was being saved.", "quantifier": "all crash points (all prefixes of the file), all matrices", "why_tests_cant": "Crash points cannot be enumerated by unit tests.", "anchors": ["symfem/caching.py:save_cached_matrix", "symfem/caching.py:load_cached_matrix"]}
{"id": "C27", "title": "Different element definitions never share a cache entry", "statement": "The cache identifier built by get_dual_matrix is injective: two elements that differ in class name, order, cell vertices, construction options or revision have different identifiers, and 'dual' and 'dualinv' entries never collide.", "quantifier": "all class names, orders, vertex lists, option strings, revisions", "why_tests_cant": "Injectivity over unbounded strings.", "anchors": ["symfem/finite_element.py:CiarletElement.get_dual_matrix", "symfem/caching.py:load_cached_matrix"]}
{"id": "C28", "title": "Element registration history", "statement": "After any sequence of add_element calls that succeeded, a (cell, name) pair resolves to the class that was registered for it, independent of the order of registrations; registering a second class under a taken (cell, name) pair fails and leaves every lookup unchanged.", "quantifier": "all sequences of registrations", "why_tests_cant": "Histories are unbounded.", "anchors": ["symfem/create.py:add_element", "symfem/create.py:create_element"]}
{"id": "C29", "title": "create_element accepts exactly the documented orders", "statement": "create_element(cell, name, order) succeeds exactly when name is known, is defined on the cell, and min_order <= order <= max_order with the bounds given for that cell (absent bounds do not restrict); otherwise it raises the matching exception.", "quantifier": "all cells, names, orders and bound tables", "why_tests_cant": "Unbounded orders, all combinations of bound tables.", "anchors": ["symfem/create.py:create_element", "symfem/create.py:_order_is_allowed"]}
{"id": "C30", "title": "Maps between cells are inverse to each other", "statement": "For interval, triangle, tetrahedron, parallelogram, parallelepiped, prism and pyramid cells with non-degenerate vertices, get_map_to(vertices) sends each reference vertex to the corresponding vertex, and get_inverse_map_to(vertices) composed with it on either side is the identity.", "quantifier": "all non-degenerate vertex positions, all points", "why_tests_cant": "Real-valued vertices and points.", "anchors": ["symfem/references.py:Interval.get_map_to", "symfem/references.py:Triangle.get_map_to", "symfem/references.py:Tetrahedron.get_inverse_map_to", "symfem/references.py:Quadrilateral.get_inverse_map_to", "symfem/references.py:Hexahedron.get_inverse_map_to", "symfem/references.py:Prism.get_map_to", "symfem/references.py:Pyramid.get_map_to"]}
{"id": "C31", "title": "contains decides membership in the cell", "statement": "reference.contains(point) is True exactly for the points of the cell, i.e. the points that are convex combinations of its vertices, for every cell type that supports it.", "quantifier": "all cells (any vertices), all points", "why_tests_cant": "Uncountably many points and cells.", "anchors": ["symfem/references.py:Interval.contains", "symfem/references.py:Triangle.contains", "symfem/references.py:Tetrahedron.contains", "symfem/references.py:Quadrilateral.contains", "symfem/references.py:Hexahedron.contains", "symfem/references.py:Prism.contains", "symfem/references.py:Pyramid.contains"]}
{"id": "C32", "title": "on_edge / on_face decide membership in the sub-entity", "statement": "reference.on_edge(point) is True exactly for the points lying on one of the edges of the cell, and on_face(point) exactly for the points lying on one of its faces.", "quantifier": "all cells, all points", "why_tests_cant": "Uncountably many points.", "anchors": ["symfem/references.py:Reference.on_edge", "symfem/references.py:Reference.on_face"]}
{"id": "C33", "title": "Integration limits describe the cell and volumes are consistent", "statement": "For the default cells, the iterated integral described by integration_limits ranges over exactly the points of the cell, integrating 1 gives volume(), and for a general cell of the same type volume() is |det| of the affine map times the default volume.", "quantifier": "all cells, all points", "why_tests_cant": "Real-valued data.", "anchors": ["symfem/references.py:Reference.integration_limits", "symfem/references.py:Reference.volume", "symfem/references.py:Reference.jacobian"]}
{"id": "C34", "title": "Tangents and normals are unit and orthogonal", "statement": "For every non-degenerate interval, tangent() is a unit vector along the edge; in 2D normal() is a unit vector orthogonal to the tangent; for every non-degenerate triangle or parallelogram in 3D normal() is a unit vector orthogonal to both axes.", "quantifier": "all non-degenerate vertex positions", "why_tests_cant": "Real-valued vertices, square roots.", "anchors": ["symfem/references.py:Reference.tangent", "symfem/references.py:Reference.normal"]}
{"id": "C35", "title": "Sub-entity tables describe the cell's topology", "statement": "For every cell type the edge, face and volume tables list every edge/face of the cell exactly once with increasing vertex numbers, every face's edges are edges of the cell, sub_entity(dim, n) has the vertices the tables say, and Euler's relation holds; dual polygons have the right tables for every number of triangles.", "quantifier": "all cell types, all sub-entities, all numbers of triangles of a dual polygon", "why_tests_cant": "Dual polygons are an unbounded family.", "anchors": ["symfem/references.py:Reference.sub_entities", "symfem/references.py:Reference.sub_entity", "symfem/references.py:DualPolygon"]}
{"id": "C36", "title": "z-ordered entities enumerate every sub-entity once", "statement": "z_ordered_entities() lists every sub-entity of the cell (and the cell itself) exactly once, for every cell type and for dual polygons with any number of triangles.", "quantifier": "all cell types, all dual polygon sizes", "why_tests_cant": "Unbounded family.", "anchors": ["symfem/references.py:Reference.z_ordered_entities", "symfem/references.py:DualPolygon.z_ordered_entities"]}
{"id": "C37", "title": "make_lattice returns interior lattice points", "statement": "For every n, make_lattice(n) on interval, triangle, tetrahedron, quadrilateral, hexahedron and prism returns pairwise distinct points that all lie strictly inside the cell, and as many as the cell has interior lattice points; make_lattice_with_lines returns all closed lattice points and only refers to valid, distinct point numbers.", "quantifier": "all n", "why_tests_cant": "Unbounded n.", "anchors": ["symfem/references.py:Interval.make_lattice", "symfem/references.py:Triangle.make_lattice", "symfem/references.py:Tetrahedron.make_lattice", "symfem/references.py:Quadrilateral.make_lattice", "symfem/references.py:Triangle.make_lattice_with_lines"]}
{"id": "C38", "title": "Pull-back and push-forward are inverse", "statement": "For every mapping name (identity, l2, covariant, contravariant, double_covariant, double_contravariant) and every invertible affine map, applying the mapping and then its inverse gives back the original function value at the corresponding point, and the *_inverse_transpose variant is the adjoint of the inverse with respect to the dot product.", "quantifier": "all invertible affine maps in 2D and 3D, all function values", "why_tests_cant": "Real-valued data.", "anchors": ["symfem/mappings.py:covariant", "symfem/mappings.py:contravariant", "symfem/mappings.py:covariant_inverse", "symfem/mappings.py:contravariant_inverse", "symfem/mappings.py:get_mapping"]}
{"id": "C39", "title": "Piola maps preserve tangential and normal traces", "statement": "The covariant map preserves tangential components (u_mapped . (J t) = u . t), the contravariant map preserves fluxes (det J * u_mapped . (J^-T n) = u . n), the double versions preserve tangential-tangential and normal-normal components, and l2 preserves integrals over the cell, for every invertible affine map.", "quantifier": "all invertible affine maps in 2D and 3D, all vectors", "why_tests_cant": "Real-valued data.", "anchors": ["symfem/mappings.py:covariant", "symfem/mappings.py:contravariant", "symfem/mappings.py:double_covariant", "symfem/mappings.py:double_contravariant", "symfem/mappings.py:l2"]}
{"id": "C40", "title": "Function arithmetic is point-wise", "statement": "For scalar, vector and matrix functions, evaluating f+g, f-g, -f, c*f, f*g, f/c, f**n, dot, cross and matrix products at a point gives the same operation applied to the values at that point, and operands of incompatible size are rejected rather than truncated.", "quantifier": "all functions, all points, all sizes", "why_tests_cant": "Arbitrary expressions and points; size mismatches are an unbounded family.", "anchors": ["symfem/functions.py:ScalarFunction", "symfem/functions.py:VectorFunction", "symfem/functions.py:MatrixFunction"]}
{"id": "C41", "title": "Substitution is simultaneous", "statement": "f.subs(vars, values) evaluated at a point equals f evaluated at the values' values there, simultaneously in all variables, even when the values mention the variables being replaced (e.g. swapping x and y); only expressions mentioning the library's own reserved placeholder symbols are excluded.", "quantifier": "all expressions, all substitutions, all points", "why_tests_cant": "Arbitrary expressions.", "anchors": ["symfem/functions.py:ScalarFunction.subs", "symfem/functions.py:_to_sympy_format"]}
{"id": "C42", "title": "Differential operators satisfy the vector calculus identities", "statement": "For every scalar function f and vector function v: curl(grad f) = 0, div(curl v) = 0, div(grad f) is the trace of the Hessian returned by jacobian, directional_derivative(d) = d . grad f, and the product rule holds for div of f*v.", "quantifier": "all polynomial functions, all points", "why_tests_cant": "Arbitrary functions.", "anchors": ["symfem/functions.py:ScalarFunction.grad", "symfem/functions.py:VectorFunction.curl", "symfem/functions.py:VectorFunction.div", "symfem/functions.py:ScalarFunction.jacobian"]}
{"id": "C43", "title": "maximum_degree is the degree on the cell", "statement": "f.maximum_degree(cell) is the maximum total degree of f's monomials on simplices and the maximum per-variable degree on tensor-product cells.", "quantifier": "all polynomials, all cells", "why_tests_cant": "Arbitrary polynomials.", "anchors": ["symfem/functions.py:ScalarFunction.maximum_degree"]}
{"id": "C44", "title": "Iterating a function yields its components", "statement": "Iterating over a VectorFunction or MatrixFunction yields each component/row once and in order, however many iterations over the same object are in progress at the same time.", "quantifier": "all vectors, all interleavings of iterations", "why_tests_cant": "All interleavings.", "anchors": ["symfem/functions.py:VectorFunction.__iter__", "symfem/functions.py:VectorFunction.__next__"]}
{"id": "C45", "title": "Piecewise functions act piece by piece", "statement": "A PiecewiseFunction evaluated at a point equals the piece whose sub-cell contains the point (the first one on shared boundaries); sums, differences, scalings, dot products and derivatives of piecewise functions act on each piece; the integral is the sum over the pieces.", "quantifier": "all lists of pieces, all points", "why_tests_cant": "Arbitrary pieces and points.", "anchors": ["symfem/piecewise_functions.py:PiecewiseFunction"]}
{"id": "C46", "title": "Geometric predicates agree with the sub-cells", "statement": "point_in_interval, point_in_triangle, point_in_quadrilateral and point_in_tetrahedron return True exactly for the points of the sub-cell (for exact coordinates).", "quantifier": "all points, all sub-cells", "why_tests_cant": "Real-valued data.", "anchors": ["symfem/geometry.py:point_in_triangle", "symfem/geometry.py:point_in_tetrahedron", "symfem/geometry.py:point_in_quadrilateral", "symfem/geometry.py:point_in_interval"]}
{"id": "C47", "title": "allequal is equality of nested data", "statement": "utils.allequal(a, b) is True exactly when a and b are the same nested list/tuple/number structure with equal entries.", "quantifier": "all pairs of nested structures", "why_tests_cant": "Arbitrary nesting and lengths.", "anchors": ["symfem/utils.py:allequal"]}
{"id": "C48", "title": "Degrees of freedom are linear functionals", "statement": "For every functional class, eval(a*f + b*g) = a*eval(f) + b*eval(g) for all functions f, g of the right shape and all scalars a, b.", "quantifier": "all functional classes modelled, all functions and scalars", "why_tests_cant": "Arbitrary functions.", "anchors": ["symfem/functionals.py:PointEvaluation", "symfem/functionals.py:PointInnerProduct", "symfem/functionals.py:IntegralAgainst", "symfem/functionals.py:IntegralMoment", "symfem/functionals.py:DerivativePointEvaluation"]}
{"id": "C49", "title": "Ordinal texts are correct English", "statement": "The entity description of a degree of freedom names entity number n by the correct English ordinal: 11th, 12th, 13th (and 111th, ...), otherwise 1st, 2nd, 3rd by last digit, and th for everything else.", "quantifier": "all entity numbers", "why_tests_cant": "Unbounded numbers.", "anchors": ["symfem/functionals.py:_nth"]}
{"id": "C50", "title": "Integral moment DOFs are numbered entity by entity", "statement": "make_integral_moment_dofs produces, in order of the entity dimension and then of the entity number, exactly one block of moments per sub-entity for which a moment space is given and whose order reaches the space's minimum, each block of the size of the moment space and attached to its entity.", "quantifier": "all cells, all moment specifications", "why_tests_cant": "Arbitrary specifications and orders.", "anchors": ["symfem/moments.py:make_integral_moment_dofs", "symfem/moments.py:extract_moment_data"]}
{"id": "C51", "title": "Bernstein polynomials form a partition of unity", "statement": "The Bernstein polynomials of order n on interval, triangle and tetrahedron are non-negative on the cell, sum to 1 everywhere, number binomial(n+d, d), and are numbered consistently with the dofs' index formula; Bernstein elements can be created for every order >= 1.", "quantifier": "all orders n, every point of space", "why_tests_cant": "Unbounded order and all points; tests go to order 2 on tetrahedra.", "anchors": ["symfem/elements/bernstein.py:bernstein_polynomials", "symfem/elements/bernstein.py:Bernstein"]}
{"id": "C52", "title": "Bubble functions vanish on the boundary", "statement": "Every member of the polynomial set of the Bubble element on every supported cell and order vanishes at every point of the boundary of the cell, and the number of functions equals the number of dofs.", "quantifier": "all orders, all boundary points, all supported cells", "why_tests_cant": "Uncountably many boundary points.", "anchors": ["symfem/elements/bubble.py:Bubble"]}
{"id": "C53", "title": "Bubble-enriched Lagrange spaces have independent functions", "statement": "For every order accepted by create_element, the polynomial set of the bubble enriched Lagrange element is linearly independent (otherwise no basis functions exist).", "quantifier": "all orders n >= 1, all linear combinations", "why_tests_cant": "Tests only use orders 1 and 2.", "anchors": ["symfem/elements/bubble.py:BubbleEnrichedLagrange"]}
{"id": "C54", "title": "Crouzeix-Raviart elements are unisolvent", "statement": "For every order accepted by create_element, a polynomial of the element's space on which all dofs vanish is zero.", "quantifier": "all orders accepted, all polynomials", "why_tests_cant": "Tests only use odd orders.", "anchors": ["symfem/elements/crouzeix_raviart.py:CrouzeixRaviart"]}
{"id": "C55", "title": "KMV points and weights form a quadrature rule", "statement": "For each order accepted on the triangle and the tetrahedron, the Kong-Mulder-Veldhuizen points with their weights integrate constants exactly (weights sum to the area/volume) with positive weights, and the rule is exact for the polynomials needed for mass lumping.", "quantifier": "all accepted orders, all polynomials up to the degree", "why_tests_cant": "Tests only use orders 1 and 2 and never check exactness for all polynomials.", "anchors": ["symfem/elements/kmv.py:KongMulderVeldhuizen"]}
{"id": "C56", "title": "Degree attributes describe the space", "statement": "lagrange_subdegree / lagrange_superdegree / polynomial_subdegree / polynomial_superdegree of an element are the highest degree of a Lagrange (resp. complete polynomial) space contained in, and the lowest containing, the element's space, for every order.", "quantifier": "all orders of the families modelled", "why_tests_cant": "Tests check degrees for low orders only.", "anchors": ["symfem/finite_element.py:FiniteElement.lagrange_subdegree", "symfem/elements/q.py:Q", "symfem/elements/dpc.py:DPC", "symfem/elements/serendipity.py:Serendipity", "symfem/elements/trimmed_serendipity.py:TrimmedSerendipityHcurl"]}
{"id": "C57", "title": "Barycentric dual functions are continuous and sum to one", "statement": "For every dual polygon, the order 1 dual basis functions are continuous across the sub-triangles and sum to 1 at every point; the order 0 functions are constant.", "quantifier": "all numbers of triangles n >= 1, all points", "why_tests_cant": "Tests use n = 3, 4, 6.", "anchors": ["symfem/elements/dual.py:Dual", "symfem/elements/dual.py:DualCiarletElement.get_basis_functions"]}
{"id": "C58", "title": "Buffa-Christiansen functions are H(div) conforming", "statement": "For every dual polygon, each Buffa-Christiansen basis function has a continuous normal component across every edge shared by two sub-triangles.", "quantifier": "all numbers of triangles, all basis functions, all interior edges", "why_tests_cant": "Tests only construct the element.", "anchors": ["symfem/elements/dual.py:BuffaChristiansen"]}
{"id": "C59", "title": "Macro element pieces fit together", "statement": "The piecewise polynomials of HCT and reduced HCT are continuous with continuous gradient across the interior edges of the macro triangle; those of P1-iso-P2 and P1 macro and Alfeld-Sorokina elements are continuous.", "quantifier": "every point of every interior edge, every member of the set", "why_tests_cant": "Uncountably many points.", "anchors": ["symfem/elements/hct.py:HsiehCloughTocher", "symfem/elements/rhct.py:ReducedHsiehCloughTocher", "symfem/elements/p1_iso_p2.py:P1IsoP2Tri", "symfem/elements/p1_macro.py:P1Macro", "symfem/elements/alfeld_sorokina.py:AlfeldSorokina"]}
{"id": "C60", "title": "Bell's space has cubic normal derivatives", "statement": "Every polynomial of the Bell element's space has, on each edge of the reference triangle, a normal derivative that is a polynomial of degree at most 3 along the edge, and the space contains all quartics.", "quantifier": "all members and their linear combinations, all points of the edges", "why_tests_cant": "All points/combinations.", "anchors": ["symfem/elements/bell.py:Bell"]}
{"id": "C61", "title": "Direct serendipity spaces have the serendipity dimension", "statement": "For every order accepted by create_element, the direct serendipity element on the quadrilateral has as many basis functions as the dimension of P_order plus the two supplemental functions, i.e. as many as the serendipity element of that order.", "quantifier": "all orders n >= 1", "why_tests_cant": "Tests run the orders 1 to 6 and never compare the numbers of functions of the two elements.", "anchors": ["symfem/elements/direct_serendipity.py:DirectSerendipity"]}
{"id": "C62", "title": "Basis functions do not depend on call history", "statement": "get_basis_functions returns functions that depend only on the element and the arguments, not on which calls were made before on the same object.", "quantifier": "all call histories", "why_tests_cant": "Histories are unbounded.", "anchors": ["symfem/finite_element.py:CiarletElement.get_basis_functions"]}
{"id": "C63", "title": "The matrix cache is transparent", "statement": "Starting from an empty cache directory, after any sequence of get_dual_matrix calls (cached or not) for any elements, a further call for an element returns exactly the matrix that the uncached computation returns for that element.", "quantifier": "all call sequences over all elements, orders and options", "why_tests_cant": "Tests compare a handful of elements once; a wrong key, a stale entry or a lossy file format shows only after particular histories.", "anchors": ["symfem/finite_element.py:CiarletElement.get_dual_matrix", "symfem/caching.py:load_cached_matrix", "symfem/caching.py:save_cached_matrix"]}
{"id": "C64", "title": "Basis functions exist exactly for unisolvent elements", "statement": "get_basis_functions of a Ciarlet element succeeds if and only if no non-trivial combination of its polynomial set has all degrees of freedom equal to zero; otherwise it raises instead of returning functions.", "quantifier": "all polynomial sets and all linear degrees of freedom of equal number", "why_tests_cant": "Unisolvence is a statement about every function of the space.", "anchors": ["symfem/finite_element.py:CiarletElement.get_basis_functions", "symfem/finite_element.py:CiarletElement.get_dual_matrix"]}
{"id": "C65", "title": "map_to_cell maps every function by its own degree of freedom's mapping", "statement": "For an element all of whose degrees of freedom lie on sub-entities of the cell and have an implemented mapping, map_to_cell returns as many functions as it was given and function number d of the result is function number d mapped by the mapping of degree of freedom d, whatever types and mappings are mixed on a sub-entity.", "quantifier": "all lists of dofs, any grouping by type and mapping, any functions", "why_tests_cant": "The code groups dofs per entity, type and mapping and writes results back by index; tests only see families where groups are contiguous.", "anchors": ["symfem/finite_element.py:CiarletElement.map_to_cell", "symfem/functionals.py:BaseFunctional.perform_mapping"]}
{"id": "C66", "title": "get_mapping accepts exactly the mapping names", "statement": "get_mapping(name, inverse, transpose) returns the mapping function of that name (with suffix _inverse and _transpose as requested) and raises ValueError for every name that is not a mapping.", "quantifier": "all strings, all flag combinations", "why_tests_cant": "A lookup in the module's namespace accepts names no test thinks of.", "anchors": ["symfem/mappings.py:get_mapping"]}
{"id": "C67", "title": "Intersection of cells is sound", "statement": "Reference.intersection of two cells returns None only if the cells have no common interior point, and returns a cell only if that cell is the intersection of the two.", "quantifier": "all pairs of intervals, triangles and tetrahedra with vertices in the same space", "why_tests_cant": "The relative position of two cells has infinitely many cases; tests check a few.", "anchors": ["symfem/references.py:Reference.intersection"]}
{"id": "C68", "title": "Degrees of freedom have the value their definition says", "statement": "A point evaluation is the value of the function at the point, derivative functionals are the partial, second and directional derivatives there, dot, divergence and inner product functionals are v.w, div v and l^T M r there, and an integral moment is the integral over its cell (parametrised over the reference cell, with the jacobian) of the product with the moment function; polynomial moments always have a value.", "quantifier": "all functions, all points, all cells", "why_tests_cant": "Arbitrary polynomials and affine cells; the tests only evaluate duality of a few elements.", "anchors": ["symfem/functionals.py:PointEvaluation", "symfem/functionals.py:DerivativePointEvaluation", "symfem/functionals.py:PointDirectionalDerivativeEvaluation", "symfem/functionals.py:PointInnerProduct", "symfem/functionals.py:DotPointEvaluation", "symfem/functionals.py:PointDivergenceEvaluation", "symfem/functionals.py:IntegralMoment", "symfem/functionals.py:DivergenceIntegralMoment", "symfem/functionals.py:InnerProductIntegralMoment", "symfem/functions.py:ScalarFunction.integral"]}
{"id": "C69", "title": "A function given as numbers, expressions or lists is read as the function with these values", "statement": "Wherever symfem accepts a function, an int, a sympy expression, a non-empty list of scalars or a non-empty list of rows of equal length is turned into the scalar, vector or matrix function with exactly these components in this order; anything else, in particular ragged rows or a mixture of scalars and rows, raises an exception.", "quantifier": "all inputs, at every point", "why_tests_cant": "The inputs are arbitrary nested sequences; tests give a few well-formed ones.", "anchors": ["symfem/functions.py:parse_function_input", "symfem/functions.py:VectorFunction.__init__", "symfem/functions.py:MatrixFunction.__init__"]}
{"id": "C70", "title": "Orthogonal bases are orthogonal on every reference cell", "statement": "For every supported cell, two different polynomials of orthogonal_basis(cell, order, derivs, variables) have a product that integrates to 0 over the reference cell, with the limits of the Reference object, and none of them has norm 0. orthonormal_basis(cell, order, derivs, variables) divides the columns of the table by the norms, so that its polynomials are orthonormal.", "quantifier": "all seven cells, all orders, all numbers of derivatives, all lists of distinct variables, all pairs of indices", "why_tests_cant": "The recurrences run through all orders; a wrong coefficient shows only at high order and tests check low orders.", "anchors": ["symfem/polynomials/legendre.py:orthogonal_basis", "symfem/polynomials/legendre.py:orthonormal_basis", "symfem/references.py:Reference.integration_limits"]}
{"id": "C71", "title": "Macro elements are unisolvent", "statement": "On the default triangle, the matrix of the values of the degrees of freedom of HCT, reduced HCT and Alfeld-Sorokina on the piecewise polynomials of the element can be computed and is invertible, so that the basis functions exist and are dual to the degrees of freedom; the degrees of freedom are the values, derivatives and divergences that the definition of the element lists, at these points and in this order.", "quantifier": "every piecewise function of the element, every degree of freedom", "why_tests_cant": "A test of duality computes in sympy with the same evaluation code; it does not show which functionals are evaluated.", "anchors": ["symfem/elements/hct.py:HsiehCloughTocher", "symfem/elements/rhct.py:ReducedHsiehCloughTocher", "symfem/elements/alfeld_sorokina.py:AlfeldSorokina", "symfem/finite_element.py:CiarletElement.get_dual_matrix"]}
{"id": "C72", "title": "Integral moments of macro functions are integrals", "statement": "An integral moment applied to a piecewise function is the integral over the cell of the function times the weight: the sum over the pieces of the integrals over the sub-cells.", "quantifier": "all piecewise functions of the element, all triangles", "why_tests_cant": "The wrong value is a constant multiple of the right one, so that the basis stays dual to the functionals as they are computed.", "anchors": ["symfem/functionals.py:IntegralAgainst", "symfem/piecewise_functions.py:PiecewiseFunction.integral", "symfem/elements/p1_macro.py:P1Macro"]}
{"id": "C73", "title": "Elements defined by values and derivatives at points have a dual basis", "statement": "Creating a Bell, Argyris, Morley, Fortin-Soulie, Rannacher-Turek or Bogner-Fox-Schmit element on its reference cell, or a Hermite element on any nondegenerate simplex, gives as many degrees of freedom as functions; get_basis_functions succeeds, every degree of freedom of every basis function is one or zero, and every function of the space is the combination of the basis functions with its degrees of freedom as coefficients. The degrees of freedom are the announced values, derivatives and normal derivatives, attached to their vertex, edge or face. Other orders, cells and (where refused) other vertices raise.", "quantifier": "all functions of the spaces, all nondegenerate intervals, triangles and tetrahedra (Hermite), all orders and cells for the refusals", "why_tests_cant": "Tests check duality by the same evaluation code and only on the reference cell.", "anchors": ["symfem/elements/bell.py:Bell", "symfem/elements/hermite.py:Hermite", "symfem/elements/argyris.py:Argyris", "symfem/elements/morley.py:Morley", "symfem/elements/fortin_soulie.py:FortinSoulie", "symfem/elements/rannacher_turek.py:RannacherTurek", "symfem/elements/bfs.py:BognerFoxSchmit", "symfem/finite_element.py:CiarletElement.get_basis_functions"]}
{"id": "C74", "title": "Kong-Mulder-Veldhuizen elements have a dual basis", "statement": "For every cell and order the class accepts, get_basis_functions of the Kong-Mulder-Veldhuizen element succeeds and returns the basis dual to the weighted point evaluations.", "quantifier": "all cells and orders accepted, all functions of the spaces", "why_tests_cant": "Order 2 on tetrahedra is accepted but is not in the list of tested elements.", "anchors": ["symfem/elements/kmv.py:KongMulderVeldhuizen", "symfem/elements/kmv.py:kmv_tet_polyset", "symfem/finite_element.py:CiarletElement.get_basis_functions"]}
{"id": "C75", "title": "The announced continuity holds", "statement": "If two cells share a facet and the degrees of freedom on the closure of the facet agree, the functions agree on the facet: a function of the space whose degrees of freedom on the closure of a facet vanish is zero on the whole facet (C0), and so is its gradient (C1).", "quantifier": "all functions of the space, all facets, all points of a facet; for Hermite elements all nondegenerate simplices", "why_tests_cant": "Tests compare a fixed pair of cells at sampled points.", "anchors": ["symfem/elements/bell.py:Bell.continuity", "symfem/elements/hermite.py:Hermite.continuity", "symfem/elements/bfs.py:BognerFoxSchmit.continuity", "symfem/elements/kmv.py:KongMulderVeldhuizen.continuity", "symfem/elements/argyris.py:Argyris"]}
{"id": "C76", "title": "Elements of any order defined by values at points have a dual basis and announce the right continuity", "statement": "Creating a vector, matrix or symmetric matrix Lagrange element (on any nondegenerate interval, triangle or tetrahedron), a vector Q, DPC or vector DPC element (on the default quadrilateral or hexahedron), a Lagrange or vector Lagrange element on the default prism or a conforming Crouzeix-Raviart element on the default triangle gives as many degrees of freedom as functions, for every order; get_basis_functions succeeds, every degree of freedom is one on its own basis function and zero on the others, and every field of the announced space (all vector, matrix or symmetric matrix fields with polynomial components) is the combination of the basis functions with its degrees of freedom as coefficients. For the elements that announce continuity, every degree of freedom is at a point in the interior of the sub-entity it is attached to, and a field whose degrees of freedom on the closure of a sub-entity vanish is zero on that sub-entity; the degrees of freedom of DPC all belong to the interior. Other cells, and prisms with lobatto points, raise.", "quantifier": "all orders, all fields of the space, all sub-entities, all nondegenerate simplices (Lagrange), every rule with which Q can be created", "why_tests_cant": "Tests run a few low orders on reference cells and check duality with the code that computes the basis.", "anchors": ["symfem/elements/lagrange.py:VectorLagrange", "symfem/elements/lagrange.py:MatrixLagrange", "symfem/elements/lagrange.py:SymmetricMatrixLagrange", "symfem/elements/q.py:VectorQ", "symfem/elements/q.py:Q", "symfem/elements/dpc.py:DPC", "symfem/elements/dpc.py:VectorDPC", "symfem/elements/lagrange_prism.py:Lagrange", "symfem/elements/lagrange_prism.py:VectorLagrange", "symfem/elements/conforming_crouzeix_raviart.py:ConformingCrouzeixRaviart", "symfem/finite_element.py:CiarletElement.get_basis_functions"]}
{"id": "C77", "title": "Elements of any order defined by integral moments have a dual basis and are H(div) or H(curl) conforming", "statement": "RaviartThomas, BDM, NedelecFirstKind and NedelecSecondKind of every order from 1 on the reference triangle and tetrahedron can be created with as many degrees of freedom as functions; get_basis_functions succeeds, every basis function lies in the announced space (fields of degree n - 1 plus the position times homogeneous polynomials of degree n - 1; fields of degree n - 1 plus homogeneous fields of degree n orthogonal to the position; all fields of degree n), the integral moment of every basis function is one for its own degree of freedom and zero for the others, and every field of the space is the combination of the basis functions with its moments as coefficients. For the H(div) elements a field whose degrees of freedom on a facet vanish has no normal component on the facet; for the H(curl) elements a field whose degrees of freedom on an edge vanish has no tangential component along the edge, and one whose degrees of freedom on a face and the edges of the face vanish has no tangential components on the face. BDM raises on other cells.", "quantifier": "all orders, all fields of the space, all facets, edges and points on them, reference triangle and tetrahedron", "why_tests_cant": "Tests run a few low orders and compare duality with the code that computes the basis; spaces and conformity are checked on sampled points.", "anchors": ["symfem/elements/rt.py:RaviartThomas", "symfem/elements/bdm.py:BDM", "symfem/elements/nedelec.py:NedelecFirstKind", "symfem/elements/nedelec.py:NedelecSecondKind", "symfem/moments.py:make_integral_moment_dofs", "symfem/functionals.py:IntegralMoment", "symfem/functionals.py:NormalIntegralMoment", "symfem/functionals.py:TangentIntegralMoment", "symfem/finite_element.py:CiarletElement.get_basis_functions"]}
{"id": "C78", "title": "Elements of any order on quadrilaterals and hexahedra defined by integral moments have a dual basis and are H(div) or H(curl) conforming", "statement": "Qdiv (Raviart-Thomas) and Qcurl (Nedelec) of every order n from 1 on the reference quadrilateral and hexahedron can be created with as many degrees of freedom as functions, d n^(d-1) (n+1) and d (n+1)^(d-1) n; get_basis_functions succeeds, every basis function lies in the announced space (component c of degree n in variable c and n - 1 in the others, or the other way round), the integral moment of every basis function is one for its own degree of freedom and zero for the others, and every field of the space is the combination of the basis functions with its degrees of freedom as coefficients. If the degrees of freedom of a facet vanish, so does the normal component of Qdiv there; if those of an edge vanish, so does the tangential component of Qcurl there, and if those of a face of the hexahedron and its edges vanish, so do both tangential components on the face. On cells with other vertices both are refused.", "quantifier": "all orders, all variants for which the point rules exist, all fields of the space, all facets, faces, edges and points on them", "why_tests_cant": "Tests run orders up to 3 or so; the two families are defined by each other recursively, so that an error at one order spreads to the next.", "anchors": ["symfem/elements/q.py:RaviartThomas", "symfem/elements/q.py:Nedelec", "symfem/elements/q.py:Q", "symfem/moments.py:make_integral_moment_dofs", "symfem/functionals.py:IntegralMoment", "symfem/functionals.py:NormalIntegralMoment", "symfem/functionals.py:TangentIntegralMoment", "symfem/finite_element.py:CiarletElement.get_basis_functions"]}
{"id": "C79", "title": "Direct serendipity functions are linearly independent and reproduce polynomials", "statement": "For every order n the basis functions of the direct serendipity element are linearly independent on the reference quadrilateral, and every polynomial of degree at most n agrees there with a combination of them, so that the element approximates with order n.", "quantifier": "all orders n >= 1, all polynomials of degree at most n", "why_tests_cant": "Tests tabulate a few orders; that the span of rational functions contains a polynomial space cannot be seen from values of single functions.", "anchors": ["symfem/elements/direct_serendipity.py:DirectSerendipity", "symfem/elements/dpc.py:DPC"]}
{"id": "C80", "title": "Direct serendipity elements are continuous as announced", "statement": "The direct serendipity element announces continuity C0: a basis function that belongs (entity_dofs) neither to an edge nor to one of its vertices vanishes on that edge, so that the functions of two cells agree on a common edge whenever the coefficients that belong to it and its vertices agree.", "quantifier": "all orders n >= 1, all basis functions, all edges and points on them", "why_tests_cant": "The continuity test compares the functions of the shared edge only, never that the other functions vanish there.", "anchors": ["symfem/elements/direct_serendipity.py:DirectSerendipity", "symfem/finite_element.py:DirectElement.entity_dofs", "symfem/finite_element.py:FiniteElement.test_continuity"]}
{"id": "C81", "title": "Serendipity elements of any order have a dual basis and are continuous", "statement": "The scalar serendipity element of every order n from 1 on the reference interval, quadrilateral and hexahedron can be created with as many degrees of freedom as functions (2 + (n - 1); 4 + 4 (n - 1) + dim P_(n-4) of the plane; 8 + 12 (n - 1) + 6 dim P_(n-4) + dim P_(n-6) of space); get_basis_functions succeeds, every basis function is a polynomial of superlinear degree at most n, each degree of freedom (value at a vertex, integral against a DPC function on an edge, face or volume) is one on its own basis function and zero on the others, and every polynomial of superlinear degree at most n is the combination of the basis functions with its degrees of freedom as coefficients. A function of the space whose degrees of freedom on a vertex, edge, face or the cell and on all sub-entities contained in it vanish, vanishes on that sub-entity, so that the element is continuous as announced.", "quantifier": "all orders n >= 1, all variants for which the point rules exist, all functions of the space, all sub-entities and points on them", "why_tests_cant": "Tests run orders up to 4 or so; the interior degrees of freedom of the hexahedron first appear at order 6.", "anchors": ["symfem/elements/serendipity.py:Serendipity", "symfem/elements/dpc.py:DPC", "symfem/polynomials/polysets.py:serendipity_set_1d", "symfem/moments.py:make_integral_moment_dofs", "symfem/functionals.py:PointEvaluation", "symfem/functionals.py:IntegralMoment", "symfem/finite_element.py:CiarletElement.get_basis_functions"]}
{"id": "C82", "title": "H(div) and H(curl) serendipity elements of any order have a dual basis and are conforming", "statement": "The H(div) serendipity element of every order n from 1 on the reference quadrilateral and hexahedron, and the H(curl) serendipity element on the reference quadrilateral, can be created with as many degrees of freedom as functions: 4 (n + 1) + 2 dim P_(n-2) on the quadrilateral, 6 dim P_n of the plane + 3 dim P_(n-2) of space on the hexahedron. get_basis_functions succeeds, every basis function is a polynomial field of degree n plus the announced fields of degree n + 1, the integral moment of every basis function is one for its own degree of freedom and zero for the others, and every field of the space is the combination of the basis functions with its degrees of freedom as coefficients. If the degrees of freedom of a facet vanish, so does the normal component of the H(div) element there; if those of an edge vanish, so does the tangential component of the H(curl) element there. On cells with other vertices both are refused.", "quantifier": "all orders n >= 1, all variants for which the point rules exist, all fields of the space, all facets, edges and points on them", "why_tests_cant": "Tests run orders up to 3 or so; that the fields of degree n + 1 do not spoil the unisolvence needs an argument for every order.", "anchors": ["symfem/elements/serendipity.py:SerendipityDiv", "symfem/elements/serendipity.py:SerendipityCurl", "symfem/polynomials/polysets.py:Hdiv_serendipity", "symfem/polynomials/polysets.py:Hcurl_serendipity", "symfem/elements/dpc.py:DPC", "symfem/elements/dpc.py:VectorDPC", "symfem/moments.py:make_integral_moment_dofs", "symfem/functionals.py:NormalIntegralMoment", "symfem/functionals.py:TangentIntegralMoment", "symfem/finite_element.py:CiarletElement.get_basis_functions"]}
{"id": "C83", "title": "H(curl) serendipity elements of any order on hexahedra have a dual basis and are conforming", "statement": "The H(curl) serendipity element of every order n from 1 on the reference hexahedron can be created with as many degrees of freedom as functions: 12 (n + 1) on the edges, 12 dim P_(n-2) of the plane on the faces and 3 dim P_(n-4) of space inside. get_basis_functions succeeds, every basis function is a polynomial field of degree n plus multiples of (0, xz, -xy), (yz, 0, -xy), (yz, -xz, 0) by homogeneous polynomials of degree n - 1 of two variables plus the gradient of a polynomial of superlinear degree n + 1, the moment of every basis function is one for its own degree of freedom and zero for the others, and every field of the space is the combination of the basis functions with its degrees of freedom as coefficients. If the degrees of freedom of an edge vanish, so does the tangential component on it; if those of a face and of its edges vanish, so do both tangential components on the face.", "quantifier": "all orders n >= 1, all variants for which the point rules exist, all fields of the space, all edges, faces and points on them", "why_tests_cant": "Tests run orders 1 and 2 on the hexahedron; the interior degrees of freedom first appear at order 4.", "anchors": ["symfem/elements/serendipity.py:SerendipityCurl", "symfem/polynomials/polysets.py:Hcurl_serendipity", "symfem/polynomials/polysets.py:serendipity_set_1d", "symfem/elements/dpc.py:DPC", "symfem/elements/dpc.py:VectorDPC", "symfem/moments.py:make_integral_moment_dofs", "symfem/functionals.py:TangentIntegralMoment", "symfem/functionals.py:IntegralMoment", "symfem/finite_element.py:CiarletElement.get_basis_functions"]}
{"id": "C84", "title": "Arnold-Winther and Mardal-Tai-Winther elements are given the function spaces they are defined by", "statement": "Whenever the Arnold-Winther element of order n can be created, the functions it is given are linearly independent and span exactly the symmetric matrix fields of degree n whose divergence has degree n - 2. The functions of the nonconforming Arnold-Winther element are a basis of the symmetric matrix fields of degree 2 whose normal-normal component has degree 1 on every edge of the triangle it is created on. Those of the Mardal-Tai-Winther element on the triangle are a basis of the vector fields of degree 3 with constant divergence and normal component of degree 1 on every edge.", "quantifier": "all orders n >= 3 of Arnold-Winther, all triangles, all fields of the spaces", "why_tests_cant": "Tests check the number of functions and the dual matrix; they never test that every field of the space is reached, nor the constraint on edges or the divergence.", "anchors": ["symfem/elements/aw.py:ArnoldWinther", "symfem/elements/aw.py:NonConformingArnoldWinther", "symfem/elements/mtw.py:MardalTaiWinther", "symfem/polynomials/polysets.py:polynomial_set_vector", "symfem/create.py:create_element"]}
{"id": "C85", "title": "Transition elements have the orders they are asked for and are continuous", "statement": "The transition element on any triangle or tetrahedron that is not degenerate, with any order for the cell, any order for each edge and any order for each face can be created with one degree of freedom for each vertex and n - 1, (n - 1)(n - 2) / 2 or (n - 1)(n - 2)(n - 3) / 6 in each edge, face or tetrahedron of order n. get_basis_functions succeeds; basis function j is one at the j-th point and zero at the others, and every function of the space is the combination of the basis functions with its values at the points. A function of the space that is zero at the points of a sub-entity and of its boundary is zero on the whole sub-entity. On a sub-entity whose order and the orders on its boundary are at most M, the functions are polynomials of degree at most M, whatever the other orders are: on an edge of order n, of degree n. If every order is at least m, all polynomials of degree m are in the space; with the same order n everywhere it is the space of all polynomials of degree n.", "quantifier": "all triangles and tetrahedra, all orders >= 1 of the cell and of each edge and face, all functions of the space, all sub-entities and points on them (variant equispaced)", "why_tests_cant": "There are infinitely many combinations of orders; tests run a handful of small ones and check only the values at the points.", "anchors": ["symfem/elements/transition.py:Transition", "symfem/elements/lagrange.py:Lagrange", "symfem/finite_element.py:CiarletElement.get_basis_functions", "symfem/create.py:create_element"]}
{"id": "C86", "title": "Taylor elements of every order have the expected functionals and basis functions on every cell", "statement": "The Taylor element of every order n from 0 on any interval, triangle or tetrahedron that is not degenerate can be created. Its degrees of freedom are the integral of the function pulled back to the reference cell (the mean value times the volume of the reference cell) and each derivative of order 1 to n at the mean of the vertices exactly once, all inside the cell. get_basis_functions succeeds and returns the basis of the polynomials of degree n dual to them; every polynomial of degree n is the combination of the basis functions with its functionals. The first basis function is the constant that is the inverse of the volume of the reference cell; the function of the derivative with multi-index a is (x - midpoint)^a / a! minus a constant.", "quantifier": "all orders n >= 0, all non-degenerate intervals, triangles and tetrahedra, all polynomials of degree n, all orders in which the variables are differentiated", "why_tests_cant": "Tests run small orders on the reference cells and check the dual matrix there; other cells, higher orders and the form of the functions are not tested.", "anchors": ["symfem/elements/taylor.py:Taylor", "symfem/functionals.py:DerivativePointEvaluation", "symfem/functionals.py:IntegralMoment", "symfem/moments.py:make_integral_moment_dofs", "symfem/references.py:Reference.midpoint", "symfem/finite_element.py:CiarletElement.get_basis_functions", "symfem/create.py:create_element"]}
{"id": "C87", "title": "Bernardi-Raugel elements have a dual basis and continuous normal components", "statement": "The Bernardi-Raugel element of order 1 on the reference triangle and tetrahedron (dimension d) can be created with (d + 1)^2 degrees of freedom, each the normal component, scaled by the size of the facet, at a vertex of a facet or its integral over a facet. get_basis_functions succeeds and returns the basis, dual to them, of the fields that are a linear field plus multiples of the normal of each facet times the product of the barycentric coordinates of its vertices; every such field is the combination of the basis functions with its degrees of freedom. If the degrees of freedom of a facet vanish, so does the normal component on the whole facet. The element of order 2 on the reference tetrahedron has 37 degrees of freedom: those, the normal components at the middles of the edges of each face, the component along each edge at its middle, and the integrals of the divergence times each coordinate. The same holds of it, with quadratic instead of linear fields and with the multiples in each direction of the product of all barycentric coordinates added. On any cell with other vertices NonDefaultReferenceError is raised, and the element of order 2 on the triangle is refused with an AssertionError.", "quantifier": "both cells and both orders, all fields of the space, all facets and points on them, all cells with other vertices", "why_tests_cant": "Tests check the dual matrix and continuity of the computed basis functions between two cells at a few points; that every field of the space is reached, and conformity for every field, are not tested.", "anchors": ["symfem/elements/bernardi_raugel.py:BernardiRaugel", "symfem/functionals.py:DotPointEvaluation", "symfem/functionals.py:NormalIntegralMoment", "symfem/functionals.py:DivergenceIntegralMoment", "symfem/moments.py:make_integral_moment_dofs", "symfem/elements/lagrange.py:Lagrange", "symfem/finite_element.py:CiarletElement.get_basis_functions"]}
