{"id": "C01", "title": "Lattice points on a simplex are complete, distinct and counted", "statement": "make_lattice(verts, n, interior) returns exactly the points whose barycentric multiples of 1/n are integers >= interior for the directions it iterates (i.e. index vectors k with k_i >= interior and sum k_i <= n - interior when interior in {0,1}), each once; the number of returned points is the binomial coefficient that callers such as Lagrange hard-wire.", "quantifier": "every vertex list (any dimension >= 1), every n >= 1, every interior offset 0 or 1", "why_tests_cant": "the set of (dimension, n) pairs is infinite; a test checks a handful of them", "anchors": ["FIAT/reference_element.py:lattice_iter", "FIAT/reference_element.py:make_lattice", "FIAT/reference_element.py:Simplex.make_points"]}
{"id": "C02", "title": "Multi-index enumeration is exact", "statement": "mis(m, n) returns every m-tuple of nonnegative integers with sum n exactly once, in lexicographically decreasing order; derivative tables therefore contain every multi-index of each order exactly once.", "quantifier": "every m >= 1 and every n >= 0", "why_tests_cant": "unbounded in both arguments", "anchors": ["FIAT/polynomial_set.py:mis", "FIAT/polynomial_set.py:PolynomialSet.tabulate"]}
{"id": "C03", "title": "Component index iteration is exact", "statement": "index_iterator(shape) yields every valid component index of a tensor of that shape exactly once, in row-major order, so the number of members of a vector/tensor polynomial set is prod(shape) * dim and each (component, expansion function) pair is the single nonzero of exactly one member.", "quantifier": "every nonempty shape tuple and every degree", "why_tests_cant": "shapes are unbounded in rank and extent", "anchors": ["FIAT/functional.py:index_iterator", "FIAT/polynomial_set.py:ONPolynomialSet", "FIAT/polynomial_set.py:ONSymTensorPolynomialSet"]}
{"id": "C04", "title": "Expansion function numbering is a bijection", "statement": "The index maps used to store the orthonormal expansion on triangles, (p,q) with p+q<=n, and tetrahedra, (p,q,r) with p+q+r<=n, are bijections onto 0..polynomial_dimension-1 that do not depend on n; the recurrences read only entries already written and write every entry.", "quantifier": "every degree n and every multi-index", "why_tests_cant": "unbounded degree", "anchors": ["FIAT/expansions.py:TriangleExpansionSet._tabulate", "FIAT/expansions.py:TetrahedronExpansionSet._tabulate", "FIAT/expansions.py:polynomial_dimension"]}
{"id": "C05", "title": "Entity closure dofs are the dofs of all sub-entities", "statement": "entity_closure_dofs()[d][e] is the sorted multiset union of entity_dofs over every entity contained in (d,e), and it is defined for every entity of the cell.", "quantifier": "every reference cell topology in which distinct entities have distinct vertex sets and higher-dimensional entities are not contained in lower-dimensional ones; every dof assignment", "why_tests_cant": "depends on an arbitrary topology and on which dictionary key a leaked loop variable happens to hold", "anchors": ["FIAT/dual_set.py:DualSet.__init__", "FIAT/dual_set.py:make_entity_closure_ids", "FIAT/reference_element.py:Cell.__init__"]}
{"id": "C06", "title": "Sub-entity and connectivity queries reflect vertex containment", "statement": "get_connectivity()[(d0,d1)][e] lists exactly the numbers of the d1-entities whose vertices all lie in the d0-entity e, in increasing order; containment is reflexive and transitive.", "quantifier": "every topology dictionary", "why_tests_cant": "arbitrary topologies (simplices, products, user-built cells)", "anchors": ["FIAT/reference_element.py:Cell.__init__", "FIAT/reference_element.py:Cell.get_connectivity"]}
{"id": "C07", "title": "Concatenated elements number each dof exactly once", "statement": "For mixed and enriched elements entity_dofs() is the offset concatenation of the constituents: if each constituent's dofs partition 0..dim_i-1 then the result partitions 0..sum(dim_i)-1, a dof stays on the entity it was attached to, and dof offset_i + k is dual node k of constituent i.", "quantifier": "every list of constituent elements on a common topology", "why_tests_cant": "lists of elements are unbounded and each carries arbitrary dof maps", "anchors": ["FIAT/mixed.py:concatenate_entity_dofs", "FIAT/mixed.py:MixedElement", "FIAT/enriched.py:EnrichedElement", "FIAT/nodal_enriched.py:_merge_entity_ids"]}
{"id": "C08", "title": "Mixed tabulation is block diagonal", "statement": "MixedElement.tabulate places constituent i's table in rows [offset_i, offset_{i+1}) and components [coffset_i, coffset_{i+1}) and is zero elsewhere, for every derivative multi-index.", "quantifier": "every list of constituent elements, order and point list", "why_tests_cant": "unbounded lists of constituents with arbitrary value sizes", "anchors": ["FIAT/mixed.py:MixedElement.tabulate", "FIAT/mixed.py:MixedElement.value_shape"]}
{"id": "C09", "title": "Enriched tabulation concatenates the constituents", "statement": "EnrichedElement.tabulate returns, for every derivative multi-index, the tables of the constituents stacked in order, so row offset_i + k is basis function k of constituent i; construction is refused when cells, mappings or value shapes differ.", "quantifier": "every list of constituents and every tabulation request", "why_tests_cant": "arbitrary constituents", "anchors": ["FIAT/enriched.py:EnrichedElement.tabulate", "FIAT/enriched.py:EnrichedElement.__init__"]}
{"id": "C10", "title": "Ciarlet elements are nodal", "statement": "For any CiarletElement, applying dual node i to basis function j gives 1 if i=j and 0 otherwise; the basis spans the same polynomial space as the primal set it was built from, and it is the only basis of that space with this property.", "quantifier": "every polynomial set and every dual set for which the generalized Vandermonde matrix is invertible, scalar or tensor valued", "why_tests_cant": "quantifies over all elements a user can build; tests check particular families and degrees", "anchors": ["FIAT/finite_element.py:CiarletElement.__init__", "FIAT/dual_set.py:DualSet.to_riesz"]}
{"id": "C11", "title": "The dual set's Riesz matrix equals the per-functional action", "statement": "DualSet.to_riesz(poly_set)[i,...,j] is the action of node i on expansion function j, identical to the row computed by Functional.to_riesz for node i alone, whatever points and derivative points the nodes share.", "quantifier": "every list of functionals (arbitrary point and derivative dictionaries with shared or distinct points)", "why_tests_cant": "sharing patterns of points between functionals are unbounded", "anchors": ["FIAT/dual_set.py:DualSet.to_riesz", "FIAT/functional.py:Functional.to_riesz"]}
{"id": "C12", "title": "Derivative tabulation via differentiation matrices is exact", "statement": "PolynomialSet.tabulate(pts, order)[alpha] is the alpha-th partial derivative of each member at each point, for all alpha up to the order, independent of the order in which directions are differentiated.", "quantifier": "every polynomial set, every multi-index, every point", "why_tests_cant": "unbounded derivative order and degree", "anchors": ["FIAT/polynomial_set.py:PolynomialSet.tabulate", "FIAT/polynomial_set.py:form_matrix_product", "FIAT/polynomial_set.py:ONPolynomialSet"]}
{"id": "C13", "title": "Restricting an element keeps its basis functions", "statement": "RestrictedElement(element, indices) has exactly the selected basis functions of the original element (as functions), reordered consistently with its renumbered entity_dofs and dual nodes; restricting to a domain selects exactly the dofs on entities of admissible dimension; restriction with duplicate or unattached indices is refused.", "quantifier": "every nodal element, every index list, every restriction domain", "why_tests_cant": "arbitrary element and index subset", "anchors": ["FIAT/restricted.py:RestrictedElement", "FIAT/restricted.py:_get_indices", "FIAT/bubble.py:CodimBubble"]}
{"id": "C14", "title": "Tensor product elements number dofs as products", "statement": "TensorProductElement(A,B).entity_dofs()[(da,db)][k] for the k-th pair (ea,eb) in row-major order is {x*dim B + y : x on ea, y on eb}; if A's and B's dofs partition their ranges the product's dofs partition 0..dim A*dim B-1, and entity numbering agrees with the product cell's topology.", "quantifier": "every pair of elements", "why_tests_cant": "arbitrary pairs of elements, nested products", "anchors": ["FIAT/tensor_product.py:TensorProductElement.__init__", "FIAT/reference_element.py:TensorProductCell"]}
{"id": "C15", "title": "Tensor product tabulation is the product of the factors", "statement": "For scalar factors, TensorProductElement.tabulate(order, points)[alpha + beta][i*dim B + j] at a point (x,y) is d^alpha phi_i(x) * d^beta psi_j(y), with every multi-index up to the order present; for one vector-valued factor the product is taken component by component.", "quantifier": "every pair of elements, order, point list and sub-entity", "why_tests_cant": "arbitrary factors and orders", "anchors": ["FIAT/tensor_product.py:TensorProductElement.tabulate"]}
{"id": "C16", "title": "Product cell topology is the product of the factor topologies", "statement": "TensorProductCell enumerates its entities of dimension (d1,..,dk) as all tuples of factor entities in lexicographic order and the vertices of an entity are exactly the products of the factor entities' vertices under row-major vertex numbering consistent with get_vertices().", "quantifier": "every list of factor cells", "why_tests_cant": "unbounded numbers of factors and arbitrary factor topologies", "anchors": ["FIAT/reference_element.py:TensorProductCell.__init__"]}
{"id": "C17", "title": "Flattening and unflattening entities are inverse", "statement": "flatten_entities followed by the lookup in compute_unflattening_map is the identity: flattened[d][e] is the entry at unflattening_map[(d,e)] of the original dictionary; the map is a bijection between flat and product entities, so quadrilateral and hexahedron queries answer for the right product entity.", "quantifier": "every product topology dictionary whose entity numbers are consecutive", "why_tests_cant": "arbitrary product topologies", "anchors": ["FIAT/reference_element.py:flatten_entities", "FIAT/reference_element.py:compute_unflattening_map", "FIAT/tensor_product.py:FlattenedDimensions"]}
{"id": "C18", "title": "Sub-entity transforms map the reference entity onto the entity", "statement": "get_entity_transform(dim, e) maps vertex j of the reference sub-entity to the j-th vertex of entity e in cell coordinates and is affine; every point of the reference entity lands in the convex hull of that entity's vertices.", "quantifier": "every simplex cell (any vertex coordinates and topology), every entity, every point; and their tensor products", "why_tests_cant": "infinitely many points and cells", "anchors": ["FIAT/reference_element.py:Simplex.get_entity_transform", "FIAT/reference_element.py:TensorProductCell.get_entity_transform", "FIAT/reference_element.py:UFCQuadrilateral.get_entity_transform"]}
{"id": "C19", "title": "Affine maps between simplices send vertices to vertices", "statement": "make_affine_mapping(xs, ys) returns (A,b) with A xs[i] + b = ys[i] for every i, is the only such map, and mismatched vertex counts are refused.", "quantifier": "every pair of simplices with non-degenerate source in any dimension", "why_tests_cant": "continuum of vertex coordinates", "anchors": ["FIAT/reference_element.py:make_affine_mapping"]}
{"id": "C20", "title": "Facet normals are orthogonal to the facet and of the documented length", "statement": "compute_normal returns a vector orthogonal to the facet of length one (as documented); the scaled and reference normals follow.", "quantifier": "every facet of every cell class", "why_tests_cant": "the orthogonality statement ranges over cell classes and facets, the length over the class overrides", "anchors": ["FIAT/reference_element.py:UFCTriangle.compute_normal", "FIAT/reference_element.py:UFCTetrahedron.compute_normal", "FIAT/reference_element.py:Simplex.compute_normal"]}
{"id": "C21", "title": "contains_point decides membership in the reference cell", "statement": "For UFC simplices contains_point(p) is true exactly for convex combinations of the vertices (with epsilon=0), it is monotone in epsilon, and for product cells it is true exactly when every factor contains its slice of the coordinates.", "quantifier": "every point, tolerance and product cell", "why_tests_cant": "continuum of points", "anchors": ["FIAT/reference_element.py:UFCSimplex.contains_point", "FIAT/reference_element.py:TensorProductCell.contains_point"]}
{"id": "C22", "title": "Jacobi polynomial evaluation and differentiation agree", "statement": "eval_jacobi_deriv(a,b,n,x) is the derivative of the polynomial evaluated by eval_jacobi(a,b,n,.), the batch variants agree row by row with the scalar ones, and eval_jacobi(0,0,.,.) are the Legendre polynomials (orthogonal on [-1,1] with norm^2 2/(2n+1), value 1 at 1).", "quantifier": "every degree n, every weight pair for which the recurrence divisors are nonzero, every x", "why_tests_cant": "unbounded degree and continuum of points", "anchors": ["FIAT/jacobi.py:eval_jacobi", "FIAT/jacobi.py:eval_jacobi_batch", "FIAT/jacobi.py:eval_jacobi_deriv", "FIAT/jacobi.py:eval_jacobi_deriv_batch"]}
{"id": "C23", "title": "The orthonormal expansions are polynomial, hierarchical and orthonormal", "statement": "Expansion set tabulation of degree n gives polynomials of total degree p+q(+r); degree-n tables are prefixes of degree-m tables for n<=m; on the line they are orthonormal for the L2 inner product of the default cell.", "quantifier": "every degree and every point", "why_tests_cant": "unbounded degree", "anchors": ["FIAT/expansions.py:LineExpansionSet.tabulate", "FIAT/expansions.py:TriangleExpansionSet._tabulate", "FIAT/expansions.py:TetrahedronExpansionSet._tabulate"]}
{"id": "C24", "title": "Barycentric interpolation tabulates the Lagrange basis", "statement": "barycentric_interpolation(xsrc, xdst, order)[(k,)][i,j] is the k-th derivative at xdst[j] of the Lagrange polynomial that is 1 at xsrc[i] and 0 at the other nodes, including when xdst[j] coincides with a node.", "quantifier": "every list of distinct nodes, every list of target points, every order", "why_tests_cant": "unbounded node count and derivative order; coincidence patterns", "anchors": ["FIAT/barycentric_interpolation.py:barycentric_interpolation"]}
{"id": "C25", "title": "Bernstein basis is a nonnegative partition of unity with exact derivatives", "statement": "bernstein tables are nonnegative on the cell, sum to one at every point, and derivative tables equal the derivatives of the basis functions; basis function numbering puts each multi-index on the entity whose vertices support it.", "quantifier": "every degree, cell dimension, derivative order and point", "why_tests_cant": "unbounded degree and order, continuum of points", "anchors": ["FIAT/bernstein.py:bernstein_db", "FIAT/bernstein.py:bernstein_dx", "FIAT/bernstein.py:bernstein_Dx", "FIAT/bernstein.py:BernsteinDualSet"]}
{"id": "C26", "title": "Functionals act as documented on polynomials", "statement": "Applying each functional class to a function gives the documented value: point evaluation, directional and higher derivatives, normal/tangential components, and weighted quadrature moments.", "quantifier": "every functional class, cell, point, direction, and function", "why_tests_cant": "quantifies over all functions and points", "anchors": ["FIAT/functional.py"]}
{"id": "C27", "title": "Tensor product quadrature integrates products exactly", "statement": "make_tensor_product_quadrature(q1,...,qk) integrates f1(x1)...fk(xk) to the product of the factors' integrals, has prod(n_i) points, and hence is exact on tensor polynomials when its factors are exact.", "quantifier": "every list of quadrature rules and every product integrand", "why_tests_cant": "unbounded numbers of rules and functions", "anchors": ["FIAT/quadrature.py:make_tensor_product_quadrature"]}
{"id": "C28", "title": "Collapsed quadrature is exact", "statement": "The collapsed (Stroud) rules on triangle and tetrahedron with m points per direction integrate every polynomial of total degree <= 2m-1 exactly (in exact arithmetic, given exact 1D Gauss-Jacobi rules), on every affine image of the cell.", "quantifier": "every m >= 1 and every polynomial of the stated degree", "why_tests_cant": "infinitely many polynomials and unbounded m", "anchors": ["FIAT/quadrature.py:CollapsedQuadratureTriangleRule", "FIAT/quadrature.py:CollapsedQuadratureTetrahedronRule", "FIAT/quadrature.py:make_quadrature"]}
{"id": "C29", "title": "Hard-coded quadrature tables reach their nominal degree", "statement": "create_quadrature's hard-coded simplex tables integrate every polynomial of total degree <= the requested degree with error at most a stated multiple of machine precision times the coefficient sum, and their weights add to the cell volume.", "quantifier": "every polynomial of the nominal degree on each tabulated rule", "why_tests_cant": "infinitely many polynomials", "anchors": ["FIAT/quadrature_schemes.py:_triangle_scheme", "FIAT/quadrature_schemes.py:_tetrahedron_scheme", "FIAT/quadrature_schemes.py:_kmv_lump_scheme"]}
{"id": "C30", "title": "Quadrature dispatch honours the requested degree", "statement": "create_quadrature(cell, degree, scheme) either raises ValueError/NotImplementedError (negative degree, unknown scheme, wrong arity) or returns a rule on the requested cell whose number of points per direction m satisfies 2m-1 >= degree; product cells split a scalar degree to every factor.", "quantifier": "every cell (including nested products), every degree and scheme string", "why_tests_cant": "unbounded inputs", "anchors": ["FIAT/quadrature_schemes.py:create_quadrature", "FIAT/quadrature_schemes.py:_fiat_scheme"]}
{"id": "C31", "title": "Variant strings are parsed as documented", "statement": "check_format_variant(variant, degree) accepts exactly None, 'point', 'integral' and 'integral(d)', yields quadrature degree 5*(degree+1) by default, returns d when d >= degree+1 and raises ValueError otherwise.", "quantifier": "every string and degree", "why_tests_cant": "infinitely many strings", "anchors": ["FIAT/check_format_variant.py:check_format_variant"]}
{"id": "C32", "title": "HDiv trace dofs live on facets only, numbered consecutively", "statement": "HDivTrace attaches every dof to exactly one facet, numbers them consecutively facet by facet, and tabulation on a facet gives that facet's discontinuous Lagrange values in that facet's rows and zero elsewhere; gradients and non-facet entities are reported as TraceError, not as numbers.", "quantifier": "every cell, degree, facet and point", "why_tests_cant": "unbounded degrees and points", "anchors": ["FIAT/hdiv_trace.py:HDivTrace", "FIAT/hdiv_trace.py:extract_unique_facet"]}
{"id": "C33", "title": "Hdiv and Hcurl wrap a scalar product element into the right component", "statement": "Hdiv(E)/Hcurl(E).tabulate puts the values of E (with the sign required by the rotation) in the components belonging to the chosen direction and zero elsewhere, for every derivative, and its dual nodes act on the same component.", "quantifier": "every product element with form degree n-1 or 1, every derivative and point", "why_tests_cant": "arbitrary elements", "anchors": ["FIAT/hdivcurl.py:Hdiv", "FIAT/hdivcurl.py:Hcurl"]}
{"id": "C34", "title": "Every element's dofs partition the dual basis", "statement": "For every element family and every admissible degree, entity_dofs() lists each of 0..space_dimension()-1 exactly once and space_dimension() equals the dimension of the polynomial space the family is built on.", "quantifier": "every degree for which the constructor succeeds, each family and cell dimension", "why_tests_cant": "unbounded degree", "anchors": ["FIAT/lagrange.py", "FIAT/raviart_thomas.py", "FIAT/nedelec.py", "FIAT/brezzi_douglas_marini.py", "FIAT/nedelec_second_kind.py", "FIAT/regge.py", "FIAT/hellan_herrmann_johnson.py", "FIAT/argyris.py", "FIAT/hermite.py", "FIAT/morley.py", "FIAT/bell.py", "FIAT/discontinuous_pc.py"]}
{"id": "C35", "title": "Serendipity basis size matches its dof map", "statement": "For every degree the serendipity element's entity_dofs enumerate as many dofs per entity as the code generates basis functions, and the numbering is a partition of 0..dim-1 with dim the documented serendipity dimension.", "quantifier": "every degree >= 1 in 2D and 3D", "why_tests_cant": "unbounded degree", "anchors": ["FIAT/serendipity.py:Serendipity", "FIAT/serendipity.py:tr", "FIAT/serendipity.py:e_lambda_0", "FIAT/serendipity.py:f_lambda_0", "FIAT/serendipity.py:i_lambda_0"]}
{"id": "C36", "title": "Nodal enrichment merges spaces without loss", "statement": "NodalEnrichedElement pads each constituent's coefficients with zeros to the largest expansion, preserving each basis function; the merged element is nodal with respect to the concatenated dual basis.", "quantifier": "every list of nodal elements with compatible expansion sets", "why_tests_cant": "unbounded lists and degrees", "anchors": ["FIAT/nodal_enriched.py:_merge_coeffs", "FIAT/nodal_enriched.py:_merge_dmats", "FIAT/nodal_enriched.py:NodalEnrichedElement"]}
{"id": "C37", "title": "Pointwise duals represent the dual basis", "statement": "compute_pointwise_dual(el, pts) returns functionals supported on the given points whose action on every basis function equals the Kronecker delta, up to the dropped entries below tolerance.", "quantifier": "every element and every unisolvent set of points", "why_tests_cant": "continuum of point sets", "anchors": ["FIAT/pointwise_dual.py:compute_pointwise_dual"]}
{"id": "C38", "title": "Quadrature elements are point evaluations at the quadrature points", "statement": "QuadratureElement's dual basis evaluates at the given points in order; tabulation at exactly those points is the identity and any other request is refused.", "quantifier": "every point list, weights and request", "why_tests_cant": "arbitrary point lists", "anchors": ["FIAT/quadrature_element.py:QuadratureElement"]}
{"id": "C39", "title": "Polynomial recurrences of the Gauss rule generator are consistent", "statement": "rec_jacobi and rec_jacobi01 return recurrence coefficients for which the monic recurrence reproduces the (shifted) Jacobi polynomials up to normalisation, and polyval/jacobi evaluate that recurrence.", "quantifier": "every length N and weight pair without vanishing divisors", "why_tests_cant": "unbounded length", "anchors": ["FIAT/orthopoly.py:rec_jacobi", "FIAT/orthopoly.py:rec_jacobi01", "FIAT/orthopoly.py:jacobi", "FIAT/orthopoly.py:polyval"]}
{"id": "C40", "title": "Cell factory functions are total on documented names and refuse the rest", "statement": "ufc_cell(name) returns the cell with the documented dimension for each documented name, recursively for ' * '-separated products, and raises RuntimeError otherwise; flatten_reference_cube maps every product hypercube of dimension 2 or 3 to the UFC cube of the same dimension and refuses non-hypercubes.", "quantifier": "every cell name and every nested product cell", "why_tests_cant": "unbounded nesting", "anchors": ["FIAT/reference_element.py:ufc_cell", "FIAT/reference_element.py:ufc_simplex", "FIAT/reference_element.py:is_hypercube", "FIAT/reference_element.py:flatten_reference_cube"]}
{"id": "C41", "title": "The volume of a simplex is the square root of its Gram determinant over d!", "statement": "volume(verts) of d+1 points of n-space (1 <= d <= 3, d <= n, edge vectors independent with a margin above 1e-10) is positive and d! times it squares to the Gram determinant of the edge vectors, so embedded facets get their true measure.", "quantifier": "every list of vertices in every dimension of the ambient space", "why_tests_cant": "real-valued vertices in arbitrary position", "anchors": ["FIAT/reference_element.py:volume", "FIAT/reference_element.py:make_affine_mapping"]}
{"id": "C42", "title": "The simplex classes list every sub-simplex exactly once", "statement": "get_topology() of each simplex class has, for every nonempty set of vertices, exactly one entity with that vertex set, in dimension size minus one; entities have distinct vertices of the cell and vertex i is entity i of dimension 0.", "quantifier": "every simplex class, every set of vertices and every entity", "why_tests_cant": "a missing or repeated entity shows up only in the dof maps built on it", "anchors": ["FIAT/reference_element.py:UFCTetrahedron", "FIAT/reference_element.py:DefaultTetrahedron", "FIAT/reference_element.py:IntrepidTetrahedron", "FIAT/reference_element.py:UFCTriangle"]}
{"id": "C43", "title": "Gauss rules from recurrence coefficients are exact to degree 2N-1", "statement": "gauss(alpha, beta) of N recurrence coefficients of a weight (positive beta) returns N increasing nodes, the roots of the N-th orthogonal polynomial, and positive weights that integrate every polynomial of degree at most 2N-1 exactly; arrays of unequal length and empty arrays are refused.", "quantifier": "every N, every weight given by its linear functional, every pair of coefficient arrays", "why_tests_cant": "a rule exact on sampled monomials for a few N says nothing about the others", "anchors": ["FIAT/orthopoly.py:gauss", "FIAT/orthopoly.py:rec_jacobi"]}
{"id": "C44", "title": "Gauss-Lobatto rules contain both prescribed end points and are exact to degree 2N-3", "statement": "lobatto(alpha, beta, xl1, xl2) and GaussLobattoLegendreQuadratureLineRule(cell, m) return rules whose first and last nodes are the prescribed points, with increasing nodes, positive weights and exactness for every polynomial of degree at most 2m-3; m < 2 is refused with ValueError.", "quantifier": "every m >= 2, every interval, every weight with constant alpha", "why_tests_cant": "the claim covers all m and all polynomials", "anchors": ["FIAT/orthopoly.py:lobatto", "FIAT/quadrature.py:GaussLobattoLegendreQuadratureLineRule"]}
{"id": "C45", "title": "The Gauss-Legendre line rule is exact to degree 2m-1 on every interval", "statement": "GaussLegendreQuadratureLineRule(cell, m) has m points inside the cell and integrates every polynomial of degree at most 2m-1 over the interval exactly; m < 1 is refused with ValueError.", "quantifier": "every m and every interval", "why_tests_cant": "the claim covers all m and all polynomials", "anchors": ["FIAT/quadrature.py:GaussLegendreQuadratureLineRule"]}
{"id": "C46", "title": "The Gauss-Radau line rule contains one end point and is exact to degree 2m-2", "statement": "RadauQuadratureLineRule(cell, m, right) has m points, the last (first) one being the right (left) vertex, weights of the sign of the interval, and integrates every polynomial of degree at most 2m-2 over the interval exactly; the degree 2m-1 of its docstring is never reached.", "quantifier": "every m >= 1, both sides, every interval", "why_tests_cant": "the claim covers all m and all polynomials", "anchors": ["FIAT/quadrature.py:RadauQuadratureLineRule"]}
{"id": "C47", "title": "Scalar simplex elements span and interpolate P_n exactly", "statement": "On every simplex class the orthonormal polynomial set of degree n has binom(n+sd, sd) linearly independent members whose combinations are exactly the polynomials of degree at most n (values and derivatives of every order). Lagrange(n >= 1), DiscontinuousLagrange(n >= 0) and CrouzeixRaviart(1) are therefore constructed without error; their tabulated basis functions are polynomials of degree at most n dual to the point-evaluation nodes, and interpolation at the node points reproduces every polynomial of degree at most n together with all its derivatives. Lagrange of degree 0 raises a linear algebra error; Crouzeix-Raviart of another degree is refused.", "quantifier": "all simplex classes, all degrees, all polynomials, all evaluation points and derivative orders, any field of characteristic zero with exact square roots", "why_tests_cant": "unisolvence and reproduction must hold for every degree and every polynomial; tests try a few degrees on a few cells", "anchors": ["FIAT/lagrange.py: LagrangeDualSet, Lagrange", "FIAT/discontinuous_lagrange.py: DiscontinuousLagrange", "FIAT/crouzeix_raviart.py: CrouzeixRaviart", "FIAT/polynomial_set.py: ONPolynomialSet", "FIAT/expansions.py", "FIAT/finite_element.py: CiarletElement"]}
{"id": "C48", "title": "Raviart-Thomas is the nodal basis of the documented space", "statement": "RaviartThomas(cell, k) and DiscontinuousRaviartThomas(cell, k) in the default point variant, on every triangle and tetrahedron and for every degree 1 <= k < 10^8, build successfully; the result has sd C(k-1+sd, sd) + C(k+sd-2, sd-1) members; every member is a field p + x q with p and q of degree at most k-1 (values and all derivatives); the nodes (scaled normal component at facet lattice points, components at interior lattice points) are dual to the members; and every field p + x q is the combination of the members with its node values. A basis function registered on another entity than a facet has zero normal component on the whole plane of that facet (H(div) conformity). For any larger k the only possible failure is a LinAlgError, raised exactly when the stacked rows of the space are numerically rank deficient.", "quantifier": "all triangles and tetrahedra the library defines, all degrees, every correct svd, qr, square root and set of quadrature points, every real closed field", "why_tests_cant": "unisolvence, span and conformity must hold for all degrees and all fields of the space; tests look at a few low degrees at sample points", "anchors": ["FIAT/raviart_thomas.py: RTSpace, RTDualSet, RaviartThomas", "FIAT/discontinuous_raviart_thomas.py: DRTDualSet, DiscontinuousRaviartThomas", "FIAT/polynomial_set.py: ONPolynomialSet, polynomial_set_union_normalized", "FIAT/finite_element.py: CiarletElement", "FIAT/functional.py: PointScaledNormalEvaluation, ComponentPointEvaluation", "FIAT/reference_element.py: make_points, compute_scaled_normal"]}
{"id": "C49", "title": "Union of polynomial sets is orthonormal and spans the union", "statement": "polynomial_set_union_normalized(A, B) succeeds for every pair of sets over the same expansion set and value shape, with any correct singular value decomposition. Its members have orthonormal coefficient vectors, there are at most dim A + dim B of them, and (with descending singular values, as numpy returns) each is a combination of members of A and B, values and derivatives alike. If no nonzero singular value is below the tolerance 1e-10 every member of A and B is a combination of members of the union; the union has dim A + dim B members exactly when every unit combination of the stacked rows is longer than the tolerance. The docstring's unconditional promise that the span is the same is false for members of norm below the tolerance.", "quantifier": "all polynomial sets, value shapes and dimensions, every correct svd, every real closed field", "why_tests_cant": "the span equality and the dimension depend on the numbers in both sets; tests only see the unions the library builds itself", "anchors": ["FIAT/polynomial_set.py: polynomial_set_union_normalized, PolynomialSet.tabulate"]}
{"id": "C50", "title": "Lagrange elements are conforming across shared entities", "statement": "On every simplex the library defines and for every degree n >= 1, a polynomial of degree at most n that vanishes at the Lagrange nodes lying in an entity (vertex, edge, face or cell) vanishes on the whole line or plane of that entity; and a basis function of Lagrange(cell, n) registered by entity_dofs on an entity that is not part of the closure of an entity W vanishes on all of W. So two cells that share an entity and the degrees of freedom in its closure have equal traces there (C0 conformity).", "quantifier": "all simplex cells, all degrees, all pairs of entities, all points of the entity's affine hull, all polynomials; every field of characteristic zero with exact square roots", "why_tests_cant": "continuity has to hold at every point of every facet for every degree; tests sample points of a few low order elements", "anchors": ["FIAT/lagrange.py: LagrangeDualSet, Lagrange", "FIAT/reference_element.py: make_points, get_topology", "FIAT/dual_set.py: get_entity_ids", "FIAT/finite_element.py: tabulate"]}
{"id": "C51", "title": "The cubic Hermite element: unisolvent, nodal and continuous on every simplex", "statement": "CubicHermite(cell) can be constructed on every interval, triangle and tetrahedron class. Its basis functions are cubic polynomials dual to: the value and the partial derivatives at every vertex (in that order, vertex by vertex), then the value at the centre of every face; interpolation with these nodes reproduces every cubic with all its derivatives. A basis function registered by entity_dofs on an entity outside the closure of an entity W vanishes on all of W, so traces of neighbouring cells agree.", "quantifier": "all simplex cells, all cubic polynomials, all points and derivative multi-indices, all pairs of entities; every field of characteristic zero with exact square roots", "why_tests_cant": "interpolation must be exact for a whole polynomial space and continuity must hold at every point of every facet; tests evaluate a few points", "anchors": ["FIAT/hermite.py: CubicHermiteDualSet, CubicHermite", "FIAT/functional.py: PointEvaluation, PointDerivative", "FIAT/finite_element.py: CiarletElement", "FIAT/polynomial_set.py: ONPolynomialSet"]}
{"id": "C52", "title": "Morley and Argyris elements: unisolvent and nodal on every triangle, Argyris C1-conforming for every degree", "statement": "On every triangle class, Morley(cell) can be constructed: its basis functions are the quadratics dual to the values at the vertices and the normal derivatives at the edge midpoints, the normals being what compute_normal returns (unit vectors orthogonal to the edge). For every degree q >= 5, Argyris(cell, q) can be constructed: its basis functions are polynomials of degree q dual to value, gradient and second derivatives at the vertices, normal derivatives at the points k/(q-3) and values at the points k/(q-4) of every edge, and values at the interior lattice points of order q-3; interpolation with these nodes reproduces every polynomial of degree q with all its derivatives. QuinticArgyris(cell) builds the same basis as Argyris(cell, 5). A basis function of Argyris registered by entity_dofs on an entity outside the closure of an edge vanishes on the whole edge together with its gradient, so matching degrees of freedom give C1 functions.", "quantifier": "all triangle classes, all degrees q >= 5, all polynomials of degree q, all points of all edges; every correct svd/qr and every choice of set.pop in compute_normal; every real closed field", "why_tests_cant": "unisolvence must hold for every degree and C1 matching at every point of every edge; tests build a few degrees and compare a few points", "anchors": ["FIAT/argyris.py: ArgyrisDualSet, QuinticArgyrisDualSet, Argyris, QuinticArgyris", "FIAT/morley.py: MorleyDualSet, Morley", "FIAT/functional.py: PointNormalDerivative, PointDerivative", "FIAT/reference_element.py: compute_normal, make_points", "FIAT/finite_element.py: CiarletElement"]}
{"id": "C53", "title": "Discontinuous Taylor element: cell average and derivatives at the center, unisolvent for every degree", "statement": "On every simplex cell and for every degree n >= 1, DiscontinuousTaylor(cell, n) can be constructed: with the Gauss-Jacobi points being the roots of the Jacobi polynomials, its basis functions are the polynomials of degree at most n dual to the exact integral over the cell and to every derivative of order 1 to n at the mean of the vertices, ordered by derivative order; interpolation with these nodes reproduces every polynomial of degree n with all its derivatives. The first basis function is the constant 1/volume (signed by the orientation of the cell) and all others have integral 0. At degree 0 the element equals DiscontinuousLagrange(cell, 0).", "quantifier": "all simplex cells, all degrees, all polynomials of degree n, all points; every correct list of quadrature points and every real closed field", "why_tests_cant": "unisolvence and the mean-value property hold for every degree; tests build degrees up to 2 or 3 and check the constant by sampling", "anchors": ["FIAT/discontinuous_taylor.py: DiscontinuousTaylorDualSet, HigherOrderDiscontinuousTaylor, DiscontinuousTaylor", "FIAT/functional.py: IntegralMoment, PointDerivative", "FIAT/quadrature.py: make_quadrature", "FIAT/finite_element.py: CiarletElement"]}
{"id": "C54", "title": "DPC on hypercubes: nodes, unisolvence for every degree, and where the nodes lie", "statement": "DPC(cell, n) on every hypercube cell (line cells, quadrilateral, hexahedron and the tensor product cells that flatten to them) can be constructed for every degree. For n >= 1 it has one point evaluation for each lattice point of order n of a fixed simplex (the line itself; (0,0),(1,0),(1/2,1) on the quadrilateral; (0,0,0),(1,0,0),(1/2,3/2,0),(1/2,1/2,1) on the hexahedron); its basis is the nodal basis of the polynomials of total degree at most n and interpolation reproduces these polynomials with all their derivatives; for n = 0 the node is the mean of the vertices. There are C(n+d, d) nodes, all registered by entity_dofs on the cell. Simplices of dimension 2 and 3 raise TypeError, a product of one interval KeyError, a Point with positive degree ValueError. On lines and quadrilaterals every node lies in the cell; on the hexahedron the claim fails for every n >= 1: the node (1/2, 3/2, 0) is outside.", "quantifier": "all hypercube cells, all degrees, all polynomials of degree at most n, all points; every field of characteristic 0 with exact square roots (basis), every real closed field (location)", "why_tests_cant": "unisolvence for every degree cannot be tested; the existing tests check nodality of a few degrees and never where the nodes lie", "anchors": ["FIAT/discontinuous_pc.py: hypercube_simplex_map, DPC0, DPCDualSet, HigherOrderDPC, DPC", "FIAT/reference_element.py: flatten_reference_cube, make_affine_mapping, make_points", "FIAT/P0.py: P0Dual", "FIAT/finite_element.py: CiarletElement"]}
{"id": "C55", "title": "Regge: unisolvence for every degree, and conformity of the tangential part", "statement": "Regge(cell, n) on every triangle and tetrahedron can be constructed for every degree n >= 0: its basis is the nodal basis of the symmetric matrix fields of degree at most n, it has d(d+1)/2 C(n+d, d) members, and every symmetric field of degree n is the combination of the members with its node values (values and derivatives). Every node is the value at an interior lattice point of an entity of the component of the field along an edge of that entity. On an entity W (an edge, a face), t^T M t' vanishes for all tangent vectors t, t' of W when M is a basis field registered on an entity not contained in W: neighbouring cells share the tangential part. Intervals are refused with ValueError.", "quantifier": "all triangle and tetrahedron cells, all degrees, all symmetric fields of degree at most n, all points; every field of characteristic 0 with exact square roots", "why_tests_cant": "unisolvence and conformity for every degree cannot be tested; the existing tests check nodality of a few low degrees", "anchors": ["FIAT/regge.py: ReggeDual, Regge", "FIAT/polynomial_set.py: ONSymTensorPolynomialSet", "FIAT/functional.py: PointwiseInnerProductEvaluation", "FIAT/reference_element.py: compute_face_edge_tangents, make_points", "FIAT/finite_element.py: CiarletElement"]}
{"id": "C56", "title": "Hellan-Herrmann-Johnson: unisolvence for every degree, and conformity of the normal-normal part", "statement": "HellanHerrmannJohnson(cell, n) on every triangle can be constructed for every degree n >= 0: its basis is the nodal basis of the symmetric 2x2 matrix fields of degree at most n, with 3 C(n+2, 2) members, and every such field is the combination of the members with its node values (values and derivatives). Every node is nu^T M nu at an interior lattice point of an edge, nu the scaled normal of that edge, or one component of M at an interior lattice point of the cell. On an edge e, nu^T M nu vanishes along e for every basis field not registered on e: neighbouring cells share the normal-normal part. Intervals and tetrahedra are refused with ValueError.", "quantifier": "all triangle cells, all degrees, all symmetric fields of degree at most n, all points; every real closed field with exact square roots, every correct svd and qr, every choice of set.pop", "why_tests_cant": "unisolvence and conformity for every degree cannot be tested; the existing tests check nodality of a few low degrees", "anchors": ["FIAT/hellan_herrmann_johnson.py: HellanHerrmannJohnsonDual, HellanHerrmannJohnson", "FIAT/polynomial_set.py: ONSymTensorPolynomialSet", "FIAT/functional.py: PointwiseInnerProductEvaluation", "FIAT/reference_element.py: compute_scaled_normal, make_points", "FIAT/finite_element.py: CiarletElement"]}
{"id": "C57", "title": "Bell element: unisolvence, C1 conformity and the reduced space", "statement": "Bell(cell) on the UFC triangle can be constructed: its 21 basis functions are the quintics dual to the values and the first and second derivatives at the vertices (nodes 6v .. 6v+5) and to the integrals over the edges of the normal derivative times the Legendre polynomial of degree 4 (nodes 18+e). A basis function registered on an entity that is not part of an edge vanishes on that edge with its gradient, so the element is C1. The first 18 basis functions span exactly the quintics whose normal derivative is a cubic on every edge, which is the space of the Bell triangle. On the default and the Intrepid triangle, which the constructor accepts, the element cannot be built: the map of an edge is constant there, the moment node only sees one vertex, and the generalized Vandermonde matrix is singular.", "quantifier": "all quintics, all points of all edges, all entities; every real closed field with exact square roots, every correct svd and qr, every choice of set.pop, every set of Gauss points with 5 points", "why_tests_cant": "unisolvence over the quintics, C1 conformity at every point of an edge and the characterisation of the reduced space are statements about every polynomial; the tests check nodality on one cell", "anchors": ["FIAT/bell.py: BellDualSet, Bell", "FIAT/functional.py: IntegralMomentOfNormalDerivative", "FIAT/jacobi.py: eval_jacobi", "FIAT/quadrature_schemes.py: create_quadrature", "FIAT/reference_element.py: get_entity_transform, compute_normal", "FIAT/finite_element.py: CiarletElement"]}
{"id": "C58", "title": "project returns expansion coefficients", "statement": "polynomial_set.project(f, U, Q) is documented to return the expansion coefficients of f in terms of the members of U. It never does: U.tabulate returns a dictionary, the loop runs over its keys, and the only key is the multi-index (0, ..., 0). For every function, polynomial set, rule and number of points the answer is the one-element array [0] or ValueError from broadcasting; it is ValueError whenever the dimension and the number of points differ and both exceed one, and it is never an array with one entry for each member unless there is exactly one member.", "quantifier": "all scalar functions, all polynomial sets with a non-empty list of differentiation matrices, all rules, all dimensions", "why_tests_cant": "a statement about every function and every rule; no test calls project", "anchors": ["FIAT/polynomial_set.py: project, PolynomialSet.tabulate, mis", "FIAT/quadrature.py: QuadratureRule.get_points, get_weights"]}
{"id": "C59", "title": "Crouzeix-Raviart: facet centroids, explicit basis and weak continuity", "statement": "CrouzeixRaviart(cell, 1) on every simplex: node e evaluates at the centroid of facet e and is the only node registered on it; the value of any linear polynomial at that point is its mean over the facet. Basis function j is 1 on the whole of facet j and 1 - d at the opposite vertex. The mean over a facet of every basis function not registered on it is zero, so functions on neighbouring cells with the same facet coefficients have a jump of mean zero.", "quantifier": "all simplices of FIAT (interval, triangles, tetrahedra), all facets, all vertices, all points of a facet, all linear polynomials; every field of characteristic zero with exact square roots", "why_tests_cant": "a mean over a facet of every basis function and for every linear polynomial; the tests check nodality at the points the element itself reports", "anchors": ["FIAT/crouzeix_raviart.py: CrouzeixRaviartDualSet, CrouzeixRaviart", "FIAT/reference_element.py: make_points, topology", "FIAT/finite_element.py: CiarletElement"]}
{"id": "C60", "title": "entity_support_dofs lists only functions that do not vanish on the entity", "statement": "entity_support_dofs(elem, dim) on a UFC simplex returns one list for each entity of that dimension. A degree of freedom is listed exactly when the quadrature of the square of its basis function over points of the plane of the entity exceeds 10^-8 (the norm for vector values); so the basis function of a listed degree of freedom is nonzero at a point of that plane. For matrix-valued elements the function raises ValueError. For every conforming element, in particular Lagrange of every degree and cubic Hermite, no degree of freedom outside of the closure of the entity is listed. On the default and the Intrepid cells, which have no sub-elements, the function raises NotImplementedError for every element and dimension.", "quantifier": "all UFC simplices, all entities, all elements, all quadrature rules; Lagrange of every degree", "why_tests_cant": "every element and rule; the tests compare the result with fixed lists for a few elements of low degree", "anchors": ["FIAT/finite_element.py: entity_support_dofs", "FIAT/reference_element.py: construct_subelement, get_entity_transform", "FIAT/lagrange.py: Lagrange"]}
