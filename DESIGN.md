# Formal model of FIAT in Coq 8.16.1

## 1. Trusted base

* The Coq 8.16.1 kernel (the build is also replayed by `coqchk`).
* `Print Assumptions` follows every claimed theorem in its `Props*.v` file; for
  each theorem of MANIFEST.json it reports `Closed under the global context`: no
  axiom, not even one of the standard library, is used.  No functor, module type,
  section-less variable, admitted proof or disabled check occurs.
* The translation of Python into Gallina, by hand, function by function; every
  definition of a `Model*.v` file cites the file and lines it models.  Nothing
  checks this translation except reading (and the mutation log, which only checks
  that the theorems see changes of the model).
* The specifications: `Spec*.v`, and the `specification` sections at the top of
  some `Props*.v` files.

## 2. Conventions of the model

* **Numbers.** Floating point numbers are modelled by exact numbers: elements of
  an arbitrary field (`Base.fieldT`, or a mathcomp `fieldType`), of characteristic
  zero where the code divides by integers, of an ordered or real closed field where
  signs or square roots matter, rationals for decimal literals.  Rounding, overflow
  and nan are not modelled (the nan arrays of the trace element excepted).  Integers
  are naturals where the code only makes sense for them, otherwise `Z`.
* **Exceptions** are values `Err kind`; a theorem that gives `Err ValueError` says
  that Python raises that exception.
* **Dictionaries** are association lists in insertion order; where the code
  overwrites a key the model overwrites it (`tset`, `dset`).
* **numpy arrays** are a shape and a function on indices (ModelArray.v), with
  broadcasting, slicing and reshaping as numpy does them, or lists / mathcomp
  matrices where only the values matter.
* **External numerics.** `numpy.linalg.inv`/`solve` are the exact inverse, with
  LinAlgError for singular input.  What the code takes from an iterative or
  non-unique computation is a parameter of the model with a stated specification,
  and a theorem shows that the specification can be met: Newton's iteration for the
  Gauss-Jacobi points (`gjp`, C28_points_exist), `svd` and `qr` (C20_decompositions_exist),
  square roots (C23_sqrt_witness_*), the element `set.pop()` picks, `eigh`.
* **sympy** expressions are the polynomials they denote.

## 3. Files

`Spec*.v` small independent specifications; `Model*.v` the model; `Proofs*.v`
lemmas; `Props*.v` the theorems `Cxx_...` claimed in MANIFEST.json, each followed by
`Print Assumptions` and, in the same file, by an `Example` or instance theorem
(`*_nonvacuous`, `*_instance`) showing that a concrete case meets the hypotheses.


## 4. Property by property

`model` = files holding the definitions, `proof` = how it is proved.  Theorem names are in MANIFEST.json.

| id | title | model | proof idea and limits |
|----|-------|-------|----------------------|
| C01 | Lattice points on a simplex are complete, distinct and counted | ModelIndex | induction on the recursion depth: exact membership, no duplicates, binomial count |
| C02 | Multi-index enumeration is exact | ModelIndex | induction on the number of entries: membership, NoDup, order |
| C03 | Component index iteration is exact | ModelIndex, ModelPolySet | induction on the shape; layout of ON and symmetric ON coefficients |
| C04 | Expansion function numbering is a bijection | ModelExpansion | inverse of the triangular/tetrahedral numbering; every table entry is written before it is read, for every degree |
| C05 | Entity closure dofs are the dofs of all sub-entities | ModelCell | closure computed by the code = set of dofs on all contained entities; hypotheses shown for every cell class and nested product |
| C06 | Sub-entity and connectivity queries reflect vertex containment | ModelCell | sortedness and containment lemmas |
| C07 | Concatenated elements number each dof exactly once | ModelConcat | permutation of the flattened ids; refusals |
| C08 | Mixed tabulation is block diagonal | ModelConcat, ModelArray | block index arithmetic on reshaped tables |
| C09 | Enriched tabulation concatenates the constituents | ModelConcat, ModelArray | complete case analysis on the value shape: scalars and vectors stack, every other shape is refused, except one-function constituents of shape (1,..,1,k) |
| C10 | Ciarlet elements are nodal | ModelDual | mathcomp matrices over any field: construction succeeds iff unisolvent, then node_i(phi_j) = delta_ij |
| C11 | The dual set's Riesz matrix equals the per-functional action | ModelDual | reordering of sums over the collected points |
| C12 | Derivative tabulation via differentiation matrices is exact | ModelDmats, ModelExpansion | commuting derivations on the finite dimensional space of polynomials; interpolation nodes shown unisolvent, so nothing ever raises |
| C13 | Restricting an element keeps its basis functions | ModelRestricted, ModelRestrictedEl | permutation argument; index selection for each domain |
| C14 | Tensor product elements number dofs as products | ModelTPE | row-major arithmetic; partition; consistency with the product topology; flattening |
| C15 | Tensor product tabulation is the product of the factors | ModelTPE, ModelArray | index arithmetic; exact conditions and refusals |
| C16 | Product cell topology is the product of the factor topologies | ModelCell | product enumeration |
| C17 | Flattening and unflattening entities are inverse | ModelCell | sorting of tuples; every product of cubes satisfies the hypotheses |
| C18 | Sub-entity transforms map the reference entity onto the entity | ModelGeom | vector algebra over any field, recursion over products |
| C19 | Affine maps between simplices send vertices to vertices | ModelAffine | the linear system solved by the code is regular iff the source simplex is; formula on the unit simplex |
| C20 | Facet normals are orthogonal to the facet and of the documented length | ModelNormal | svd/qr as parameters over a real closed field; their existence is proved (ProofsSvd); cell instances |
| C21 | contains_point decides membership in the reference cell | ModelGeom | convex hull characterisation over an ordered field, tolerance, products |
| C22 | Jacobi polynomial evaluation and differentiation agree | ModelJacobi | the recurrence satisfied by the Rodrigues/hypergeometric form; derivative identity by induction |
| C23 | The orthonormal expansions are polynomial, hierarchical and orthonormal | ModelExpansion | identification with the Dubiner basis, orthonormality through moments over any field with square roots |
| C24 | Barycentric interpolation tabulates the Lagrange basis | ModelBary | Lagrange basis and differentiation matrix over an ordered field, including the isclose snapping |
| C25 | Bernstein basis is a nonnegative partition of unity with exact derivatives | ModelBern, ModelBernDual | multinomial theorem; mpoly derivatives; refusals |
| C26 | Functionals act as documented on polynomials | ModelFunctional | action of the point/derivative dictionaries on arbitrary functions |
| C27 | Tensor product quadrature integrates products exactly | ModelQuad | Fubini for finite sums |
| C28 | Collapsed quadrature is exact | ModelQuad | Gauss-Jacobi exactness from the roots (any field), existence of the roots and positivity (real closed field), Duffy transformation |
| C29 | Hard-coded quadrature tables reach their nominal degree | ModelTables | exact rational residuals of all monomials below the stated tolerance, lifted to all polynomials |
| C30 | Quadrature dispatch honours the requested degree | ModelScheme | case analysis plus C27-C29 |
| C31 | Variant strings are parsed as documented | ModelVariant | characterisation of the accepted strings, digit strings of any length |
| C32 | HDiv trace dofs live on facets only, numbered consecutively | ModelTrace | recursion over facets, simplex / quadrilateral / product instances |
| C33 | Hdiv and Hcurl wrap a scalar product element into the right component | ModelHdiv | component placement; refutations for unbound variables |
| C34 | Every element's dofs partition the dual basis | ModelFam, ModelKmvEl | consecutive numbering lemma, one theorem per family, all degrees and all simplices of the family |
| C35 | Serendipity basis size matches its dof map | ModelSerIds, ModelSer | counting; linear independence; vanishing on entities that do not own the dof |
| C36 | Nodal enrichment merges spaces without loss | ModelConcat | zero padding |
| C37 | Pointwise duals represent the dual basis | ModelPointwise | matrix inverse, tolerance made explicit |
| C38 | Quadrature elements are point evaluations at the quadrature points | ModelQuadEl | case analysis of all requests |
| C39 | Polynomial recurrences of the Gauss rule generator are consistent | ModelOrthopoly | recurrences, monic and shifted; orthogonality |
| C40 | Cell factory functions are total on documented names and refuse the rest | ModelFactory, ModelCell | parser characterisation; cube factory on every cell (a ragged nested product is refused, see C40_nested_cube_refuted) |
| C41 | The volume of a simplex is the square root of its Gram determinant over d! | ModelNormal | Gram determinant of the map from the unit simplex |
| C42 | The simplex classes list every sub-simplex exactly once | ModelCell | finite enumeration for each simplex class |
| C43 | Gauss rules from recurrence coefficients are exact to degree 2N-1 | ModelGauss, over real closed fields, with eigh as a parameter | spectral decomposition of the symmetric tridiagonal matrix: eigenvalues are the roots of the orthogonal polynomial, eigenvectors are its rows (Golub-Welsch); existence of a correct eigh proved by the spectral theorem |
| C44 | Gauss-Lobatto rules contain both prescribed end points and are exact to degree 2N-3 | ModelGauss | the modified Jacobi matrix has the two points as eigenvalues (closed form of the two linear solves), then the Gauss theorem; refuted for weights with non-constant alpha, where the code shifts the wrong entries |
| C45 | The Gauss-Legendre line rule is exact to degree 2m-1 on every interval | ModelGauss, numpy's leggauss as a parameter with its documented precision | change of variables; existence of such a leggauss by real roots of Legendre polynomials |
| C46 | The Gauss-Radau line rule contains one end point and is exact to degree 2m-2 | ModelGauss; the limit of the Newton iteration is a parameter (the zeros of P_N + P_(N+1)), the step itself is modelled | interpolatory rule at the zeros of P_N + P_(N+1), weights by Christoffel-Darboux; the step is Newton's; existence of the zeros |
| C47 | Scalar simplex elements span and interpolate P_n exactly | ModelSpace (expansion set of a cell, ONPolynomialSet, elements) on top of ModelExpansion, ModelDmats, ModelAffine, ModelFam and ModelDual; polynomials by coefficients in SpecPoly | the lattice contains the grid org + scl*i/n in every coordinate direction, on which a polynomial of degree n vanishes only if it is zero (induction over variables); C10 turns unisolvence into construction; the interpolation error is killed by all nodes |
| C48 | Raviart-Thomas is the nodal basis of the documented space | ModelRT.v rt_sets/rt_space/vec_node/rt_element on top of the models of expansions, quadrature, normals, unions and the Ciarlet construction | collapsed Gauss-Jacobi quadrature makes the Dubiner functions orthogonal, so the integrals are the coefficients of x times the top functions; Bessel's inequality and the three term recurrence bound the singular values of the stacked rows from below by 1/(7168 (k+1)^2); lattice-point unisolvence by factoring out the facet coordinates; conformity by restricting to the facet plane |
| C49 | Union of polynomial sets is orthonormal and spans the union | ModelRT.v union_normalized/union_rows; svd as a parameter constrained by svd_correct (SpecNormal) | rows of V^T with singular value above the tolerance: orthonormality from V, membership from M = U S V^T, dimension by counting singular values |
| C50 | Lagrange elements are conforming across shared entities | ModelFam.v lagrange_dual, ModelSpace.v lagrange, topology of ModelCell.v | restriction of the polynomial to the plane by an affine parametrisation, the lattice points of the plane form a full grid; uniqueness of barycentric coordinates separates nodes of different entities; duality from C47 |
| C51 | The cubic Hermite element: unisolvent, nodal and continuous on every simplex | ModelSpace.v cubic_hermite (constructor of ModelFam.v, expansion set, dual set, Vandermonde solve) | restriction to edges gives univariate cubics with two double zeros (chain rule ProofsRestr.v), so the cubic vanishes on the whole degree-3 lattice of the entity; then the grid argument of C50 |
| C52 | Morley and Argyris elements: unisolvent and nodal on every triangle, Argyris C1-conforming for every degree | ModelC1.v morley, argyris, quintic_argyris (constructors of ModelFam.v, normals of ModelNormal.v, expansion set, dual set, Vandermonde solve) | on an edge: triple zeros at the ends plus q-5 values, and double zeros of the normal derivative plus q-4 points, so value and gradient vanish (ProofsC1Edge.v); a polynomial flat on three sides is (lam0 lam1 lam2)^2 g or 0 and g vanishes on an interior lattice (ProofsC1Uni.v) |
| C53 | Discontinuous Taylor element: cell average and derivatives at the center, unisolvent for every degree | ModelTaylor.v taylor (constructor of ModelFam.v, quadrature of ModelQuad.v, moment of ModelFunctional.v, expansion set, Vandermonde solve) | the derivatives at one point determine all coefficients but the constant, by descending order (ProofsTaylor.v taylor_coefs); the moment of a constant is the constant times the sum of the weights, which is positive up to orientation; exactness of the rule turns the moment into the integral |
| C54 | DPC on hypercubes: nodes, unisolvence for every degree, and where the nodes lie | ModelDPC.v DPC, dpc (flattening of ModelCell.v, affine map of ModelAffine.v, lattice of ModelFam.v, expansion set, Vandermonde solve) | the affine map sends the lattice of the simplex cell to the lattice of the node simplex; composing with it reduces unisolvence to that of Lagrange because the node simplex is non-degenerate (ProofsDPC.v) |
| C55 | Regge: unisolvence for every degree, and conformity of the tangential part | ModelTens.v sym_set, tens_node, regge (dual set of ModelFam.v, layout of ModelPolySet.v, Vandermonde solve of ModelDual.v) | a scalar polynomial of degree n vanishing at the lattice points of order n+2 with positive weight at two vertices a, b vanishes on the plane (dilate towards the edge a b, then Lagrange unisolvence); a symmetric matrix is determined by its components along the edges; polarisation for conformity (ProofsRegge.v) |
| C56 | Hellan-Herrmann-Johnson: unisolvence for every degree, and conformity of the normal-normal part | ModelTens.v hhj_node, hellan_herrmann_johnson (dual set of ModelFam.v, scaled normals of ModelNormal.v) | as for C55 with the normal-normal components of the three edges, which determine a symmetric 2x2 matrix (ProofsHHJ.v) |
| C57 | Bell element: unisolvence, C1 conformity and the reduced space | ModelBell.v bell_rule, bell_weights, bell_node, bell (dual set of ModelFam.v, rules of ModelScheme.v, entity maps of ModelGeom.v, normals of ModelNormal.v) | the recurrence of jacobi.py gives the shifted Legendre polynomial, which is orthogonal to cubics (moments of monomials); the five-point Gauss rule (C28) integrates the degree-9 integrand exactly, so the node is the edge moment; a zero moment lowers the degree of the normal derivative, and the double zeros at the ends make it vanish; then the argument of C52 for the Argyris element (ProofsBell.v) |
| C58 | project returns expansion coefficients | ModelProject.v project (numpy broadcasting on one axis), on top of ps_tabulate (ModelDmats.v) and mis (ModelIndex.v) | the key is a tuple of zeros, products with it are zeros (PropsProject.v) |
| C59 | Crouzeix-Raviart: facet centroids, explicit basis and weak continuity | ModelFam.v CrouzeixRaviart, ModelSpace.v crouzeix_raviart, vertices and topology of ModelCell.v | a linear polynomial commutes with affine combinations; every vertex misses exactly one facet, and the d+1 facet means of a basis function determine its vertex values (PropsCR.v) |
| C60 | entity_support_dofs lists only functions that do not vanish on the entity | ModelSupport.v entity_support_dofs (construct_subelement of ModelTPE.v, transforms of ModelGeom.v; the basis and the rule are parameters) | the entity transform maps into the plane of the entity (closed form of C18); the Lagrange basis functions registered elsewhere vanish there (C50), so their integral is 0 (PropsSupport.v) |

## 5. What of /repo/FIAT is modelled

| file | modelled | not modelled |
|------|----------|--------------|
| P0, argyris, arnold_winther, bell, brezzi_douglas_fortin_marini, brezzi_douglas_marini, crouzeix_raviart, discontinuous, discontinuous_lagrange, discontinuous_raviart_thomas, discontinuous_taylor, gauss_legendre, gauss_lobatto_legendre, gauss_radau, hellan_herrmann_johnson, hermite, lagrange, mardal_tai_winther, morley, nedelec, nedelec_second_kind, raviart_thomas, regge | the dual sets: which nodes are created, of which kind, on which entity, in which order, and the entity dofs; the size of the space; constructor checks (ModelFam.v); the spaces, nodes and nodal bases of lagrange, discontinuous_lagrange, crouzeix_raviart (ModelSpace.v) and of raviart_thomas and discontinuous_raviart_thomas in the point variant (ModelRT.v), of cubic Hermite (ModelSpace.v), morley, argyris and quintic argyris (ModelC1.v), of bell (ModelBell.v), of discontinuous_taylor (ModelTaylor.v) and of regge and hellan_herrmann_johnson (ModelTens.v) | the numeric content of moment nodes; the bases of the other constrained spaces (only their dimension is used, as documented); `tabulate` of the discontinuous wrapper |
| barycentric_interpolation | everything | - |
| bernstein | everything but the unused node objects | - |
| bubble, restricted | everything | - |
| check_format_variant | everything | - |
| discontinuous_pc | everything (ModelDPC.v) | the Point at degree 0 |
| dual_set, functional | `DualSet`, `to_riesz`, every functional class and `__call__` of moments and point evaluations | `tostr`, sympy `__call__` of PointDerivative |
| enriched, mixed, nodal_enriched | numbering, checks, tabulation, merging of coefficients and dmats | accessors |
| expansions | the three expansion sets and their derivatives, `polynomial_dimension` | `tabulate_jet` |
| finite_element | `CiarletElement`, accessors used by the others, `entity_support_dofs` (ModelSupport.v) | the cache of `entity_support_dofs` |
| hdiv_trace, hdivcurl | everything but docstrings | - |
| jacobi | everything | - |
| kong_mulder_veldhuizen | everything (the space by its dimension) | - |
| orthopoly | `gauss`, `lobatto`, `rec_jacobi`, `rec_jacobi01`, `polyval`, `jacobi`, `jacobiD` (NOPT=1) | `mm_log`, `mod_chebyshev`, `rec_jaclog` (unused by FIAT) |
| pointwise_dual | everything | - |
| polynomial_set | `mis`, `PolynomialSet.tabulate`, `take`, `ONPolynomialSet`, `ONSymTensorPolynomialSet` (ModelPolySet.v, ModelTens.v), `form_matrix_product`, `polynomial_set_union_normalized` (ModelRT.v; svd is a parameter), `project` for scalar functions (ModelProject.v) | `project` for tensor-valued functions |
| quadrature | all rules and factories; Newton iterations and `leggauss` as parameters | `UFCTetrahedronFaceQuadratureRule` |
| quadrature_element | everything | - |
| quadrature_schemes | everything (tables as exact decimals) | - |
| reference_element | lattices, `Cell`, simplices, products, cubes, transforms, affine maps, normals, tangents, volume, `contains_point`, factories, flattening | hashing |
| serendipity | basis functions, numbering, constructor | `tabulate` caching, `unisolvent_pts*` |
| tensor_product | numbering, nodes, tabulation, `FlattenedDimensions` | accessors that raise NotImplementedError |
| `__init__` | - | the table of names |


## 6. Claims the code does not meet

A theorem ending in `_refuted` proves, about the modelled code, that some literal reading of the property fails; the remaining theorems of the property then carry the exact conditions under which it holds.

* `C09_tensor_valued_tabulation_refuted`: matrix valued constituents (a x b, both at least 2) can never be tabulated: ValueError
* `C11_zero_order_derivatives_refuted`: if all derivatives have order zero DualSet.to_riesz ignores the derivative dictionaries
* `C12_reversed_line_refuted`: on a line with decreasing vertices odd derivatives have the wrong sign
* `C13_nested_product_domain_refuted`: restriction by domain finds no dofs on products other than two simplices
* `C15_three_components_refuted`: the number of vector components is hard-wired to two
* `C17_insertion_order_refuted`: flattening and unflattening disagree on a dictionary not sorted by key
* `C18_default_cells_refuted`: Default and Intrepid cells cannot build their edge/face transforms
* `C20_ufc_triangle_outward_refuted`: the normal of facet 1 of the UFC triangle points inward
* `C20_ufc_tetrahedron_unit_refuted`: UFCTetrahedron.compute_normal has length 2
* `C21_length_unchecked_refuted`: a point with the wrong number of coordinates may be accepted
* `C23_triangle_degree0_refuted`: the degree-0 table is not normalised
* `C23_tetrahedron_degree0_refuted`: the degree-0 table is not normalised
* `C24_near_node_refuted`: targets within 1e-8 of a node are snapped to it
* `C25_top_order_refuted`: derivatives of order equal to the degree are wrong from degree 2 on
* `C25_unordered_refuted`: the Bernstein dual set fails on cells whose edges are not listed in increasing order
* `C26_second_normal_derivative_refuted`: the second normal derivative drops terms
* `C26_repeated_points_refuted`: coinciding quadrature points overwrite each other
* `C26_vector_moment_call_refuted`: calling a component moment contracts the wrong axis
* `C26_face_tangent_refuted`: the face tangent moment is not the documented integrand
* `C26_normal_normal_refuted`: the normal-normal moment is a vector moment
* `C26_scalar_frobenius_refuted`: the scalar Frobenius moment is the zero functional
* `C26_tensor_bidirectional_refuted`: its constructor always raises TypeError
* `C26_divergence_shape_refuted`: divergence moments declare a scalar shape
* `C29_kmv_other_cell_refuted`: the KMV rule of a non-UFC cell is exact for neither cell
* `C31_exact_strings_refuted`: a trailing newline and non-ASCII digits are accepted
* `C32_derivatives_without_entity_refuted`: derivatives without an entity raise ValueError
* `C33_rotated_second_factor_refuted`: rotating the second factor raises UnboundLocalError
* `C33_scalar_nodes_refuted`: no point evaluation of a scalar element survives
* `C34_lagrange_degree_zero_refuted`: Lagrange of degree 0 has one node per vertex for a one-dimensional space
* `C34_argyris_low_degree_refuted`: Argyris below degree 5 has too many nodes
* `C38_point_cell_refuted`: own points are refused on a zero-dimensional cell or an empty rule
* `C38_broadcast_refuted`: points with one coordinate are broadcast
* `C40_nested_cube_refuted`: a cube written as a ragged nested product is refused
* `C44_other_weights_refuted`: lobatto shifts alpha[1:] instead of alpha[:-1]: with a non-constant alpha the end points are not nodes
* `C46_docstring_degree_refuted`: the docstring promises precision 2m-1; the rule has 2m-2
* `C47_lagrange_degree_zero_refuted`: Lagrange(cell, 0) looks like a valid request (the dual set is built) but the constructor raises LinAlgError, because degree 0 gives one node per vertex for a one-dimensional space
* `C49_union_same_span_refuted`: the docstring promises span(A) union span(B); the union of a set of norm below 1e-10 with itself is empty
* `C54_hexahedron_nodes_inside_refuted`: "the nodes of DPC lie in the cell": discontinuous_pc.py l.59-61 adds the vertex and the average of v[::2]; on the hexahedron v[1:][1] = (0,1,0) plus (1/2,1/2,0) is (1/2,3/2,0), outside the cell, and it is a node for every degree >= 1.
* `C57_bell_other_triangles_refuted`: "the Bell element can be built on every triangle the constructor accepts": bell.py l.59-65 calls functional.py l.326, `get_entity_transform(1, e)`; on DefaultTriangle and IntrepidTriangle `construct_subelement` raises NotImplementedError and reference_element.py l.415-419 returns the constant map to vertex e, so the eight-degree rule collapses to one point and node 18+e is a multiple of the normal derivative at vertex e, which nodes 6e+1 and 6e+2 span.
* `C58_project_refuted`: "project returns the expansion coefficients of f": polynomial_set.py l.188-189 iterate over the keys of the dictionary returned by `U.tabulate(pts)` (l.71-87), the tuple (0, ..., 0), instead of over its values; the answer is [0] or ValueError for every f, U and Q.
* `C60_tensor_refuted`: "entity_support_dofs works for matrix-valued elements": finite_element.py l.235-237 contracts only one of the two component axes of `vals`, so `ints` has one row of numbers for each degree of freedom and `i > eps` (l.241) is an array; its truth value raises ValueError (Regge, Hellan-Herrmann-Johnson).
* `C60_other_cells_refuted`: "entity_support_dofs works on every simplex": finite_element.py l.220 calls construct_subelement, which DefaultLine, DefaultTriangle, DefaultTetrahedron, IntrepidTriangle and IntrepidTetrahedron do not implement (NotImplementedError).
