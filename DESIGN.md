# Formal model of symfem: design

The code under study is `/repo` (mscroggs/symfem, python) read as text. Properties are in
`properties.jsonl`; this file says for each one what is modelled and how it is proved.

## Conventions

* Shallow Gallina model: each python function is a total Gallina function that mirrors the code branch by
  branch. Exceptions are values (`inl err` / `None`-like constructors named after the exception).
* Symbolic expressions (sympy) are outside the modelled code. Where the code builds polynomials we model them as
  data: exponent lists (monomials), lists of terms with integer / rational coefficients, or a small expression
  AST, together with an evaluation function into the reals `R`. Statements about "every point" are
  statements about that evaluation.
* Coordinates and coefficients that sympy treats exactly are modelled by `Z`, `Q` or `R`; floats are not
  modelled.
* Files `*Model.v` contain definitions only (with `/repo` file and line citations), `*Spec.v`/the head of the
  proof files contain the independent specification, `*Proofs.v` the lemmas, and `Properties*.v` only
  theorems closed by `exact`, followed by `Print Assumptions`. Each theorem has an `Example` beside it that
  instantiates its hypotheses.

## Plan per property

| id | model | proof idea |
|----|-------|------------|
| C01-C04, C07, C08 | `polysets.py` set functions returning exponent vectors in list order | membership by `in_flat_map`, `NoDup`, counting; linear independence of monomials as functions on R^3 from an identity theorem for real polynomials |
| C05, C06, C09, C10 | vector polynomials as lists of integer terms; formal div / curl | evaluation lemmas + `ring`; independence by coefficient extraction; false 2D claims get `_refuted` witnesses |
| C11-C13 | recurrence of `legendre.py` over coefficient lists | Rodrigues-free induction on the recurrence; derivative tables by induction with Leibniz' rule |
| C14, C15 | points/weights over `R` with `sqrt` | exactness on monomials, lifted to all polynomials by linearity; integral = `RInt` (Coquelicot) |
| C16, C17, C64 | the dual matrix and its Gauss-Jordan inverse over `R`, functionals as linear maps on a space of functions | elimination invariant; left inverses are right inverses (LinAlg.v) |
| C18 | numbers of dofs / functions counted by the loops of each element's constructor | closed forms + `lia`/`nia`; refutations by witness |
| C19 | dof points of `lagrange.py` (integer lattice) | explicit Newton-type basis; induction on lattice lines |
| C20 | permutation of `q.py` as list of nat | index arithmetic |
| C21-C23 | list models | list induction |
| C24-C27 | strings, file system as finite map from names to file contents, crash = prefix | round trip lemmas for split/join and decimal printing; refinement to a map; refutation of crash safety with a witness |
| C28, C29 | registry as nested association list; order bounds int-or-table | refinement to a map; case analysis |
| C30 | the maps of each cell over `R` | `field` |
| C38, C39, C66 | mappings.py branch by branch on the symfem functions of FunctionsModel.v | derivative of affine expressions by `ediff_correct`; matrix algebra of LinAlg.v |
| C31-C34, C46 | predicates over `R` | `lra`/`nra`/`field`; convex hull spec by barycentric coordinates; false cases refuted |
| C35, C36 | tables as list data; dual polygon as functions of n | computation for finite tables, induction for n |
| C37 | lattices of integer points | list lemmas |
| C40-C43 | expression AST with eval, subs, diff | structural induction; derivative checked against Coquelicot's `is_derive` |
| C44 | shared iterator state machine | induction; refutation for interleavings |
| C45 | list of (cell, piece) | list induction |
| C47 | nested data type | structural induction; refutation |
| C48 | functionals as evaluation of the expression AST and integrals | linearity of eval/RInt |
| C49 | `_nth` on nat | refutation + partial |
| C50 | loops of `moments.py` over lists | list induction |
| C51 | `bernstein.py` recursion | multinomial theorem |
| C52-C54 | polynomial sets multiplied by bubbles | evaluation; explicit dependent combination / vanishing polynomial as refutation |
| C55 | weights and points over `R` | `field` with sqrt; refutation for order 3 |
| C56 | exponent sets + attribute formulas | combinatorial inequalities; refutation for trimmed serendipity |
| C57, C58 | coefficient arrays as function of n | modular index arithmetic |
| C59, C60 | explicit piecewise polynomials | `ring` on each edge |
| C62 | memo state machine | refutation + partial |
| C63 | `get_dual_matrix` with the cache as a map | invariant: every entry of the cache is the matrix of its element |
| C65 | `map_to_cell` | the mapped functions and the inverse permutation, with C38 |
| C67 | intersections of cells | convex hull specification, refutation for tetrahedra |
| C68 | the evaluation methods of `functionals.py` | `is_derive` and iterated Riemann integrals |
| C69 | `parse_function_input` | case analysis on the inputs |
| C70 | `orthogonal_basis`/`orthonormal_basis` on the seven cells | Jacobi identities, iterated integrals |
| C71, C72 | functionals applied to piecewise functions | kernel of the dual matrix; witness for the moment |
| C73-C75 | functions and functionals of the elements on points, `get_basis_functions` on expressions | kernel of the dual matrix by `lra`; pull-back to the default simplex for Hermite; interpolation along facets |
| C76 | constructors and points of the vector, matrix, prism, DPC and conforming Crouzeix-Raviart elements | kernel of the point evaluations, traces on sub-entities |
| C77 | RT, BDM and Nedelec constructors, integral moments as iterated integrals | moments against the space give zero by positivity of a weighted square; traces on facets |
| C61, C79, C80 | the functions and entities of the direct serendipity element, rational functions on the unit square | counting; restriction to edges and power sums for independence; change of basis from powers of lambda for reproduction; a finite difference of order (8, 3) that kills every function for the refutation |
| C78 | the mutually recursive Qdiv and Qcurl constructors | division by v(1-v) on each facet, induction on the order over both families |
| C82 | the H(div) and H(curl) serendipity constructors on default cells | the part of degree n + 1 is determined by its values on the facets; a homogeneous polynomial equal to one of lower degree is zero; then division by v(1-v) |
| C83 | the H(curl) serendipity constructor on the default hexahedron | tangential traces on faces are the H(curl) fields of the square; if they vanish, the field has components divisible by the bubbles of the other variables, the part of degree n + 1 cancels coefficient by coefficient, and the rest is orthogonal to itself |
| C84 | the function lists of ArnoldWinther, NonConformingArnoldWinther, MardalTaiWinther (FamiliesModel.v) | the coefficients of degree n of a field with divergence of degree n - 2 satisfy the recurrence of the listed functions; the other two by their coefficients |
| C85 | Transition.__init__ and get_basis_functions on point evaluations, every branch (TransitionModel.v); variants legendre and lobatto of the inner Lagrange functions not modelled | in closed form the functions are bubbles times polynomials in barycentric coordinates; induction over the sub-entities: on the affine parametrisation of one, all bubbles but its own and those of its boundary vanish, so its own factor vanishes at the lattice and hence everywhere; other cells through the inverse of the affine map |
| C86 | Taylor.__init__, DerivativePointEvaluation and IntegralMoment of a scalar on any cell, get_basis_functions (TaylorModel.v); sympy's diff and integrate are the derivative and the Riemann integral | derivatives of polynomials commute; induction on the degree: a polynomial whose derivatives of order 1 to n vanish at a point is constant, and its mean value determines it; the closed form by uniqueness of the dual basis |
| C87 | BernardiRaugel.__init__ with orders 1 and 2, DotPointEvaluation, NormalIntegralMoment, DivergenceIntegralMoment, make_integral_moment_dofs, get_basis_functions (BernardiModel.v, Bernardi2Model.v) | the bubbles vanish at the vertices, so the point evaluations determine the linear part; on a facet only its own bubble is left, whose integral is positive; at order 2 the values at vertices and edge middles determine the quadratic part, and the divergence moments the bubbles of the cell |
| C81 | the serendipity constructor with vertex values and DPC moments | division by v(1-v) in every variable with the monomials tracked; induction over the sub-entities, found by the bits of the vertex numbers |

## Trusted base

* The Coq 8.16.1 kernel.
* The axioms listed under each theorem in "Results and axioms per theorem" below; no axiom, parameter or open hypothesis of our own.
* The reading of the python source that the definitions cite, with the simplifications recorded in the comments.
* sympy itself is not modelled. Where a theorem needs a result of sympy it is an explicit variable of the statement with an explicit hypothesis
  (`integrate` in the orthonormality theorems returns the definite integral where it exists; the classes passed to `moments.py`).
  Arithmetic on sympy numbers is arithmetic on real numbers, automatic simplification does not change values.
* The libraries used are the standard library and Coquelicot; the only axioms they bring in are those listed.


## What is modelled, file by file

The text is that of the comment at the head of each model file; every definition cites the lines it models.

* `Bernardi2Model.v`: The Bernardi-Raugel element of order 2 on the tetrahedron. Simplified: sympy's differentiation is the derivative of the function (see TaylorModel.v).
* `BernardiModel.v`: Bernardi-Raugel elements of order 1.
* `BernsteinModel.v`: Model of /repo/symfem/elements/bernstein.py. sympy rationals are real numbers, functions are their values. The Bernstein functionals are given by their sub-entity and index; their values are in [bernstein_functional].
* `BubbleModel.v`: Model of /repo/symfem/elements/bubble.py (scalar elements): the bubble element and the bubble enriched Lagrange element. Quadrilaterals and hexahedra are the default ones (the Q element of LagrangeModel).
* `CRModel.v`: Model of /repo/symfem/elements/crouzeix_raviart.py.
* `CacheModel.v`: Model of /repo/symfem/caching.py and of the cache use in /repo/symfem/finite_element.py:676-709. Matrix entries are rational numbers in lowest terms; entries that are other sympy expressions (surds, symbols) are not modelled. The file system is a map from file names to contents; CACHE_DIR (caching.py:10-17) is a constant prefix and is left out of the names.
* `CiarletModel.v`: Model of the dual-basis computations: /repo/symfem/finite_element.py:592-623, 676-740 and /repo/symfem/polynomials/dual.py:12-37. A function is a map from an arbitrary set A to the reals: for scalar functions A is the set of points, for vector or matrix functions it is the set of pairs of a component and a point. Degrees of freedom are maps from functions to reals.
* `DegreesModel.v`: Model of the attributes lagrange_subdegree, lagrange_superdegree, polynomial_subdegree and polynomial_superdegree of the element classes of FamiliesModel. Files of /repo/symfem/elements: lagrange.py, rt.py, nedelec.py, bdm.py, bdfm.py, q.py, dpc.py, serendipity.py, trimmed_serendipity.py, abf.py, ac.py, bddf.py, mtw.py, nedelec_prism.py, lagrange_prism.py, regge.py, hhj.py, huang_zhang.py, aw.py, taylor.py. All of them are integers for these classes (never None); // is division rounded down.
* `DirectModel.v`: Model of symfem/elements/direct_serendipity.py on the default quadrilateral. A function is a function of the point; real division stands for sympy's, the denominators vanish at x = -1 and y = -1 only.
* `DualModel.v`: Dual elements on the barycentric polygon: symfem/elements/dual.py.
* `ElementModel.v`: Model of the bookkeeping in /repo/symfem/finite_element.py: entity dofs, enriched elements, tabulation orders, mapping to a cell, memoisation of basis functions.
* `FamiliesModel.v`: Model of the constructors of the element families built from integral moments and point evaluations: how many functions their polynomial sets have, how many degrees of freedom they define and on which sub-entities. Files of /repo/symfem/elements: lagrange.py, rt.py, nedelec.py, bdm.py, bdfm.py, q.py, dpc.py, serendipity.py, trimmed_serendipity.py, abf.py, ac.py, bddf.py, mtw.py, nedelec_prism.py, lagrange_prism.py, regge.py, hhj.py, huang_zhang.py, aw.py, taylor.py. Simplified: of a degree of freedom only its class, its entity and its mapping are kept, not the function it integrates against nor its point (LagrangeModel keeps the points). The variants "legendre" and "lobatto" of the Lagrange elements are not modelled. make_integral_moment_dofs also computes the basis functions of the elements it takes the moments against; that they exist is not part of this model. A matrix valued polynomial is the list of its entries, row by row.
* `FunctionalsModel.v`: Model of symfem/functionals.py: the classes of degrees of freedom, and of ScalarFunction.integral (symfem/functions.py:784-815, 817-829). A functional is given by the attributes that its _eval_symbolic and dot use; how the constructors compute the stored function self.f (961-980, 1249-1278, 1535-1545, 1598-1608) is not part of this file, so every statement about a stored function covers whatever they store. Piecewise functions as arguments are not modelled (PiecewiseModel.v).
* `FunctionsModel.v`: Model of symfem/functions.py: scalar, vector and matrix functions, their arithmetic, substitution, differential operators, iteration and maximum_degree. sympy itself is outside the modelled code. A sympy expression is the tree [expr] below; sympy's operators build trees, [Expr.subs] of a symbol replaces its occurrences and [Expr.diff] is the usual symbolic derivative. sympy's automatic simplification is not modelled: it does not change the value at points where the tree is defined.
* `GeometryModel.v`: Model of symfem/geometry.py (point_in_interval etc.) and of the intersection of cells (symfem/references.py:55-95, 260-297). Coordinates are real numbers. [fl] says whether the computed quantities are sympy Floats: only then does the code snap values within 1e-8 of 0 or 1. Rounding of Floats is not modelled. Python's [and] evaluates its second operand only if the first is true; the operands here cannot raise, so plain [&&] is used.
* `LagrangeModel.v`: Model of the point evaluation elements Lagrange and Q: /repo/symfem/elements/lagrange.py and /repo/symfem/elements/q.py (constructors, polynomial spaces, tensor factorisation). A point evaluation (functionals.py:245-276) is the pair of its point and its entity; on a function it gives the value at the point. The variants "legendre" and "lobatto", whose degrees of freedom are integrals, are not modelled here.
* `LegendreModel.v`: Orthogonal (Legendre) polynomials: symfem/polynomials/legendre.py. A ScalarFunction is represented by its values ([sfun]); sympy simplifications are not modelled. The list of lists [poly] is mutated in place by the code: here a [table] with checked reads and writes (an index past the end is an IndexError), threaded through the loops.
* `MacroModel.v`: Model of the macro elements on a triangle with explicit pieces: symfem/elements/hct.py, rhct.py and alfeld_sorokina.py, of P1Macro (p1_macro.py) and the P1-iso-P2 elements (p1_iso_p2.py), and of degrees of freedom (functionals.py) applied to piecewise functions.
* `MappingsModel.v`: Model of /repo/symfem/mappings.py on top of the functions of FunctionsModel.v: [map] and [inverse_map] are tuples of sympy expressions in the coordinates, as returned by get_map_to and get_inverse_map_to.
* `MomentElementsModel.v`: Model of elements whose degrees of freedom are integral moments, on default cells: symfem/elements/rt.py, symfem/elements/nedelec.py, symfem/elements/bdm.py, the H(div) and H(curl) elements of symfem/elements/q.py (240-355), with the constructors and values of the moments they use (symfem/functionals.py, symfem/moments.py). Simplified: the cell is the default one, so that the mapping to other cells (functionals.py:1265-1276) is the identity; sympy's integration is the iterated Riemann integral; a vector function is the function of its component number and the point; the variant "legendre" of the elements that are integrated against is not modelled.
* `MomentsModel.v`: Model of symfem/moments.py: the degrees of freedom defined by integral moments on sub-entities. The classes of functionals and elements that the caller passes are outside the model: [cls] is the type of python classes, [min_order] their attribute min_order (an error where comparing it with an int is one: some elements have a dict), and [dof_count E c order kwargs] the number of degrees of freedom of E(default reference of type c, order, **kwargs), or the error that its constructor raises. A degree of freedom is represented by the arguments given to its class (moments.py:112).
* `NodalModel.v`: Model of elements given by a fixed list of functions and of values, derivatives and weighted values at points: symfem/elements/bell.py, hermite.py, argyris.py, morley.py, fortin_soulie.py, rannacher_turek.py, bfs.py and kmv.py, and of CiarletElement.get_basis_functions (finite_element.py:676-737) on symbolic functions.
* `PiecewiseModel.v`: Model of symfem/piecewise_functions.py. The corners of the sub-cells are points with real coordinates; python compares tuples of sympy numbers where the model compares the numbers. Pieces are scalar, vector or matrix functions: piecewise functions whose pieces are piecewise again (which .dot and .cross with a second piecewise function would build) are not modelled, nor are as_sympy, as_tex, plot_values, with_floats, __getitem__, det and the exponent of ** being a function.
* `PointsModel.v`: Model of the other elements whose degrees of freedom are values at points or components of values at points: symfem/elements/dpc.py, the vector and matrix valued elements of symfem/elements/lagrange.py (115-345) and symfem/elements/q.py (173-238), symfem/elements/lagrange_prism.py and symfem/elements/conforming_crouzeix_raviart.py. Simplified: the variants "legendre" and "lobatto", whose degrees of freedom are integrals, are not modelled; a scalar function is a function with one component, and a matrix is the list of its entries, row after row.
* `PolySetsModel.v`: Model of /repo/symfem/polynomials/polysets.py. The variables are the default x = (x0, x1, x2) (/repo/symfem/symbols.py:9); the optional argument [variables] only renames them and is not modelled. Orders are natural numbers (python ranges over negative numbers are empty; a negative order is not modelled). Every natural-number subtraction below mirrors a python subtraction whose result is non-negative inside the loop bounds it occurs in.
* `QuadratureModel.v`: Model of /repo/symfem/quadrature.py. Exact sympy numbers are real numbers here.
* `ReferencesModel.v`: Model of /repo/symfem/references.py: reference cells, their tables, maps, membership tests, integration limits, volumes, tangents, normals and lattices. Simplifications: coordinates are real numbers (sympy expressions without free symbols); the symbolic maps returned by get_map_to and get_inverse_map_to are functions of the values of the symbols x = (x, y, z) (symbols.py:9); division by zero is the real division of Coq where sympy gives nan or zoo (only in tangent, normal, Interval and Triangle inverse maps and lattices, where the theorems exclude it).
* `RegistryModel.v`: Model of /repo/symfem/create.py: the element registry, create_reference and create_element.
* `SerendipityFieldModel.v`: Model of the H(curl) and H(div) serendipity elements of symfem/elements/serendipity.py (95-215) on default cells. Simplified as in MomentElementsModel.v.
* `SerendipityModel.v`: Model of the scalar serendipity element of symfem/elements/serendipity.py (32-95) on default cells, with the values of its degrees of freedom. Simplified as in MomentElementsModel.v; a scalar function is a function with one component.
* `TaylorModel.v`: Model of the Taylor element (symfem/elements/taylor.py) with its degrees of freedom, on every interval, triangle and tetrahedron. Simplified: sympy's integration is the iterated Riemann integral and sympy's differentiation is the derivative of the function on the reals; a scalar function is a function with one component.
* `TransitionModel.v`: Model of the transition element of symfem/elements/transition.py (20-113). A function is a function of the point. Simplified: the variants "legendre" and "lobatto" of the Lagrange elements that lines 95-97 create, whose degrees of freedom are integrals, are not modelled.
* `UtilsModel.v`: Model of symfem/utils.py (allequal) and of the ordinals of symfem/functionals.py (_nth).

Not modelled: plotting (`plotting.py`, `plot_*` methods, `dof_plot_positions`), TeX and string output (`get_tex`, `as_tex`, `__repr__`),
`as_sympy`/`__sympy__` conversions, `with_floats`, verification of elements (`verify`/`test` methods), `scripts/`, `demo/`, `test/`, and the elements not
named in a model file, among them Guzman-Neilan, TNT, Kong-Mulder-Veldhuizen of orders that the class refuses, Wu-Xu, Morley-Wang-Xu. Of the 34
families of FamiliesModel.v the constructors are modelled up to the class, entity and mapping of each degree of freedom; the values of those that are
moments or inner products are modelled in FunctionalsModel.v only, not connected to the constructors.


## Results and axioms per theorem

After each theorem the axioms that `Print Assumptions` lists: D = `ClassicalDedekindReals.sig_forall_dec`, N = `ClassicalDedekindReals.sig_not_dec`, F = `FunctionalExtensionality.functional_extensionality_dep`, C = `Classical_Prop.classic` (all four from the standard library; D, N and F come with its real numbers, C with Coquelicot's use of the standard library), none = closed under the global context. No other axiom occurs.

### C01 Simplex polynomial sets are complete and duplicate free (proved)

* `C01_simplex_sets_complete` (PropertiesPolySets.v) [DF]

### C02 Tensor-product polynomial sets are complete and duplicate free (proved)

* `C02_tensor_sets_complete` (PropertiesPolySets.v) [DF]

### C03 Prism and pyramid sets span what they should (proved)

* `C03_prism_set_complete` (PropertiesPolySets.v) [DF]
* `C03_pyramid_set` (PropertiesPolySets.v) [DF]
* `C03_polynomial_set_dispatch` (PropertiesPolySets.v) [DF]

### C04 Vector-valued polynomial sets are component-wise complete (proved)

* `C04_vector_sets` (PropertiesPolySets.v) [DF]

### C05 Raviart-Thomas enrichment is x times homogeneous polynomials (proved)

* `C05_raviart_thomas_enrichment` (PropertiesPolySets.v) [DF]

### C06 Nedelec enrichment fields are orthogonal to the position vector (proved)

also proves that the members span the whole space S_n, not only the count

* `C06_nedelec_enrichment` (PropertiesPolySets.v) [DF]

### C07 Tensor-product H(div)/H(curl) spaces have the stated anisotropic degrees (proved)

* `C07_tensor_hdiv_hcurl` (PropertiesPolySets.v) [DF]

### C08 Serendipity set is the superlinear-degree completion (proved)

* `C08_serendipity_superlinear` (PropertiesPolySets.v) [DF]

### C09 H(div) serendipity enrichment is divergence free (partial)

true in 3D; false in 2D for every order (sign of the second component in polysets.py)

* `C09_hdiv_serendipity_div_free_partial` (PropertiesPolySets.v) [DF]
* `C09_hdiv_serendipity_div_free_refuted` (PropertiesPolySets.v) [DF]

### C10 H(curl) serendipity gradients are curl free (partial)

true in 3D; in 2D the first of the two fields is not rotation free

* `C10_hcurl_serendipity_curl_free_partial` (PropertiesPolySets.v) [DF]
* `C10_hcurl_serendipity_curl_free_refuted` (PropertiesPolySets.v) [DF]

### C11 Interval orthogonal polynomials are orthogonal on [0,1] (proved)

Every order and variable. [integrate] stands for sympy's definite integration and is assumed to return the integral where it exists.

* `C11_interval` (PropertiesOrthogonal.v) [DNCF]
* `C11_orthonormal` (PropertiesOrthogonal.v) [DNCF]

### C12 Derivative tables of orthogonal bases are derivatives (proved)

All seven cells including the pyramid (there at every point with z <> 1, where its rational functions have a pole), every order, number of derivatives and choice of distinct variables. Rejections of wrong arguments included.

* `C12_derivative_tables` (PropertiesLegendre.v) [DF]
* `C12_arguments` (PropertiesLegendre.v) [DF]

### C13 Index maps of orthogonal bases are bijections (proved)

The numbering of derivatives, of polynomials on triangles and tetrahedra, and of the pyramid's polynomials.

* `C13_index_maps` (PropertiesLegendre.v) [none]
* `C13_pyramid_index` (PropertiesLegendre.v) [none]

### C14 Named quadrature rules integrate polynomials exactly (proved)

* `C14_named_quadrature` (PropertiesQuadrature.v) [DNCF]

### C15 Equispaced quadrature is the composite trapezium rule (proved)

* `C15_equispaced_quadrature` (PropertiesQuadrature.v) [DNCF]

### C16 Ciarlet duality of basis functions (proved)

over the reals; the dual matrix is inverted by Gauss-Jordan elimination with pivoting

* `C16_ciarlet_duality` (PropertiesCiarlet.v) [DF]

### C17 Dual basis polynomials (l2_dual) (proved)

* `C17_l2_dual` (PropertiesCiarlet.v) [DF]
* `C17_l2_dual_exists` (PropertiesCiarlet.v) [DF]

### C18 Element definitions have as many degrees of freedom as functions (partial)

34 families, all orders that create_element accepts, default variants: on the default cells the element is created, the number of functions is the dimension in closed form, there are as many degrees of freedom and each is on an existing sub-entity; on simplices with any vertices for the ten families that accept them. Refuted: trimmed serendipity H(curl) on the hexahedron raises AssertionError for every order >= 4 (too few degrees of freedom), Arnold-Winther of order 5 raises it on every nondegenerate triangle without a horizontal edge (aw.py:100-104 counts the degree in x only). Bernstein, Bubble, Crouzeix-Raviart, dual, macro and nodal elements are treated in C51-C59, C71-C75; the remaining families (e.g. TNT, Guzman-Neilan, Wu-Xu, transition) and the variant legendre are not modelled here.

* `C18_default_cells_partial` (PropertiesFamilies.v) [DNCF]
* `C18_simplices_partial` (PropertiesFamilies.v) [DNF]
* `C18_regge_integral_partial` (PropertiesFamilies.v) [DNF]
* `C18_arnold_winther_partial` (PropertiesFamilies.v) [DNF]
* `C18_rejected` (PropertiesFamilies.v) [DNF]
* `C18_arnold_winther_refuted` (PropertiesFamilies.v) [DNF]
* `C18_trimmed_serendipity_refuted` (PropertiesFamilies.v) [DNF]

### C19 Equispaced Lagrange elements are unisolvent at every order (proved)

Every non-degenerate interval, triangle and tetrahedron, every order, equispaced points; includes traces on sub-entities and duality/reproduction of get_basis_functions. Order 0 separately.

* `C19_lagrange_points` (PropertiesLagrange.v) [DNF]
* `C19_lagrange_unisolvent` (PropertiesLagrange.v) [DNF]
* `C19_lagrange_traces` (PropertiesLagrange.v) [DNF]
* `C19_lagrange_basis` (PropertiesLagrange.v) [DNF]
* `C19_lagrange_order_zero` (PropertiesLagrange.v) [DNF]
* `C19_lagrange_interval_variants` (PropertiesQ.v) [DNCF]

### C20 Tensor factorisation of Q elements is consistent (partial)

Every order, equispaced points: the permutation is one, and the tensor products are the basis functions of the element. Refuted for the variant gll from order 3 on: the factorisation uses the equispaced interval element whatever the variant.

* `C20_q_points` (PropertiesQ.v) [DNCF]
* `C20_q_basis` (PropertiesQ.v) [DNCF]
* `C20_tensor_factorisation_partial` (PropertiesQ.v) [DNCF]
* `C20_order_zero` (PropertiesQ.v) [DNF]
* `C20_tensor_factorisation_refuted` (PropertiesQ.v) [DNCF]

### C21 Entity DOF lists partition the degrees of freedom (proved)

for direct elements exactly when as many entities as functions are given

* `C21_entity_dofs_partition` (PropertiesElement.v) [none]
* `C21_direct_elements` (PropertiesElement.v) [none]

### C22 Enriched elements concatenate their sub-elements (proved)

* `C22_enriched_element` (PropertiesElement.v) [none]

### C23 Tabulation orderings agree (partial)

orderings proved; an unknown ordering name is accepted silently for scalar elements

* `C23_tabulate_orders_partial` (PropertiesElement.v) [none]
* `C23_unknown_order_refuted` (PropertiesElement.v) [none]

### C24 Cached matrices survive the text round trip (proved)

matrix entries are rationals in lowest terms; other sympy entries are not modelled

* `C24_cache_text_round_trip` (PropertiesCache.v) [none]

### C25 The matrix cache behaves like a map (proved)

sha256 is an arbitrary function with 64 character values that does not collide on the identifiers used

* `C25_cache_is_a_map` (PropertiesCache.v) [none]

### C26 A crash while saving never yields a wrong cached matrix (partial)

false: cutting the text inside the last number loads a wrong matrix, an empty file makes the load raise; the partial theorem bounds the damage to the last entry

* `C26_crash_safe_partial` (PropertiesCache.v) [none]
* `C26_crash_safe_refuted` (PropertiesCache.v) [none]

### C27 Different element definitions never share a cache entry (proved)

* `C27_cache_identifier_injective` (PropertiesCache.v) [none]

### C28 Element registration history (partial)

holds for successful histories; a failing registration leaves the names handled before the conflict registered

* `C28_registry_partial` (PropertiesRegistry.v) [none]
* `C28_failed_registration_unchanged_refuted` (PropertiesRegistry.v) [none]

### C29 create_element accepts exactly the documented orders (proved)

* `C29_create_element_orders` (PropertiesRegistry.v) [none]

### C30 Maps between cells are inverse to each other (partial)

Inverse maps proved for intervals, 2D triangles/parallelograms, tetrahedra, parallelepipeds, affine prisms and (self maps) 3D parallelograms; refuted for the pyramid, for triangles embedded in 3D and for vertical parallelograms.

* `C30_maps_are_inverse_partial` (PropertiesReferences.v) [DNF]
* `C30_parallelogram_in_3d_partial` (PropertiesReferences.v) [DNF]
* `C30_vertices_to_vertices` (PropertiesReferences.v) [DNF]
* `C30_pyramid_inverse_refuted` (PropertiesReferences.v) [DNF]
* `C30_triangle_in_3d_refuted` (PropertiesReferences.v) [DNF]
* `C30_vertical_parallelogram_refuted` (PropertiesReferences.v) [DNF]
* `C30_non_parallelogram_rejected` (PropertiesReferences.v) [DNF]

### C31 contains decides membership in the cell (partial)

Proved for every default cell and every non-degenerate 2D triangle; refuted for general tetrahedra (sign of one test); other general cells raise NotImplementedError.

* `C31_contains_decides_membership_partial` (PropertiesReferences.v) [DNF]
* `C31_tetrahedron_refuted` (PropertiesReferences.v) [DNF]

### C32 on_edge / on_face decide membership in the sub-entity (partial)

on_edge is exact for points of the cell; outside the cell it is true on the line through an edge; on_face always raises.

* `C32_on_edge_inside_partial` (PropertiesReferences.v) [DNF]
* `C32_on_edge_refuted` (PropertiesReferences.v) [DNF]
* `C32_on_face_refuted` (PropertiesReferences.v) [DNF]

### C33 Integration limits describe the cell and volumes are consistent (proved)

All cell types with limits (Coquelicot is_RInt).

* `C33_limits_describe_the_cell` (PropertiesReferences.v) [DNCF]
* `C33_volume_scales` (PropertiesReferences.v) [DNF]

### C34 Tangents and normals are unit and orthogonal (proved)

Any dimension for tangents; orientation included.

* `C34_tangents_and_normals` (PropertiesReferences.v) [DNF]

### C35 Sub-entity tables describe the cell's topology (proved)

Edges and faces are characterised as the exposed faces of the convex hull.

* `C35_tables_are_the_faces_of_the_hull` (PropertiesReferences.v) [DNF]
* `C35_tables_without_repetition` (PropertiesReferences.v) [DNF]
* `C35_lexicographic_numbering` (PropertiesReferences.v) [none]
* `C35_sub_entity_vertices` (PropertiesReferences.v) [DNF]
* `C35_edges_of_faces` (PropertiesReferences.v) [DNF]
* `C35_euler` (PropertiesReferences.v) [DNF]
* `C35_dual_polygon` (PropertiesReferences.v) [DNF]

### C36 z-ordered entities enumerate every sub-entity once (proved)

All cell types, dual polygons of any size.

* `C36_z_order_lists_every_entity_once` (PropertiesReferences.v) [DNF]

### C37 make_lattice returns interior lattice points (partial)

Proved for triangle, tetrahedron, quadrilateral, hexahedron and for make_lattice_with_lines; refuted for the interval (last point missing) and the prism (points on the boundary).

* `C37_lattice_is_the_interior_half_lattice` (PropertiesReferences.v) [DNF]
* `C37_lattice_of_general_cells` (PropertiesReferences.v) [DNF]
* `C37_lattice_with_lines` (PropertiesReferences.v) [DNF]
* `C37_dual_lattice` (PropertiesReferences.v) [DNF]
* `C37_interval_refuted` (PropertiesReferences.v) [DNF]
* `C37_prism_refuted` (PropertiesReferences.v) [DNF]

### C38 Pull-back and push-forward are inverse (proved)

affine maps in one to three dimensions, on symfem functions

* `C38_pull_back_push_forward` (PropertiesMappings.v) [DNCF]
* `C38_inverse_transpose_adjoint` (PropertiesMappings.v) [DNCF]

### C39 Piola maps preserve tangential and normal traces (proved)

affine maps in one to three dimensions; a separate witness shows that the covariant map of a triangle in 3D loses a component; the integral over the mapped cell is symfem's own pull-back definition

* `C39_piola_traces` (PropertiesMappings.v) [DNCF]
* `C39_surface_covariant_refuted` (PropertiesMappings.v) [DNF]

### C40 Function arithmetic is point-wise (partial)

Operations are pointwise on compatible shapes; refuted: adding a list of another length truncates, vector @ matrix and matrix dot are wrong or raise.

* `C40_add_sub_pointwise` (PropertiesFunctions.v) [DNF]
* `C40_incompatible_rejected_partial` (PropertiesFunctions.v) [DNF]
* `C40_list_truncation_refuted` (PropertiesFunctions.v) [DNF]
* `C40_neg_pow_pointwise` (PropertiesFunctions.v) [DNF]
* `C40_scaling_pointwise` (PropertiesFunctions.v) [DNF]
* `C40_matrix_products_partial` (PropertiesFunctions.v) [DNF]
* `C40_vector_times_matrix_refuted` (PropertiesFunctions.v) [DNF]
* `C40_dot_cross_norm_partial` (PropertiesFunctions.v) [DNF]
* `C40_matrix_dot_refuted` (PropertiesFunctions.v) [DNF]

### C41 Substitution is simultaneous (proved)

For expressions without the reserved DUMMY_i placeholders; a witness shows that exclusion is needed.

* `C41_subs_simultaneous` (PropertiesFunctions.v) [DNF]
* `C41_subs_single` (PropertiesFunctions.v) [DNF]
* `C41_subs_defined` (PropertiesFunctions.v) [DNF]
* `C41_reserved_symbols_refuted` (PropertiesFunctions.v) [DNF]

### C42 Differential operators satisfy the vector calculus identities (proved)

Derivatives are genuine partial derivatives (is_derive).

* `C42_gradient_and_hessian_are_derivatives` (PropertiesFunctions.v) [DNF]
* `C42_vector_derivative` (PropertiesFunctions.v) [DNF]
* `C42_curl_grad_is_zero` (PropertiesFunctions.v) [DNF]
* `C42_div_curl_is_zero` (PropertiesFunctions.v) [DNF]
* `C42_laplacian_is_trace_of_hessian` (PropertiesFunctions.v) [DNF]
* `C42_directional_derivative` (PropertiesFunctions.v) [DNF]
* `C42_product_rule` (PropertiesFunctions.v) [DNF]

### C43 maximum_degree is the degree on the cell (partial)

Tensor cells in full; simplices only an upper bound; refuted: x+y on a triangle gives 2, the zero function gives -3.

* `C43_tensor_product_cells` (PropertiesFunctions.v) [D]
* `C43_simplices_partial` (PropertiesFunctions.v) [D]
* `C43_prism_partial` (PropertiesFunctions.v) [D]
* `C43_maximum_degree_refuted` (PropertiesFunctions.v) [DF]

### C44 Iterating a function yields its components (partial)

A single loop visits every component; nested loops over the same object do not, zip(v, v) does not, and matrices cannot be iterated.

* `C44_single_iteration_partial` (PropertiesFunctions.v) [none]
* `C44_nested_iteration_refuted` (PropertiesFunctions.v) [none]
* `C44_zip_and_matrix_refuted` (PropertiesFunctions.v) [none]

### C45 Piecewise functions act piece by piece (partial)

Evaluation is exact except for clockwise quadrilaterals (refuted); operations act piece by piece without exception; the integral is that of the evaluated function on intervals, is the sum over the common parts for triangles, and is refuted for tetrahedra; __eq__ and substitution of other variables are refuted.

* `C45_evaluation_partial` (PropertiesPiecewise.v) [DNF]
* `C45_clockwise_quadrilateral_refuted` (PropertiesPiecewise.v) [DF]
* `C45_unary_operations` (PropertiesPiecewise.v) [DF]
* `C45_unary_operations_succeed` (PropertiesPiecewise.v) [DF]
* `C45_arithmetic_values` (PropertiesPiecewise.v) [DNF]
* `C45_arithmetic_domain` (PropertiesPiecewise.v) [DF]
* `C45_binary_operations_succeed` (PropertiesPiecewise.v) [DF]
* `C45_different_cells_rejected` (PropertiesPiecewise.v) [DF]
* `C45_integral_interval` (PropertiesPiecewise.v) [DNF]
* `C45_integral_triangles_partial` (PropertiesPiecewise.v) [DNF]
* `C45_integral_tetrahedra_refuted` (PropertiesPiecewise.v) [DNCF]
* `C45_map_pieces` (PropertiesPiecewise.v) [DF]
* `C45_equality_partial` (PropertiesPiecewise.v) [DF]
* `C45_equality_refuted` (PropertiesPiecewise.v) [DF]
* `C45_constructor_pieces` (PropertiesPiecewise.v) [DF]
* `C45_subs_other_variable_refuted` (PropertiesPiecewise.v) [DNF]

### C46 Geometric predicates agree with the sub-cells (partial)

Simplices in full, quadrilaterals with counterclockwise convex boundary; refuted for clockwise quadrilaterals (every point is rejected).

* `C46_simplices` (PropertiesGeometry.v) [DF]
* `C46_point_in_quadrilateral_partial` (PropertiesGeometry.v) [DF]
* `C46_clockwise_quadrilateral_refuted` (PropertiesGeometry.v) [DF]
* `C46_floats_accept` (PropertiesGeometry.v) [DF]

### C47 allequal is equality of nested data (partial)

Correct if lists have equal lengths and the second argument holds no bare sympy expression; refuted otherwise: everything equals a sympy expression, and lists are truncated.

* `C47_allequal_partial` (PropertiesUtils.v) [none]
* `C47_expression_refuted` (PropertiesUtils.v) [none]
* `C47_truncation_refuted` (PropertiesUtils.v) [none]

### C48 Degrees of freedom are linear functionals (proved)

All 14 evaluation methods, for functions built by the python operators * and +; includes uniqueness of the value. sympy.integrate is taken to return the iterated Riemann integral when it returns.

* `C48_functionals_linear` (PropertiesFunctionals.v) [DNF]

### C49 Ordinal texts are correct English (partial)

Correct except for 13 and for the numbers from 100 on that end in 11, 12 or 13.

* `C49_nth_partial` (PropertiesUtils.v) [none]
* `C49_nth_refuted` (PropertiesUtils.v) [none]

### C50 Integral moment DOFs are numbered entity by entity (partial)

Exactly one degree of freedom per (argument, entity, basis function), in lexicographic order, attached to its entity, with the data of the specification; order by dimension holds when only dimension-named or only codimension-named arguments are given, and is refuted when faces and facets are mixed.

* `C50_specification_read` (PropertiesMoments.v) [none]
* `C50_moments_numbered` (PropertiesMoments.v) [DNF]
* `C50_vertices_rejected` (PropertiesMoments.v) [DNF]
* `C50_by_dimension_partial` (PropertiesMoments.v) [DNF]
* `C50_by_dimension_refuted` (PropertiesMoments.v) [DNF]

### C51 Bernstein polynomials form a partition of unity (partial)

Non-negativity, sum, count, basis property and numbering proved for all orders on interval, triangle and tetrahedron; the element exists for all orders on intervals and triangles and up to order 3 on tetrahedra. Refuted: on tetrahedra no Bernstein element of order >= 4 can be created (cell name misspelt in bernstein.py:222, interior dofs missing).

* `C51_partition_of_unity` (PropertiesBernstein.v) [DF]
* `C51_other_dimensions` (PropertiesBernstein.v) [DF]
* `C51_numbering` (PropertiesBernstein.v) [DF]
* `C51_creation_partial` (PropertiesBernstein.v) [DNF]
* `C51_entities` (PropertiesBernstein.v) [DNF]
* `C51_creation_refuted` (PropertiesBernstein.v) [DNF]

### C52 Bubble functions vanish on the boundary (proved)

Every order, every nondegenerate simplex (equispaced variant) and the default interval, quadrilateral and hexahedron (every variant with a rule for that order except legendre and lobatto): the functions are exactly a basis of the polynomials that vanish on the boundary, with as many dofs, and dual functions exist. Quadrilaterals and hexahedra with other vertices are not modelled.

* `C52_bubble_simplex` (PropertiesBubble.v) [DNF]
* `C52_bubble_tensor` (PropertiesBubble.v) [DNCF]
* `C52_bubble_rejects` (PropertiesBubble.v) [DNF]

### C53 Bubble-enriched Lagrange spaces have independent functions (partial)

Proved for the orders 1 and 2 on every triangle. Refuted for every order >= 3: create_element accepts the order but the set is dependent and get_basis_functions raises ValueError (the cubic bubble lies in the Lagrange space).

* `C53_enriched_partial` (PropertiesBubble.v) [DNF]
* `C53_enriched_dependent` (PropertiesBubble.v) [DNF]
* `C53_enriched_refuted` (PropertiesBubble.v) [DNF]

### C54 Crouzeix-Raviart elements are unisolvent (partial)

Odd orders: unisolvent with dual basis on every nondegenerate triangle, for every variant with a symmetric rule; order 1 on every nondegenerate tetrahedron; other cells, order 0 and tetrahedra of higher order rejected. Refuted for every even order: create_element accepts it on the default triangle, but a polynomial of that degree vanishes at all the dof points and get_basis_functions raises ValueError.

* `C54_odd_orders` (PropertiesCR.v) [DNCF]
* `C54_tetrahedron` (PropertiesCR.v) [DNCF]
* `C54_rejects` (PropertiesCR.v) [DNF]
* `C54_even_orders` (PropertiesCR.v) [DNCF]
* `C54_refuted` (PropertiesCR.v) [DNCF]

### C55 KMV points and weights form a quadrature rule (partial)

Exact to degree 1 and 3 (triangle, orders 1, 2) and 1 and 4 (tetrahedron, orders 1, 2), all weights positive. Refuted for order 3 on triangles: the weights add to 1/2 - sqrt(7)/15 and those on the edges are negative (signs in kmv.py:123-160).

* `C55_kmv_rules_partial` (PropertiesNodal.v) [DNCF]
* `C55_kmv_order_3` (PropertiesNodal.v) [DNCF]
* `C55_kmv_rules_refuted` (PropertiesNodal.v) [DNCF]

### C56 Degree attributes describe the space (partial)

All four attributes for 32 families, every order that create_element accepts, default cells; of the two trimmed serendipity families all but lagrange_subdegree, which is refuted: on quadrilaterals of order 7 it is 2, but the space contains all functions of degree 3 in each variable. Missing: other cells than the default ones, other families.

* `C56_degree_attributes_partial` (PropertiesDegrees.v) [DNF]
* `C56_trimmed_serendipity_partial` (PropertiesDegrees.v) [DNF]
* `C56_trimmed_subdegree_refuted` (PropertiesDegrees.v) [DNCF]

### C57 Barycentric dual functions are continuous and sum to one (proved)

Every polygon of at least three triangles (with fewer the sub-triangles are degenerate): pieces agree wherever sub-triangles meet, the functions sum to one on the polygon, function j is one at vertex 2j; order 0 is the constant one.

* `C57_dual_order_one` (PropertiesDual.v) [DNF]
* `C57_dual_order_zero` (PropertiesDual.v) [DNF]
* `C57_dual_rejects` (PropertiesDual.v) [DNF]
* `C57_dual_entities` (PropertiesDual.v) [none]

### C58 Buffa-Christiansen functions are H(div) conforming (partial)

Refuted for every polygon of at least three triangles and every function: the coefficients of dual.py:305-306 are attached to different edges of neighbouring sub-triangles, so that the normal component jumps by 1/n (over the edge length) on an interior edge. The Raviart-Thomas functions of the fine space enter through their defining moments.

* `C58_normal_jump` (PropertiesDual.v) [DNCF]
* `C58_refuted` (PropertiesDual.v) [DNCF]

### C59 Macro element pieces fit together (partial)

HCT, reduced HCT (values, gradients, linear normal derivatives) and Alfeld-Sorokina (values and divergences) on the default triangle, the only one accepted; P1-iso-P2 on all intervals, triangles and counter-clockwise parallelograms, P1 macro on all triangles. Refuted for parallelograms numbered clockwise: the element is created and no function can be evaluated anywhere.

* `C59_hct` (PropertiesMacro.v) [DNF]
* `C59_reduced_hct` (PropertiesMacro.v) [DNF]
* `C59_alfeld_sorokina` (PropertiesMacro.v) [DNF]
* `C59_macro_refusals` (PropertiesMacro.v) [DNF]
* `C59_iso_interval` (PropertiesMacro.v) [DNF]
* `C59_iso_triangle` (PropertiesMacro.v) [DNF]
* `C59_iso_quadrilateral_partial` (PropertiesMacro.v) [DNF]
* `C59_p1_macro` (PropertiesMacro.v) [DNF]
* `C59_iso_quadrilateral_clockwise` (PropertiesMacro.v) [DNF]
* `C59_iso_quadrilateral_refuted` (PropertiesMacro.v) [DNF]

### C60 Bell's space has cubic normal derivatives (partial)

Holds on the reference triangle, as stated. The class accepts any triangle with the same polynomials: refuted on the triangle (0,0), (2,0), (0,1).

* `C60_bell_partial` (PropertiesNodal.v) [DNCF]
* `C60_bell_refuted` (PropertiesNodal.v) [DNCF]

### C61 Direct serendipity spaces have the serendipity dimension (partial)

The direct serendipity element of order n has 4n functions and 15 more from order 4 on; this is the number of the serendipity element at the orders 1, 2, 3, 8 and at no other. Refuted e.g. at order 4 (31 instead of 17): the interior functions are made with DPC of order 4 instead of order - 4 (direct_serendipity.py:76).

* `C61_dimension_partial` (PropertiesDirect.v) [DNCF]
* `C61_dimension_refuted` (PropertiesDirect.v) [DNCF]

### C62 Basis functions do not depend on call history (partial)

false in general: the tensor flag is ignored after the first call, and an enriched element that raised once returns a truncated list on the next call

* `C62_history_independent_partial` (PropertiesElement.v) [none]
* `C62_history_independent_refuted` (PropertiesElement.v) [none]
* `C62_enriched_refuted` (PropertiesElement.v) [none]

### C63 The matrix cache is transparent (proved)

* `C63_cache_transparent` (PropertiesCache.v) [none]

### C64 Basis functions exist exactly for unisolvent elements (proved)

* `C64_exists_iff_unisolvent` (PropertiesCiarlet.v) [DF]

### C65 map_to_cell maps every function by its own degree of freedom's mapping (proved)

the fall-back for unimplemented mappings is not modelled

* `C65_map_to_cell` (PropertiesElement.v) [none]

### C66 get_mapping accepts exactly the mapping names (partial)

any global name of the module is accepted

* `C66_get_mapping_partial` (PropertiesMappings.v) [none]
* `C66_get_mapping_refuted` (PropertiesMappings.v) [none]

### C67 Intersection of cells is sound (partial)

None is only returned for disjoint interiors; a returned cell is the intersection except for tetrahedra, where a witness shows it is not.

* `C67_none_means_disjoint` (PropertiesGeometry.v) [DNF]
* `C67_some_is_the_intersection_partial` (PropertiesGeometry.v) [DNF]
* `C67_tetrahedra_refuted` (PropertiesGeometry.v) [DNF]

### C68 Degrees of freedom have the value their definition says (partial)

Refuted for InnerProductIntegralMoment, which multiplies by the jacobian twice. DerivativeIntegralMoment and IntegralOfDirectionalMultiderivative are modelled (C48) but their values are not characterised.

* `C68_point_evaluations` (PropertiesFunctionals.v) [DNF]
* `C68_derivative_evaluations` (PropertiesFunctionals.v) [DNCF]
* `C68_vector_evaluations` (PropertiesFunctionals.v) [DNF]
* `C68_inner_product_evaluation` (PropertiesFunctionals.v) [DNF]
* `C68_integral_moments` (PropertiesFunctionals.v) [DNF]
* `C68_divergence_moments` (PropertiesFunctionals.v) [DNF]
* `C68_inner_product_moment_refuted` (PropertiesFunctionals.v) [DNCF]

### C69 A function given as numbers, expressions or lists is read as the function with these values (partial)

Holds for every input, except that a sympy matrix, announced by the type FunctionInput, raises ValueError.

* `C69_function_input_read` (PropertiesFunctions.v) [DNF]
* `C69_function_input_meaning` (PropertiesFunctions.v) [DNF]
* `C69_sympy_matrix_refuted` (PropertiesFunctions.v) [DNF]

### C70 Orthogonal bases are orthogonal on every reference cell (partial)

Orthogonality on all seven cells with the limits of the code. Orthonormality needs that no axis variable x_i (i < dimension) is passed at another position than i: otherwise the sequential substitution in integral() identifies variables and the norms are wrong (refuted for the quadrilateral with variables x_1, x_2).

* `C70_orthogonal` (PropertiesOrthogonal.v) [DNCF]
* `C70_orthonormal_partial` (PropertiesOrthogonal.v) [DNCF]
* `C70_orthonormal_refuted` (PropertiesOrthogonal.v) [DNCF]

### C71 Macro elements are unisolvent (proved)

The values are those of the modelled evaluation of functionals on piecewise functions; the dual matrix is inverted by the modelled LU inverse.

* `C71_hct_unisolvent` (PropertiesMacro.v) [DNF]
* `C71_reduced_hct_unisolvent` (PropertiesMacro.v) [DNF]
* `C71_alfeld_sorokina_unisolvent` (PropertiesMacro.v) [DNF]
* `C71_degrees_of_freedom` (PropertiesMacro.v) [DNF]

### C72 Integral moments of macro functions are integrals (partial)

Refuted on every triangle: the moment of the fourth P1 macro function evaluates to 1/2, the integral against the weight is 1/6, because the function is written in the parameters of the whole triangle before it is integrated over the parameters of the sub-triangle (functionals.py:989-1016, piecewise_functions.py:443-465).

* `C72_p1_macro_moment` (PropertiesMacro.v) [DNCF]
* `C72_macro_integral_refuted` (PropertiesMacro.v) [DNCF]

### C73 Elements defined by values and derivatives at points have a dual basis (proved)

Hermite on every nondegenerate simplex, the others on their default cells (Bell's and Bogner-Fox-Schmit's dual bases on other cells are not treated).

* `C73_default_cells` (PropertiesNodal.v) [DNCF]
* `C73_hermite` (PropertiesNodal.v) [DNCF]
* `C73_bell_dofs` (PropertiesNodal.v) [D]
* `C73_hermite_dofs` (PropertiesNodal.v) [DNF]
* `C73_normal_dofs` (PropertiesNodal.v) [DNF]
* `C73_value_dofs` (PropertiesNodal.v) [DNF]
* `C73_rejects` (PropertiesNodal.v) [DNF]

### C74 Kong-Mulder-Veldhuizen elements have a dual basis (partial)

Triangles of orders 1, 2, 3 and tetrahedra of order 1 have a dual basis. Refuted for tetrahedra of order 2, which the class accepts: the 23 functions are independent but one combination vanishes at all 23 points, so get_basis_functions raises (kmv.py:40-66, where no face bubble vanishes on all the other faces).

* `C74_kmv_partial` (PropertiesNodal.v) [DNCF]
* `C74_kmv_refuted` (PropertiesNodal.v) [DNCF]
* `C74_kmv_rejects` (PropertiesNodal.v) [DNF]

### C75 The announced continuity holds (partial)

Bell, Argyris and Bogner-Fox-Schmit are C1, Kong-Mulder-Veldhuizen C0 on their default cells, Hermite C0 on every nondegenerate simplex. Refuted for Bell on other triangles, which the class accepts: a function with vanishing degrees of freedom on the closure of an edge has a nonzero normal derivative there.

* `C75_default_cells_partial` (PropertiesNodal.v) [DNCF]
* `C75_hermite` (PropertiesNodal.v) [DNCF]
* `C75_bell_refuted` (PropertiesNodal.v) [DNCF]

### C76 Elements of any order defined by values at points have a dual basis and announce the right continuity (proved)

Equispaced points for the Lagrange elements on simplices and prisms, every rule for Q elements; Q and DPC on their default cells.

* `C76_vector_lagrange` (PropertiesPoints.v) [DNF]
* `C76_matrix_lagrange` (PropertiesPoints.v) [DNF]
* `C76_symmetric_lagrange` (PropertiesPoints.v) [DNF]
* `C76_lagrange_located` (PropertiesPoints.v) [DNF]
* `C76_lagrange_conforming` (PropertiesPoints.v) [DNF]
* `C76_q_conforming` (PropertiesPoints.v) [DNCF]
* `C76_vector_q` (PropertiesPoints.v) [DNCF]
* `C76_vector_q_conforming` (PropertiesPoints.v) [DNCF]
* `C76_dpc` (PropertiesPoints.v) [DNF]
* `C76_dpc_interval` (PropertiesPoints.v) [DNCF]
* `C76_dpc_discontinuous` (PropertiesPoints.v) [DNF]
* `C76_prism_lagrange` (PropertiesPoints.v) [DNF]
* `C76_vector_prism_lagrange` (PropertiesPoints.v) [DNF]
* `C76_prism_conforming` (PropertiesPoints.v) [DNF]
* `C76_conforming_crouzeix_raviart` (PropertiesPoints.v) [DNF]
* `C76_rejected` (PropertiesPoints.v) [DNF]

### C77 Elements of any order defined by integral moments have a dual basis and are H(div) or H(curl) conforming (proved)

Equispaced Lagrange elements in the moments (the default); the reference cells.

* `C77_raviart_thomas` (PropertiesMomentElements.v) [DNCF]
* `C77_nedelec_first_kind` (PropertiesMomentElements.v) [DNCF]
* `C77_bdm` (PropertiesMomentElements.v) [DNCF]
* `C77_nedelec_second_kind` (PropertiesMomentElements.v) [DNCF]

### C78 Elements of any order on quadrilaterals and hexahedra defined by integral moments have a dual basis and are H(div) or H(curl) conforming (proved)

Every variant other than legendre and lobatto (whose Q elements are not modelled) with point rules up to the order, in particular equispaced, the default.

* `C78_qdiv` (PropertiesQField.v) [DNCF]
* `C78_qcurl` (PropertiesQField.v) [DNCF]
* `C78_rejected` (PropertiesQField.v) [DNF]

### C79 Direct serendipity functions are linearly independent and reproduce polynomials (partial)

Independence for every order; polynomials are reproduced up to order 8. Refuted for every order from 9 on: x^7 y^2 is not a combination (the interior functions always have degree 4 besides the bubble).

* `C79_independent` (PropertiesDirect.v) [DNF]
* `C79_reproduces_partial` (PropertiesDirect.v) [DNF]
* `C79_reproduces_refuted` (PropertiesDirect.v) [DNF]

### C80 Direct serendipity elements are continuous as announced (partial)

Holds at order 1. Refuted for every order from 2 on: the function y (1 - y) belongs to the edge x = 0 and does not vanish on the edge x = 1.

* `C80_order_one_partial` (PropertiesDirect.v) [DNF]
* `C80_refuted` (PropertiesDirect.v) [DNF]

### C81 Serendipity elements of any order have a dual basis and are continuous (proved)

Every order on the reference interval, quadrilateral and hexahedron; the variants legendre and lobatto and cells with other vertices are not covered.

* `C81_serendipity_dual` (PropertiesSerendipity.v) [DNCF]
* `C81_serendipity_continuous` (PropertiesSerendipity.v) [DNCF]

### C82 H(div) and H(curl) serendipity elements of any order have a dual basis and are conforming (proved)

Every order; variants legendre and lobatto are not covered. The fields of degree n + 1 are those of the code (whose divergence on the quadrilateral is not zero, see C09).

* `C82_serendipity_hdiv` (PropertiesSerendipityField.v) [DNCF]
* `C82_serendipity_hcurl_square` (PropertiesSerendipityField.v) [DNCF]
* `C82_rejected` (PropertiesSerendipityField.v) [DNF]

### C83 H(curl) serendipity elements of any order on hexahedra have a dual basis and are conforming (proved)

Every order; variants legendre and lobatto are not covered; cells with other vertices are refused (C82_rejected).

* `C83_serendipity_hcurl_cube` (PropertiesSerendipityCurl.v) [DNCF]

### C84 Arnold-Winther and Mardal-Tai-Winther elements are given the function spaces they are defined by (partial)

Arnold-Winther (every order, every triangle) and Mardal-Tai-Winther hold in full. The nonconforming element has the right space on the reference triangle; refuted on other triangles, which are accepted but given the functions of the reference triangle.

* `C84_arnold_winther` (PropertiesStress.v) [DNF]
* `C84_nonconforming_partial` (PropertiesStress.v) [DNF]
* `C84_nonconforming_refuted` (PropertiesStress.v) [DNF]
* `C84_mardal_tai_winther` (PropertiesStress.v) [DNF]

### C85 Transition elements have the orders they are asked for and are continuous (proved)

For the variant equispaced (the default).

* `C85_transition_basis` (PropertiesTransition.v) [DNF]
* `C85_transition_traces` (PropertiesTransition.v) [DNF]
* `C85_transition_degrees` (PropertiesTransition.v) [DNF]
* `C85_transition_polynomials` (PropertiesTransition.v) [DNF]

### C86 Taylor elements of every order have the expected functionals and basis functions on every cell (proved)

Every order on every interval, triangle and tetrahedron of full dimension.

* `C86_taylor_basis` (PropertiesTaylor.v) [DNCF]
* `C86_taylor_functionals` (PropertiesTaylor.v) [DNF]
* `C86_taylor_functions` (PropertiesTaylor.v) [DNCF]

### C87 Bernardi-Raugel elements have a dual basis and continuous normal components (proved)

Order 1 on both cells, order 2 on the tetrahedron (the only cell on which the class accepts it).

* `C87_bernardi_raugel_basis` (PropertiesBernardi.v) [DNCF]
* `C87_bernardi_raugel_conforming` (PropertiesBernardi.v) [DNCF]
* `C87_bernardi_raugel_functionals` (PropertiesBernardi.v) [DNF]
* `C87_bernardi_raugel_default_only` (PropertiesBernardi.v) [DNF]
* `C87_bernardi_raugel_quadratic_basis` (PropertiesBernardi2.v) [DNCF]
* `C87_bernardi_raugel_quadratic_conforming` (PropertiesBernardi2.v) [DNCF]
* `C87_bernardi_raugel_quadratic_functionals` (PropertiesBernardi2.v) [DNCF]
* `C87_bernardi_raugel_quadratic_cells` (PropertiesBernardi2.v) [DNF]


## Disagreements between the code and its description

Each is proved as a theorem whose name ends in `_refuted` (or follows from the one named).

* C09, C10: the serendipity div and curl spaces in 2D are not what the names say; witnesses in PropertiesPolySets.v.
* C18: trimmed serendipity H(curl) elements of order >= 4 on the hexahedron define fewer degrees of freedom than functions and cannot be created. Arnold-Winther elements of order 5 cannot be created on triangles without a horizontal edge (aw.py:100-104).
* C20: `Q(variant="gll")` of order >= 3: the tensor factorisation uses the equispaced interval element.
* C23: an unknown ordering name given to `tabulate_basis` is accepted silently for scalar elements.
* C28, C62, C66: registry, memoised basis functions and `get_mapping`: see the notes above.
* C30: the inverse map of the pyramid sends (1/2, 1/2, 1/2) to (1/4, 1/4, 1/2); the inverse self map of a triangle in 3D divides by the norm instead of its square; vertical parallelograms in 3D raise.
* C31: `contains` of a general tetrahedron has a wrong sign (`0 >= t2`).
* C32: `on_edge` is true on the whole line through an edge; `on_face` always raises.
* C37: `make_lattice` of an interval misses the last interior point, of a prism contains boundary points.
* C39: the covariant map of a triangle in 3D returns two components.
* C40-C44: adding a list of another length truncates it, `vector @ matrix` and matrix `dot` are wrong, the DUMMY symbols of `subs` can be captured, `maximum_degree` of x + y on a triangle is 2 and of zero is -3, nested loops over one function share their iterator.
* C45: pieces on clockwise quadrilaterals are never found, `__eq__` truncates, `subs` of other variables than x picks one piece, the integral over tetrahedra counts pieces outside the domain.
* C46: clockwise quadrilaterals reject every point. C67: intersections of tetrahedra.
* C47: `allequal(a, Expr)` is always True; lists are truncated. C49: "13rd", "111st".
* C50: mixing `faces` and `facets` on a triangle puts dimension-2 dofs before dimension-1 dofs.
* C51: Bernstein elements of order >= 4 on tetrahedra cannot be created ("tetrahedon", bernstein.py:222).
* C53: bubble enriched Lagrange of every order >= 3 has dependent functions. C54: Crouzeix-Raviart of every even order is not unisolvent.
* C55: KMV weights of order 3 on triangles do not add to the area and some are negative. C74: KMV of order 2 on tetrahedra is not unisolvent.
* C58: Buffa-Christiansen functions have a normal jump 1/n. C59: P1-iso-P2 on clockwise parallelograms. C72: the P1 macro moment is 1/2 instead of 1/6.
* C60, C75: Bell elements on other triangles than the reference one have quartic normal derivatives and are not C1.
* C68: `InnerProductIntegralMoment` multiplies by the jacobian twice. C69: a sympy `Matrix` is announced as function input and raises ValueError.
* C70: `orthonormal_basis` with axis variables at other positions computes wrong norms.
* C56: `lagrange_subdegree` of the trimmed serendipity elements is too low from order 7 on (quadrilaterals).
* C61, C79: direct serendipity uses DPC of order 4 for every order from 4 on: too many functions at orders 4-7, too few from 9 on (x^7 y^2 is missing). C80: its functions of the edge x = 0 (y = 0) do not vanish on x = 1 (y = 1), so that it is not C0 with the entities it announces.
* C84: the nonconforming Arnold-Winther element accepts any triangle but its functions are those of the reference triangle; on others their normal-normal components are quadratic on edges.
