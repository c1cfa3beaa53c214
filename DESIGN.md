# Formal model of polynomials_on_simplices in Rocq (Coq 8.16.1)

All paths below /repo are relative to `/repo/polynomials_on_simplices`; all
`.v` files are in `rocq/theories`.

## 1. Approach

The model is a set of small, total Gallina functions that mirror the Python
functions branch by branch. Each definition carries a comment with the file
and lines in /repo it models and says what was simplified. Model files hold
definitions only (exceptions: a few early files that also hold their proofs),
fact files hold lemmas, and `Prop_*.v` files hold the property theorems, each
followed by `Print Assumptions` and by examples that meet its hypotheses.

* **Exceptions are values**: `Ok v` / `Err e` (Base.v) where `e` is the Python
  exception class.
* **Loops**: `for` loops are folds or structural recursion; `while` loops and
  recursions that are not structural get explicit fuel. Running out of fuel is
  the separate error `OutOfFuel`, and the theorems show that it is not returned.
* **Numbers**: Python `int` is `Z`, or `nat` where the code guarantees or
  asserts that it is not negative. A float is an exact element of a field of
  characteristic 0 with decidable equality (record `fld`, Fld.v) or of an
  ordered such field (record `ofld`, FldInst.v); `QcF`/`QcO` (rationals) and
  `RF`/`RO` (stdlib reals) are the instances. Rounding, overflow and nan are
  not modelled, except in Aabb.v where boxes contain infinities and nan. Every
  finite float is a rational, so the rational instance covers all finite inputs.
* **Square roots** are a parameter `ksqrt` with the hypothesis
  `ksqrt x >= 0 /\ ksqrt x * ksqrt x = x` for `x >= 0`. Instantiated with the
  real square root in the theorems over the reals.
* **Arrays** are lists (a matrix is the list of its rows); coefficient arrays
  of polynomials are stored by columns. numpy broadcasting that the code does
  not use is not modelled. `np.empty` is filled with zeros in the model; where
  the code overwrites every entry this is invisible, and where it does not
  (piecewise polynomials with dropped boundary degrees of freedom) theorems do
  not depend on the value.
* **Sets and dictionaries** are lists without duplicates / association lists.
  No theorem depends on the iteration order (it is universally quantified
  where the code exposes it).
* **Objects that the code mutates** and whose aliasing is observable
  (MultiIndex objects, kd-trees) are modelled with an explicit heap or store.
* **Randomness** is an oracle argument (the list of numbers drawn);
  theorems hold for every oracle.
* **numpy.linalg** `solve`, `inv`, `det`, `pinv`, `qr`: exact algorithms
  (LinSolve.v Gaussian elimination, Det.v expansion, Linalg.v). Singular
  systems raise `LinAlgError`.

Specifications use notions independent of the model's helpers: membership,
`NoDup` and `length` of lists, finite sums of the mathematical expressions,
`Permutation`, `derivable_pt_lim`, Riemann integrals, affine combinations.

## 2. Model, file by file

| model | modelled code | main simplifications |
|---|---|---|
| MultiIndex.v, MultiIndexObj.v, MultiCoef.v, MultiIndexCache.v | algebra/multiindex.py, multiindex_order_cache.py | cache transcribed by a script that reads the literal |
| ModArith.v | algebra/modular_arithmetic.py | – |
| Permutations.v | algebra/permutations.py | entries are natural numbers; shuffling by oracle |
| SetTheory.v | set_theory.py | a set is a list without duplicates |
| Simplicial.v | geometry/mesh/simplicial_complex.py, combinatorial part of geometry/mesh/triangle_mesh.py | vertex ids are naturals |
| Mesh.v | geometry/mesh/basic_meshes/triangle_meshes.py, tet_meshes.py | resolutions are naturals; an array too small for the rows written into it is an explicit error |
| Aabb.v | geometry/proximity/aabb.py | extended numbers with infinities and nan |
| KdTree.v | geometry/space_partitioning/*.py, kd_mesh_tree/simplicial_mesh_kd_tree.py | principal axis is an oracle |
| LocalToGlobal.v | piecewise_polynomial/piecewise_polynomial.py 35-379, continuous_piecewise_polynomial.py 29-418 | – |
| CodeGen.v | generic_tools/str_utils.py (number/sum/product/power strings), polynomial/code_generation/*polynomial_functions*.py | source text is a token list; the parser/evaluator of the generated expression is part of the model |
| Poly.v, Bases.v, LagrangeCache.v | polynomial/polynomials_base.py, polynomials_monomial_basis.py, polynomials_unit_simplex_*.py | basis identifiers are constructors |
| Integrate.v, IntegralCache.v | calculus/polynomial/*_calculus.py | – |
| Linalg.v, SimplexGeo.v | calculus/affine_map.py, parts of linalg/basis.py and vector_space_projection.py, geometry/primitives/simplex.py | division by zero (nan/inf in numpy) has an arbitrary value and is excluded by hypotheses |
| PolySimplex.v | polynomial/polynomials_simplex_*.py and their integrals | `str(vertices)` comparison of the basis identifier is comparison of the vertices (C121 says when it is) |
| PiecewisePoly.v | piecewise_polynomial/*.py classes | point location takes the first simplex in mesh order that contains the point |
| Quadrature.v | calculus/quadrature.py 37-77, 93-110, 130-157, 178-194, 220-286, 307-323, algebra/algebraic_operations.py, `multiple_arguments` of create_affine_map | decimal literals are exact decimals; sympy's Gauss points are an oracle; a callable is its signature and what a call does |
| RVec.v, Angle.v | calculus/real_interval.py, calculus/error_measures.py, calculus/angle.py except orthonormal_frame | real numbers, no rounding; loops with fuel |
| Rotation.v | linalg/rotation.py, linalg/rigid_motion.py, orthonormal_frame of calculus/angle.py | real numbers, no rounding; float arrays; an argument written to is returned as a result; random numbers are arguments |
| Triangle.v | geometry/primitives/triangle.py, linalg/vector_space_projection.py 48-64 | real numbers, no rounding; nan only in is_degenerate |
| Basis.v | linalg/basis.py, linalg/vector_space_projection.py 67-130 | `np.linalg.qr` is any QR decomposition; exact arithmetic |
| FiniteDiff.v | calculus/finite_difference.py | exact arithmetic; the array `x` is threaded through the calls, values of `f` may be the array itself; `np.empty` has arbitrary contents |
| Sampling.v | probability_theory/uniform_sampling.py | real numbers, no rounding; the random numbers are the argument, read from a list; a zero vector of normally distributed numbers (nan) is excluded |
| PolyEqual.v | polynomial/polynomials_base.py 40-92, polynomial/polynomials_simplex_base.py 14-71, piecewise_polynomial/piecewise_polynomial.py 382-411 | real numbers, no rounding, no nan; the polynomials are callables with numbers or one-dimensional arrays as values, the random numbers an argument; math.isclose as in CPython |
| MeshNormals.v | geometry/mesh/triangle_mesh.py 10-47, 81-182 | real numbers, no rounding; natural numbers as indices; a nan row is `None`; 1/tan is cos/sin |
| DerivArray.v | calculus/polynomial/polynomials_calculus.py 133-174, 225-255 | nested lists for arrays; the enumeration order of a set is an argument |
| PointCloud.v | geometry/mesh/point_clouds.py | real numbers, no rounding; nan is `None`; np.linalg.eigh is an argument |
| StrUtils.v | generic_tools/str_utils.py 333-438, function bodies of the code generators | ASCII characters; `str` of a natural number by repeated division |
| NumStr.v | generic_tools/str_utils.py 8-133, 441-449, Fraction.limit_denominator of CPython | rational numbers, differences not rounded; `str` of a float is an argument |
| CodeWriter.v | generic_tools/code_generation_utils.py 6-124 | a record of the attributes; print_trace not modelled |
| Latex.v | generic_tools/str_utils.py 136-330, the latex functions of the monomial, Bernstein and Lagrange bases | scalar valued polynomials; Lagrange basis functions given by their coefficients |
| LatexRead.v | not code: how a LaTeX string is read | digits, variables, powers, fractions, operators, parentheses |
| Midpoint.v | calculus/quadrature.py 326-379, tet_meshes.py 156-171 | real numbers; n is a natural number |
| Adaptive.v | calculus/quadrature.py 26-34, 80-90, 113-127, 160-175, 197-217, 289-304 | scipy's quadrature, dblquad and tplquad are parameters |
| LatexCompact.v | polynomial/polynomials_unit_simplex_bases.py 269-378 and the latex_compact functions of the three bases, polynomials_unit_simplex_lagrange_basis.py 788-895 | an integer multi-index is the list with that element |
| Repr.v | algebra/multiindex.py 32-67, algebra/permutations.py 71-107, algebra/modular_arithmetic.py 31-43, the arguments of Polynomial.__repr__ (monomial 69-71, Bernstein 95-97, Lagrange 257-259) | components and values are Python ints |
| Counts.v | algebra/permutations.py 667-745, geometry/mesh/simplicial_complex.py 148-185, algebra/multiindex.py 587-600 | the division of ints is rounded to double precision, without overflow; binom is exact; the random number is a parameter |
| Degenerate.v | geometry/primitives/simplex.py 735-754, geometry/proximity/aabb.py 94-107 | exact arithmetic; the quotients by a zero diameter (nan or inf in numpy) compare as not below eps; a face without volume is not covered |
| Identifier.v | unique_identifier_* in polynomial/polynomials_*.py, str of lists and of numpy arrays | array lines up to 75 characters, at most 1000 cells; floats that numpy shows without exponent, as multiples of 1e-9 |
| Keys.v | MultiIndex.__init__/__setitem__/__hash__/__eq__ in algebra/multiindex.py and IntegerModuloN.__hash__/__eq__ in algebra/modular_arithmetic.py, as keys of a CPython dictionary | no deletion from dictionaries, no identity shortcut; 64 bit hash values of ints; the hash function of tuples is arbitrary |
| SourceFiles.v | submodules, submodule_paths (relative), source_file_paths, _is_test_file in generic_tools/package_utils.py, with os.walk, os.path.splitext and str.replace | paths are lists of components; no symbolic links; the names of pkgutil.walk_packages are an argument; a generator is the list of what it yields |
| GenNames.v | generate_function_specific_name, generate_docstring, _domain, _multivariate and both templates in polynomial/code_generation/generate_polynomial_functions.py; the function names of the three code generators | the hash value of the coefficients is an argument |
| CodeStr.v | generate_function_specific of the three code generators; code_str of the five polynomial classes | the text of the body and of the affine map are arguments; __repr__ of arrays as in Identifier.v |

Not modelled: plotting and `str`/`__repr__` output (plot_*.py,
visualization/*), the LaTeX strings of vector valued and piecewise
polynomials and of bases in symbolic form, generic_tools/package_utils.py (file
system), sort_imports.py, doctest drivers, what scipy and sympy compute,
numpy dtype details, floating point rounding (approximate comparisons are
modelled with their tolerances, over exact numbers).

## 3. Proof ideas

| id | modelled | proof idea |
|----|----------|------------|
| C01-C03 | MultiIndexIterator as a state machine; generate_all/generate/get_index on top | invariant of the state machine against a recursive specification of the list |
| C04 | transcribed cache | finite domain, `vm_compute` lifted by `forallb_forall` |
| C05-C08 | capped iterator, exact norm conversion, MultiIndex heap, increasing multi-indices | mixed radix induction, invariant over operation sequences, Pascal recursion |
| C09 | factorial, binom, multinom | induction, field arithmetic |
| C10 | IntegerModuloN | Z.mod lemmas |
| C11-C19 | permutations | position look-up in sorted two-line notation, orbits, inversion parity |
| C20 | set_theory | induction |
| C21-C25, C51, C52 | simplicial complexes | chain sums over Z, rearrangement signs |
| C26-C28, C61, C62 | mesh generators | grid coordinates of the elements, index arithmetic, covering by case analysis over the reals |
| C29 | aabb | order reasoning |
| C30-C33, C60 | kd-trees | induction over tree, path and subdivision history |
| C34-C38, C53, C54 | local-to-global maps | loop invariants: numbering functions on classes of shared dofs |
| C39-C46, C48, C55-C59 | polynomials on the unit simplex | finite sums, multinomial identities, unisolvence by induction on dimension and degree, token parser correctness |
| C47, C67 | integrals | Coquelicot Riemann integrals, induction on the dimension |
| C49, C63-C65 | simplices and affine maps | Cramer, Gram determinants, Gram-Schmidt |
| C50, C68-C71 | piecewise polynomials | representation invariant of an object over a local-to-global map |
| C72-C74 | fixed quadratures, composition | moments of the rules computed in Q and compared with the integrals of the monomials; linearity and pull back; Riemann integrals for the interval |
| C75-C79 | intervals and angles | archimedean floor, Cauchy-Schwarz and Lagrange identities, acos/atan, invariant of the dial |
| C80-C84 | rotations, rigid motions | a rotation is its own cofactor matrix; the symmetric part from the skew part; Rodrigues' formula |
| C85-C92 | triangles, projections | everything expressed by the Gram matrix of two edges; Heron's formula; angle sum from the cosines |
| C93-C95 | bases | inverse matrices entrywise; normal equations; invariants of the Gram-Schmidt loop for a general inner product; uniqueness of the triangular orthonormal family |
| C96-C98 | finite differences | loop invariants with the array restored after each step; Taylor-Lagrange and mean value theorems of Coquelicot for the errors |
| C99-C101 | random sampling | a rejection loop returns the first accepted groups of the list of random numbers; counting all lists of random numbers with a given result by induction on their length |
| C102-C103 | comparison of polynomials | Schwartz-Zippel lemma on grids (ZeroCount.v) by induction on the number of variables; uniqueness of interpolation; exact ratio of the counts for rejection sampling |
| C104-C107 | normals and centroids of triangle meshes | the loops are sums over the corners; derivative of volume and area with respect to one vertex (Coquelicot), opposite edges of a closed mesh cancel; iterated Riemann integrals over a triangle |
| C108 | arrays of partial derivatives | invariant of the loop over sorted multi-indices: the entries written so far are closed under permutation; partial derivatives commute |
| C109-C110 | point clouds | completing squares; counting below and above the middle of the sorted list; expansion in the orthonormal basis of eigenvectors |
| C111 | splitting of strings | invariant of the scan for the separator; the greedy loop by induction on the pieces |
| C112 | numbers as strings | invariant of the continued fraction loop: determinant of consecutive convergents is 1 or -1, no fraction with a smaller denominator lies between; different fractions with denominators up to 1000 are at least 1e-6 apart |
| C113 | code writer | induction on the program; indenting twice is indenting by the sum |
| C114 | LaTeX strings | a string denotes a term if its symbols are read as a derivation of the grammar of expressions; sums and products of strings preserve this; LagrangeText.v writes a Lagrange basis function as a product of linear factors with integer coefficients and compares values at the nodes |
| C115 | midpoint rules | the iterated integral is compared with a sum over the cubes of a grid: the mean over the cells of a cube is near the integrand on it, and the number of its cells is proportional to the volume of its part in the simplex; degree one by summing the coordinates of all cells |
| C116 | adaptive quadrature | iterated integrals of uniformly continuous functions exist by induction on the dimension (slices scaled to the unit simplex); both orders of integration are limits of the same sums over a grid |
| C117 | compact strings | unique decomposition of a string into its longest prefix of digits (or of characters other than a space) and the rest |
| C118 | representations | lexer and parser of Python calls run on the strings by induction on the components; symmetry of the binomial coefficient for polynomials |
| C119 | counts | lengths from C15; integers below 2^53 are doubles, an integer with more than 53 significant bits is not (Flocq); the bijection of C03 |
| C120 | degenerate simplices | the altitude of C65 is the distance to the foot, the closest point of the plane (Pythagoras); similarity maps planes to planes and scales the diameter |
| C121 | identifiers | the words and brackets of a text do not depend on spaces and line breaks; those of a printed nested list or array determine the texts of the coordinates, which determine the numbers |
| C122 | dictionary keys | for keys whose comparison is an equivalence that implies equal hash values, storing and looking up is a finite map on the classes (induction over the entries); components stay natural numbers by an invariant over programs |
| C123 | source files | induction over directory trees for os.walk with pruning; str.replace over names joined by dots: every match starts at a dot |
| C124 | generated names, docstrings | a decimal number followed by a non-digit determines the number; str.replace on a text cut into pieces without < and placeholders replaces exactly the placeholders of its name |
| C125 | source code of single polynomials | the name begins with ev and nothing after it contains v, so str.replace finds it once; split at line ends and join are inverse |

Properties (or parts of them) that are false of the faithful model are proved
as `..._refuted` theorems; these are findings about the code. The other
theorems of such a property give the hypotheses under which it holds.

## 4. Trusted base

* Coq's kernel (including `vm_compute`), and the reading of the Python code
  into the model. The tie between Python and the model is by reading only.
* The parts listed as not modelled or simplified above.
* No axiom is declared in this development; no kernel check is switched off.

`Print Assumptions` follows every property theorem in the `Prop_*.v` files.
Most theorems are closed under the global context. The others depend on
standard library axioms only:

* no axioms ("Closed under the global context"): 484 theorems (all that are not listed below)
* `ClassicalDedekindReals.sig_forall_dec`:
  C109_embed, C109_embed_cloud, C84_columns, C100_cube
* `ClassicalDedekindReals.sig_forall_dec`, `FunctionalExtensionality.functional_extensionality_dep`:
  C116_interval, C116_unit_interval, C75_periodic, C75_constrain, C75_relative_error, C75_ordinary_relative_error, C120_is_equal, C120_symmetric, C120_reflexive, C120_negative_tolerance, C120_dimension_refuted, C120_transitive_refuted, C96_exception_refuted, C47_l2_degree_limit_refuted, C114_monomial_fn, C114_monomial, C114_bernstein_fn, C114_bernstein, C114_lagrange_of, C114_expanded, C114_exponent_refuted, C114_variable_refuted, C114_lagrange_simplex_refuted, C114_lagrange_fn, C114_lagrange, C114_lagrange_formula, C117_lagrange_injective, C117_lagrange_list, C26_covers, C27_covers, C27_disjoint, C28_covers, C62_covers, C107_centroids, C107_centroids_plane, C115_tetrahedron_vertices, C109_mean, C109_mean_affine, C109_median, C109_median_majority, C109_order, C109_empty, C109_numbers, C40_derivative_real, C42_derivative_real, C45_derivative_real, C102_points, C102_too_few, C102_equal, C102_univariate, C102_error_bound, C102_false_positives, C102_symmetric, C102_large_tolerance, C102_negative, C102_collinear_refuted, C102_transitive_refuted, C102_components_refuted, C103_points, C103_equal, C103_false_positives, C103_segment, C103_piecewise, C103_piecewise_equal, C103_piecewise_segments, C103_domain_refuted, C66_partial_derivative_real, C67_integral_interval, C110_axis, C110_line, C110_collinear, C110_docstring_refuted, C110_documented_sum, C80_hat, C84_orientation, C99_closed, C99_open, C99_half_open, C99_closed_uniform, C99_closed_values, C99_open_uniform, C99_open_values, C100_ball, C100_disc, C100_ball_uniform, C100_simplex, C100_simplex_uniform, C90_centroid, C92_oblique
* `ClassicalDedekindReals.sig_forall_dec`, `ClassicalDedekindReals.sig_not_dec`, `FunctionalExtensionality.functional_extensionality_dep`:
  C75_positive_angle, C75_centered_angle, C75_degrees, C76_parallel, C77_distance, C77_distance_error, C77_direction, C78_orthogonal, C78_zero_error, C78_one_dimension_refuted, C79_dial, C79_position, C47_integral_unique, C107_no_area, C115_none, C109_embed_isometry, C67_integral_unique, C80_axis_angle, C80_zero_axis, C80_compose, C80_rodrigues, C80_unit_tolerance_refuted, C84_rotation_2, C84_move, C84_move_2, C101_surface, C101_rotation, C101_circle, C85_edges, C85_diameter, C86_area, C86_area_plane, C86_altitudes, C86_altitude_feet, C86_dual_edges, C87_normal, C87_normal_plane, C87_basis, C87_plane_coordinates, C88_round_trip, C88_nearest, C88_inside, C88_inside_plane, C88_off_plane_refuted, C89_trilinear, C89_round_trip, C90_incenter, C91_point_refuted
* `ClassicalDedekindReals.sig_forall_dec`, `ClassicalDedekindReals.sig_not_dec`, `Classical_Prop.classic`, `FunctionalExtensionality.functional_extensionality_dep`:
  C115_triangle_limit, C115_tetrahedron_limit, C116_interval_fixed, C116_unit_triangle, C116_unit_tetrahedron, C116_triangle, C116_tetrahedron, C116_midpoint, C76_compute_angle, C76_length_error, C76_short_vectors_refuted, C76_parallel_iff, C48_conversion_keeps_values, C48_round_trip, C48_bernstein_degree_limit_refuted, C56_bernstein, C56_bernstein_integral, C119_subset, C119_subset_refuted, C119_empty_refuted, C96_forward_error, C96_central_error, C98_forward_error, C98_central_error, C98_mixed, C47_integrate_unit_simplex, C47_bernstein_basis_fn, C47_homogeneous, C47_l2_inner_product, C47_l2_definite, C104_vertex_normals, C105_volume_gradient, C106_area_gradient, C104_reversed, C106_reversed, C104_flat, C104_unused_vertex, C104_degenerate_triangle, C104_rigid_motion, C104_unused_refuted, C104_degenerate_refuted, C106_flat, C106_boundary_refuted, C106_interior_refuted, C107_centroid, C115_triangle, C115_tetrahedron, C115_triangle_lipschitz, C115_tetrahedron_lipschitz, C115_triangle_converges, C115_tetrahedron_converges, C115_triangle_exact, C115_tetrahedron_exact, C70_weak_derivative, C71_dual, C71_biorthogonal, C67_integrate_simplex, C67_integrate_polynomial_simplex, C67_homogeneous_embedded, C67_l2_inner_product, C67_l2_definite, C67_dual_bernstein, C67_dual_bernstein_pairing, C67_dual_bernstein_monomial, C67_unit_basis_refuted, C72_unit_triangle, C72_unit_tetrahedron, C72_triangle, C72_tetrahedron, C72_triangle_decimal, C72_tetrahedron_decimal, C72_triangle_exact_refuted, C73_unit_interval, C73_interval, C73_interval_error, C73_reversed_refuted, C81_compute_rotation, C81_opposite_refuted, C82_round_trip, C82_identity, C82_near_identity, C82_half_turn, C82_half_turn_overwrites_refuted, C82_near_half_turn_refuted, C83_frame, C83_exact_column_refuted, C84_rotation_3, C84_random_rigid_motion, C90_circumcenter, C90_orthocenter, C90_small_refuted, C91_angles, C91_is_degenerate, C91_large_tolerance_refuted

The set of library axioms that are loaded but not used by any theorem (through
Reals, Coquelicot and ssreflect files: for instance the symbols sealed by
`Coq.ssr.ssrunder.Under_rel` and `Coq.Reals.Rdefinitions.RbaseSymbolsImpl`)
comes from these libraries' own module structure.

## 5. Testing the theorems against wrong programs

`seeded/LOG.jsonl` records the mutations tried: each edits a definition of the
model the way a realistic bug would, the development is rebuilt in a scratch
copy, and the property theorems that no longer prove are listed. Surviving
mutants led to tightened theorems.
