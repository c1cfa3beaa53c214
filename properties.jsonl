{"id": "C01", "title": "generate_all enumerates every multi-index exactly once", "statement": "generate_all(n, r) returns every n-tuple of natural numbers with sum at most r, each exactly once and nothing else; its length is binom(n+r, r), the value num_multiindices(n, r) stands for. The iterator never raises anything but StopIteration and stops after exactly that many elements.", "quantifier": "every dimension n >= 0 and every degree r >= 0", "why_tests_cant": "The polynomial code relies on the list being the complete basis for every n and r; tests compare it for a handful of small (n, r).", "anchors": ["polynomials_on_simplices/algebra/multiindex.py:generate_all", "polynomials_on_simplices/algebra/multiindex.py:MultiIndexIterator.__next__", "polynomials_on_simplices/algebra/multiindex.py:MultiIndexIterator._increase_component", "polynomials_on_simplices/algebra/multiindex.py:num_multiindices"]}
{"id": "C02", "title": "Enumeration order of multi-indices", "statement": "Consecutive elements of generate_all(n, r) are strictly increasing when read as numbers with component 0 as least significant digit. With the base r stated in the docstring of generate this is false; it holds in base r+1 (and, equivalently, in reverse lexicographic order).", "quantifier": "every n, r and every pair of positions in the list", "why_tests_cant": "An ordering over an unbounded family of lists; degree elevation and the index formulas of the meshes depend on it for all sizes.", "anchors": ["polynomials_on_simplices/algebra/multiindex.py:generate", "polynomials_on_simplices/algebra/multiindex.py:generate_all", "polynomials_on_simplices/algebra/multiindex.py:MultiIndexIterator"]}
{"id": "C03", "title": "get_index is the inverse of generate", "statement": "For i < binom(n+r, r), generate(n, r, i) succeeds with a multi-index of length n and norm at most r and get_index of it is i; for every multi-index mi of norm at most r, get_index(mi, r) is a valid position and generate(n, r, get_index(mi, r)) == mi. For i >= binom(n+r, r) generate raises StopIteration; for norm(mi) > r get_index raises AssertionError.", "quantifier": "every n, r, every index i, every multi-index (both the cached and the linear search path)", "why_tests_cant": "All coefficient look-ups go through this bijection; tests cover only small tables.", "anchors": ["polynomials_on_simplices/algebra/multiindex.py:get_index", "polynomials_on_simplices/algebra/multiindex.py:generate"]}
{"id": "C04", "title": "The multi-index order cache agrees with the iterator", "statement": "Every entry of multiindex_order_cache equals the position the linear search would return, and for every cached (n, r) every multi-index of norm at most r has an entry: using the cache is unobservable.", "quantifier": "every (n, r) key of the cache and every multi-index of that key (finite domain, all entries)", "why_tests_cant": "A single wrong entry in an 800-line generated table silently permutes coefficients; the tests sample it.", "anchors": ["polynomials_on_simplices/algebra/multiindex_order_cache.py:multiindex_order_cache", "polynomials_on_simplices/algebra/multiindex.py:get_index"]}
{"id": "C05", "title": "Mixed radix enumeration of capped multi-indices", "statement": "generate_all_multi_cap(r) returns every tuple with 0 <= a_i <= r_i exactly once, (prod (r_i+1)) of them, and generate_multi_cap(r, i) is its i-th element; every element has generate_multi_cap index sum_i a_i * prod_{j<i} (r_j+1). For i >= prod (r_i+1) generate_multi_cap wraps around silently.", "quantifier": "every list of caps r and every index i", "why_tests_cant": "Unbounded number of dimensions and caps.", "anchors": ["polynomials_on_simplices/algebra/multiindex.py:generate_all_multi_cap", "polynomials_on_simplices/algebra/multiindex.py:generate_multi_cap", "polynomials_on_simplices/algebra/multiindex.py:MultiIndexIteratorMultiCap"]}
{"id": "C06", "title": "General and exact-norm multi-indices correspond one to one", "statement": "exact_norm_to_general(general_to_exact_norm(a, r)) == a whenever norm(a) <= r, general_to_exact_norm(exact_norm_to_general(b), norm(b)) == b for non-empty b, norm(general_to_exact_norm(a, r)) == r, and generate_all_exact_norm(n, r) lists every n-tuple with sum exactly r exactly once.", "quantifier": "every multi-index a, b, every r, every n >= 1", "why_tests_cant": "Universal round trip; the Bernstein basis uses it for every basis function.", "anchors": ["polynomials_on_simplices/algebra/multiindex.py:general_to_exact_norm", "polynomials_on_simplices/algebra/multiindex.py:exact_norm_to_general", "polynomials_on_simplices/algebra/multiindex.py:generate_all_exact_norm"]}
{"id": "C07", "title": "A MultiIndex never holds a negative component", "statement": "After any sequence of construction, item assignment, addition and subtraction, every component of every live MultiIndex is >= 0; an operation that would produce a negative component raises ValueError and leaves the old values unchanged. Subtraction succeeds exactly when the subtrahend is component-wise <=, and then (a - b) + b == a.", "quantifier": "every sequence of operations on multi-indices, every integer argument", "why_tests_cant": "Invariant over unbounded operation histories.", "anchors": ["polynomials_on_simplices/algebra/multiindex.py:MultiIndex.__init__", "polynomials_on_simplices/algebra/multiindex.py:MultiIndex.__setitem__", "polynomials_on_simplices/algebra/multiindex.py:MultiIndex.__add__", "polynomials_on_simplices/algebra/multiindex.py:MultiIndex.__sub__", "polynomials_on_simplices/algebra/multiindex.py:MultiIndex.__rsub__"]}
{"id": "C08", "title": "Increasing and non-decreasing multi-indices", "statement": "generate_all_increasing(n, r) (generate_all_non_decreasing(n, r)) lists exactly the strictly increasing (non-decreasing) n-tuples with entries in 0..r, each once; there are binom(r+1, n) (binom(n+r, n)) of them.", "quantifier": "every n >= 1 and r >= 0", "why_tests_cant": "Counts and completeness for unbounded n and r.", "anchors": ["polynomials_on_simplices/algebra/multiindex.py:generate_all_increasing", "polynomials_on_simplices/algebra/multiindex.py:generate_all_non_decreasing", "polynomials_on_simplices/algebra/multiindex.py:is_increasing", "polynomials_on_simplices/algebra/multiindex.py:is_non_decreasing"]}
{"id": "C09", "title": "Multi-index factorials and coefficients", "statement": "binom(a, b) is the product of the component-wise binomial coefficients when b <= a; multinom(a) is a positive integer equal to the number of words with letter counts a; the multinomial theorem (x_1+...+x_n)^r = sum over generate_all_exact_norm(n, r) of multinom(a) * power(x, a) holds.", "quantifier": "every multi-index and every point of every field of characteristic zero", "why_tests_cant": "Integrality and the multinomial theorem are statements over unbounded sums.", "anchors": ["polynomials_on_simplices/algebra/multiindex.py:factorial", "polynomials_on_simplices/algebra/multiindex.py:binom", "polynomials_on_simplices/algebra/multiindex.py:multinom", "polynomials_on_simplices/algebra/multiindex.py:multinom_general", "polynomials_on_simplices/algebra/multiindex.py:power"]}
{"id": "C10", "title": "Integers modulo n form a ring with canonical representatives", "statement": "Every value produced by IntegerModuloN arithmetic is stored as its representative in [0, n); +, -, * and negation satisfy the commutative ring laws and agree with integer arithmetic reduced modulo n, mixing with plain ints on either side gives the same result as converting the int first; operands with different moduli raise ValueError. Comparison with a plain int on the right works for < and >= but raises AttributeError for > and <=.", "quantifier": "every modulus n > 0 and all integers", "why_tests_cant": "Ring laws over all integers and moduli.", "anchors": ["polynomials_on_simplices/algebra/modular_arithmetic.py:IntegerModuloN"]}
{"id": "C11", "title": "Permutation group laws", "statement": "For permutations of size n >= 1, composition(sigma, pi) is the permutation i -> sigma[pi[i]], identity(n) is neutral, inverse is a two-sided inverse, composition is associative and results are permutations again; for the empty permutation inverse and composition raise IndexError.", "quantifier": "every n and all permutations of 0..n-1", "why_tests_cant": "n! permutations for unbounded n; both functions are implemented through sorting of two-line notation so the group laws are not evident.", "anchors": ["polynomials_on_simplices/algebra/permutations.py:identity", "polynomials_on_simplices/algebra/permutations.py:inverse", "polynomials_on_simplices/algebra/permutations.py:composition", "polynomials_on_simplices/algebra/permutations.py:to_two_line_notation", "polynomials_on_simplices/algebra/permutations.py:from_two_line_notation"]}
{"id": "C12", "title": "Cycle notation round trip", "statement": "cycle(p, i) terminates for every permutation p and returns the distinct elements i, p(i), p(p(i)), ...; to_cycle_notation(p) partitions 0..n-1 into cycles and from_cycle_notation(to_cycle_notation(p), n) == p.", "quantifier": "every n, every permutation, every start element", "why_tests_cant": "Termination of a while loop over an unbounded family.", "anchors": ["polynomials_on_simplices/algebra/permutations.py:cycle", "polynomials_on_simplices/algebra/permutations.py:to_cycle_notation", "polynomials_on_simplices/algebra/permutations.py:from_cycle_notation"]}
{"id": "C13", "title": "Transposition notation round trip", "statement": "from_transpositions(to_transpositions(p), n) == p, the number of transpositions is n minus the number of cycles, and sign(p) == (-1)^len(to_transpositions(p)).", "quantifier": "every n and every permutation", "why_tests_cant": "Unbounded n.", "anchors": ["polynomials_on_simplices/algebra/permutations.py:to_transpositions", "polynomials_on_simplices/algebra/permutations.py:from_transpositions", "polynomials_on_simplices/algebra/permutations.py:sign", "polynomials_on_simplices/algebra/permutations.py:swap"]}
{"id": "C14", "title": "sign is the parity of inversions", "statement": "sign(p), computed from even-length cycles, equals (-1) to the number of inversions of p; hence sign(composition(p, q)) == sign(p) * sign(q), swapping two entries flips the sign, sign(identity(n)) == 1 and sign(inverse(p)) == sign(p).", "quantifier": "every n and all permutations", "why_tests_cant": "Homomorphism property over unbounded symmetric groups; orientation handling of meshes depends on it.", "anchors": ["polynomials_on_simplices/algebra/permutations.py:sign", "polynomials_on_simplices/algebra/permutations.py:swap", "polynomials_on_simplices/algebra/permutations.py:composition", "polynomials_on_simplices/algebra/permutations.py:inverse"]}
{"id": "C15", "title": "Enumeration of permutations and subset permutations", "statement": "permutations(n) (n >= 1) lists every permutation of 0..n-1 exactly once, n! of them; subset_permutations(n, k) every k-tuple of distinct elements exactly once, n!/(n-k)! of them; increasing_subset_permutations(n, k) every strictly increasing k-tuple exactly once, binom(n, k) of them; for k <= 0 or k > n the result is empty.", "quantifier": "every n and k", "why_tests_cant": "Completeness for all n and k.", "anchors": ["polynomials_on_simplices/algebra/permutations.py:permutations", "polynomials_on_simplices/algebra/permutations.py:subset_permutations", "polynomials_on_simplices/algebra/permutations.py:increasing_subset_permutations", "polynomials_on_simplices/algebra/permutations.py:generate_subset_permutations", "polynomials_on_simplices/algebra/permutations.py:generate_increasing_subset_permutations"]}
{"id": "C16", "title": "Random permutation is always a permutation and every permutation is reachable", "statement": "Whatever values random.randint returns within its contract, generate_random_permutation(n) is a permutation of 0..n-1, distinct random choice sequences give distinct permutations and every permutation is produced by some choice sequence (so uniform choices give a uniform permutation); the subset variants return k distinct elements (sorted in the increasing variant).", "quantifier": "every n, k and every sequence of random draws", "why_tests_cant": "Quantifies over all random streams.", "anchors": ["polynomials_on_simplices/algebra/permutations.py:generate_random_permutation", "polynomials_on_simplices/algebra/permutations.py:generate_random_subset_permutation", "polynomials_on_simplices/algebra/permutations.py:generate_random_increasing_subset_permutation"]}
{"id": "C17", "title": "construct_permutation meets its constraints", "statement": "For distinct domain values and distinct codomain values below n, construct_permutation(domain, codomain, n) is a permutation sending domain[i] to codomain[i] for all i. construct_permutation_general(domain, codomain) is the permutation with codomain[i] == domain[p[i]] (by value) and its inverse by position.", "quantifier": "every n, all constraint lists", "why_tests_cant": "The swap loop could destroy earlier constraints; only a proof over all constraint lists shows it does not.", "anchors": ["polynomials_on_simplices/algebra/permutations.py:construct_permutation", "polynomials_on_simplices/algebra/permutations.py:construct_permutation_general"]}
{"id": "C18", "title": "Permutation action and permutation matrices", "statement": "permute_values(p, s)[i] == s[p[i]], permute_positions(p, s)[p[i]] == s[i], they are mutually inverse, and multiplying with permutation_matrix_values(p) (permutation_matrix_positions(p)) gives the same result; the two matrices are inverse to each other.", "quantifier": "every n, every permutation and every sequence", "why_tests_cant": "Universal statement over all permutations.", "anchors": ["polynomials_on_simplices/algebra/permutations.py:permute_values", "polynomials_on_simplices/algebra/permutations.py:permute_positions", "polynomials_on_simplices/algebra/permutations.py:permutation_matrix_values", "polynomials_on_simplices/algebra/permutations.py:permutation_matrix_positions"]}
{"id": "C19", "title": "Circular equivalence", "statement": "circularly_equivalent is an equivalence relation on sequences of equal length and holds exactly when one is a rotation of the other; cyclic_permutations(p) are the n rotations of p.", "quantifier": "all permutations/sequences", "why_tests_cant": "Equivalence relation laws over all inputs.", "anchors": ["polynomials_on_simplices/algebra/permutations.py:cyclic_permutations", "polynomials_on_simplices/algebra/permutations.py:circularly_equivalent"]}
{"id": "C20", "title": "Cartesian powers of a set", "statement": "For n >= 2 nfold_cartesian_product(s, n) is exactly the set of n-tuples over s and has |s|^n elements; for n == 1 it returns s itself (elements, not 1-tuples) and for n == 0 the empty set, so |result| == |s|^n fails at n == 0.", "quantifier": "every finite set s and every n", "why_tests_cant": "Unbounded n.", "anchors": ["polynomials_on_simplices/set_theory.py:cartesian_product", "polynomials_on_simplices/set_theory.py:nfold_cartesian_product"]}
{"id": "C21", "title": "The boundary of a boundary vanishes", "statement": "Applying simplex_boundary_map to a simplex and then, linearly, to each resulting face gives the zero chain; correspondingly the matrices returned by boundary_map_matrix for dimensions k and k-1 multiply to zero, also when the faces listed in the complex are stored with arbitrary vertex order.", "quantifier": "every simplex of every dimension with distinct vertices, every finite simplicial complex closed under faces, every stored vertex order", "why_tests_cant": "The defining law of a chain complex over all simplices; tests check a few small complexes.", "anchors": ["polynomials_on_simplices/geometry/mesh/simplicial_complex.py:simplex_boundary_map", "polynomials_on_simplices/geometry/mesh/simplicial_complex.py:boundary_map_matrix"]}
{"id": "C22", "title": "Orientation of boundary simplices", "statement": "simplex_boundary(s) returns for each i the face with vertex i removed; listed order and the coefficient (-1)^i from simplex_boundary_map agree: each returned face is a rearrangement of the i-th face with permutation sign (-1)^i (for simplices of dimension at least 2).", "quantifier": "every simplex of dimension >= 2", "why_tests_cant": "Universal over dimensions.", "anchors": ["polynomials_on_simplices/geometry/mesh/simplicial_complex.py:simplex_boundary", "polynomials_on_simplices/geometry/mesh/simplicial_complex.py:simplex_boundary_map", "polynomials_on_simplices/geometry/mesh/simplicial_complex.py:swap_simplex_orientation"]}
{"id": "C23", "title": "boundary() returns the faces with odd incidence", "statement": "boundary(simplices) returns exactly those codimension one faces that are contained in an odd number of the given simplices (for a manifold mesh: in exactly one), each once, with the orientation induced by a simplex containing it; the boundary of a closed complex is empty.", "quantifier": "every list of simplices of equal dimension with distinct vertices", "why_tests_cant": "An invariant of a toggling dictionary over all meshes.", "anchors": ["polynomials_on_simplices/geometry/mesh/simplicial_complex.py:boundary"]}
{"id": "C24", "title": "Sub-simplices of a simplex", "statement": "simplex_sub_simplices(s) is exactly the set of sorted tuples of the non-empty subsets of the vertices of s (2^(n+1) - 1 of them when include_self is set), and the fixed dimension variant exactly those with k+1 vertices, binom(n+1, k+1) of them.", "quantifier": "every simplex with distinct vertices, every k", "why_tests_cant": "Recursive set construction over unbounded dimension.", "anchors": ["polynomials_on_simplices/geometry/mesh/simplicial_complex.py:simplex_sub_simplices", "polynomials_on_simplices/geometry/mesh/simplicial_complex.py:simplex_sub_simplices_fixed_dimension", "polynomials_on_simplices/geometry/mesh/simplicial_complex.py:opposite_sub_simplex"]}
{"id": "C25", "title": "Swapping orientation", "statement": "swap_simplex_orientation is an involution that keeps the vertex set and changes the orientation sign of simplices of dimension >= 1, swap_orientation does this for every simplex of a mesh; a triangle mesh with consistent orientation keeps it under swap_orientation.", "quantifier": "every simplex and every mesh", "why_tests_cant": "Universal over meshes.", "anchors": ["polynomials_on_simplices/geometry/mesh/simplicial_complex.py:swap_simplex_orientation", "polynomials_on_simplices/geometry/mesh/simplicial_complex.py:swap_orientation", "polynomials_on_simplices/geometry/mesh/triangle_mesh.py:swap_orientation", "polynomials_on_simplices/geometry/mesh/triangle_mesh.py:has_same_orientation", "polynomials_on_simplices/geometry/mesh/triangle_mesh.py:has_consistent_orientation"]}
{"id": "C26", "title": "Rectangle triangulation is a correct triangulation", "statement": "rectangle_triangulation(w, h) has 2(w-1)(h-1) triangles, all indices are valid positions in rectangle_vertices(width, height, w, h), every triangle is positively oriented with the same area, the areas sum to the area of the rectangle, every directed edge is used at most once, and in the other direction exactly when it is not on a side of the rectangle. The triangles cover exactly the rectangle and their interiors are disjoint.", "quantifier": "all edge vertex counts w, h >= 2 and all positive sizes", "why_tests_cant": "Index arithmetic over unbounded grids.", "anchors": ["polynomials_on_simplices/geometry/mesh/basic_meshes/triangle_meshes.py:rectangle_triangulation", "polynomials_on_simplices/geometry/mesh/basic_meshes/triangle_meshes.py:rectangle_vertices"]}
{"id": "C27", "title": "Triangle triangulation is a correct triangulation", "statement": "triangle_triangulation(E) has (E-1)^2 triangles, all indices are valid, the closed index formula used for a vertex equals the position of its multi-index in generate_all(2, E-1) and hence in triangle_vertices, every mesh triangle has the area of the whole divided by (E-1)^2 (general_triangle_vertices, of which triangle_vertices and equilateral_triangle_vertices are special cases), every directed edge is used at most once, and in the other direction exactly when it is not on a side. The mesh triangles cover exactly the triangle and have disjoint interiors if it is not degenerate.", "quantifier": "all E >= 2", "why_tests_cant": "Index arithmetic over unbounded meshes.", "anchors": ["polynomials_on_simplices/geometry/mesh/basic_meshes/triangle_meshes.py:triangle_triangulation", "polynomials_on_simplices/geometry/mesh/basic_meshes/triangle_meshes.py:triangle_vertices"]}
{"id": "C28", "title": "Box triangulation is a correct triangulation", "statement": "rectangular_box_triangulation(l, w, h) has 6(l-1)(w-1)(h-1) tetrahedra, all indices valid, every tetrahedron positively oriented, all with the same volume, and the signed volumes add up to the volume of the box; a face lies on a side of the box or is shared with a second tetrahedron; the tetrahedra cover exactly the box and their interiors are disjoint.", "quantifier": "all vertex counts >= 2", "why_tests_cant": "Index arithmetic over unbounded grids.", "anchors": ["polynomials_on_simplices/geometry/mesh/basic_meshes/tet_meshes.py:rectangular_box_triangulation", "polynomials_on_simplices/geometry/mesh/basic_meshes/tet_meshes.py:unit_cube_vertices"]}
{"id": "C29", "title": "Bounding boxes", "statement": "aabb.create(points) is the smallest box containing all points; union(a, b) the smallest box containing both; a point is inside intersection(a, b) exactly when it is inside both; is_empty holds exactly when no point is inside; corner(aabb, i) runs through the 2^n corners without repetition.", "quantifier": "every dimension, all non-empty point lists, all boxes, all points", "why_tests_cant": "Geometric statements over all points.", "anchors": ["polynomials_on_simplices/geometry/proximity/aabb.py:create", "polynomials_on_simplices/geometry/proximity/aabb.py:union", "polynomials_on_simplices/geometry/proximity/aabb.py:intersection", "polynomials_on_simplices/geometry/proximity/aabb.py:is_empty", "polynomials_on_simplices/geometry/proximity/aabb.py:corner", "polynomials_on_simplices/geometry/proximity/aabb.py:point_inside"]}
{"id": "C30", "title": "Point location in a kd-tree", "statement": "However a kd-tree was built by subdivisions, find_leaf_containing_point terminates in a leaf whose region (in_node_space) contains the point, the regions of the leaves cover space, and two different leaves share at most points on a cutting plane.", "quantifier": "every tree reachable by any sequence of subdivide calls, every point", "why_tests_cant": "Quantifies over all trees and points.", "anchors": ["polynomials_on_simplices/geometry/space_partitioning/kd_tree.py:KdTreeNode", "polynomials_on_simplices/geometry/space_partitioning/kd_tree.py:find_leaf_containing_point", "polynomials_on_simplices/geometry/space_partitioning/kd_tree.py:in_node_space"]}
{"id": "C31", "title": "kd-tree node addresses", "statement": "get_node_by_address(root, node.address()) is node, depth equals the length of the address, sibling is an involution without fixed points on non-root nodes, subdivide raises RuntimeError on a non-leaf and cut_subtree makes the node a leaf.", "quantifier": "every tree and every node", "why_tests_cant": "Quantifies over all trees.", "anchors": ["polynomials_on_simplices/geometry/space_partitioning/kd_tree.py:KdTreeNode", "polynomials_on_simplices/geometry/space_partitioning/kd_tree.py:get_node_by_address", "polynomials_on_simplices/geometry/space_partitioning/kd_tree.py:get_descendant"]}
{"id": "C32", "title": "node_aabb against the node region", "statement": "node_aabb(node) always contains every point of the root box that lies in the region of the node. Equality holds if every cutting plane passes through the box of the node it cuts, and fails otherwise.", "quantifier": "every tree, every node, every point", "why_tests_cant": "Quantifies over all trees and points.", "anchors": ["polynomials_on_simplices/geometry/space_partitioning/kd_tree.py:node_aabb", "polynomials_on_simplices/geometry/space_partitioning/kd_tree.py:in_node_space"]}
{"id": "C33", "title": "The mesh kd-tree misses no simplex", "statement": "For every node of a kd-mesh tree, every mesh simplex that has a point inside the node's region within the mesh bounding box is listed in potentially_intersecting_simplices; in particular the leaf found for a point lists every simplex containing that point.", "quantifier": "every mesh, every subdivision history, every point", "why_tests_cant": "Conservativeness over all meshes and points; evaluating a piecewise polynomial is wrong wherever it fails.", "anchors": ["polynomials_on_simplices/geometry/space_partitioning/kd_mesh_tree/simplicial_mesh_kd_tree.py:KdTreeSMNode", "polynomials_on_simplices/geometry/space_partitioning/kd_mesh_tree/simplicial_mesh_kd_tree.py:create_kd_tree"]}
{"id": "C34", "title": "Local-to-global map of discontinuous piecewise polynomials", "statement": "Without boundary simplices, tau(j, nu) over all simplices j and all nu of norm <= r is a bijection onto 0..num_dofs-1 with num_dofs = #simplices * binom(n+r, r). With boundary simplices tau is -1 exactly on the local basis functions attached to a listed boundary simplex and is a bijection from the others onto 0..num_dofs-1; with keep_boundary_dofs_last it is a bijection in which every attached function comes after every other one and num_internal_dofs counts the others.", "quantifier": "every mesh, degree, boundary list", "why_tests_cant": "Bijection over unbounded meshes and degrees.", "anchors": ["polynomials_on_simplices/piecewise_polynomial/piecewise_polynomial.py:generate_local_to_global_map", "polynomials_on_simplices/piecewise_polynomial/piecewise_polynomial.py:generate_local_to_global_map_as_dictionaries"]}
{"id": "C35", "title": "Inverse local-to-global map", "statement": "tau_inv(tau(j, nu)) == (j, nu) and tau(tau_inv(i)) == i.", "quantifier": "every mesh, degree, index", "why_tests_cant": "Round trip over unbounded meshes.", "anchors": ["polynomials_on_simplices/piecewise_polynomial/piecewise_polynomial.py:generate_inverse_local_to_global_map"]}
{"id": "C36", "title": "Vector valued local-to-global maps", "statement": "For both orderings the vector valued map (j, nu, k) -> index is a bijection onto 0..n*num_dofs-1 whenever the scalar map is one, consistent with the scalar map (interleaved: n*i+k; sequential: k*num_dofs+i), and its inverse map inverts it.", "quantifier": "every scalar map, every codomain dimension n >= 1", "why_tests_cant": "Bijection over unbounded ranges.", "anchors": ["polynomials_on_simplices/piecewise_polynomial/piecewise_polynomial.py:generate_vector_valued_local_to_global_map", "polynomials_on_simplices/piecewise_polynomial/piecewise_polynomial.py:generate_inverse_vector_valued_local_to_global_map"]}
{"id": "C37", "title": "Continuous local-to-global map identifies exactly the shared degrees of freedom", "statement": "For the continuous map, tau(j, nu) == tau(k, mu) exactly when both local basis functions sit on the same geometric sub-simplex with the same weights per vertex; tau is onto 0..num_dofs-1 and injective on each single simplex.", "quantifier": "every mesh of simplices with distinct vertices, every degree", "why_tests_cant": "Continuity of finite element functions rests on this for every mesh.", "anchors": ["polynomials_on_simplices/piecewise_polynomial/continuous_piecewise_polynomial.py:generate_local_to_global_map", "polynomials_on_simplices/piecewise_polynomial/continuous_piecewise_polynomial.py:generate_local_to_global_map_as_dictionaries"]}
{"id": "C38", "title": "Continuous map with boundary simplices", "statement": "With boundary simplices, tau is -1 exactly on the functions attached to a boundary simplex; with keep_boundary_dofs_last those functions are numbered after all others. (The second part fails when a boundary simplex has full dimension.)", "quantifier": "every mesh, degree, boundary list", "why_tests_cant": "Quantifies over all meshes and boundary lists.", "anchors": ["polynomials_on_simplices/piecewise_polynomial/continuous_piecewise_polynomial.py:generate_local_to_global_map_as_dictionaries"]}
{"id": "C39", "title": "Monomial polynomials: arithmetic agrees with pointwise arithmetic", "statement": "Evaluating p+q, p-q, c*p, p*q, p/c and p**e (integer and multi-index exponents) gives the corresponding arithmetic on the values p(x), q(x), for operands of any (also different) degrees. (A result of degree 20 or more in a positive dimension cannot be constructed: AssertionError.)", "quantifier": "every dimension, all degrees, all coefficient arrays, all points", "why_tests_cant": "Polynomial identity over unbounded degree and dimension; tests use random samples at low degree.", "anchors": ["polynomials_on_simplices/polynomial/polynomials_monomial_basis.py:Polynomial.__mul__", "polynomials_on_simplices/polynomial/polynomials_monomial_basis.py:Polynomial.__pow__", "polynomials_on_simplices/polynomial/polynomials_monomial_basis.py:Polynomial.__call__", "polynomials_on_simplices/polynomial/polynomials_base.py:PolynomialBase.__add__", "polynomials_on_simplices/polynomial/polynomials_base.py:PolynomialBase.__sub__", "polynomials_on_simplices/polynomial/polynomials_base.py:PolynomialBase.multiply_with_constant"]}
{"id": "C40", "title": "Monomial polynomials: derivative and degree elevation", "statement": "partial_derivative(i) is the partial derivative of the polynomial function; degree_elevate(s) represents the same function with degree s, keeping the coefficient of every monomial of degree at most r and setting the others to zero.", "quantifier": "every dimension, degree, coefficients, point", "why_tests_cant": "Analytic statement over all inputs.", "anchors": ["polynomials_on_simplices/polynomial/polynomials_monomial_basis.py:Polynomial.partial_derivative", "polynomials_on_simplices/polynomial/polynomials_monomial_basis.py:Polynomial.degree_elevate"]}
{"id": "C41", "title": "Bernstein polynomials: arithmetic agrees with pointwise arithmetic", "statement": "Evaluating p+q, p-q, c*p, p*q and p**e in the Bernstein basis gives the corresponding arithmetic on the values; unit_polynomial evaluates to 1 (partition of unity). (Fails for results of degree 20 or more, and for multi-index powers of scalar valued polynomials.)", "quantifier": "every dimension, all degrees, all coefficient arrays, all points", "why_tests_cant": "The product formula involves multinomial quotients over unbounded degree and dimension.", "anchors": ["polynomials_on_simplices/polynomial/polynomials_unit_simplex_bernstein_basis.py:PolynomialBernstein.__mul__", "polynomials_on_simplices/polynomial/polynomials_unit_simplex_bernstein_basis.py:PolynomialBernstein.__pow__", "polynomials_on_simplices/polynomial/polynomials_unit_simplex_bernstein_basis.py:PolynomialBernstein.__call__", "polynomials_on_simplices/polynomial/polynomials_unit_simplex_bernstein_basis.py:unit_polynomial"]}
{"id": "C42", "title": "Bernstein polynomials: derivative and degree elevation", "statement": "partial_derivative(i) is the partial derivative of the polynomial function and degree_elevate(s) represents the same function.", "quantifier": "every dimension, degree, coefficients, point", "why_tests_cant": "Combinatorial index shifting over unbounded degree and dimension.", "anchors": ["polynomials_on_simplices/polynomial/polynomials_unit_simplex_bernstein_basis.py:PolynomialBernstein.partial_derivative", "polynomials_on_simplices/polynomial/polynomials_unit_simplex_bernstein_basis.py:PolynomialBernstein.degree_elevate"]}
{"id": "C43", "title": "Bernstein values are convex combinations", "statement": "On the unit simplex every Bernstein basis function is >= 0 and they sum to 1, so p(x) lies between the smallest and the largest coefficient; p at vertex i is the corresponding coefficient.", "quantifier": "every dimension, degree, coefficients, every point of the unit simplex", "why_tests_cant": "Inequality over a continuum of points.", "anchors": ["polynomials_on_simplices/polynomial/polynomials_unit_simplex_bernstein_basis.py:PolynomialBernstein", "polynomials_on_simplices/polynomial/polynomials_unit_simplex_bernstein_basis.py:bernstein_basis_fn"]}
{"id": "C44", "title": "Lagrange basis functions are nodal and polynomials are determined by nodal values", "statement": "The Lagrange polynomial with coefficients c takes the value c_i at the i-th Lagrange point, and two polynomials of degree at most r agreeing at all Lagrange points of the simplex agree everywhere.", "quantifier": "every dimension and degree, all coefficients", "why_tests_cant": "Unisolvence for unbounded dimension and degree.", "anchors": ["polynomials_on_simplices/polynomial/polynomials_unit_simplex_lagrange_basis.py:PolynomialLagrange", "polynomials_on_simplices/polynomial/polynomials_unit_simplex_lagrange_basis.py:lagrange_basis_fn", "polynomials_on_simplices/polynomial/polynomials_unit_simplex_lagrange_basis.py:generate_lagrange_points"]}
{"id": "C45", "title": "Lagrange polynomials: arithmetic agrees with pointwise arithmetic", "statement": "Evaluating p+q, p-q, c*p, p*q, p**e, degree_elevate(s) and partial_derivative(i) in the Lagrange basis gives the corresponding operation on the polynomial functions. (Fails for results of degree 20 or more, and for multi-index powers of scalar valued polynomials.)", "quantifier": "every dimension, degree, coefficients, points", "why_tests_cant": "Products are computed by resampling at Lagrange points, correct only because of unisolvence at every degree.", "anchors": ["polynomials_on_simplices/polynomial/polynomials_unit_simplex_lagrange_basis.py:PolynomialLagrange.__mul__", "polynomials_on_simplices/polynomial/polynomials_unit_simplex_lagrange_basis.py:PolynomialLagrange.__pow__", "polynomials_on_simplices/polynomial/polynomials_unit_simplex_lagrange_basis.py:PolynomialLagrange.degree_elevate", "polynomials_on_simplices/polynomial/polynomials_unit_simplex_lagrange_basis.py:PolynomialLagrange.partial_derivative"]}
{"id": "C46", "title": "Tabulated Lagrange basis coefficients", "statement": "Every entry of the Lagrange coefficient cache is the monomial coefficient vector of the polynomial that is 1 at its own Lagrange point and 0 at all others of that degree.", "quantifier": "every cache entry (finite, all entries)", "why_tests_cant": "A wrong number in a large generated table.", "anchors": ["polynomials_on_simplices/polynomial/polynomials_unit_simplex_lagrange_basis_cache.py:lagrange_basis_coefficients_cache"]}
{"id": "C47", "title": "Integration over the unit simplex", "statement": "integrate_unit_simplex of a monomial, Bernstein or Lagrange polynomial equals, component by component, its iterated Riemann integral over the unit simplex; the tabulated monomial integrals agree with the formula nu! / (n + |nu|)!; l2_inner_product_unit is the integral of the product (below the degree limit of the code generator) and l2_norm_unit vanishes only for the zero polynomial.", "quantifier": "every dimension, degree, coefficients", "why_tests_cant": "An integral identity over unbounded dimension and degree.", "anchors": ["polynomials_on_simplices/calculus/polynomial/polynomials_simplex_monomial_basis_calculus.py:integrate_polynomial_unit_simplex", "polynomials_on_simplices/calculus/polynomial/monomial_integrals_unit_simplex_cache.py:monomial_integrals_unit_simplex_cache"]}
{"id": "C48", "title": "Conversion between polynomial bases keeps the function", "statement": "to_monomial_basis of a Bernstein or Lagrange polynomial and convert_polynomial_to_basis to any of the three bases evaluate to the same value everywhere (for the Bernstein target when twice the degree is below the degree limit of the code generator), and converting there and back gives back the coefficients.", "quantifier": "every dimension, degree, coefficients, point", "why_tests_cant": "Identity of functions over unbounded families.", "anchors": ["polynomials_on_simplices/polynomial/polynomials_unit_simplex_bernstein_basis.py:PolynomialBernstein.to_monomial_basis", "polynomials_on_simplices/polynomial/polynomials_unit_simplex_bernstein_basis.py:bernstein_basis_fn_monomial", "polynomials_on_simplices/polynomial/polynomials_unit_simplex_bases.py:convert_polynomial_to_basis"]}
{"id": "C49", "title": "Barycentric coordinates", "statement": "For a non-degenerate positively oriented simplex, cartesian_to_barycentric(p, vertices) sums to 1, barycentric_to_cartesian of it is p and conversely; for a negatively oriented simplex every coordinate has the wrong sign, so inside_simplex rejects interior points. For a simplex of lower dimension than its space the result is that of the orthogonal projection on the affine hull, or AssertionError if the point is further away than the tolerance.", "quantifier": "every dimension, every simplex, every point", "why_tests_cant": "Cramer's rule over all dimensions and points; the sign error only shows on one orientation class.", "anchors": ["polynomials_on_simplices/geometry/primitives/simplex.py:cartesian_to_barycentric", "polynomials_on_simplices/geometry/primitives/simplex.py:barycentric_to_cartesian", "polynomials_on_simplices/geometry/primitives/simplex.py:inside_simplex"]}
{"id": "C50", "title": "Piecewise polynomial arithmetic", "statement": "For the four classes of piecewise polynomials (continuous or not, Bernstein or Lagrange basis): evaluate_on_simplex(j, x) is the combination of the basis polynomials of simplex j with the coefficients tau assigns to them; restrict_to_simplex(j) is the polynomial evaluate_on_simplex(j, .) evaluates; sum, difference, multiple, quotient, outer product with a vector, component, product, power, multi-index power, degree elevation, zero and unit polynomials have on every simplex the corresponding values. Fails with boundary simplices whose degrees of freedom are dropped (the index -1 is used as an array index), for sums where the second operand has larger support (KeyError), for a continuous times a discontinuous operand (the product is silently made continuous), for multi-index powers of scalar valued polynomials (TypeError/IndexError) and for unit polynomials with boundary simplices or unused vertices; the constructor of the discontinuous classes raises ValueError when keep_boundary_dofs_last is set and tau is not given.", "quantifier": "every mesh of non-degenerate simplices of every dimension, every degree up to the supported limit, all coefficients and every point", "why_tests_cant": "Quantifies over all meshes, supports, coefficients and points; tests use one or two small meshes.", "anchors": ["polynomials_on_simplices/piecewise_polynomial/piecewise_polynomial.py:PiecewisePolynomialBase.evaluate_on_simplex", "polynomials_on_simplices/piecewise_polynomial/piecewise_polynomial.py:PiecewisePolynomialBase.__add__", "polynomials_on_simplices/piecewise_polynomial/piecewise_polynomial.py:PiecewisePolynomialBase.__sub__", "polynomials_on_simplices/piecewise_polynomial/piecewise_polynomial.py:PiecewisePolynomialBase.multiply_with_constant", "polynomials_on_simplices/piecewise_polynomial/piecewise_polynomial.py:PiecewisePolynomialBase.__pow__", "polynomials_on_simplices/piecewise_polynomial/piecewise_polynomial.py:PiecewisePolynomialBase.__getitem__", "polynomials_on_simplices/piecewise_polynomial/piecewise_polynomial_bernstein_basis.py:PiecewisePolynomialBernstein.restrict_to_simplex", "polynomials_on_simplices/piecewise_polynomial/piecewise_polynomial_bernstein_basis.py:PiecewisePolynomialBernstein.__mul__", "polynomials_on_simplices/piecewise_polynomial/piecewise_polynomial_bernstein_basis.py:PiecewisePolynomialBernstein.degree_elevate", "polynomials_on_simplices/piecewise_polynomial/piecewise_polynomial_lagrange_basis.py:PiecewisePolynomialLagrange.__mul__"]}
{"id": "C51", "title": "Orientation of a given boundary simplex", "statement": "simplex_boundary_orientation(simplex, b) is the sign relating b to the face of simplex on the same vertices with its induced orientation (-1)^i (dimension >= 2); ValueError when b is not a face, AssertionError when it has the wrong number of vertices. (For an edge both endpoints get +1.)", "quantifier": "every simplex and every list of distinct vertices", "why_tests_cant": "Universal over dimensions and vertex orders; the sign of a permutation built by substitution.", "anchors": ["polynomials_on_simplices/geometry/mesh/simplicial_complex.py:simplex_boundary_orientation", "polynomials_on_simplices/geometry/mesh/simplicial_complex.py:_find_boundary_simplex", "polynomials_on_simplices/geometry/mesh/simplicial_complex.py:_substitute_vertex_indices"]}
{"id": "C52", "title": "Adjacency in triangle meshes", "statement": "neighbour(t, i, j) is the first other triangle holding both vertices of edge j, and the relation is symmetric when every edge belongs to at most two triangles; opposite_vertex returns a vertex of that neighbour outside triangle i; edge_index finds the edge exactly when both vertices belong to the triangle.", "quantifier": "every triangle mesh", "why_tests_cant": "Quantifies over all meshes.", "anchors": ["polynomials_on_simplices/geometry/mesh/triangle_mesh.py:neighbour", "polynomials_on_simplices/geometry/mesh/triangle_mesh.py:opposite_vertex", "polynomials_on_simplices/geometry/mesh/triangle_mesh.py:edge_index"]}
{"id": "C53", "title": "Preimage maps return exactly the local functions with the given global indices", "statement": "For a local-to-global map tau made by either generator, preimage(set of global indices) is the set of exactly those (j, nu) (or (j, nu, k) for vector valued maps) with tau(j, nu) in the set; every index in range has a non-empty preimage so no KeyError occurs.", "quantifier": "all meshes, degrees, boundary simplices, both orderings and all index sets in range", "why_tests_cant": "Tests try a couple of meshes; the statement ranges over every mesh and every subset of global indices.", "anchors": ["polynomials_on_simplices/piecewise_polynomial/continuous_piecewise_polynomial.py:generate_local_to_global_preimage_map", "polynomials_on_simplices/piecewise_polynomial/continuous_piecewise_polynomial.py:generate_vector_valued_local_to_global_preimage_map"]}
{"id": "C54", "title": "Vector valued maps keep boundary degrees of freedom last", "statement": "With keep_boundary_dofs_last the vector valued local-to-global map gives every component of a boundary function an index at or after the returned number of internal dofs, and every other function a smaller one. (Holds for interleaved ordering; fails for sequential ordering, contradicting the docstring.)", "quantifier": "all meshes, degrees, component counts, boundary simplices, both orderings", "why_tests_cant": "Existing tests never look at sequential ordering together with boundary dofs last.", "anchors": ["polynomials_on_simplices/piecewise_polynomial/piecewise_polynomial.py:generate_vector_valued_local_to_global_map"]}
{"id": "C55", "title": "Generated evaluation code computes the polynomial", "statement": "The constructor succeeds for every coefficient array of the right size with degree at most 19, and calling the object, which runs source code generated from the coefficients (with shortcuts for zero, one and negative coefficients and cached expressions), returns the sum of the coefficients times the basis functions in the order of generate_all.", "quantifier": "every dimension, degree at most 19, all coefficient arrays, all points", "why_tests_cant": "Code generation has special cases per coefficient and per exponent, unboundedly many combinations.", "anchors": ["polynomials_on_simplices/polynomial/polynomials_monomial_basis.py:Polynomial.__init__", "polynomials_on_simplices/polynomial/polynomials_monomial_basis.py:Polynomial.__call__", "polynomials_on_simplices/polynomial/polynomials_unit_simplex_bernstein_basis.py:PolynomialBernstein.__init__", "polynomials_on_simplices/polynomial/code_generation/generate_monomial_polynomial_functions.py:generate_function_eval_specific_scalar_valued"]}
{"id": "C56", "title": "Dual bases are biorthogonal", "statement": "The dual Bernstein and dual Lagrange basis functions evaluate to 1 on their own basis polynomial and 0 on all others; over the reals the integral over the unit simplex of a dual Bernstein polynomial times a Bernstein basis polynomial is 1 or 0; the dual monomial basis functions of any polynomial, in whatever basis it is given, are its Taylor coefficients, so they reconstruct its values.", "quantifier": "every dimension, every degree (twice the degree at most 19 for evaluation of dual Bernstein functions), every pair of multi-indices", "why_tests_cant": "The dual basis comes out of a matrix inverse (or a closed formula in one variable) for every dimension and degree; regularity of the Gram matrix is itself a theorem.", "anchors": ["polynomials_on_simplices/polynomial/polynomials_unit_simplex_bernstein_basis.py:dual_bernstein_basis_fn", "polynomials_on_simplices/polynomial/polynomials_unit_simplex_bernstein_basis.py:dual_bernstein_basis_polynomial", "polynomials_on_simplices/polynomial/polynomials_unit_simplex_lagrange_basis.py:dual_lagrange_basis_fn", "polynomials_on_simplices/polynomial/polynomials_monomial_basis.py:dual_monomial_basis_fn"]}
{"id": "C57", "title": "Higher derivatives, Hessian and Jacobian", "statement": "derivative(p, alpha) equals applying partial_derivative in any order in which direction i occurs alpha_i times, giving the same object; partial derivatives commute; the Hessian is an m x m array with entry (i, j) equal to the second partial derivative and symmetric; entry (i, j) of the Jacobian is component i of the partial derivative in direction j.", "quantifier": "every basis, dimension, degree, polynomial, multi-index of orders and order of differentiation", "why_tests_cant": "All orders of differentiation over all polynomials.", "anchors": ["polynomials_on_simplices/calculus/polynomial/polynomials_calculus.py:derivative", "polynomials_on_simplices/calculus/polynomial/polynomials_calculus.py:hessian", "polynomials_on_simplices/calculus/polynomial/polynomials_calculus.py:jacobian"]}
{"id": "C58", "title": "Degree elevated Bernstein basis functions and barycentric polynomials", "statement": "degree_elevated_bernstein_basis_fn(nu, r, s) is a degree s Bernstein polynomial equal as a function to the degree r basis function nu; barycentric_polynomial_general evaluates the sum of a_nu x^nu (1 - |x|)^(r - |nu|).", "quantifier": "every dimension, r < s <= 19, every multi-index, every point", "why_tests_cant": "Function identity over unbounded families.", "anchors": ["polynomials_on_simplices/polynomial/polynomials_unit_simplex_bernstein_basis.py:degree_elevated_bernstein_basis_fn", "polynomials_on_simplices/polynomial/polynomials_unit_simplex_bernstein_basis.py:barycentric_polynomial_general"]}
{"id": "C59", "title": "Vector valued polynomial bases", "statement": "vector_valued_polynomial_basis_fn(nu, r, i, n, basis) has value e_i times the scalar basis function; vector_valued_polynomial_basis returns n times as many functions as there are multi-indices, with the function for (nu_j, i) at position j*n + i (interleaved) or i*dim + j (sequential). For n = 1 the implementation passes the domain dimension as degree and the degree as dimension, so it returns the basis of another space.", "quantifier": "every basis, dimension, degree, target dimension", "why_tests_cant": "Position formula over all sizes; the swapped arguments are invisible when the degree equals the dimension.", "anchors": ["polynomials_on_simplices/polynomial/polynomials_unit_simplex_bases.py:vector_valued_polynomial_basis_fn", "polynomials_on_simplices/polynomial/polynomials_unit_simplex_bases.py:vector_valued_polynomial_basis"]}
{"id": "C60", "title": "create_kd_tree on a mesh", "statement": "create_kd_tree terminates for every mesh and every choice of principal axes, all nodes have depth at most max_depth, a leaf above max_depth lists no simplex or (adaptive variant) at most max_simplices_in_leaf, and the leaf found for a point lists every simplex of interest containing it. With the default max_simplices_in_leaf=None the adaptive variant raises TypeError for every mesh with a simplex of interest.", "quantifier": "every mesh, dimension, subset of simplices of interest, max_depth and leaf size, every axis function, every point", "why_tests_cant": "Termination and conservativeness over all meshes; the documented default arguments are never exercised together.", "anchors": ["polynomials_on_simplices/geometry/space_partitioning/kd_mesh_tree/simplicial_mesh_kd_tree.py:create_kd_tree", "polynomials_on_simplices/geometry/space_partitioning/kd_mesh_tree/simplicial_mesh_kd_tree.py:_get_potentially_intersecting_simplices"]}
{"id": "C61", "title": "Annulus and disc triangulations", "statement": "annulus_triangulation(a, n) has 2(n-1)a triangles on the a*n vertices, disc_triangulation(a, n) a + 2(n-2)a triangles on 1 + a(n-1) vertices; every directed edge is used at most once, and in the other direction exactly when it is not on the inner or outer circle (disc: outer circle only), so the mesh closes up around the circle with consistent orientation. Fewer than 3 vertices on a circle or fewer than 2 radial vertices raise ValueError.", "quantifier": "every angular and radial resolution", "why_tests_cant": "Index arithmetic modulo the angular resolution over unbounded meshes.", "anchors": ["polynomials_on_simplices/geometry/mesh/basic_meshes/triangle_meshes.py:annulus_triangulation", "polynomials_on_simplices/geometry/mesh/basic_meshes/triangle_meshes.py:disc_triangulation", "polynomials_on_simplices/geometry/mesh/basic_meshes/triangle_meshes.py:offset_triangulation_vertices"]}
{"id": "C62", "title": "Tetrahedron triangulation is a correct triangulation", "statement": "tetrahedron_triangulation(E) has (E-1)^3 distinct tetrahedra with valid indices into tetrahedron_vertices(E), each positively oriented with volume 1/(6(E-1)^3); a face lies on a side of the unit tetrahedron or is shared with a second tetrahedron; the tetrahedra cover exactly the unit tetrahedron and their interiors are disjoint.", "quantifier": "every E >= 2", "why_tests_cant": "The cells cut by the slanted side are handled by three separate cases; correctness for all resolutions is a geometric theorem.", "anchors": ["polynomials_on_simplices/geometry/mesh/basic_meshes/tet_meshes.py:tetrahedron_triangulation", "polynomials_on_simplices/geometry/mesh/basic_meshes/tet_meshes.py:tetrahedron_vertices"]}
{"id": "C64", "title": "Volumes of simplices", "statement": "signed_volume changes sign when two vertices are exchanged, is multiplied by det A under x -> Ax + t, is 1/n! for the unit simplex, and is 0 exactly for degenerate simplices. volume of a non-degenerate k-simplex in R^d is positive, (k! V)^2 is the Gram determinant of the edge vectors, V depends only on the distances between the vertices (not on their order or the embedding space), and k V = volume(face) * altitude for every face.", "quantifier": "every dimension k <= d and every simplex", "why_tests_cant": "Alternation, multiplicativity and congruence invariance hold for all dimensions and real vertices; tests only evaluate a few triangles and tetrahedra.", "anchors": ["polynomials_on_simplices/geometry/primitives/simplex.py:signed_volume", "polynomials_on_simplices/geometry/primitives/simplex.py:volume", "polynomials_on_simplices/geometry/primitives/simplex.py:volume_unit", "polynomials_on_simplices/geometry/primitives/simplex.py:altitude", "polynomials_on_simplices/geometry/primitives/simplex.py:local_coordinates", "polynomials_on_simplices/geometry/primitives/simplex.py:face"]}
{"id": "C65", "title": "Special points and lengths of simplices", "statement": "For every non-degenerate simplex: barycentric_to_trilinear gives the signed distances to the faces and trilinear_to_barycentric inverts it up to scaling; the incenter has positive barycentric coordinates and distance inradius to every face; the circumcenter lies in the affine hull at distance circumradius from every vertex; face_normal is a unit vector orthogonal to the face pointing away from the opposite vertex; diameter is the largest vertex distance; equilateral(n, d, ne) has all edges of length d and is non-degenerate.", "quantifier": "every dimension, every non-degenerate simplex", "why_tests_cant": "The circumcenter and the equilateral simplex are built by recursion over the dimension; only induction covers all dimensions.", "anchors": ["polynomials_on_simplices/geometry/primitives/simplex.py:barycentric_to_trilinear", "polynomials_on_simplices/geometry/primitives/simplex.py:trilinear_to_barycentric", "polynomials_on_simplices/geometry/primitives/simplex.py:incenter", "polynomials_on_simplices/geometry/primitives/simplex.py:inradius", "polynomials_on_simplices/geometry/primitives/simplex.py:circumcenter", "polynomials_on_simplices/geometry/primitives/simplex.py:circumradius", "polynomials_on_simplices/geometry/primitives/simplex.py:face_normal", "polynomials_on_simplices/geometry/primitives/simplex.py:diameter", "polynomials_on_simplices/geometry/primitives/simplex.py:equilateral", "polynomials_on_simplices/geometry/primitives/simplex.py:centroid"]}
{"id": "C63", "title": "Affine maps between simplices", "statement": "affine_map_from_unit(vertices) sends a point of the unit simplex to the point of the simplex with the same barycentric coordinates; affine_map_to_unit is its two-sided inverse for a non-degenerate full dimensional simplex, gives the coordinates of the orthogonal projection (within the tolerance, AssertionError outside it) for an embedded one, and raises LinAlgError/AssertionError for a degenerate one. affine_transformation composed with create_affine_map keeps barycentric coordinates; for segments with images in a space of dimension > 1 it instead yields a matrix for the translation and for every image point.", "quantifier": "every dimension n <= m, every simplex and every point", "why_tests_cant": "Inverse and projection properties hold for all dimensions and real vertices; tests only round-trip a few random simplices and no segment embedded in a plane.", "anchors": ["polynomials_on_simplices/geometry/primitives/simplex.py:affine_map_from_unit", "polynomials_on_simplices/geometry/primitives/simplex.py:affine_map_to_unit", "polynomials_on_simplices/geometry/primitives/simplex.py:affine_transformation_from_unit", "polynomials_on_simplices/geometry/primitives/simplex.py:affine_transformation_to_unit", "polynomials_on_simplices/geometry/primitives/simplex.py:affine_transformation", "polynomials_on_simplices/calculus/affine_map.py:create_affine_map", "polynomials_on_simplices/calculus/affine_map.py:affine_composition", "polynomials_on_simplices/calculus/affine_map.py:pseudoinverse"]}
{"id": "C66", "title": "Polynomials on a general simplex", "statement": "A PolynomialBernsteinSimplex/PolynomialLagrangeSimplex on a non-degenerate full dimensional simplex takes at a point the value the polynomial with the same coefficients takes on the unit simplex at the barycentric coordinates of the point. Sum, difference, scaling, products (for Lagrange also with a factor on another simplex), powers, component access, degree elevation and conversion to the monomial basis act pointwise on the values; partial_derivative is the derivative with respect to the Cartesian coordinates, in any order; Lagrange coefficients are the values at the nodes, Bernstein coefficients bound the values on the simplex. The power with exponent 0 of a Lagrange polynomial has degree 1, and polynomials on a simplex of lower dimension than its space can be created but not evaluated.", "quantifier": "every non-degenerate simplex of every dimension, degrees up to the supported limit, every number of components, every point", "why_tests_cant": "Values of derived objects agree at every real point of every simplex; tests compare a few random points with a tolerance.", "anchors": ["polynomials_on_simplices/polynomial/polynomials_simplex_base.py:PolynomialSimplexBase", "polynomials_on_simplices/polynomial/polynomials_simplex_bernstein_basis.py:PolynomialBernsteinSimplex", "polynomials_on_simplices/polynomial/polynomials_simplex_bernstein_basis.py:bernstein_basis_fn_simplex", "polynomials_on_simplices/polynomial/polynomials_simplex_bernstein_basis.py:bernstein_basis_simplex", "polynomials_on_simplices/polynomial/polynomials_simplex_bernstein_basis.py:vector_valued_bernstein_basis_simplex", "polynomials_on_simplices/polynomial/polynomials_simplex_bernstein_basis.py:zero_polynomial_simplex", "polynomials_on_simplices/polynomial/polynomials_simplex_bernstein_basis.py:unit_polynomial_simplex", "polynomials_on_simplices/polynomial/polynomials_simplex_lagrange_basis.py:PolynomialLagrangeSimplex", "polynomials_on_simplices/polynomial/polynomials_simplex_lagrange_basis.py:generate_lagrange_points_simplex", "polynomials_on_simplices/polynomial/polynomials_simplex_lagrange_basis.py:lagrange_basis_fn_simplex", "polynomials_on_simplices/polynomial/polynomials_simplex_lagrange_basis.py:dual_lagrange_basis_fn_simplex"]}
{"id": "C67", "title": "Integrals over a general simplex and the dual Bernstein basis", "statement": "integrate_simplex returns the integral over the simplex of every component of a PolynomialBernsteinSimplex/PolynomialLagrangeSimplex defined on it, when the simplex is positively oriented, and raises otherwise. integrate_polynomial_simplex returns the integral of a polynomial in the monomial basis over a simplex of either orientation, integrate_homogeneous_polynomial_simplex also the integral of a monomial over a simplex of lower dimension than its space. l2_inner_product_simplex is the integral of the product, l2_norm2 vanishes only for the zero polynomial. dual_bernstein_basis_fn_simplex(mu, r, vertices) applied to a polynomial returns its Bernstein coefficient for mu. A polynomial in the Bernstein or Lagrange basis of the unit simplex is accepted by integrate_simplex, but the value returned is not its integral over the simplex.", "quantifier": "every non-degenerate simplex of every dimension, every degree up to the supported limit, all coefficients", "why_tests_cant": "The value of an integral over a continuum for arbitrary vertices, coefficients and degrees; tests compare with quadrature on a few random simplices.", "anchors": ["polynomials_on_simplices/calculus/polynomial/polynomials_calculus.py:integrate_simplex", "polynomials_on_simplices/calculus/polynomial/polynomials_simplex_bernstein_basis_calculus.py:integrate_bernstein_basis_fn_simplex", "polynomials_on_simplices/calculus/polynomial/polynomials_simplex_bernstein_basis_calculus.py:integrate_bernstein_polynomial_simplex", "polynomials_on_simplices/calculus/polynomial/polynomials_simplex_lagrange_basis_calculus.py:integrate_lagrange_basis_fn_simplex", "polynomials_on_simplices/calculus/polynomial/polynomials_simplex_lagrange_basis_calculus.py:integrate_lagrange_polynomial_simplex", "polynomials_on_simplices/calculus/polynomial/polynomials_simplex_monomial_basis_calculus.py:integrate_homogeneous_polynomial_simplex", "polynomials_on_simplices/calculus/polynomial/polynomials_simplex_monomial_basis_calculus.py:integrate_polynomial_simplex", "polynomials_on_simplices/calculus/polynomial/polynomials_simplex_monomial_basis_calculus.py:l2_inner_product_simplex", "polynomials_on_simplices/polynomial/polynomials_simplex_bernstein_basis.py:dual_bernstein_basis_polynomial_simplex", "polynomials_on_simplices/polynomial/polynomials_simplex_bernstein_basis.py:dual_bernstein_basis_fn_simplex"]}
{"id": "C68", "title": "Evaluation of a piecewise polynomial at a point", "statement": "p(x) is the value of p on a simplex that contains x and 0 outside the mesh, when the simplices are positively oriented; if exactly one simplex contains x, it is the value on that one, whatever the kd-tree looks like, and also for p obtained from others by arithmetic operations. In a negatively oriented simplex p(x) is 0, and (p**0)(x) is 0 outside the support of p.", "quantifier": "every mesh, every point, every choice of the principal axes the tree is split along", "why_tests_cant": "The tree search must find the simplex for every point of a continuum and every mesh; tests evaluate a few points.", "anchors": ["polynomials_on_simplices/piecewise_polynomial/piecewise_polynomial.py:PiecewisePolynomialBase.__call__"]}
{"id": "C69", "title": "Continuity of continuous piecewise polynomials", "statement": "At a point spanned by the vertices shared by two simplices, a continuous piecewise polynomial has the same value on both; so on a mesh whose simplices meet in shared faces p(x) does not depend on the simplex the search finds.", "quantifier": "every mesh, degree, dimension, all coefficients and every shared point, also when the simplices list the shared vertices in different orders", "why_tests_cant": "Equality on the whole shared face for all degrees and vertex orders; tests compare samples.", "anchors": ["polynomials_on_simplices/piecewise_polynomial/continuous_piecewise_polynomial_bernstein_basis.py:ContinuousPiecewisePolynomialBernstein", "polynomials_on_simplices/piecewise_polynomial/continuous_piecewise_polynomial_lagrange_basis.py:ContinuousPiecewisePolynomialLagrange"]}
{"id": "C70", "title": "Weak partial derivatives", "statement": "weak_partial_derivative(i) of a continuous piecewise polynomial (Bernstein or Lagrange basis) is a discontinuous piecewise polynomial whose value on every simplex is the partial derivative of the polynomial evaluated on that simplex. Fails when boundary degrees of freedom are dropped.", "quantifier": "every mesh without dropped degrees of freedom, every degree up to the supported limit, all coefficients, every coordinate and point", "why_tests_cant": "A derivative at every point of every simplex; tests compare finite differences at random points.", "anchors": ["polynomials_on_simplices/piecewise_polynomial/continuous_piecewise_polynomial_bernstein_basis.py:ContinuousPiecewisePolynomialBernstein.weak_partial_derivative", "polynomials_on_simplices/piecewise_polynomial/continuous_piecewise_polynomial_lagrange_basis.py:ContinuousPiecewisePolynomialLagrange.weak_partial_derivative"]}
{"id": "C71", "title": "Bases and dual bases of the spaces of piecewise polynomials", "statement": "The functions returned by piecewise_polynomial_*_basis span: every piecewise polynomial is on every simplex the combination of them with its coefficients. The dual basis functions return the coefficients, whichever preimage of a degree of freedom is picked, so that the i-th applied to the j-th basis function is 1 for i = j and 0 otherwise.", "quantifier": "every mesh, degree, with or without boundary simplices, all coefficients", "why_tests_cant": "Holds for every mesh and every choice of the representative of a degree of freedom; tests check one mesh.", "anchors": ["polynomials_on_simplices/piecewise_polynomial/piecewise_polynomial_bernstein_basis.py:piecewise_polynomial_bernstein_basis", "polynomials_on_simplices/piecewise_polynomial/piecewise_polynomial_bernstein_basis.py:dual_piecewise_polynomial_bernstein_basis", "polynomials_on_simplices/piecewise_polynomial/piecewise_polynomial_lagrange_basis.py:piecewise_polynomial_lagrange_basis", "polynomials_on_simplices/piecewise_polynomial/piecewise_polynomial_lagrange_basis.py:dual_piecewise_polynomial_lagrange_basis", "polynomials_on_simplices/piecewise_polynomial/continuous_piecewise_polynomial_bernstein_basis.py:continuous_piecewise_polynomial_bernstein_basis", "polynomials_on_simplices/piecewise_polynomial/continuous_piecewise_polynomial_lagrange_basis.py:dual_continuous_piecewise_polynomial_lagrange_basis"]}
{"id": "C72", "title": "Fixed quadrature on triangles and tetrahedrons is exact up to its degree", "statement": "quadrature_triangle_fixed(f, vertices, n) returns the integral of f over the triangle, for every polynomial f of degree at most n and n = 1, 2, 3; quadrature_tetrahedron_fixed likewise for n = 1 and 3. For n = 4 (triangle) and n = 2, 4 (tetrahedron), where the weights are rounded decimals, the error is at most |det| * 1e-15 (1e-17) times the sum of the absolute values of the coefficients of the pulled back polynomial. Any other n raises ValueError.", "quantifier": "all polynomials f of degree <= n, all vertices (either orientation, also degenerate), all n", "why_tests_cant": "Exactness for a whole vector space of functions on all triangles; a test compares a few integrals up to a tolerance that also accepts a slightly wrong weight.", "anchors": ["polynomials_on_simplices/calculus/quadrature.py:quadrature_unit_triangle_fixed", "polynomials_on_simplices/calculus/quadrature.py:quadrature_triangle_fixed", "polynomials_on_simplices/calculus/quadrature.py:quadrature_unit_tetrahedron_fixed", "polynomials_on_simplices/calculus/quadrature.py:quadrature_tetrahedron_fixed"]}
{"id": "C73", "title": "Fixed quadrature on intervals is exact up to its degree", "statement": "quadrature_unit_interval_fixed(f, r) and quadrature_interval_fixed(f, a, b, r) with a < b return the integral of every polynomial f of degree at most r, provided that the Gauss points and weights with n = ceil((r + 1) / 2) are exact; if these are rounded so that the moments are wrong by at most eps, the error is at most (b - a)/2 * eps * (sum of the absolute values of the coefficients on [-1, 1]).", "quantifier": "all r, a < b, polynomials of degree <= r, all errors eps of the Gauss rule", "why_tests_cant": "The number of points has to be enough for every r; a test tries a few degrees.", "anchors": ["polynomials_on_simplices/calculus/quadrature.py:gauss_legendre_unit_interval", "polynomials_on_simplices/calculus/quadrature.py:quadrature_unit_interval_fixed", "polynomials_on_simplices/calculus/quadrature.py:quadrature_interval_fixed"]}
{"id": "C74", "title": "Composition of functions", "statement": "composition(f, g) is the function x -> f(g(x)), where the value of g is unpacked when f takes several arguments; it takes as many arguments as g, and composing is associative.", "quantifier": "all functions f, g, h of one, several or arbitrarily many arguments", "why_tests_cant": "Concerns arbitrary functions and every combination of signatures.", "anchors": ["polynomials_on_simplices/algebra/algebraic_operations.py:composition", "polynomials_on_simplices/algebra/algebraic_operations.py:_is_univariate_function"]}
{"id": "C75", "title": "Periodic elements, angle intervals, clamping and relative errors", "statement": "equivalent_periodic_element(a, t) is the only number in [0, t) that differs from a by a multiple of t. to_positive_angle_interval(a) is in [0, 2 pi) and to_centered_angle_interval(a) is in [-pi, pi), both with the sine and cosine of a. constrain_to_range(s, a, b) is the point of [a, b] closest to s. The symmetric relative error does not depend on the order of its arguments and is bounded.", "quantifier": "all real a, s, all t > 0, a <= b", "why_tests_cant": "The floor has to be right for negative numbers and exact multiples of the period, for every a; tests use a few values.", "anchors": ["polynomials_on_simplices/calculus/real_interval.py:equivalent_periodic_element", "polynomials_on_simplices/calculus/real_interval.py:constrain_to_range", "polynomials_on_simplices/calculus/error_measures.py:relative_error_symmetric", "polynomials_on_simplices/calculus/angle.py:to_positive_angle_interval", "polynomials_on_simplices/calculus/angle.py:to_centered_angle_interval"]}
{"id": "C76", "title": "Angles between vectors and parallel vectors", "statement": "compute_angle(v0, v1) returns the angle in [0, pi] whose cosine is the dot product over the product of the norms, and raises AssertionError for vectors of different length. is_parallel holds for every multiple of a vector, and for vectors of norm at least 1e-12 it holds exactly if the cosine of their angle is within 1e-12 of 1 or -1.", "quantifier": "all non-zero vectors of equal length (outside dimension 3: of norm at least 1e-12)", "why_tests_cant": "Two different formulas are used depending on the dimension, and have to agree with the definition for every pair of vectors.", "anchors": ["polynomials_on_simplices/calculus/angle.py:compute_angle", "polynomials_on_simplices/calculus/angle.py:is_parallel"]}
{"id": "C77", "title": "Distance and direction between two angles", "statement": "For angles in [-pi, pi), distance(a0, a1) is the length of the shorter arc between them, and direction(a0, a1) the sign of a shortest turn from a0 to a1. Other angles raise AssertionError.", "quantifier": "all a0, a1 in [-pi, pi)", "why_tests_cant": "The wrap at pi matters on a set that sampled tests rarely hit.", "anchors": ["polynomials_on_simplices/calculus/angle.py:distance", "polynomials_on_simplices/calculus/angle.py:direction"]}
{"id": "C78", "title": "Orthogonal vectors", "statement": "orthogonal_vector(v) returns a non-zero vector of the same length orthogonal to v, for every non-zero v of dimension at least 2, and raises AssertionError for the zero vector.", "quantifier": "all vectors v, every dimension", "why_tests_cant": "Holds for every dimension and every pattern of zero entries.", "anchors": ["polynomials_on_simplices/calculus/angle.py:orthogonal_vector"]}
{"id": "C79", "title": "Dial follows a rotating angle", "statement": "After any sequence of update_position calls the total position of the dial is the last element of the sequence of angles obtained by following the positions with steps of at most half a turn, and the position is the last angle given if that is in [-pi, pi).", "quantifier": "all finite sequences of positions", "why_tests_cant": "An invariant over unbounded sequences of calls.", "anchors": ["polynomials_on_simplices/calculus/angle.py:Dial.update_position", "polynomials_on_simplices/calculus/angle.py:Dial.get_total_position"]}
{"id": "C80", "title": "Rotation matrices from an axis and an angle", "statement": "axis_angle_to_rotation_matrix(axis, angle) returns, for every non-zero axis, a matrix with orthonormal columns and determinant 1 that keeps the axis fixed and turns vectors orthogonal to it by the angle according to the right hand rule; rotations around one axis compose by adding angles; hat(w) v is the cross product; Rodrigues' formula for vectors and for matrices agree.", "quantifier": "all non-zero axes of any length, all angles, all vectors", "why_tests_cant": "An algebraic identity in all components; tests check a few axes up to rounding.", "anchors": ["polynomials_on_simplices/linalg/rotation.py:hat", "polynomials_on_simplices/linalg/rotation.py:rodrigues_formula", "polynomials_on_simplices/linalg/rotation.py:rodrigues_formula_matrix", "polynomials_on_simplices/linalg/rotation.py:axis_angle_to_rotation_matrix"]}
{"id": "C81", "title": "Rotation of one vector to another", "statement": "compute_rotation(v0, v1) followed by rotate takes v0 to the multiple of v1 with the length of v0, with a unit axis and an angle in [0, pi], also for parallel and opposite vectors. Unless the vectors are opposite, vectors orthogonal to both stay fixed.", "quantifier": "all pairs of non-zero 3d vectors", "why_tests_cant": "The parallel and opposite cases have measure zero and need their own branches.", "anchors": ["polynomials_on_simplices/linalg/rotation.py:compute_rotation", "polynomials_on_simplices/linalg/rotation.py:rotate"]}
{"id": "C82", "title": "Axis and angle of a rotation matrix", "statement": "For every rotation matrix R (outside the tolerance bands around the identity and the half turns), rotation_matrix_to_axis_angle(R) returns a unit axis and an angle in [0, pi] for which axis_angle_to_rotation_matrix returns exactly R, and leaves R unchanged. It is exact at the identity and at half turns too, and within 2e-14 in each entry close to the identity.", "quantifier": "all matrices with orthonormal columns and determinant 1", "why_tests_cant": "Quantifies over the whole rotation group including its singular cases.", "anchors": ["polynomials_on_simplices/linalg/rotation.py:rotation_matrix_to_axis_angle", "polynomials_on_simplices/linalg/rotation.py:axis_angle_to_rotation_matrix"]}
{"id": "C83", "title": "Orthonormal frames", "statement": "orthonormal_frame(v, i) returns a rotation matrix whose i-th column is within 1e-10 of v / |v|, and equal to it when the angle between v and e_i is 0, pi or at least 1e-10 away from both; in the last case e_i x v stays fixed. v is normalised in place.", "quantifier": "all non-zero 3d vectors v, i in {0, 1, 2}", "why_tests_cant": "Near-parallel and opposite vectors are handled by separate branches that random tests do not reach.", "anchors": ["polynomials_on_simplices/calculus/angle.py:orthonormal_frame"]}
{"id": "C84", "title": "Random rotations and rigid motions", "statement": "random_rotation_matrix_2 and random_rotation_matrix_3 return rotation matrices for every outcome of the random numbers, the third column of the latter being the sampled point of the sphere. move keeps distances and orientation and treats the columns of a matrix separately; random_rigid_motion returns a rotation and a translation of length at most the radius, and raises ValueError unless n is 2 or 3.", "quantifier": "all random outcomes, all points, translations and radii", "why_tests_cant": "Must hold for every random outcome, including the sampled point being one of the poles.", "anchors": ["polynomials_on_simplices/linalg/rotation.py:random_rotation_matrix_2", "polynomials_on_simplices/linalg/rotation.py:random_rotation_matrix_3", "polynomials_on_simplices/linalg/rigid_motion.py:move", "polynomials_on_simplices/linalg/rigid_motion.py:translate", "polynomials_on_simplices/linalg/rigid_motion.py:random_rigid_motion"]}
{"id": "C85", "title": "Edges, perimeter and diameter of a triangle", "statement": "edges(vertices)[i] leads from vertex i+1 to vertex i+2 (mod 3) and edge_lengths are their lengths. diameter(vertices) is the largest distance between two points of the triangle, attained at two vertices, and 2 diameter <= perimeter <= 3 diameter.", "quantifier": "all triangles, also degenerate ones, in any dimension; all pairs of points of the triangle", "why_tests_cant": "The diameter bounds the distance of all pairs of points; tests check vertices.", "anchors": ["polynomials_on_simplices/geometry/primitives/triangle.py:edges", "polynomials_on_simplices/geometry/primitives/triangle.py:edge_lengths", "polynomials_on_simplices/geometry/primitives/triangle.py:diameter", "polynomials_on_simplices/geometry/primitives/triangle.py:perimeter"]}
{"id": "C86", "title": "Area, altitudes and dual edges of a triangle", "statement": "area(vertices) satisfies the Gram determinant formula, does not depend on the order of the vertices and is positive exactly when the vertices are not on a line. altitudes(vertices)[i] is the distance of vertex i to the line through the other two; altitude_feet gives the nearest point on it; altitude_vectors lead from the vertices to the feet. dual_edges[i] is orthogonal to edge i, as long, and points out of the triangle.", "quantifier": "all triangles in two and three dimensions; non-degenerate ones for the altitudes", "why_tests_cant": "The nearest point property is a minimum over a line.", "anchors": ["polynomials_on_simplices/geometry/primitives/triangle.py:area", "polynomials_on_simplices/geometry/primitives/triangle.py:altitudes", "polynomials_on_simplices/geometry/primitives/triangle.py:altitude_feet", "polynomials_on_simplices/geometry/primitives/triangle.py:altitude_vectors", "polynomials_on_simplices/geometry/primitives/triangle.py:dual_edges"]}
{"id": "C87", "title": "Normal and in-plane basis of a triangle", "statement": "In three dimensions normal(vertices) is the unit vector orthogonal to all edges with the orientation of the vertices and area_weighted_normal is twice the area times it; in two dimensions it is the sign of the orientation. basis(vertices) is an orthonormal basis of the plane of the triangle with the first vector along edge 0, right handed together with the normal. edges_2, medians_2 and dual_edges_2 are the coordinates of the edges, medians and dual edges in it.", "quantifier": "all non-degenerate triangles in two and three dimensions", "why_tests_cant": "Algebraic identities in all vertex coordinates.", "anchors": ["polynomials_on_simplices/geometry/primitives/triangle.py:normal", "polynomials_on_simplices/geometry/primitives/triangle.py:area_weighted_normal", "polynomials_on_simplices/geometry/primitives/triangle.py:basis", "polynomials_on_simplices/geometry/primitives/triangle.py:in_triangleplane_coords", "polynomials_on_simplices/geometry/primitives/triangle.py:edges_2", "polynomials_on_simplices/geometry/primitives/triangle.py:medians_2", "polynomials_on_simplices/geometry/primitives/triangle.py:dual_edges_2"]}
{"id": "C88", "title": "Barycentric coordinates and inside test for triangles", "statement": "cartesian_to_barycentric inverts barycentric_to_cartesian, the coordinates sum to one and are unique; for a point off the plane they are those of the nearest point of the plane. inside_triangle tells if all coordinates are non-negative (positive without boundary), which in two dimensions is membership in the triangle.", "quantifier": "all non-degenerate triangles in two and three dimensions, all points", "why_tests_cant": "Quantifies over all points; the computation goes through oblique projections and a linear system.", "anchors": ["polynomials_on_simplices/geometry/primitives/triangle.py:barycentric_to_cartesian", "polynomials_on_simplices/geometry/primitives/triangle.py:cartesian_to_barycentric", "polynomials_on_simplices/geometry/primitives/triangle.py:inside_triangle"]}
{"id": "C89", "title": "Trilinear coordinates", "statement": "trilinear_to_barycentric returns barycentric coordinates of the point whose signed distances to the sides are trilinear_to_side_distances, a multiple of the given coordinates; barycentric_to_trilinear returns those distances and the conversions are inverse to each other up to scaling.", "quantifier": "all non-degenerate triangles in two and three dimensions, all trilinear coordinates with non-zero weighted sum", "why_tests_cant": "The distances are minima over lines and signs matter outside the triangle.", "anchors": ["polynomials_on_simplices/geometry/primitives/triangle.py:barycentric_to_trilinear", "polynomials_on_simplices/geometry/primitives/triangle.py:trilinear_to_barycentric", "polynomials_on_simplices/geometry/primitives/triangle.py:trilinear_to_side_distances", "polynomials_on_simplices/geometry/primitives/triangle.py:normalize_trilinear_coordinates"]}
{"id": "C90", "title": "Centres of a triangle", "statement": "The centroid lies at two thirds of each median and the medians end at the midpoints of the sides. circumcenter lies in the plane of the triangle with distance circumradius to all vertices. orthocenter lies in the plane and on all altitudes, also for right angled triangles. incenter has positive barycentric coordinates and distance inradius to all sides.", "quantifier": "all non-degenerate triangles; for circumcenter and orthocenter in other than three dimensions edges of length at least 1e-12", "why_tests_cant": "Right angles are a separate branch of measure zero; identities in all vertex coordinates.", "anchors": ["polynomials_on_simplices/geometry/primitives/triangle.py:centroid", "polynomials_on_simplices/geometry/primitives/triangle.py:medians", "polynomials_on_simplices/geometry/primitives/triangle.py:circumcenter", "polynomials_on_simplices/geometry/primitives/triangle.py:circumradius", "polynomials_on_simplices/geometry/primitives/triangle.py:orthocenter", "polynomials_on_simplices/geometry/primitives/triangle.py:incenter", "polynomials_on_simplices/geometry/primitives/triangle.py:inradius"]}
{"id": "C91", "title": "Angles of a triangle", "statement": "angle(vertices, i) are in [0, pi], sum to pi and satisfy the law of cosines, also for degenerate triangles with distinct vertices. is_degenerate(vertices, eps) is True exactly when some angle is less than eps.", "quantifier": "all triangles with distinct vertices in three dimensions or edges of length at least 1e-12; 0 <= eps <= pi/2", "why_tests_cant": "The test looks at cosines of all angles; its equivalence to small angles needs the angle sum.", "anchors": ["polynomials_on_simplices/geometry/primitives/triangle.py:angle", "polynomials_on_simplices/geometry/primitives/triangle.py:is_degenerate"]}
{"id": "C92", "title": "Projections return the closest point of the target", "statement": "interval_projection(p, [a, b]) lies in the interval, leaves points of the interval alone and no point of the interval is closer to p. vector_projection(a, b) is the multiple of b closest to a, vector_rejection(a, b) is the rest, orthogonal to b. vector_plane_projection(v, n) is the closest vector orthogonal to n. The map returned by subspace_projection_map(basis, origin) sends every point to the closest point of the affine subspace, with a residual orthogonal to every basis vector, and fixes the subspace; the origin defaults to zero; more vectors than dimensions is an AssertionError. vector_oblique_projection_2(a, b, c) is the unique multiple x of b with a - x a multiple of c.", "quantifier": "all vectors of every dimension, all non-zero directions, all families of linearly independent vectors of every size and every origin", "why_tests_cant": "Closest means a comparison with infinitely many points; tests compare a few values.", "anchors": ["polynomials_on_simplices/linalg/vector_space_projection.py:interval_projection", "polynomials_on_simplices/linalg/vector_space_projection.py:vector_projection", "polynomials_on_simplices/linalg/vector_space_projection.py:vector_rejection", "polynomials_on_simplices/linalg/vector_space_projection.py:vector_oblique_projection_2", "polynomials_on_simplices/linalg/vector_space_projection.py:vector_plane_projection", "polynomials_on_simplices/linalg/vector_space_projection.py:subspace_projection_map"]}
{"id": "C93", "title": "Dual bases and metric tensors", "statement": "basis_matrix and basis_vectors are inverse to each other, and vectors of a length other than their number (or one) are a ValueError. metric_tensor(b) holds the inner products of the columns of b. For an invertible matrix b, column i of b and column j of dual_basis(b) have inner product 1 if i = j and 0 otherwise, the dual of the dual is b, inverse_metric_tensor(b) is the metric tensor of the dual basis, and the inverse metric tensor of the dual is the metric tensor of b. For a singular matrix dual_basis and inverse_metric_tensor are a LinAlgError. The same holds for non-zero numbers. cartesian_basis_vector(i, n) is the i-th unit vector, an IndexError for i >= n.", "quantifier": "all n and all n by n matrices", "why_tests_cant": "Involves matrices of every size; tests take 2 by 2 and 3 by 3 matrices.", "anchors": ["polynomials_on_simplices/linalg/basis.py:cartesian_basis_vector", "polynomials_on_simplices/linalg/basis.py:basis_matrix", "polynomials_on_simplices/linalg/basis.py:basis_vectors", "polynomials_on_simplices/linalg/basis.py:metric_tensor", "polynomials_on_simplices/linalg/basis.py:inverse_metric_tensor", "polynomials_on_simplices/linalg/basis.py:dual_basis"]}
{"id": "C94", "title": "Changes of basis", "statement": "For independent basis vectors transform_to_basis undoes transform_from_basis, and for any vector it returns the coordinates of the closest vector of the span (residual orthogonal to the basis). transform(v, b0, b1) returns u whenever v in b0 and u in b1 have the same Cartesian coordinates; for square invertible b1 such a u always exists, transforming back gives v, and going through an intermediate basis gives the same result. A matrix is treated column by column. transform_bilinear_form(b, b0, b1) for an orthonormal b0 of determinant one gives the form with the same values; it raises ValueError if a determinant differs from one by more than 1e-10.", "quantifier": "all dimensions, all numbers of basis vectors, all vectors and matrices of matching shape", "why_tests_cant": "Involves matrices of every size; tests use random 2 and 3 dimensional bases.", "anchors": ["polynomials_on_simplices/linalg/basis.py:transform_to_basis", "polynomials_on_simplices/linalg/basis.py:transform_from_basis", "polynomials_on_simplices/linalg/basis.py:transform", "polynomials_on_simplices/linalg/basis.py:transform_bilinear_form"]}
{"id": "C95", "title": "Gram-Schmidt orthonormalization", "statement": "For independent vectors gram_schmidt_orthonormalization(basis, inner_product) returns vectors orthonormal for the inner product, such that basis vector i is a combination of the first i of them with a positive coefficient for the i-th; an empty basis is an AssertionError. gram_schmidt_orthonormalization_rn returns the unique such family for the dot product, whichever signs the QR decomposition chose, so both functions agree.", "quantifier": "all dimensions, all families of independent vectors, all inner products, all QR decompositions", "why_tests_cant": "Quantifies over every inner product and every size of the basis.", "anchors": ["polynomials_on_simplices/linalg/basis.py:gram_schmidt_orthonormalization_rn", "polynomials_on_simplices/linalg/basis.py:gram_schmidt_orthonormalization"]}
{"id": "C96", "title": "First order finite differences", "statement": "forward_difference and central_difference return the difference quotients of f along every coordinate direction and leave the contents of the array x unchanged, although they write to it while f is evaluated. Entry i of the result is the univariate difference of f along coordinate i. The forward difference is exact for affine functions, the central difference for quadratic polynomials. For a real function with second (third) derivatives bounded by M the forward (central) difference in one variable deviates from the derivative by at most M h / 2 (M h^2 / 24). discrete_forward_difference is the slope of a line through the two points. If f raises an exception for a shifted point the exception is passed on, and x keeps the shifted coordinate.", "quantifier": "all functions f, all dimensions, all points x and all steps h (non-zero or positive where a quotient is compared with a derivative)", "why_tests_cant": "Quantifies over all functions and steps; tests compare with a known gradient at random points up to a tolerance, and cannot see the bound on the error nor the state of x after an exception.", "anchors": ["polynomials_on_simplices/calculus/finite_difference.py:forward_difference", "polynomials_on_simplices/calculus/finite_difference.py:central_difference", "polynomials_on_simplices/calculus/finite_difference.py:discrete_forward_difference"]}
{"id": "C97", "title": "Finite difference Jacobians", "statement": "forward_difference_jacobian(f, n, x, h) and central_difference_jacobian(f, n, x, h) return an n by len(x) matrix whose entry (i, j) is the difference quotient of component i of f in coordinate j, so row i is the finite difference gradient of component i; x keeps its contents. For linear maps both return the matrix of the map exactly. Values of f of a length other than n (or one) are a ValueError. For a number x the result has one column. A function that returns its argument itself instead of a new array is differentiated to the zero matrix.", "quantifier": "all functions f, all n, all dimensions, all points and steps", "why_tests_cant": "Quantifies over all functions and sizes, and over whether the value of f shares memory with its argument; tests use functions returning new arrays.", "anchors": ["polynomials_on_simplices/calculus/finite_difference.py:forward_difference_jacobian", "polynomials_on_simplices/calculus/finite_difference.py:central_difference_jacobian"]}
{"id": "C98", "title": "Second order finite differences", "statement": "second_forward_difference and second_central_difference return a len(x) by len(x) matrix, every entry of which has been assigned, with the second difference quotients of f for every pair of coordinates. The matrix is symmetric and its diagonal holds the univariate second differences. Both are exact for quadratic polynomials, the central one for cubic polynomials. For real functions every entry is the value of the mixed second derivative at a point within distance h in both coordinates, and in one variable the errors are at most 5 M h / 3 with third derivatives bounded by M, and M h^2 / 12 with fourth derivatives bounded by M.", "quantifier": "all functions f, all dimensions, all points and steps, whatever np.empty contains at first", "why_tests_cant": "Quantifies over all functions, steps and initial memory contents; tests compare with a known Hessian up to a tolerance.", "anchors": ["polynomials_on_simplices/calculus/finite_difference.py:second_forward_difference", "polynomials_on_simplices/calculus/finite_difference.py:second_central_difference"]}
{"id": "C99", "title": "Sampling of intervals", "statement": "For random numbers in [0, 1), closed_unit_interval_sampling(k) returns k numbers of [0, 1], open_unit_interval_sampling(k) k numbers of (0, 1), left_closed_unit_interval_sampling(k) and unit_interval_sampling(k) k numbers of [0, 1), right_closed_unit_interval_sampling(k) k numbers of (0, 1]. The random numbers used are a prefix of those that the generator returns, and the values are obtained from those not rejected, in order; the functions end as soon as enough random numbers are accepted. If the generator returns the equally spaced numbers j/(8m) (numpy: m = 2^50) with equal probability, then all sequences of k values j/(7m), 0 <= j <= 7m, are equally likely results of closed_unit_interval_sampling(k) and no other values occur; for open_unit_interval_sampling the same with 0 < j < 7m.", "quantifier": "all numbers of points, all sequences of random numbers, all m", "why_tests_cant": "The end points of an interval have probability 2^-53, and being uniformly distributed is a statement about all sequences of random numbers; tests draw a few numbers.", "anchors": ["polynomials_on_simplices/probability_theory/uniform_sampling.py:closed_unit_interval_sample", "polynomials_on_simplices/probability_theory/uniform_sampling.py:open_unit_interval_sample", "polynomials_on_simplices/probability_theory/uniform_sampling.py:right_closed_interval_sample", "polynomials_on_simplices/probability_theory/uniform_sampling.py:unit_interval_sampling", "polynomials_on_simplices/probability_theory/uniform_sampling.py:closed_unit_interval_sampling", "polynomials_on_simplices/probability_theory/uniform_sampling.py:open_unit_interval_sampling", "polynomials_on_simplices/probability_theory/uniform_sampling.py:left_closed_unit_interval_sampling", "polynomials_on_simplices/probability_theory/uniform_sampling.py:right_closed_unit_interval_sampling"]}
{"id": "C100", "title": "Sampling of cubes, balls and simplices", "statement": "ncube_sampling(n, k) returns k points of [0, 1)^n, coordinate j of point i being random number i n + j; unit_square_sampling is the case n = 2. nsphere_sampling(n, k) returns k points of length n of norm at most one with coordinates in [-1, 1), unit_disc_sampling(k) the same for n = 2, and nsimplex_sampling(n, k) k points of length n with coordinates in [0, 1) and sum at most one. The random numbers used, read in groups of n, are a prefix of those that the generator returns, the points are the accepted groups in order, and the functions end as soon as enough groups are accepted. If the random numbers are independent and uniformly distributed on any finite set, then all sequences of k points of the corresponding grid inside the ball or the simplex are equally likely.", "quantifier": "all dimensions, all numbers of points, all sequences of random numbers, all finite sets of random numbers", "why_tests_cant": "Being uniformly distributed is a statement about all sequences of random numbers; tests draw a few points and check that they are inside.", "anchors": ["polynomials_on_simplices/probability_theory/uniform_sampling.py:unit_square_sampling", "polynomials_on_simplices/probability_theory/uniform_sampling.py:unit_disc_sampling", "polynomials_on_simplices/probability_theory/uniform_sampling.py:ncube_sampling", "polynomials_on_simplices/probability_theory/uniform_sampling.py:nsphere_sampling", "polynomials_on_simplices/probability_theory/uniform_sampling.py:nsimplex_sampling"]}
{"id": "C101", "title": "Sampling of spheres", "statement": "nsphere_surface_sampling(n, k) returns k vectors of length n with norm one, each a positive multiple of the corresponding vector of normally distributed numbers, provided these are not zero. Applying a norm preserving linear map to the random vectors applies it to the points, so the distribution of the points has every symmetry of that of the random vectors. unit_circle_sampling(k) returns k points with x^2 + y^2 = 1.", "quantifier": "all dimensions, all numbers of points, all sequences of random vectors, all norm preserving linear maps", "why_tests_cant": "Quantifies over all random vectors and all rotations; tests check the norm of a few points.", "anchors": ["polynomials_on_simplices/probability_theory/uniform_sampling.py:unit_circle_sampling", "polynomials_on_simplices/probability_theory/uniform_sampling.py:nsphere_surface_sampling"]}
{"id": "C102", "title": "Comparison of polynomials", "statement": "polynomials_equal(p1, p2, r, m, rel_tol, abs_tol) draws get_dimension(r, m) points of the unit cube, their coordinates being the successive random numbers, and returns True exactly if |p1(x) - p2(x)| <= max(rel_tol max(|p1(x)|, |p2(x)|), abs_tol) for every component in all of these points; equal polynomials are always reported as equal, and a negative tolerance is a ValueError. For m = 1, different random numbers and zero tolerances the answer is correct for all polynomials of degree at most r, and for other tolerances the answer True bounds the difference of the polynomials everywhere by the tolerance times the sum of the absolute values of the Lagrange basis functions of the points. If the random numbers are uniformly distributed on a finite set of N numbers, then with zero tolerances different polynomials of degree at most r are reported as equal with probability at most (r/N)^dim. The answer does not depend on the order of polynomials with equally many components. With rel_tol >= 2 everything is equal. Not true: that different points suffice for m > 1 (three points on a line), that the relation is transitive, and that all components of p2 are compared.", "quantifier": "all callables that are polynomials, all degrees, dimensions, tolerances and sequences of random numbers", "why_tests_cant": "The probability of a wrong answer is about 2^-53 and quantifies over all pairs of polynomials; the existing tests themselves rely on this function (several pass 2 as relative tolerance, which accepts everything).", "anchors": ["polynomials_on_simplices/polynomial/polynomials_base.py:polynomials_equal", "polynomials_on_simplices/polynomial/polynomials_base.py:get_dimension"]}
{"id": "C103", "title": "Comparison of polynomials on simplices", "statement": "polynomials_equal_on_simplex(p1, p2, r, vertices) compares the values in get_dimension(r, n) points of the n-dimensional simplex; polynomials that agree on the simplex are always reported as equal. On a segment, for different random numbers and zero tolerances, the answer is correct for polynomials of degree at most r restricted to the line of the segment. If the random numbers are uniformly distributed on N numbers and A of the N^n points lie in the unit simplex, then polynomials of degree at most r that differ somewhere in the space spanned by the simplex are reported as equal with probability at most (r N^(n-1) / A)^dim. piecewise_polynomials_equal(p1, p2) returns True only if the values are close in get_dimension(r, n) points of every simplex of p1 and False only if they are not close in some point of some simplex of p1; in one dimension with different random numbers and zero tolerances it returns True exactly if all pieces are equal. Not true: that the answer is symmetric if the domains of the piecewise polynomials differ.", "quantifier": "all simplices in spaces of at least their dimension, all polynomials, all meshes and all sequences of random numbers", "why_tests_cant": "A statement about all random points and all polynomials; tests compare a few polynomials once.", "anchors": ["polynomials_on_simplices/polynomial/polynomials_simplex_base.py:polynomials_equal_on_simplex", "polynomials_on_simplices/piecewise_polynomial/piecewise_polynomial.py:piecewise_polynomials_equal"]}
{"id": "C104", "title": "Vertex normals of triangle meshes", "statement": "vertex_normals(t, v, weight) returns for every vertex the unit vector in the direction of the sum, over the corners of the triangles at the vertex, of the unit normals of the triangles with the weight: one for None, the area of the triangle for 'area', its angle at the vertex for 'angle', and the inverse of the distance to the centroid for 'centroid'; if the sum is zero the row is nan. Reversing all triangles reverses the normals; a vertex all of whose triangles have the same unit normal gets this normal for every weight; moving the mesh by a proper rigid motion turns the normals by its rotation. Not true: that every row is a unit vector: a vertex of no triangle is nan, and a single triangle without area makes the rows of its vertices nan for every weight, also the area weight, although its contribution should be zero.", "quantifier": "all triangle meshes in space with proper triangles, all four weights, all rigid motions", "why_tests_cant": "Quantifies over all meshes; a test compares the normals of one mesh.", "anchors": ["polynomials_on_simplices/geometry/mesh/triangle_mesh.py:vertex_normals", "polynomials_on_simplices/geometry/mesh/triangle_mesh.py:normals", "polynomials_on_simplices/geometry/mesh/triangle_mesh.py:vertices"]}
{"id": "C105", "title": "Area weighted normals are volume gradients", "statement": "For a closed mesh (every directed edge occurs as often as the reversed edge) vertex_normals with the weight 'area' returns at every vertex the normalised gradient of the enclosed volume, as a function of the position of that vertex; nan if the gradient is zero.", "quantifier": "all closed triangle meshes in space with proper triangles, all vertices", "why_tests_cant": "A statement about derivatives for all closed meshes, which the docstring claims; tests compare numbers for one mesh.", "anchors": ["polynomials_on_simplices/geometry/mesh/triangle_mesh.py:vertex_normals"]}
{"id": "C106", "title": "Cotangent normals are area gradients", "statement": "vertex_normals_cotangent(t, v) returns at every vertex the normalised gradient of the total area of the mesh as a function of the position of that vertex, in every dimension; nan if the gradient is zero. Reversing the triangles does not change it. If the vertices lie in a plane, all rows are parallel to the plane. Not true: that the rows are normals of the surface: at a vertex of a single triangle the row lies in the triangle, and at an interior vertex of a flat mesh it is nan.", "quantifier": "all triangle meshes with proper triangles in all dimensions, all vertices", "why_tests_cant": "A statement about derivatives for all meshes; no test calls the function on a flat mesh.", "anchors": ["polynomials_on_simplices/geometry/mesh/triangle_mesh.py:vertex_normals_cotangent"]}
{"id": "C107", "title": "Centroids of triangle meshes", "statement": "centroid(t, v) returns the quotient of the integral of the position over the surface and the area of the surface, for meshes in the plane and in space with positive area; with area zero it is nan. centroids(t, v) returns for every triangle a third of the sum of its vertices, and raises ValueError for vertices in the plane. get_num_vertices(t) is one more than the largest index, ValueError if there is none.", "quantifier": "all triangle meshes (degenerate triangles included) in the plane and in space", "why_tests_cant": "Integrals over all meshes; tests check one mesh.", "anchors": ["polynomials_on_simplices/geometry/mesh/triangle_mesh.py:centroid", "polynomials_on_simplices/geometry/mesh/triangle_mesh.py:centroids", "polynomials_on_simplices/geometry/mesh/triangle_mesh.py:get_num_vertices"]}
{"id": "C108", "title": "Arrays of partial derivatives of order k", "statement": "For k >= 1 and a scalar valued polynomial of m variables, partial_derivatives_array(p, k) is an array with k axes of length m whose entry at (i1, ..., ik) is the polynomial obtained by differentiating with respect to xi1, then xi2, ..., then xik; entries whose indices are permutations of each other are the same polynomial; k = 1 gives the gradient and k = 2 the Hessian. k = 0 returns p itself; a negative k or a vector valued p raises AssertionError. _unique_permutations(t) yields every permutation of t exactly once when t is not empty.", "quantifier": "all polynomials in all bases and dimensions, all orders k, every enumeration order of a set, all tuples", "why_tests_cant": "Unbounded order and dimension; the enumeration order of a Python set is not fixed by the code; tests look at one polynomial.", "anchors": ["polynomials_on_simplices/calculus/polynomial/polynomials_calculus.py:partial_derivatives_array", "polynomials_on_simplices/calculus/polynomial/polynomials_calculus.py:_unique_permutations"]}
{"id": "C109", "title": "Embedding, mean and median of point clouds", "statement": "embed_point_in_rn(p, n) and embed_point_cloud_in_rn(points, n) append zeros, keep all inner products and distances, and raise AssertionError unless n is larger than the dimension. mean(points) is the unique point with the least sum of squared distances to the points and commutes with affine maps. Every coordinate of median(points) is the middle of the interval of all numbers with the least sum of distances to the coordinates of the points, and lies in every interval that contains more than half of them. Neither depends on the order of the points; without points both are nan.", "quantifier": "all point clouds of any size in any dimension, all target dimensions, all affine maps", "why_tests_cant": "Minimality over all points of space cannot be tested.", "anchors": ["polynomials_on_simplices/geometry/mesh/point_clouds.py:embed_point_in_rn", "polynomials_on_simplices/geometry/mesh/point_clouds.py:embed_point_cloud_in_rn", "polynomials_on_simplices/geometry/mesh/point_clouds.py:mean", "polynomials_on_simplices/geometry/mesh/point_clouds.py:median"]}
{"id": "C110", "title": "The principal component axis of a point cloud", "statement": "Provided np.linalg.eigh returns ascending eigenvalues and orthonormal eigenvectors of the matrix it is given, principal_component_axis(points) is a unit vector in which the sum of the squares of <x_i - mean, w> is largest among all unit vectors, and the line through the mean in that direction has the least sum of squared distances to the points among all lines. For points on a line, not all equal, it is the direction of the line up to sign. The sum without squares, which the documentation says is maximised, is zero for every w.", "quantifier": "all nonempty point clouds in any positive dimension, all unit vectors, all lines", "why_tests_cant": "Maximality over all directions and lines cannot be tested.", "anchors": ["polynomials_on_simplices/geometry/mesh/point_clouds.py:principal_component_axis"]}
{"id": "C111", "title": "Splitting of long strings and sequences of names", "statement": "split_long_str(s, sep, threshold) splits s only at occurrences of sep: joining the parts with sep gives s back; with threshold -1 every occurrence is a split, otherwise every part is the longest run of consecutive pieces that stays below the threshold; a part that is not shorter than the threshold contains no sep. The bodies of generated functions contain the generated expression up to spaces and line breaks. str_sequence(symbol, n) returns n different names symbol + number in order. Not true: that all parts are shorter than the threshold.", "quantifier": "all strings, separators, thresholds, replacements, symbols and lengths", "why_tests_cant": "All strings of all lengths; the tests look at one string.", "anchors": ["polynomials_on_simplices/generic_tools/str_utils.py:split_long_str", "polynomials_on_simplices/generic_tools/str_utils.py:str_sequence"]}
{"id": "C112", "title": "Numbers as strings", "statement": "For n up to 1000, if some fraction with a denominator of at most n is closer than 1e-10 to a, then str_number(a, n=n) is the text of that fraction, of which there is only one: a numeral or two numerals written as a fraction, with a minus sign exactly if it is negative, '0' exactly for zero, '1' exactly for one; otherwise it is str(a). Integers are always exact. is_nice_fraction(f, n) is true exactly if such a fraction exists. str_number_array can be taken apart into the texts of its elements. limit_denominator returns a closest fraction. Not true: that a nonzero number is not shown as 0; that the text is close to the number for n above 1000.", "quantifier": "all finite numbers, all n, both fraction styles", "why_tests_cant": "All numbers and all competing fractions.", "anchors": ["polynomials_on_simplices/generic_tools/str_utils.py:str_number", "polynomials_on_simplices/generic_tools/str_utils.py:str_number_array", "polynomials_on_simplices/generic_tools/str_utils.py:is_nice_fraction", "polynomials_on_simplices/generic_tools/str_utils.py:convert_float_to_fraction"]}
{"id": "C113", "title": "The code writer", "statement": "A program of wl, inc_indent, dec_indent and wc calls appends to the code exactly its lines with the indentation of the current depth, blank lines without trailing spaces, independent of what was written before; inserting the code of another writer with wc gives what its program would have written directly, if the depth never becomes negative; pop_first_line returns the lines in the order of writing; the scope is a stack. Not true: that count_num_lines is the number of lines that were written; that an empty block can be written; nesting with negative depth.", "quantifier": "all programs of any length, all strings, all indents and delimiters, all states of the writer", "why_tests_cant": "Sequences of calls of any length on arbitrary strings; the class has no tests.", "anchors": ["polynomials_on_simplices/generic_tools/code_generation_utils.py:CodeWriter"]}
{"id": "C114", "title": "LaTeX strings of polynomials", "statement": "Read as LaTeX shows it (spaces are not shown, ^ and _ take one character or a group in braces, juxtaposition is multiplication), the string of a basis function denotes its value at every point, and latex_str / latex_str_expanded denote the polynomial: its coefficients are the fractions with denominators of at most ten that str_number shows. Proved for up to nine variables and degrees up to nine (Bernstein: from one; Lagrange: up to six, where the basis function is the product of the factors r x_i - j and r (1 - x_1 - ... - x_m) - j over factorials). Not true: for exponents or indices of two digits; for Bernstein polynomials of degree zero (IndexError); for basis functions such as 2 x, which are not put in parentheses after a coefficient.", "quantifier": "all coefficients near fractions with denominators up to ten, all degrees up to nine, all dimensions up to nine, all points, all basis functions with coefficients near fractions with denominators up to 1000", "why_tests_cant": "All points and all coefficients; the strings have no tests.", "anchors": ["polynomials_on_simplices/polynomial/polynomials_monomial_basis.py:monomial_basis_fn_latex", "polynomials_on_simplices/polynomial/polynomials_monomial_basis.py:monomial_basis_latex", "polynomials_on_simplices/polynomial/polynomials_monomial_basis.py:latex_str", "polynomials_on_simplices/polynomial/polynomials_unit_simplex_bernstein_basis.py:bernstein_basis_fn_latex", "polynomials_on_simplices/polynomial/polynomials_unit_simplex_bernstein_basis.py:bernstein_basis_latex", "polynomials_on_simplices/polynomial/polynomials_unit_simplex_bernstein_basis.py:latex_str_expanded", "polynomials_on_simplices/polynomial/polynomials_unit_simplex_lagrange_basis.py:lagrange_basis_fn_latex", "polynomials_on_simplices/polynomial/polynomials_unit_simplex_lagrange_basis.py:lagrange_basis_latex", "polynomials_on_simplices/polynomial/polynomials_unit_simplex_lagrange_basis.py:latex_str_expanded", "polynomials_on_simplices/generic_tools/str_utils.py:str_sum", "polynomials_on_simplices/generic_tools/str_utils.py:str_product", "polynomials_on_simplices/generic_tools/str_utils.py:str_dot_product"]}
{"id": "C115", "title": "Midpoint rules on triangles and tetrahedrons", "statement": "quadrature_triangle_midpoint_rule(f, vertices, n) and quadrature_tetrahedron_midpoint_rule(f, vertices, n) differ from the integral of f over the simplex by at most its volume times the variation of f over points whose coordinates differ by at most the n-th part of the extent of the edges; so a Lipschitz constant gives an error of the order 1/n and for uniformly continuous f the values converge to the integral. Polynomials of degree one are integrated exactly for every n. The vertices general_tetrahedron_vertices returns are the images of those of the unit tetrahedron. n = 0 raises ZeroDivisionError or AssertionError.", "quantifier": "all functions with an integral over the simplex, all triangles and tetrahedrons (of either orientation, also degenerate), all n >= 1", "why_tests_cant": "The error bound is a limit statement over all n and all continuous functions; tests compare a few integrals with a tolerance.", "anchors": ["polynomials_on_simplices/calculus/quadrature.py:quadrature_triangle_midpoint_rule", "polynomials_on_simplices/calculus/quadrature.py:quadrature_tetrahedron_midpoint_rule", "polynomials_on_simplices/geometry/mesh/basic_meshes/tet_meshes.py:general_tetrahedron_vertices", "polynomials_on_simplices/geometry/mesh/basic_meshes/tet_meshes.py:tetrahedron_triangulation"]}
{"id": "C116", "title": "Adaptive quadrature", "statement": "If scipy's quad rules keep their contract for the integrand (dblquad integrates func(y, x), tplquad func(z, y, x), with an error of at most eps), quadrature_unit_triangle, quadrature_unit_tetrahedron, quadrature_triangle and quadrature_tetrahedron return the integral of f up to eps times the absolute value of the determinant of the edges, for every uniformly continuous f: passing the arguments in the reverse order does no harm because the unit simplex is symmetric. The integral exists, and the midpoint rules converge to it. quadrature_interval is signed: for b < a it has the opposite sign of quadrature_interval_fixed.", "quantifier": "all uniformly continuous functions, all triangles and tetrahedrons, all quadrature functions that keep the contract", "why_tests_cant": "The exchange of the order of integration is a limit statement; tests with symmetric or low degree integrands cannot tell the orders apart.", "anchors": ["polynomials_on_simplices/calculus/quadrature.py:quadrature_unit_interval", "polynomials_on_simplices/calculus/quadrature.py:quadrature_interval", "polynomials_on_simplices/calculus/quadrature.py:quadrature_unit_triangle", "polynomials_on_simplices/calculus/quadrature.py:quadrature_triangle", "polynomials_on_simplices/calculus/quadrature.py:quadrature_unit_tetrahedron", "polynomials_on_simplices/calculus/quadrature.py:quadrature_tetrahedron"]}
{"id": "C117", "title": "LaTeX strings tell the basis functions apart", "statement": "A compact LaTeX string of polynomial_basis_fn_latex_compact determines the basis, the multi-index with its length, and, for the Lagrange and Bernstein bases, the degree. polynomial_basis_latex_compact lists one string for each multi-index in the order of generate, without repetitions. The full strings of monomials and Bernstein basis functions in the same number of variables also determine the multi-index (and the degree of the Bernstein basis), for exponents of any size, so polynomial_basis_latex has no repetitions for these bases. The same holds for the full strings of the Lagrange basis of a given degree, in up to nine variables and up to degree six. Any other basis identifier raises ValueError.", "quantifier": "all multi-indices, all degrees, all dimensions, all basis identifiers", "why_tests_cant": "That two strings never coincide is a statement about all pairs of multi-indices; exponents with several digits never appear in tests.", "anchors": ["polynomials_on_simplices/polynomial/polynomials_unit_simplex_bases.py:polynomial_basis_fn_latex", "polynomials_on_simplices/polynomial/polynomials_unit_simplex_bases.py:polynomial_basis_fn_latex_compact", "polynomials_on_simplices/polynomial/polynomials_unit_simplex_bases.py:polynomial_basis_latex", "polynomials_on_simplices/polynomial/polynomials_unit_simplex_bases.py:polynomial_basis_latex_compact", "polynomials_on_simplices/polynomial/polynomials_monomial_basis.py:monomial_basis_fn_latex_compact", "polynomials_on_simplices/polynomial/polynomials_monomial_basis.py:monomial_basis_latex_compact", "polynomials_on_simplices/polynomial/polynomials_unit_simplex_bernstein_basis.py:bernstein_basis_fn_latex_compact", "polynomials_on_simplices/polynomial/polynomials_unit_simplex_bernstein_basis.py:bernstein_basis_latex_compact", "polynomials_on_simplices/polynomial/polynomials_unit_simplex_lagrange_basis.py:lagrange_basis_fn_latex_compact", "polynomials_on_simplices/polynomial/polynomials_unit_simplex_lagrange_basis.py:lagrange_basis_latex_compact"]}
{"id": "C118", "title": "String representations", "statement": "eval(repr(a)) gives back a multi-index with the same components, for every multi-index, a permutation with the same values for every permutation (also of one element, where the argument must be the tuple (0,)), and the same integer modulo n for every integer modulo n, also for negative moduli. str of a multi-index is the tuple of its components and str of a permutation the tuple of its values counted from one; two different multi-indices, permutations or integers modulo n have different str. For polynomials this fails: the representation gives the domain dimension before the degree while the constructor takes the degree before the dimension, so the arguments of the representation build, without any exception, a polynomial of degree m in r variables.", "quantifier": "all multi-indices, all permutations, all integers modulo n, all polynomials of positive degree on domains of dimension below 20", "why_tests_cant": "Reading a representation back for objects of any length and with numbers of any size is a statement about all objects; one-element objects are easily left out of tests, and the exchanged arguments of a polynomial are accepted by the constructor because both spaces have the same dimension.", "anchors": ["polynomials_on_simplices/algebra/multiindex.py:MultiIndex.__init__", "polynomials_on_simplices/algebra/multiindex.py:MultiIndex.__repr__", "polynomials_on_simplices/algebra/multiindex.py:MultiIndex.__str__", "polynomials_on_simplices/algebra/permutations.py:Permutation.__init__", "polynomials_on_simplices/algebra/permutations.py:Permutation.__repr__", "polynomials_on_simplices/algebra/permutations.py:Permutation.__str__", "polynomials_on_simplices/algebra/modular_arithmetic.py:IntegerModuloN.__init__", "polynomials_on_simplices/algebra/modular_arithmetic.py:IntegerModuloN.__repr__", "polynomials_on_simplices/algebra/modular_arithmetic.py:IntegerModuloN.__str__", "polynomials_on_simplices/polynomial/polynomials_monomial_basis.py:Polynomial.__repr__", "polynomials_on_simplices/polynomial/polynomials_unit_simplex_bernstein_basis.py:PolynomialBernstein.__repr__", "polynomials_on_simplices/polynomial/polynomials_unit_simplex_lagrange_basis.py:PolynomialLagrange.__repr__"]}
{"id": "C119", "title": "Counting functions and random multi-indices", "statement": "num_permutations(n) is the length of permutations(n) for n > 0, num_increasing_subset_permutations(n, k) that of increasing_subset_permutations(n, k) for every k other than 0, and num_subset_permutations(n, k) that of subset_permutations(n, k) for 0 < k <= n as long as this number is below 2^53. Beyond it the result is a float and can be another number (23 elements). For k = 0 the counts are 1 while the lists are empty, and for k > n num_subset_permutations raises ValueError where the list is empty. A simplex has num_simplex_vertices(dimension) vertices and, from dimension 1 on, simplex_boundary gives num_simplex_boundary_simplices(dimension) simplices; for a vertex the count is 1 and the boundary is empty. random_multiindex(n, r) gives, for each value of the random generator, a multi-index of length n and norm at most r, and each such multi-index for exactly one value, so it is uniform.", "quantifier": "all n and k (negative k as well), all simplices, all n, r and all results of the random generator", "why_tests_cant": "Agreement of a formula with the length of an enumerated list for all sizes is an induction; the first wrong float needs a list of 23! elements, which no test can build; uniformity is a statement about all results of the generator.", "anchors": ["polynomials_on_simplices/algebra/permutations.py:num_permutations", "polynomials_on_simplices/algebra/permutations.py:num_subset_permutations", "polynomials_on_simplices/algebra/permutations.py:num_increasing_subset_permutations", "polynomials_on_simplices/geometry/mesh/simplicial_complex.py:num_simplex_vertices", "polynomials_on_simplices/geometry/mesh/simplicial_complex.py:num_simplex_boundary_simplices", "polynomials_on_simplices/geometry/mesh/simplicial_complex.py:simplex_dimension", "polynomials_on_simplices/algebra/multiindex.py:random_multiindex"]}
{"id": "C120", "title": "Degenerate simplices and equality of bounding boxes", "statement": "For a simplex of dimension at least 1 with affinely independent vertices, is_degenerate(vertices, eps) is True exactly when some vertex is closer than eps times the longest edge to a point of the affine hull of the other vertices. Scaling (also by a negative number) and moving the simplex do not change the answer; it is True for every eps > 1 and False for every eps <= 0. A simplex of volume zero in a space of its own dimension whose faces all have a volume is degenerate for every eps > 0. With all vertices in one point the answer is False for every eps, and a single point raises an error. is_equal of two boxes of the same dimension is True exactly when all corner coordinates agree within max(rel_tol * max(|a|, |b|), abs_tol), infinities being equal to themselves only; it is symmetric, and reflexive for boxes without nan (the empty box included), but not transitive; a negative tolerance raises ValueError. The dimension compared is that of the first box: a box is equal to an extension of it by further coordinates, and the reverse comparison raises IndexError.", "quantifier": "all simplices in all dimensions over every ordered field with square roots, all eps; all boxes of real or infinite corners and all tolerances", "why_tests_cant": "That an altitude computed from volumes is the distance to a plane, and that it is below a threshold exactly when some point of the plane is near, is a geometric theorem about all simplices; tests use a few triangles.", "anchors": ["polynomials_on_simplices/geometry/primitives/simplex.py:is_degenerate", "polynomials_on_simplices/geometry/primitives/simplex.py:altitude", "polynomials_on_simplices/geometry/primitives/simplex.py:diameter", "polynomials_on_simplices/geometry/proximity/aabb.py:is_equal"]}
{"id": "C121", "title": "Identifiers of polynomial bases", "statement": "basis() is what __add__, __sub__ and __mul__ use to decide that two polynomials are in the same basis. The identifiers of the three bases without a simplex differ from each other and from every identifier of a basis on a simplex. For vertices given as nested lists (of ints or floats) or as arrays of ints, two identifiers of bases on simplices are equal exactly when the family (Bernstein or Lagrange) and all vertices are the same, in any dimension. For arrays of floats they are equal exactly when the family is the same and the vertices agree after rounding to 8 decimals, so two different simplices can have the same identifier. The same vertices in a list and in an array always give different identifiers (for simplices other than a point), so such polynomials cannot be added.", "quantifier": "all vertices (any number, any dimension, any coordinates) and both families", "why_tests_cant": "Injectivity of a printed form is a statement about all pairs of inputs; a clash needs coordinates that agree in 8 decimals, which no test tries.", "anchors": ["polynomials_on_simplices/polynomial/polynomials_monomial_basis.py:unique_identifier_monomial_basis", "polynomials_on_simplices/polynomial/polynomials_unit_simplex_bernstein_basis.py:unique_identifier_bernstein_basis", "polynomials_on_simplices/polynomial/polynomials_unit_simplex_lagrange_basis.py:unique_identifier_lagrange_basis", "polynomials_on_simplices/polynomial/polynomials_simplex_bernstein_basis.py:unique_identifier_bernstein_basis_simplex", "polynomials_on_simplices/polynomial/polynomials_simplex_lagrange_basis.py:unique_identifier_lagrange_basis_simplex"]}
{"id": "C122", "title": "Multi-indices and integers modulo n as dictionary keys", "statement": "Multi-indices are keys of coefficient dictionaries and IntegerModuloN objects are hashable. A dictionary with keys IntegerModuloN(x, n) for one n returns for IntegerModuloN(y, n) the value stored last under an x congruent to y, or raises KeyError. For n up to 2^61 - 1 ints can be mixed in: a key is found exactly by the keys with the same representative. A dictionary with multi-indices and tuples of one length returns the value stored last under a key with the same components, whichever of the two kinds is used, for any hash function of tuples. No program of constructor calls and item assignments makes a component negative, as long as it does not write to a list it passed to the constructor. Not true in general: equal keys with a larger modulus have different hash values; keys with different moduli or lengths raise ValueError when their hash values agree; a multi-index changed after use as a key is no longer found; the constructor does not copy a list, so a later write to the list can make a component negative.", "quantifier": "all dictionaries (any number of keys), moduli, tuple hash functions, and programs of constructor calls and assignments", "why_tests_cant": "Consistency of equality and hashing concerns all pairs of keys and any number of insertions; the failures need moduli beyond 2^61 or hash collisions or aliasing that no test tries.", "anchors": ["polynomials_on_simplices/algebra/multiindex.py:MultiIndex.__init__", "polynomials_on_simplices/algebra/multiindex.py:MultiIndex.__setitem__", "polynomials_on_simplices/algebra/multiindex.py:MultiIndex.__hash__", "polynomials_on_simplices/algebra/multiindex.py:MultiIndex.__eq__", "polynomials_on_simplices/algebra/modular_arithmetic.py:IntegerModuloN.__hash__", "polynomials_on_simplices/algebra/modular_arithmetic.py:IntegerModuloN.__eq__"]}
{"id": "C123", "title": "Source files and modules found in a package", "statement": "source_file_paths(path, ...) yields exactly the files of the directory tree that are named stem.py (the stem not only dots), are not hidden and not below a hidden directory (unless include_hidden_files), do not start with exactly one underscore (unless include_private_files) and, with exclude_test_files, are not files ending in _test.py or _test_interactive.py directly in a directory test; each exactly once. submodules yields the import path of a module exactly when no component of its name after the first starts with py. Not true in general: for a component that starts with py the dot and the py are lost (tools.pyplot becomes toolsplot), so two modules can get one path; files starting with two underscores count as not private although documented as private; with the path '.' and exclude_test_files a test module at the top level raises IndexError.", "quantifier": "all directory trees (any depth, any names), all flags, all lists of module names", "why_tests_cant": "The result is a statement about all trees and all names; tests look at one package, in which no name triggers the faults.", "anchors": ["polynomials_on_simplices/generic_tools/package_utils.py:submodules", "polynomials_on_simplices/generic_tools/package_utils.py:submodule_paths", "polynomials_on_simplices/generic_tools/package_utils.py:source_file_paths", "polynomials_on_simplices/generic_tools/package_utils.py:_is_test_file"]}
{"id": "C124", "title": "Names and docstrings of generated functions", "statement": "The functions that the code generators define always have names that are Python identifiers, for every basis, dimension, degree and hash value of the coefficients (also negative ones). For domains of dimension less than ten a name determines the basis, dimension and degree and, for functions with specific coefficients, the hash value up to sign; names of general and of specific functions never agree. From dimension ten on two general functions can have the same name (dimension 1, degree 12 and dimension 11, degree 2), so the second definition replaces the first. generate_docstring fills every placeholder of its templates and changes nothing else, for every dimension, degree and formula; a formula of several lines becomes an indented block.", "quantifier": "all bases, dimensions, degrees, hash values; all names of bases without the character < and all formulas", "why_tests_cant": "Uniqueness of names concerns all pairs of functions; the clash needs a dimension of ten or more, which no test tries.", "anchors": ["polynomials_on_simplices/polynomial/code_generation/generate_polynomial_functions.py:generate_function_specific_name", "polynomials_on_simplices/polynomial/code_generation/generate_polynomial_functions.py:generate_docstring", "polynomials_on_simplices/polynomial/code_generation/generate_polynomial_functions.py:_domain", "polynomials_on_simplices/polynomial/code_generation/generate_polynomial_functions.py:_multivariate", "polynomials_on_simplices/polynomial/code_generation/generate_monomial_polynomial_functions.py:generate_function_general", "polynomials_on_simplices/polynomial/code_generation/generate_monomial_polynomial_functions.py:generate_function_specific", "polynomials_on_simplices/polynomial/code_generation/generate_barycentric_polynomial_functions_simplex.py:generate_function_general", "polynomials_on_simplices/polynomial/code_generation/generate_barycentric_polynomial_functions_simplex.py:generate_function_specific", "polynomials_on_simplices/polynomial/code_generation/generate_lagrange_polynomial_functions_simplex.py:generate_function_general", "polynomials_on_simplices/polynomial/code_generation/generate_lagrange_polynomial_functions_simplex.py:generate_function_specific"]}
{"id": "C125", "title": "Source code of single polynomials", "statement": "code_str(fn_name) of a polynomial is exactly the code that the code generator writes for a function of that name: only the name in the first line changes, for every basis, dimension, degree, hash value, name and body without the letter v. On a simplex, code_str(fn_name) is a function of y that computes the map to the unit simplex (one line for a one-dimensional domain, three otherwise) and continues with the unchanged lines of the code of the polynomial on the unit simplex after its first line. It is not true that the code on a simplex determines the map: the array is written with 8 decimals, so two different maps can have the same code.", "quantifier": "all bases, dimensions, degrees, hash values, function names and nonempty bodies without the letter v; all texts of the affine map", "why_tests_cant": "A test compares values for a few polynomials; that text replacement touches the name only concerns every body, and the lost digits are below the tolerances of the tests.", "anchors": ["polynomials_on_simplices/polynomial/polynomials_monomial_basis.py:Polynomial.code_str", "polynomials_on_simplices/polynomial/polynomials_unit_simplex_bernstein_basis.py:PolynomialBernstein.code_str", "polynomials_on_simplices/polynomial/polynomials_unit_simplex_lagrange_basis.py:PolynomialLagrange.code_str", "polynomials_on_simplices/polynomial/polynomials_simplex_bernstein_basis.py:PolynomialBernsteinSimplex.code_str", "polynomials_on_simplices/polynomial/polynomials_simplex_lagrange_basis.py:PolynomialLagrangeSimplex.code_str", "polynomials_on_simplices/polynomial/code_generation/generate_monomial_polynomial_functions.py:generate_function_specific", "polynomials_on_simplices/polynomial/code_generation/generate_barycentric_polynomial_functions_simplex.py:generate_function_specific", "polynomials_on_simplices/polynomial/code_generation/generate_lagrange_polynomial_functions_simplex.py:generate_function_specific"]}
