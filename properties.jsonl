{"id": "C01", "title": "quaternion.to_matrix always yields a proper rotation", "statement": "For every quaternion q given to quaternion.to_matrix - normalised or not, zero or not - the returned matrix R satisfies R R^T = I, R^T R = I and det R = 1, and depends only on the direction of q (scaling q by s != 0 gives the same R).", "quantifier": "all quaternions in R^4 and all non-zero scalings", "why_tests_cant": "The claim ranges over an uncountable/unbounded input space; unit tests sample a handful of values.", "anchors": ["rainbow/math/quaternion.py:to_matrix", "rainbow/math/quaternion.py:unit"]}
{"id": "C02", "title": "quaternion.rotate is the rotation described by to_matrix", "statement": "For every unit quaternion q and vector v, rotate(q,v) = to_matrix(q) v, and rotate preserves inner products, lengths and cross products; for non-unit q it scales lengths by |q|^2.", "quantifier": "all quaternions, all vectors", "why_tests_cant": "The claim ranges over an uncountable/unbounded input space; unit tests sample a handful of values.", "anchors": ["rainbow/math/quaternion.py:rotate", "rainbow/math/quaternion.py:to_matrix"]}
{"id": "C03", "title": "from_matrix / to_matrix round trip", "statement": "For every rotation matrix M (M M^T = I, det M = 1) from_matrix(M) is a unit quaternion and to_matrix(from_matrix(M)) = M, whichever of the four trace branches is taken and without ever dividing by zero or taking the root of a negative number; for every unit q, from_matrix(to_matrix(q)) is q or -q.", "quantifier": "all rotation matrices, all unit quaternions", "why_tests_cant": "The claim ranges over an uncountable/unbounded input space; unit tests sample a handful of values. The branch boundaries (trace 0, equal diagonal entries) have measure zero.", "anchors": ["rainbow/math/quaternion.py:from_matrix", "rainbow/math/quaternion.py:to_matrix"]}
{"id": "C04", "title": "quaternion product algebra", "statement": "prod is associative with identity() as unit, conjugate reverses products, |prod(a,b)| = |a||b|, prod(q,conjugate(q)) = (|q|^2,0,0,0), and rotate(prod(a,b),v) = rotate(a,rotate(b,v)) for all a, b, v.", "quantifier": "all quaternions and vectors", "why_tests_cant": "The claim ranges over an uncountable/unbounded input space; unit tests sample a handful of values.", "anchors": ["rainbow/math/quaternion.py:prod", "rainbow/math/quaternion.py:conjugate", "rainbow/math/quaternion.py:rotate"]}
{"id": "C05", "title": "rotate_array agrees with rotate row by row", "statement": "For every quaternion q and every array of points (any length) rotate_array(q, rs) has the same length and its row n is rotate(q, rs[n]).", "quantifier": "all quaternions, all arrays of points of any length", "why_tests_cant": "The claim ranges over an uncountable/unbounded input space; unit tests sample a handful of values.", "anchors": ["rainbow/math/quaternion.py:rotate_array", "rainbow/math/quaternion.py:prod_array"]}
{"id": "C06", "title": "coordinate systems: inverse, composition and change of frame", "statement": "For coordinate systems with unit quaternions: xform_point(inverse(X), xform_point(X,p)) = p and conversely; xform_point(concat(B,A),p) = xform_point(B, xform_point(A,p)); with X = make_coordsys_from_to(A,B), xform_point(B, xform_point(X,p)) = xform_point(A,p); results again carry unit quaternions.", "quantifier": "all rigid transforms and points", "why_tests_cant": "The claim ranges over an uncountable/unbounded input space; unit tests sample a handful of values.", "anchors": ["rainbow/math/coordsys.py:inverse", "rainbow/math/coordsys.py:concat", "rainbow/math/coordsys.py:make_coordsys_from_to", "rainbow/math/coordsys.py:xform_point"]}
{"id": "C07", "title": "make_orthonormal_vectors builds a right-handed orthonormal frame", "statement": "For every non-zero vector n, make_orthonormal_vectors(n) returns (t,b,m) with m = n/|n|, unit length t, b, m, pairwise orthogonal, and t x b = m; no division by zero occurs, including when components tie in magnitude.", "quantifier": "all non-zero vectors", "why_tests_cant": "The claim ranges over an uncountable/unbounded input space; unit tests sample a handful of values. Ties between components select branches of measure zero.", "anchors": ["rainbow/math/vector3.py:make_orthonormal_vectors"]}
{"id": "C08", "title": "lexicographic vector comparison is a strict total order", "statement": "less is irreflexive, transitive, asymmetric and total up to equality; greather(a,b) = less(b,a); less_than_equal / greather_than_equal are the complements, and exactly one of less, greather, componentwise-equal holds.", "quantifier": "all pairs and triples of vectors", "why_tests_cant": "The claim ranges over an uncountable/unbounded input space; unit tests sample a handful of values.", "anchors": ["rainbow/math/vector3.py:less", "rainbow/math/vector3.py:greather", "rainbow/math/vector3.py:less_than_equal", "rainbow/math/vector3.py:greather_than_equal"]}
{"id": "C09", "title": "axis rotations agree between quaternion and matrix form", "statement": "For every angle a and non-zero axis u: quaternion.Ru(a,u) is a unit quaternion, to_matrix of it is matrix3.Ru(a,u), Rx/Ry/Rz are the special cases for the coordinate axes in both modules, the axis is a fixed vector, and rotations about the same axis add angles.", "quantifier": "all angles and axes", "why_tests_cant": "The claim ranges over an uncountable/unbounded input space; unit tests sample a handful of values.", "anchors": ["rainbow/math/quaternion.py:Ru", "rainbow/math/quaternion.py:Rx", "rainbow/math/quaternion.py:Ry", "rainbow/math/quaternion.py:Rz", "rainbow/math/matrix3.py:Ru", "rainbow/math/matrix3.py:Rx", "rainbow/math/matrix3.py:Ry", "rainbow/math/matrix3.py:Rz"]}
{"id": "C10", "title": "Euler angles reproduce the rotation", "statement": "For every rotation matrix R, with (rx,ry,rz) = make_euler_xyz_from_matrix(R), Rz(rz) Ry(ry) Rx(rx) = R, including both gimbal-lock branches; make_euler_xyz_from_quaternion reproduces to_matrix(q) for every q.", "quantifier": "all rotation matrices and quaternions", "why_tests_cant": "The claim ranges over an uncountable/unbounded input space; unit tests sample a handful of values. Gimbal lock is a measure-zero branch.", "anchors": ["rainbow/math/euler.py:make_euler_xyz_from_matrix", "rainbow/math/euler.py:make_euler_xyz_from_quaternion"]}
{"id": "C11", "title": "slerp interpolates rotations on the unit sphere", "statement": "For unit quaternions a, b and every t, slerp(a,b,t) is a unit quaternion, slerp(a,b,0) = a, slerp(a,b,1) = b or -b (same rotation as b), t is clamped to [0,1], and interpolating between two quaternions that describe the same rotation (b = -a) yields that rotation for every t.", "quantifier": "all unit quaternion pairs and all real t", "why_tests_cant": "The claim ranges over an uncountable/unbounded input space; unit tests sample a handful of values.", "anchors": ["rainbow/math/quaternion.py:slerp", "rainbow/math/quaternion.py:lerp"]}
{"id": "C12", "title": "exponential map yields the rotation by |v| about v", "statement": "For every v with |v| at or above the Taylor cross-over, exp(v) is a unit quaternion whose rotation is the rotation by angle |v| about v/|v|, reparameterization does not change the rotation and returns a vector of length at most pi; log(exp(v)) = v whenever |v| < pi, and log inverts every unit quaternion up to sign.", "quantifier": "all exponential-map vectors, all unit quaternions", "why_tests_cant": "The claim ranges over an uncountable/unbounded input space; unit tests sample a handful of values.", "anchors": ["rainbow/math/expmap.py:exp", "rainbow/math/expmap.py:reparameterization", "rainbow/math/expmap.py:log"]}
{"id": "C13", "title": "expmap derivatives are derivatives", "statement": "Away from the Taylor region dQdv_i(v,i) is the partial derivative of v -> exp(v) (no reparameterisation) with respect to component i, and dRdv_i is the partial derivative of the rotation matrix.", "quantifier": "all v, all component indices", "why_tests_cant": "The claim ranges over an uncountable/unbounded input space; unit tests sample a handful of values.", "anchors": ["rainbow/math/expmap.py:dQdv_i", "rainbow/math/expmap.py:dRdv_i", "rainbow/math/expmap.py:__dRdv_i"]}
{"id": "C14", "title": "2D polynomial monomials are complete and duplicate free", "statement": "For every order n, poly2_make_monomial_powers(n) lists every pair (i,j) with i+j <= n exactly once and nothing else, its length equals number_of_monomial_terms(2,n) = C(n+2,2), and evaluate computes the sum of coefficient * x^i * y^j.", "quantifier": "all orders n >= 0, all coefficients and points", "why_tests_cant": "Unbounded order; tests check a few small orders.", "anchors": ["rainbow/math/polynomial.py:Helpers.poly2_make_monomial_powers", "rainbow/math/polynomial.py:Helpers.number_of_monomial_terms", "rainbow/math/polynomial.py:evaluate"]}
{"id": "C15", "title": "polynomial derivative and interpolation are exact", "statement": "For every polynomial P and point, derivative(P)[d] evaluates to the partial derivative of evaluate(P,.) in direction d; if the linear solve returns a solution of V a = b then interpolate(order,x,v) evaluates to v[k] at each of the first K points for every column.", "quantifier": "all orders, coefficients, points and data arrays", "why_tests_cant": "The claim ranges over an uncountable/unbounded input space; unit tests sample a handful of values.", "anchors": ["rainbow/math/polynomial.py:derivative", "rainbow/math/polynomial.py:interpolate", "rainbow/math/polynomial.py:Helpers.make_vandermonde_matrix"]}
{"id": "C16", "title": "Heap behaves as an updatable priority map", "statement": "After any history of push/update/pop, pop returns the index whose most recently pushed value is smallest (ties by smallest index) and removes it, or None exactly when no index is present; bool(heap) tells whether any index is present; a stale value is never popped.", "quantifier": "all operation histories, all keys and values", "why_tests_cant": "It must hold after every history of API calls; tests run a few fixed histories.", "anchors": ["rainbow/util/heap.py:Heap"]}
{"id": "C17", "title": "Timer accounting", "statement": "For every history of start/end calls with arbitrary clock readings: end without a pending start raises and changes nothing, elapsed is the last completed interval, total is the sum of all completed intervals.", "quantifier": "all start/end histories and clock readings", "why_tests_cant": "It must hold after every history of API calls; tests run a few fixed histories.", "anchors": ["rainbow/util/timer.py:Timer"]}
{"id": "C18", "title": "AABB is the tight bounding box and overlap is exact", "statement": "create_from_vertices encloses every vertex and touches a vertex on each of the six faces; is_overlap(a,b) holds iff the two boxes share a point; it is symmetric; with boundary d >= 0 it holds iff the boxes grown by d share a point, and it is monotone in d; two vertex sets whose boxes do not overlap share no point.", "quantifier": "all vertex arrays of any length and all boundaries", "why_tests_cant": "The claim ranges over an uncountable/unbounded input space; unit tests sample a handful of values.", "anchors": ["rainbow/geometry/aabb.py:AABB.create_from_vertices", "rainbow/geometry/aabb.py:AABB.is_overlap"]}
{"id": "C19", "title": "k-DOP operations are conservative and exact on slabs", "statement": "make(K,V,e) bounds every vertex by slack at least e and is tight; union(A,B) is the smallest k-DOP containing both; overlap(A,B) is symmetric, monotone under enlarging either k-DOP, and never false when a common point lies in both; mismatched K raises.", "quantifier": "all K-DOPs, all vertex arrays, all envelopes", "why_tests_cant": "The claim ranges over an uncountable/unbounded input space; unit tests sample a handful of values.", "anchors": ["rainbow/geometry/kdop.py:make", "rainbow/geometry/kdop.py:union", "rainbow/geometry/kdop.py:overlap"]}
{"id": "C20", "title": "BVH construction is a well-formed binary tree over all elements", "statement": "For every element count M and chunk size N >= 1, make_bvh partitions elements 0..M-1 over its chunks so that each element is in exactly one leaf, children always have larger node indices than their parent, no node index reaches N, and each internal node has exactly two children.", "quantifier": "all mesh sizes and chunk sizes", "why_tests_cant": "Unbounded sizes; off-by-one errors appear only for particular residues of M and N.", "anchors": ["rainbow/geometry/kdop_bvh.py:_make_sub_tree", "rainbow/geometry/kdop_bvh.py:make_bvh"]}
{"id": "C21", "title": "BVH refit bounds every descendant", "statement": "After make_bvh or refit_bvh with coordinates V, every leaf volume is the k-DOP of its element's vertices at V (with envelope), every internal volume contains the volumes of all its descendants, and the tree root contains every volume.", "quantifier": "all meshes, coordinates, chunk sizes and refit histories", "why_tests_cant": "It must hold after every history of API calls; tests run a few fixed histories.", "anchors": ["rainbow/geometry/kdop_bvh.py:_refit_sub_tree", "rainbow/geometry/kdop_bvh.py:refit_bvh"]}
{"id": "C22", "title": "BVH traversal reports exactly the overlapping element pairs", "statement": "traversal(A,B) terminates and returns a pair (i,j) iff the k-DOPs of element i of A and element j of B overlap, each pair exactly once; in particular two elements that share a point are always reported.", "quantifier": "all pairs of meshes, sizes, chunk sizes, coordinates and envelopes", "why_tests_cant": "The claim ranges over an uncountable/unbounded input space; unit tests sample a handful of values.", "anchors": ["rainbow/geometry/kdop_bvh.py:traversal", "rainbow/geometry/kdop_bvh.py:_iterative_sub_tree_traversal"]}
{"id": "C23", "title": "grid node indexing is a bijection and eval_on_grid stores exactly the samples", "statement": "get_linear_index maps the valid (i,j,k) one-to-one onto 0..IJK-1, is_valid_node_index accepts exactly those, node coordinates run from min_coord to max_coord, and after eval_on_grid(grid,f) get_node_value(i,j,k) = f(get_node_coord(i,j,k)) for all valid nodes; get_nodes_array agrees.", "quantifier": "all grid sizes, all functions f", "why_tests_cant": "Unbounded grid dimensions and arbitrary sampled functions.", "anchors": ["rainbow/geometry/grid3.py:Grid.get_linear_index", "rainbow/geometry/grid3.py:Grid.is_valid_node_index", "rainbow/geometry/grid3.py:Grid.get_node_coord", "rainbow/geometry/grid3.py:eval_on_grid", "rainbow/geometry/grid3.py:get_nodes_array"]}
{"id": "C24", "title": "enclosing cell lookup", "statement": "For every point p, get_enclosing_cell_idx returns a cell index in [0,I-2]x[0,J-2]x[0,K-2]; if p lies inside the grid box the cell's corner coordinates bracket p on every axis; outside it is the closest cell.", "quantifier": "all grids with positive spacing, all points", "why_tests_cant": "The claim ranges over an uncountable/unbounded input space; unit tests sample a handful of values.", "anchors": ["rainbow/geometry/grid3.py:Grid.get_enclosing_cell_idx"]}
{"id": "C25", "title": "trilinear interpolation", "statement": "get_value reproduces the node values at nodes, reproduces every trilinear function exactly, lies between the smallest and largest of the eight corner values when p is inside the grid, and is continuous across cell boundaries.", "quantifier": "all grids, values and points", "why_tests_cant": "The claim ranges over an uncountable/unbounded input space; unit tests sample a handful of values.", "anchors": ["rainbow/geometry/grid3.py:get_value"]}
{"id": "C26", "title": "get_gradient is the gradient of get_value", "statement": "For every grid with positive spacing and every point strictly inside a cell, get_gradient(grid,p) is the spatial gradient of get_value(grid,.) at p.", "quantifier": "all grids, values and points", "why_tests_cant": "The claim ranges over an uncountable/unbounded input space; unit tests sample a handful of values.", "anchors": ["rainbow/geometry/grid3.py:get_gradient"]}
{"id": "C27", "title": "grid is_inside", "statement": "is_inside(grid,p,d) is true iff p is at distance at least d from every face of the grid box on the inner side, is antitone in d, and raises for negative d.", "quantifier": "all grids, points, boundaries", "why_tests_cant": "The claim ranges over an uncountable/unbounded input space; unit tests sample a handful of values.", "anchors": ["rainbow/geometry/grid3.py:is_inside"]}
{"id": "C28", "title": "barycentric coordinates of an edge", "statement": "For distinct x1,x2 and any p, compute_barycentric_edge returns w1+w2 = 1 and w1 x1 + w2 x2 is the orthogonal projection of p on the line through x1,x2 (its closest point).", "quantifier": "all edges and points", "why_tests_cant": "The claim ranges over an uncountable/unbounded input space; unit tests sample a handful of values.", "anchors": ["rainbow/geometry/barycentric.py:compute_barycentric_edge"]}
{"id": "C29", "title": "barycentric coordinates of triangle and tetrahedron", "statement": "For non-degenerate simplices the weights sum to one; for a triangle w1 x1+w2 x2+w3 x3 is the orthogonal projection of p on its plane, for a tetrahedron of either orientation it is p itself; the weights are unique; is_inside_* holds for the computed weights iff all weights are non-negative.", "quantifier": "all simplices and points", "why_tests_cant": "The claim ranges over an uncountable/unbounded input space; unit tests sample a handful of values.", "anchors": ["rainbow/geometry/barycentric.py:compute_barycentric_triangle", "rainbow/geometry/barycentric.py:compute_barycentric_tetrahedron", "rainbow/geometry/barycentric.py:is_inside_triangle", "rainbow/geometry/barycentric.py:is_inside_tetrahedron"]}
{"id": "C30", "title": "barycentric derivative of a tetrahedron", "statement": "For every positively oriented tetrahedron the four returned vectors are the spatial gradients of its four barycentric coordinates (and sum to zero).", "quantifier": "all positively oriented tetrahedra", "why_tests_cant": "The claim ranges over an uncountable/unbounded input space; unit tests sample a handful of values.", "anchors": ["rainbow/geometry/barycentric.py:compute_barycentric_derivatives_tetrahedron"]}
{"id": "C31", "title": "circumscribed and inscribed sphere", "statement": "For every non-degenerate tetrahedron the circumscribed centre has the returned radius as distance to all four vertices; the inscribed centre has the returned radius as (signed) distance to the four face planes.", "quantifier": "all non-degenerate tetrahedra", "why_tests_cant": "The claim ranges over an uncountable/unbounded input space; unit tests sample a handful of values.", "anchors": ["rainbow/geometry/tetrahedron.py:compute_circumscribed_sphere", "rainbow/geometry/tetrahedron.py:compute_inscribed_sphere"]}
{"id": "C32", "title": "tetrahedron sample points", "statement": "For every N >= 2 generate_sample_points(N) lists exactly once every barycentric grid point with denominator N-1 (count C(N+2,3)), each with non-negative weights summing to one; generate_interior_sample_points(N) keeps exactly the strictly interior ones.", "quantifier": "all N >= 2", "why_tests_cant": "Unbounded N.", "anchors": ["rainbow/geometry/tetrahedron.py:generate_sample_points", "rainbow/geometry/tetrahedron.py:generate_interior_sample_points"]}
{"id": "C33", "title": "cube-to-tetrahedra meshing", "statement": "For all I,J,K the array has 5(I-1)(J-1)(K-1) rows, every index is a valid node, and on a beam of positive dimensions every tetrahedron has positive signed volume and the volumes sum to width*height*depth.", "quantifier": "all grid dimensions and beam sizes", "why_tests_cant": "Unbounded dimensions; parity-alternating pattern.", "anchors": ["rainbow/geometry/volume_mesh.py:create_tetrahedron_array_from_cube_mesh", "rainbow/geometry/volume_mesh.py:create_beam", "rainbow/geometry/volume_mesh.py:compute_volumes"]}
{"id": "C34", "title": "tetrahedron neighbours and boundary surface", "statement": "For every tetrahedral mesh in which each face is shared by at most two tetrahedra: N[e,v]=n>=0 iff tetrahedron n has the face of e opposite local node v, the relation is symmetric, -1 marks exactly the unshared faces, and compute_surface returns exactly those faces once each with the owning element and outward orientation for positively oriented elements.", "quantifier": "all tetrahedral meshes", "why_tests_cant": "The claim ranges over an uncountable/unbounded input space; unit tests sample a handful of values.", "anchors": ["rainbow/geometry/volume_mesh.py:compute_neighbors", "rainbow/geometry/volume_mesh.py:compute_surface"]}
{"id": "C35", "title": "loop subdivision of tetrahedra", "statement": "create_loop_subdivision produces 8 tetrahedra per input tetrahedron whose signed volumes sum to the input volume, shares one midpoint vertex per mesh edge, keeps all original vertices, and uses only valid indices.", "quantifier": "all tetrahedral meshes", "why_tests_cant": "The claim ranges over an uncountable/unbounded input space; unit tests sample a handful of values.", "anchors": ["rainbow/geometry/volume_mesh.py:create_loop_subdivision"]}
{"id": "C36", "title": "vertex circulator", "statement": "VertexTetrahedronCirculator.tetrahedra(v) returns exactly the tetrahedra incident to v, in increasing order.", "quantifier": "all meshes and vertices", "why_tests_cant": "The claim ranges over an uncountable/unbounded input space; unit tests sample a handful of values.", "anchors": ["rainbow/geometry/volume_mesh.py:VertexTetrahedronCirculator"]}
{"id": "C37", "title": "generated surfaces are closed", "statement": "profile_sweep (hence cylinder, cone, conical, sphere, capsule), create_torus and create_box/create_cuboid return triangle arrays with valid indices in which each directed edge occurs exactly once and its reverse occurs exactly once (closed oriented 2-manifold).", "quantifier": "all profile lengths >= 3 and slices >= 3; all torus segments/slices >= 3", "why_tests_cant": "Unbounded mesh resolution.", "anchors": ["rainbow/geometry/surface_mesh.py:profile_sweep", "rainbow/geometry/surface_mesh.py:create_torus", "rainbow/geometry/surface_mesh.py:create_box", "rainbow/geometry/surface_mesh.py:create_cuboid"]}
{"id": "C38", "title": "axis_sort preserves the geometry", "statement": "axis_sort permutes vertices and triangles: vertices end up sorted along the axis, the multiset of triangles seen as coordinate triples is unchanged, and triangles are ordered by mean vertex index.", "quantifier": "all meshes and axes", "why_tests_cant": "The claim ranges over an uncountable/unbounded input space; unit tests sample a handful of values.", "anchors": ["rainbow/geometry/surface_mesh.py:axis_sort"]}
{"id": "C39", "title": "spatial hash insertion", "statement": "Inserting an object in a cell at time t returns the objects earlier inserted at time t in cells with the same hash; objects of older time steps are never returned; the hash depends only on the cell index and is within range.", "quantifier": "all insertion histories with non-decreasing time stamps", "why_tests_cant": "It must hold after every history of API calls; tests run a few fixed histories.", "anchors": ["rainbow/geometry/spatial_hashing.py:HashCell.add", "rainbow/geometry/spatial_hashing.py:HashGird.insert", "rainbow/geometry/spatial_hashing.py:HashGird.get_prefect_hash_value"]}
{"id": "C40", "title": "prox_sphere is the projection on the friction disc", "statement": "For mu >= 0 prox_sphere(z,mu,x_n) is the unique closest point to z of the ball of radius mu*max(x_n,0); it is idempotent and non-expansive.", "quantifier": "all z, mu >= 0, x_n", "why_tests_cant": "The claim ranges over an uncountable/unbounded input space; unit tests sample a handful of values.", "anchors": ["rainbow/simulators/prox_rigid_bodies/prox_operators.py:prox_sphere", "rainbow/simulators/proximal_contact/proximal_operators.py:prox_sphere"]}
{"id": "C41", "title": "prox_ellipsoid", "statement": "Whenever prox_ellipsoid returns for a point outside the ellipsoid, the returned point is a^2 z/(a^2+t) for a t bracketed between values where the ellipsoid equation is positive and non-positive; the expansion loop terminates for expansion factors > 1; points inside are returned unchanged; frictionless returns the origin.", "quantifier": "all z, positive radii, tolerances", "why_tests_cant": "The claim ranges over an uncountable/unbounded input space; unit tests sample a handful of values.", "anchors": ["rainbow/simulators/proximal_contact/proximal_operators.py:prox_ellipsoid"]}
{"id": "C42", "title": "contact solutions satisfy the friction cone", "statement": "For the Gauss-Seidel, parallel Gauss-Seidel, Jacobi and hybrid-Jacobi solvers, and for the rigid-body contact problem, whatever J, W, b, parameters and number of iterations, the returned contact force has non-negative normal components and friction components in the ball of radius mu times that normal component.", "quantifier": "all contact problems, parameters and iteration counts", "why_tests_cant": "The claim ranges over an uncountable/unbounded input space; unit tests sample a handful of values. The solver accepts/rejects iterates adaptively.", "anchors": ["rainbow/simulators/proximal_contact/gauss_seidel_solver.py:GaussSeidelSolver.sweep", "rainbow/simulators/proximal_contact/jacobi_solver.py:sweep_worker", "rainbow/simulators/proximal_contact/solver_interface.py:SolverInterface.solve", "rainbow/simulators/prox_rigid_bodies/constraints/contacts.py:Contacts.sweep", "rainbow/simulators/prox_rigid_bodies/gauss_seidel_solver.py:solve"]}
{"id": "C43", "title": "solver merit and r-factor control", "statement": "In every run the recorded merit of accepted iterates never increases, the returned solution is an accepted iterate (or the zero start), at most max_iterations sweeps are made, r-factors stay positive, and a rejected iterate is rolled back exactly to the last accepted one.", "quantifier": "all problems, all sweep functions, all parameters with positive rates", "why_tests_cant": "It must hold after every history of API calls; tests run a few fixed histories.", "anchors": ["rainbow/simulators/proximal_contact/solver_interface.py:SolverInterface.solve", "rainbow/simulators/proximal_contact/solver_interface.py:SolverInterface.update_r_factor_and_handle_sol_state", "rainbow/simulators/prox_rigid_bodies/gauss_seidel_solver.py:solve", "rainbow/simulators/prox_rigid_bodies/constraints/problem.py:Problem"]}
{"id": "C44", "title": "Gauss-Seidel bookkeeping of w", "statement": "During every sweep the incrementally updated vector w equals WJ^T x for the current x, so each block update uses z_b = x_b - r_b (A x + b)_b with the latest x.", "quantifier": "all problems and sweeps", "why_tests_cant": "The claim ranges over an uncountable/unbounded input space; unit tests sample a handful of values.", "anchors": ["rainbow/simulators/proximal_contact/gauss_seidel_solver.py:GaussSeidelSolver.sweep", "rainbow/simulators/prox_rigid_bodies/constraints/contacts.py:Contacts.sweep", "rainbow/simulators/prox_rigid_bodies/constraints/hinges.py:Hinges.sweep"]}
{"id": "C45", "title": "contact graph and colour groups", "statement": "build_contact_graph joins two rigid contacts iff they share a body; for any proper colouring of it, greedy_graph_coloring's colour groups partition the blocks (4k,4k+4), and two blocks in one group never touch the same body, so the blocks of a colour can be processed in any order with the same result.", "quantifier": "all contact lists, all proper colourings, all schedules within a colour", "why_tests_cant": "Needs all thread schedules.", "anchors": ["rainbow/simulators/proximal_contact/blocking.py:build_contact_graph", "rainbow/simulators/proximal_contact/blocking.py:greedy_graph_coloring", "rainbow/simulators/proximal_contact/gauss_seidel_solver.py:sweep_worker"]}
{"id": "C46", "title": "random_graph_coloring always returns a proper colouring", "statement": "For every simple graph, every max_iter and every sequence of random choices (and every set iteration order), random_graph_coloring terminates and gives adjacent vertices different colours, colouring every vertex exactly once.", "quantifier": "all graphs, all random choices, all iteration limits", "why_tests_cant": "Ranges over all random outcomes.", "anchors": ["rainbow/simulators/proximal_contact/blocking.py:random_graph_coloring"]}
{"id": "C47", "title": "parallel Gauss-Seidel equals a sequential sweep", "statement": "The parallel Gauss-Seidel sweep gives the same result as a sequential Gauss-Seidel sweep that visits the colour groups in order.", "quantifier": "all problems and colourings", "why_tests_cant": "The claim ranges over an uncountable/unbounded input space; unit tests sample a handful of values.", "anchors": ["rainbow/simulators/proximal_contact/gauss_seidel_solver.py:ParallelGaussSeidelSolver.sweep"]}
{"id": "C48", "title": "simulate advances exactly the requested time", "statement": "simulate(engine,T) raises for T <= 0 or a missing stepper; for time_step > 0 it terminates, every step size is in (0,time_step], step sizes sum to T and all but the last equal time_step; for a non-positive time_step it never terminates.", "quantifier": "all T and time_step", "why_tests_cant": "Unbounded durations.", "anchors": ["rainbow/simulators/prox_rigid_bodies/api.py:simulate"]}
{"id": "C49", "title": "fixed bodies never move", "statement": "For every engine, every number of steps, any forces, contacts and joints and whatever the solver returns, a body marked fixed keeps position, orientation and velocities.", "quantifier": "all engines, step counts and solver outcomes", "why_tests_cant": "It must hold after every history of API calls; tests run a few fixed histories.", "anchors": ["rainbow/simulators/prox_rigid_bodies/steppers.py:SemiImplicitStepper.step", "rainbow/simulators/prox_rigid_bodies/state_storage.py:StateStorage"]}
{"id": "C50", "title": "orientations stay unit quaternions", "statement": "After every step the orientation of each free body is a unit quaternion, whatever the velocities.", "quantifier": "all engines and histories", "why_tests_cant": "It must hold after every history of API calls; tests run a few fixed histories.", "anchors": ["rainbow/simulators/prox_rigid_bodies/state_storage.py:StateStorage.position_update"]}
{"id": "C51", "title": "constraint impulses conserve momentum", "statement": "For every contact set and every contact impulse vector (and hinge impulse vector when the anchor points coincide), the generalized impulse J^T x has zero total linear momentum and zero total angular momentum about the origin.", "quantifier": "all contacts, impulses, body states", "why_tests_cant": "The claim ranges over an uncountable/unbounded input space; unit tests sample a handful of values.", "anchors": ["rainbow/simulators/prox_rigid_bodies/constraints/contacts.py:Contacts._compute_jacobian_matrix", "rainbow/simulators/prox_rigid_bodies/constraints/hinges.py:Hinges._compute_jacobian_matrix"]}
{"id": "C52", "title": "contact and hinge Jacobians compute relative velocity", "statement": "J u gives, per contact, the relative velocity of the two bodies' material points at the contact along normal and two tangents plus the relative spin about the normal; per hinge, the relative anchor velocity and the relative angular velocity orthogonal to the hinge axis.", "quantifier": "all contacts, hinges, velocities", "why_tests_cant": "The claim ranges over an uncountable/unbounded input space; unit tests sample a handful of values.", "anchors": ["rainbow/simulators/prox_rigid_bodies/constraints/contacts.py:Contacts._compute_jacobian_matrix", "rainbow/simulators/prox_rigid_bodies/constraints/hinges.py:Hinges._compute_jacobian_matrix"]}
{"id": "C53", "title": "contact reduction removes exactly the duplicates", "statement": "After _contact_reduction no two contacts have the same unordered body pair and position, every removed contact has a kept one with the same body pair and position, order is preserved and the first of each class is kept.", "quantifier": "all contact lists", "why_tests_cant": "The claim ranges over an uncountable/unbounded input space; unit tests sample a handful of values.", "anchors": ["rainbow/simulators/prox_rigid_bodies/collision_detection.py:_contact_reduction"]}
{"id": "C54", "title": "contact optimisation stays on the triangle", "statement": "The contact point search never leaves the triangle: the optimised point is always a convex combination of the triangle's three vertices; it starts at a vertex and makes at most contact_optimization_max_iterations steps.", "quantifier": "all triangles, gradient fields, iteration limits", "why_tests_cant": "The claim ranges over an uncountable/unbounded input space; unit tests sample a handful of values.", "anchors": ["rainbow/simulators/prox_rigid_bodies/collision_detection.py:_compute_contacts"]}
{"id": "C55", "title": "engine state round trip", "statement": "copy_from_engine followed by copy_to_engine leaves all positions, orientations and velocities unchanged; body k of the engine owns slots 7k..7k+6 and 6k..6k+5.", "quantifier": "all engines with any number of bodies", "why_tests_cant": "The claim ranges over an uncountable/unbounded input space; unit tests sample a handful of values.", "anchors": ["rainbow/simulators/prox_rigid_bodies/state_storage.py:StateStorage.copy_from_engine", "rainbow/simulators/prox_rigid_bodies/state_storage.py:StateStorage.copy_to_engine"]}
{"id": "C56", "title": "engine API: names, indices, setters and getters", "statement": "For every history of API calls: body, shape, force and hinge names stay unique, body idx values are 0..N-1 in creation order, getters return the last value set for that body and setters touch no other body; a force is attached to a body at most once.", "quantifier": "all API call histories", "why_tests_cant": "It must hold after every history of API calls; tests run a few fixed histories.", "anchors": ["rainbow/simulators/prox_rigid_bodies/api.py:create_rigid_body", "rainbow/simulators/prox_rigid_bodies/api.py:create_hinge", "rainbow/simulators/prox_rigid_bodies/api.py:connect_force", "rainbow/simulators/prox_rigid_bodies/api.py:set_velocity", "rainbow/simulators/prox_rigid_bodies/api.py:set_body_type"]}
{"id": "C57", "title": "surface interaction library", "statement": "For every history: get_interaction(A,B) = get_interaction(B,A); after create_surfaces_interaction(A,B,e,mu) it returns exactly (e,mu) until the end of time (re-creation raises); undefined pairs give the default; stored epsilon and mu (created through the API) are non-negative; set_body_material succeeds iff the material occurs in some interaction.", "quantifier": "all histories, all names", "why_tests_cant": "It must hold after every history of API calls; tests run a few fixed histories.", "anchors": ["rainbow/simulators/prox_rigid_bodies/types.py:SurfacesInteractionLibrary", "rainbow/simulators/prox_rigid_bodies/api.py:create_surfaces_interaction", "rainbow/simulators/prox_rigid_bodies/api.py:set_body_material"]}
{"id": "C58", "title": "placing bodies through the model frame", "statement": "set_position(...,use_model_frame=True) puts the model-frame origin at r without changing orientation; set_orientation(...,use_model_frame=True) gives the model frame orientation q/|q| and keeps the model-frame origin where it was.", "quantifier": "all bodies, shapes, positions, orientations", "why_tests_cant": "The claim ranges over an uncountable/unbounded input space; unit tests sample a handful of values.", "anchors": ["rainbow/simulators/prox_rigid_bodies/api.py:set_position", "rainbow/simulators/prox_rigid_bodies/api.py:set_orientation"]}
{"id": "C59", "title": "set_hinge makes both sockets coincide", "statement": "After set_hinge in any mode, parent and child sockets transform to the same world origin (the requested one) and to the same world axis (the normalised requested axis), so the joint error vector is zero.", "quantifier": "all bodies, origins, non-zero axes, modes", "why_tests_cant": "The claim ranges over an uncountable/unbounded input space; unit tests sample a handful of values.", "anchors": ["rainbow/simulators/prox_rigid_bodies/api.py:set_hinge", "rainbow/simulators/prox_rigid_bodies/types.py:Hinge"]}
{"id": "C60", "title": "world inertia tensor", "statement": "update_inertia_tensor(R,B) = R diag(B) R^T; it is symmetric, and for a rotation R and positive B it is positive definite and the tensors of B and 1/B are inverse to each other.", "quantifier": "all rotations and inertia vectors", "why_tests_cant": "The claim ranges over an uncountable/unbounded input space; unit tests sample a handful of values.", "anchors": ["rainbow/simulators/prox_rigid_bodies/mass.py:update_inertia_tensor"]}
{"id": "C61", "title": "mass properties of a watertight mesh", "statement": "For every closed, consistently oriented triangle mesh without degenerate triangles, compute_mass_properties raises exactly when the enclosed signed volume is not positive, and otherwise returns density times the volume, the centre of mass and density times the inertia tensor of the enclosed solid (the integrals of 1, x_i and x_i x_j over it); numbers up to 1e-10 are replaced by 0. Moving the mesh keeps the mass and moves the centre of mass along.", "quantifier": "all meshes and densities", "why_tests_cant": "The claim ranges over an uncountable/unbounded input space; unit tests sample a handful of values.", "anchors": ["rainbow/simulators/prox_rigid_bodies/mass.py:compute_mass_properties"]}
{"id": "C62", "title": "parallel axis transfer", "statement": "Translating mass properties to the centre of mass gives the inertia tensor of the translated body: for every finite mass distribution with the given mass, centre and inertia (off-diagonal entries up to 1e-10 become 0).", "quantifier": "all mass distributions", "why_tests_cant": "The claim ranges over an uncountable/unbounded input space; unit tests sample a handful of values.", "anchors": ["rainbow/simulators/prox_rigid_bodies/mass.py:__translate_to_body_space_origin"]}
{"id": "C63", "title": "pre- and post-stabilisation targets are bounded", "statement": "Contact error entries are non-positive, no larger in magnitude than max_gap_value/dt, zero for contacts with penetration within min_gap_value or separating, only in normal rows; get_largest_penetration (rigid bodies) and get_largest_penetration_error (soft bodies) are the maximum of 0 and all penetrations.", "quantifier": "all contact lists and parameters", "why_tests_cant": "The claim ranges over an uncountable/unbounded input space; unit tests sample a handful of values.", "anchors": ["rainbow/simulators/prox_soft_bodies/solver.py:get_largest_penetration_error", "rainbow/simulators/prox_rigid_bodies/constraints/contacts.py:Contacts._compute_error_vector", "rainbow/simulators/prox_rigid_bodies/constraints/post_stabilization.py:PostStabilization._compute_error_vector", "rainbow/simulators/prox_rigid_bodies/constraints/contacts.py:Contacts.get_largest_penetration"]}
{"id": "C64", "title": "energy report", "statement": "Reported kinetic energy is non-negative for positive masses and inertias, fixed bodies contribute nothing, and the potential energy of a body counts the gravity forces acting on it.", "quantifier": "all engines", "why_tests_cant": "The claim ranges over an uncountable/unbounded input space; unit tests sample a handful of values.", "anchors": ["rainbow/simulators/prox_rigid_bodies/state_storage.py:StateStorage.compute_total_energy"]}
{"id": "C65", "title": "exponential-map rate follows the angular velocity", "statement": "For every rotation vector v outside the Taylor region (and not a full turn) and every angular velocity omega, moving v with velocity expmap.dvdt(omega,v) moves the quaternion exp(v) with velocity 1/2 omega*exp(v): dvdt composed with the dQdv_i columns is the quaternion kinematic equation.", "quantifier": "all v with |v| >= 1e-6 and sin(|v|/2) != 0, all omega", "why_tests_cant": "The claim ranges over an uncountable/unbounded input space; unit tests sample a handful of values.", "anchors": ["rainbow/math/expmap.py:dvdt", "rainbow/math/expmap.py:dQdv_i"]}
{"id": "C66", "title": "ortonormalize is Gram-Schmidt", "statement": "For every matrix whose first two rows are linearly independent matrix3.ortonormalize returns a rotation matrix whose first row is the direction of the first input row and whose second row spans, with the first, the same half plane as the input; the input's first two rows are overwritten with the result's.", "quantifier": "all matrices with independent first two rows", "why_tests_cant": "The claim ranges over an uncountable/unbounded input space; unit tests sample a handful of values.", "anchors": ["rainbow/math/matrix3.py:ortonormalize"]}
{"id": "C67", "title": "angle-axis extraction", "statement": "For every unit quaternion with non-zero vector part to_angle_axis returns an angle in (0,2pi) and a unit axis with Ru(angle,axis) = q; otherwise the axis is zero and the angle 0 or 2pi. to_angle(Ru(theta,u),u) is the representative of theta in (-pi,pi].", "quantifier": "all unit quaternions, all angles and non-zero axes", "why_tests_cant": "The claim ranges over an uncountable/unbounded input space; unit tests sample a handful of values.", "anchors": ["rainbow/math/quaternion.py:to_angle_axis", "rainbow/math/quaternion.py:to_angle"]}
{"id": "C68", "title": "printed polynomials determine the polynomial", "statement": "polynomial.to_str of two different polynomials of the same order gives different strings, so that printing P shows its signs, coefficients and powers faithfully.", "quantifier": "all coefficient vectors", "why_tests_cant": "The claim ranges over an uncountable/unbounded input space; unit tests sample a handful of values.", "anchors": ["rainbow/math/polynomial.py:to_str"]}
{"id": "C69", "title": "signed distance grid", "statement": "create_signed_distance(V,F,I,J,K,d) rejects a negative boundary and an empty mesh; otherwise the grid box is the tight bounding box of the vertices enlarged by d on every side, so every vertex is inside at distance d, and the value at every node is the signed distance igl reports at that node's coordinate.", "quantifier": "all meshes, grid sizes and boundaries", "why_tests_cant": "The claim ranges over an uncountable/unbounded input space; unit tests sample a handful of values.", "anchors": ["rainbow/geometry/grid3.py:create_signed_distance"]}
{"id": "C70", "title": "generated vertices lie on the named surface", "statement": "The vertices of create_sphere are at distance radius from the origin, those of create_ellipsoid satisfy the ellipsoid equation, those of create_cylinder are on the mantle or the cap centres, those of create_capsule on one of the two end spheres, those of create_torus on the torus, and those of create_box are the eight corners, with outward faces. profile_sweep places the turned profile points slice by slice.", "quantifier": "all radii, sizes and resolutions accepted by the generators", "why_tests_cant": "The claim ranges over an uncountable/unbounded input space; unit tests sample a handful of values.", "anchors": ["rainbow/geometry/surface_mesh.py:profile_sweep", "rainbow/geometry/surface_mesh.py:create_sphere", "rainbow/geometry/surface_mesh.py:create_box", "rainbow/geometry/surface_mesh.py:create_torus"]}
{"id": "C71", "title": "scale_to_unit", "statement": "scale_to_unit scales a mesh uniformly about the centre of its bounding box so that the new bounding box has the same centre and largest side exactly 1; it succeeds for every mesh whose bounding box has positive extent.", "quantifier": "all meshes", "why_tests_cant": "The claim ranges over an uncountable/unbounded input space; unit tests sample a handful of values.", "anchors": ["rainbow/geometry/surface_mesh.py:scale_to_unit", "rainbow/geometry/surface_mesh.py:aabb"]}
{"id": "C72", "title": "convex hull triangles face outwards", "statement": "Given the vertices and simplices of a hull, create_convex_hull keeps each triangle's vertices and orders them so that the counter-clockwise normal does not point towards the mean of the vertices.", "quantifier": "all vertex arrays and simplices", "why_tests_cant": "The claim ranges over an uncountable/unbounded input space; unit tests sample a handful of values.", "anchors": ["rainbow/geometry/surface_mesh.py:create_convex_hull"]}
{"id": "C73", "title": "spatial-hashing narrow phase is complete", "statement": "With spatial hashing, every pair of triangles of different soft bodies whose bounding boxes overlap (in particular every pair with a common point) is reported, whatever hash table, cell size > 0 and earlier time steps; pairs of one body are reported iff they pass the self-collision test; only pairs whose current boxes overlap are reported.", "quantifier": "all bodies, cell sizes, hash functions, earlier histories", "why_tests_cant": "The claim ranges over an uncountable/unbounded input space; unit tests sample a handful of values.", "anchors": ["rainbow/simulators/prox_soft_bodies/collision_detection.py:_spatial_hashing_narrow_phase", "rainbow/geometry/spatial_hashing.py:HashGird.insert"]}
{"id": "C74", "title": "self-collision test", "statement": "_is_self_collision returns true exactly for triangles of a body that share no vertex, have overlapping boxes and intersect.", "quantifier": "all pairs of triangles", "why_tests_cant": "The claim ranges over an uncountable/unbounded input space; unit tests sample a handful of values.", "anchors": ["rainbow/simulators/prox_soft_bodies/collision_detection.py:_is_self_collision", "rainbow/simulators/prox_soft_bodies/collision_detection.py:_triangle_intersection", "rainbow/simulators/prox_soft_bodies/collision_detection.py:_is_share_vertex"]}
{"id": "C75", "title": "free flight is semi-implicit Euler", "statement": "In a step without hinges in which no contact is found, every free body gets v' = v + dt F/m, w' = w + dt I^-1 T (F, T the sum of its attached forces and the gyroscopic torque) and r' = r + dt v'; n such steps under gravity alone give v - n h g and r + n h v - h^2 n(n+1)/2 g. An engine with one body and no hinges always flies freely.", "quantifier": "all engines, step sizes and step counts", "why_tests_cant": "It must hold after every history of API calls; tests run a few fixed histories.", "anchors": ["rainbow/simulators/prox_rigid_bodies/steppers.py:SemiImplicitStepper.step", "rainbow/simulators/prox_rigid_bodies/state_storage.py:StateStorage", "rainbow/simulators/prox_rigid_bodies/types.py:Gravity.compute"]}
{"id": "C76", "title": "a step never raises on a ready engine", "statement": "For every engine whose bodies have positive mass and inertia, a shape with a non-empty mesh, grid and BVH, hinges connected to bodies of the engine, and positive parameters, a step of any non-zero size succeeds and leaves the engine ready again, so simulate returns.", "quantifier": "all ready engines, all step sizes and histories", "why_tests_cant": "It must hold after every history of API calls; tests run a few fixed histories.", "anchors": ["rainbow/simulators/prox_rigid_bodies/steppers.py:SemiImplicitStepper.step", "rainbow/simulators/prox_rigid_bodies/collision_detection.py:run_collision_detection", "rainbow/simulators/prox_rigid_bodies/api.py:simulate"]}
{"id": "C77", "title": "stored contacts are meaningful", "statement": "After collision detection every stored contact joins two different bodies of the engine; its point lies on a triangle of one of them, at the point's position in the other's frame its gap is the value of the other's distance field (at most the envelope), and its normal is the unit vector along the gradient there, in world space.", "quantifier": "all engines with unit orientations on which collision detection succeeds", "why_tests_cant": "The claim ranges over an uncountable/unbounded input space; unit tests sample a handful of values.", "anchors": ["rainbow/simulators/prox_rigid_bodies/collision_detection.py:run_collision_detection", "rainbow/simulators/prox_rigid_bodies/collision_detection.py:_compute_contacts", "rainbow/simulators/prox_rigid_bodies/collision_detection.py:_contact_determination"]}
{"id": "C78", "title": "hinge pre-stabilisation reduces drift", "statement": "With pre-stabilisation on, velocities that satisfy the hinge equations exactly move the two anchor points of every hinge so that after the time step their gap is (1 - gap_reduction) times the present gap.", "quantifier": "all engines with hinges, time steps and exact solutions", "why_tests_cant": "The claim ranges over an uncountable/unbounded input space; unit tests sample a handful of values.", "anchors": ["rainbow/simulators/prox_rigid_bodies/constraints/hinges.py:Hinges._compute_error_vector", "rainbow/simulators/prox_rigid_bodies/constraints/hinges.py:Hinges.initialize"]}
{"id": "C79", "title": "touching bodies get contacts", "statement": "Collision detection finds a contact for bodies whose surfaces touch or penetrate.", "quantifier": "all engines", "why_tests_cant": "The claim ranges over an uncountable/unbounded input space; unit tests sample a handful of values.", "anchors": ["rainbow/simulators/prox_rigid_bodies/collision_detection.py:_compute_contacts", "rainbow/geometry/grid3.py:is_inside"]}
{"id": "C80", "title": "the body frame diagonalises the inertia", "statement": "For every mass distribution, in the frame (r, q) returned by xform_model_2_body_space the first moments vanish, the inertia tensor is the diagonal matrix of the returned moments, which are in descending order, and q is a unit quaternion, provided np.linalg.eig returns an orthonormal eigenbasis; unit eigenvectors are enough for that when the three moments differ.", "quantifier": "all mass distributions, all eigensolvers", "why_tests_cant": "The claim ranges over an uncountable/unbounded input space; unit tests sample a handful of values.", "anchors": ["rainbow/simulators/prox_rigid_bodies/mass.py:xform_model_2_body_space", "rainbow/simulators/prox_rigid_bodies/mass.py:__rotate_to_model_space_orientation"]}
{"id": "C81", "title": "create_shape centres and aligns the mesh", "statement": "For every closed mesh (with nothing lost to the 1e-10 clamps) the mesh kept by create_shape has volume equal to the stored mass, zero first moments and a diagonal inertia tensor equal to the stored moments, and rotating by q and translating by r gives back the mesh the user passed.", "quantifier": "all closed meshes", "why_tests_cant": "The claim ranges over an uncountable/unbounded input space; unit tests sample a handful of values.", "anchors": ["rainbow/simulators/prox_rigid_bodies/api.py:create_shape", "rainbow/simulators/prox_rigid_bodies/mass.py:compute_mass_properties", "rainbow/simulators/prox_rigid_bodies/mass.py:xform_model_2_body_space"]}
{"id": "C82", "title": "positive volume gives positive mass", "statement": "For every closed mesh of positive volume the computed mass is positive.", "quantifier": "all closed meshes", "why_tests_cant": "The claim ranges over an uncountable/unbounded input space; unit tests sample a handful of values.", "anchors": ["rainbow/simulators/prox_rigid_bodies/mass.py:compute_mass_properties"]}
{"id": "C83", "title": "a call that raises changes nothing", "statement": "For every engine reached through the API, a call that raises leaves every body, shape, force, hinge, interaction and parameter as they were.", "quantifier": "all API call histories and all calls", "why_tests_cant": "It must hold after every history of API calls; tests run a few fixed histories.", "anchors": ["rainbow/simulators/prox_rigid_bodies/api.py:connect_shape", "rainbow/simulators/prox_rigid_bodies/api.py:create_rigid_body", "rainbow/simulators/prox_rigid_bodies/api.py:set_hinge"]}
{"id": "C84", "title": "an engine set up through the API simulates", "statement": "For every history of API calls (with at least one triangle per chunk, a positive envelope and a valid k-DOP count) that leaves every body connected to a shape and with a mass, and every hinge set, simulate returns: no time step raises. The shapes' grid boxes must have no zero coordinate in their lower corner.", "quantifier": "all API call histories, all time steps", "why_tests_cant": "It must hold after every history of API calls; tests run a few fixed histories.", "anchors": ["rainbow/simulators/prox_rigid_bodies/api.py:simulate", "rainbow/simulators/prox_rigid_bodies/api.py:connect_shape", "rainbow/simulators/prox_rigid_bodies/api.py:set_mass_properties"]}
{"id": "C85", "title": "meshes stay where the user modelled them", "statement": "The vertices of a shape's mesh, taken from the body frame to the world of a body connected to the shape, are the vertices the user passed to create_shape taken from the model frame to the world.", "quantifier": "all meshes, all placements", "why_tests_cant": "The claim ranges over an uncountable/unbounded input space; unit tests sample a handful of values.", "anchors": ["rainbow/simulators/prox_rigid_bodies/api.py:create_shape", "rainbow/simulators/prox_rigid_bodies/api.py:set_position"]}
{"id": "C86", "title": "create_shape leaves the caller's mesh alone", "statement": "create_shape does not change the vertex array of the mesh the caller passes.", "quantifier": "all meshes", "why_tests_cant": "The claim ranges over an uncountable/unbounded input space; unit tests sample a handful of values.", "anchors": ["rainbow/simulators/prox_rigid_bodies/api.py:create_shape"]}
{"id": "C87", "title": "a skeleton is always a tree", "statement": "After any sequence of create_root, add_bone and the other API calls a non-empty skeleton is a tree rooted at bone 0: every other bone has exactly one parent, which has a smaller index and lists it once as a child; the Euler code of every bone is one of the twelve sequences. create_root on an empty skeleton and add_bone with an existing parent succeed exactly when the code is valid, leave all other bones as they were and store the given frame and angles; otherwise the call raises.", "quantifier": "all histories of skeleton-building calls", "why_tests_cant": "It must hold after every history of API calls; tests run a few fixed histories.", "anchors": ["rainbow/simulators/inverse_kinematics/api.py:create_root", "rainbow/simulators/inverse_kinematics/api.py:add_bone", "rainbow/simulators/inverse_kinematics/types.py:Bone", "rainbow/simulators/inverse_kinematics/types.py:Skeleton"]}
{"id": "C88", "title": "forward kinematics composes the frames", "statement": "For every skeleton update_skeleton gives every bone the world position and orientation obtained by composing the relative frames (translation, Euler rotation) along its path from the root; joint angles and relative frames are untouched; the result depends only on the joints, so calling it again changes nothing; distances between a bone and its parent are the length of the relative translation whatever the angles.", "quantifier": "all skeletons, angles and Euler sequences", "why_tests_cant": "The claim ranges over an uncountable/unbounded input space; unit tests sample a handful of values.", "anchors": ["rainbow/simulators/inverse_kinematics/api.py:update_skeleton", "rainbow/simulators/inverse_kinematics/types.py:Bone.update_parameters"]}
{"id": "C89", "title": "one chain per leaf", "statement": "For every skeleton make_chains returns exactly one chain for every bone without children, whose bones are the path from the root to that leaf in order, with the default goal (10,0,0) and no tool offset; so every bone is on some chain.", "quantifier": "all skeletons", "why_tests_cant": "The claim ranges over an uncountable/unbounded input space; unit tests sample a handful of values.", "anchors": ["rainbow/simulators/inverse_kinematics/api.py:make_chains"]}
{"id": "C90", "title": "joint angles can be read and written back", "statement": "get_joint_angles returns three angles per bone in bone order; set_joint_angles with an array of at least that length makes the angles equal to it and changes nothing else; writing what was read changes nothing; a too short array raises. set_angle/get_angle address the same positions (Python index wrap-around included). A call that raises changes nothing.", "quantifier": "all skeletons and arrays", "why_tests_cant": "The claim ranges over an uncountable/unbounded input space; unit tests sample a handful of values.", "anchors": ["rainbow/simulators/inverse_kinematics/api.py:get_joint_angles", "rainbow/simulators/inverse_kinematics/api.py:set_joint_angles", "rainbow/simulators/inverse_kinematics/api.py:set_angle", "rainbow/simulators/inverse_kinematics/api.py:get_angle"]}
{"id": "C91", "title": "the Jacobian is the derivative of the end effectors", "statement": "For every skeleton with up-to-date poses and every list of root-to-bone chains, entry (3n+r, i) of compute_jacobian is the exact partial derivative of coordinate r of the n-th chain's end effector with respect to joint angle i, for all twelve Euler sequences.", "quantifier": "all skeletons, chains and angles", "why_tests_cant": "The claim ranges over an uncountable/unbounded input space; unit tests sample a handful of values.", "anchors": ["rainbow/simulators/inverse_kinematics/api.py:compute_jacobian"]}
{"id": "C92", "title": "the gradient is the derivative of the objective", "statement": "compute_objective is half the sum of the squared distances from end effectors to goals, and compute_gradient is its exact gradient with respect to the joint angles.", "quantifier": "all skeletons, chains, goals and angles", "why_tests_cant": "The claim ranges over an uncountable/unbounded input space; unit tests sample a handful of values.", "anchors": ["rainbow/simulators/inverse_kinematics/api.py:compute_gradient", "rainbow/simulators/inverse_kinematics/api.py:compute_objective"]}
{"id": "C93", "title": "the Hessian is the second derivative of the objective", "statement": "compute_hessian returns the matrix of second partial derivatives of the objective with respect to the joint angles; in particular it is symmetric.", "quantifier": "all skeletons, chains, goals and angles", "why_tests_cant": "The claim ranges over an uncountable/unbounded input space; unit tests sample a handful of values.", "anchors": ["rainbow/simulators/inverse_kinematics/api.py:compute_hessian"]}
{"id": "C94", "title": "finite differences approximate the derivatives", "statement": "The finite-difference gradient is the central difference quotient of the objective, and as h tends to 0 the finite-difference gradient and Hessian tend to the exact first and second derivatives.", "quantifier": "all skeletons, chains and angles", "why_tests_cant": "The claim ranges over an uncountable/unbounded input space; unit tests sample a handful of values.", "anchors": ["rainbow/simulators/inverse_kinematics/api.py:compute_finite_difference_gradient", "rainbow/simulators/inverse_kinematics/api.py:compute_finite_difference_hessian"]}
{"id": "C95", "title": "finite differences leave the skeleton as it was", "statement": "After the finite-difference functions joint angles and world poses of the skeleton are what they were before.", "quantifier": "all skeletons, chains and step sizes", "why_tests_cant": "The claim ranges over an uncountable/unbounded input space; unit tests sample a handful of values.", "anchors": ["rainbow/simulators/inverse_kinematics/api.py:compute_finite_difference_gradient", "rainbow/simulators/inverse_kinematics/api.py:compute_finite_difference_hessian"]}
{"id": "C96", "title": "Lame parameters are the elastic constants", "statement": "For E > 0 and -1 < nu < 1/2 first_lame and second_lame return the parameters lambda, mu whose material, stretched along one axis, has Young's modulus E and Poisson ratio nu; mu and the bulk modulus are positive and different (E, nu) give different parameters. set_elasticity only lets through values the functions can handle.", "quantifier": "all Young moduli and Poisson ratios", "why_tests_cant": "The claim ranges over an uncountable/unbounded input space; unit tests sample a handful of values.", "anchors": ["rainbow/simulators/prox_soft_bodies/mechanics.py:first_lame", "rainbow/simulators/prox_soft_bodies/mechanics.py:second_lame", "rainbow/simulators/prox_soft_bodies/api.py:set_elasticity"]}
{"id": "C97", "title": "StVK stress is the gradient of its energy", "statement": "For every deformation gradient SVK.pk1_stress is the derivative of SVK.energy_density, both are frame indifferent, the Kirchhoff stress is symmetric, rotations cause neither stress nor energy, and with positive moduli the energy is non-negative and zero only at orthogonal F. The Cauchy stress of a symmetric second Piola-Kirchhoff stress is symmetric and is F S F^T / det F.", "quantifier": "all 3x3 deformation gradients and Lame parameters", "why_tests_cant": "The claim ranges over an uncountable/unbounded input space; unit tests sample a handful of values.", "anchors": ["rainbow/simulators/prox_soft_bodies/mechanics.py:SVK.pk1_stress", "rainbow/simulators/prox_soft_bodies/mechanics.py:SVK.energy_density", "rainbow/simulators/prox_soft_bodies/mechanics.py:cauchy_stress_tensor"]}
{"id": "C98", "title": "stable neo-Hookean stress is the gradient of its energy", "statement": "For every deformation gradient SNH.pk1_stress is the derivative of SNH.energy_density; both are frame indifferent, the Kirchhoff stress is symmetric and rotations cause no stress.", "quantifier": "all 3x3 deformation gradients and Lame parameters", "why_tests_cant": "The claim ranges over an uncountable/unbounded input space; unit tests sample a handful of values.", "anchors": ["rainbow/simulators/prox_soft_bodies/mechanics.py:SNH.pk1_stress", "rainbow/simulators/prox_soft_bodies/mechanics.py:SNH.energy_density"]}
{"id": "C99", "title": "the default constitutive model can be used", "statement": "The co-rotational model, which every new material gets, returns a stress and an energy for every invertible deformation gradient.", "quantifier": "all deformation gradients", "why_tests_cant": "The claim ranges over an uncountable/unbounded input space; unit tests sample a handful of values.", "anchors": ["rainbow/simulators/prox_soft_bodies/mechanics.py:COR.pk1_stress", "rainbow/simulators/prox_soft_bodies/mechanics.py:COR.energy_density", "rainbow/simulators/prox_soft_bodies/types.py:MaterialDescription"]}
{"id": "C100", "title": "polar decomposition", "statement": "For every 3x3 matrix the polar decomposition raises exactly when the matrix is singular and otherwise returns the unique factorisation A = R S with R orthogonal and S symmetric positive definite; R is a rotation.", "quantifier": "all 3x3 matrices, all correct symmetric eigensolvers", "why_tests_cant": "The claim ranges over an uncountable/unbounded input space; unit tests sample a handful of values.", "anchors": ["rainbow/math/matrix3.py:polar_decomposition_eig"]}
{"id": "C101", "title": "matrix-free products equal assembled matrices", "statement": "For every mesh, element arrays and nodal vector, prod_mat_vec returns the product of the assembled sparse matrix with the vector, for both memory layouts of the vector.", "quantifier": "all tetrahedral meshes, element arrays and vectors", "why_tests_cant": "The claim ranges over an uncountable/unbounded input space; unit tests sample a handful of values.", "anchors": ["rainbow/simulators/prox_soft_bodies/solver.py:ElementArrayUtil.prod_mat_vec", "rainbow/simulators/prox_soft_bodies/solver.py:ElementArrayUtil.assembly_csr"]}
{"id": "C102", "title": "the mass matrix is symmetric positive definite and carries the mass", "statement": "For every mesh with positive volumes that uses all its nodes, the lumped and the consistent mass matrix are symmetric positive definite (so invertible); applied to a uniform velocity they give the momentum rho * volume * velocity; the lumped one is diagonal.", "quantifier": "all tetrahedral meshes and densities", "why_tests_cant": "The claim ranges over an uncountable/unbounded input space; unit tests sample a handful of values.", "anchors": ["rainbow/simulators/prox_soft_bodies/solver.py:Native.compute_mass_element_array"]}
{"id": "C103", "title": "damping dissipates, gravity is weight", "statement": "Viscous damping forces never do positive work, and strictly negative work on every moving node set when c > 0; the gravity forces equal the lumped mass matrix times g and add up to rho * volume * g.", "quantifier": "all meshes, velocities and gravity vectors", "why_tests_cant": "The claim ranges over an uncountable/unbounded input space; unit tests sample a handful of values.", "anchors": ["rainbow/simulators/prox_soft_bodies/solver.py:Native.compute_damping_element_array", "rainbow/simulators/prox_soft_bodies/solver.py:Native.compute_damping_forces", "rainbow/simulators/prox_soft_bodies/solver.py:Native.compute_gravity_forces"]}
{"id": "C104", "title": "face vectors are outward area vectors", "statement": "For every tetrahedron the outward face vectors are orthogonal to their faces with the area as length, point away from the opposite vertex for positive volume, add up to zero, and are -3 V times the gradients of the linear shape functions.", "quantifier": "all tetrahedra", "why_tests_cant": "The claim ranges over an uncountable/unbounded input space; unit tests sample a handful of values.", "anchors": ["rainbow/simulators/prox_soft_bodies/solver.py:Native.compute_outward_face_vectors"]}
{"id": "C105", "title": "the deformation gradient maps rest edges to deformed edges", "statement": "For every mesh compute_inverse_D0 raises exactly when a rest tetrahedron is not positive and compute_deformation_gradient when a current one is not; otherwise F maps every rest edge to the current edge; an affine map with linear part B gives F = B everywhere; rotating the current configuration rotates F.", "quantifier": "all rest and current configurations", "why_tests_cant": "The claim ranges over an uncountable/unbounded input space; unit tests sample a handful of values.", "anchors": ["rainbow/simulators/prox_soft_bodies/solver.py:Native.compute_D", "rainbow/simulators/prox_soft_bodies/solver.py:Native.compute_inverse_D0", "rainbow/simulators/prox_soft_bodies/solver.py:Native.compute_deformation_gradient"]}
{"id": "C106", "title": "elastic forces are minus the gradient of the elastic energy", "statement": "For every mesh, configuration and constitutive model the nodal elastic forces are minus the derivative of the elastic energy with respect to the nodal positions.", "quantifier": "all meshes, configurations, constitutive models", "why_tests_cant": "The claim ranges over an uncountable/unbounded input space; unit tests sample a handful of values.", "anchors": ["rainbow/simulators/prox_soft_bodies/solver.py:Native.compute_elastic_forces", "rainbow/simulators/prox_soft_bodies/solver.py:Native.compute_elastic_energy"]}
{"id": "C107", "title": "elastic forces are internal", "statement": "For every configuration the elastic forces have no resultant and (for StVK and neo-Hookean) no torque; a rigidly moved rest configuration has none at all.", "quantifier": "all meshes and configurations", "why_tests_cant": "The claim ranges over an uncountable/unbounded input space; unit tests sample a handful of values.", "anchors": ["rainbow/simulators/prox_soft_bodies/solver.py:Native.compute_elastic_forces"]}
{"id": "C108", "title": "traction puts the load on the surface", "statement": "Traction forces act on the nodes of the loaded triangles only, equally on the three nodes, and add up to current area times traction vector.", "quantifier": "all configurations and traction conditions", "why_tests_cant": "The claim ranges over an uncountable/unbounded input space; unit tests sample a handful of values.", "anchors": ["rainbow/simulators/prox_soft_bodies/solver.py:Native.compute_traction_forces"]}
{"id": "C109", "title": "reported energies belong to the forces", "statement": "The kinetic energy is (1/2) u^T M u; the potential energy decreases by exactly the work of the gravity forces under any displacement.", "quantifier": "all meshes, velocities and displacements", "why_tests_cant": "The claim ranges over an uncountable/unbounded input space; unit tests sample a handful of values.", "anchors": ["rainbow/simulators/prox_soft_bodies/solver.py:compute_kinetic_energy", "rainbow/simulators/prox_soft_bodies/solver.py:compute_potential_energy"]}
{"id": "C110", "title": "Dirichlet conditions on linear systems", "statement": "After apply_dirichlet_conditions every solution of A x = b takes the prescribed values (the last one given for a node), and the equations of all other nodes are unchanged.", "quantifier": "all systems and lists of conditions", "why_tests_cant": "The claim ranges over an uncountable/unbounded input space; unit tests sample a handful of values.", "anchors": ["rainbow/simulators/prox_soft_bodies/solver.py:Native.apply_dirichlet_conditions"]}
{"id": "C111", "title": "the soft-body engine stays consistent", "statement": "After every history of calls (returning or raising), parameter changes and time steps: body names are distinct, completely created bodies own disjoint consecutive blocks of the global node range, every body's volumes, face vectors and inverse rest matrices are those of its rest mesh, conditions refer to existing nodes, densities and viscosities are not negative. Spatial coordinates that are written are what a step starts from; writing back the material coordinates resets a body.", "quantifier": "all histories of API calls and steps", "why_tests_cant": "It must hold after every history of API calls; tests run a few fixed histories.", "anchors": ["rainbow/simulators/prox_soft_bodies/api.py:create_soft_body", "rainbow/simulators/prox_soft_bodies/api.py:set_spatial_coordinates", "rainbow/simulators/prox_soft_bodies/api.py:get_material_coordinates", "rainbow/simulators/prox_soft_bodies/solver.py:get_position_vector", "rainbow/simulators/prox_soft_bodies/solver.py:set_position_vector"]}
{"id": "C112", "title": "soft bodies obey the momentum balance", "statement": "For every step of an engine whose stepper holds the inverse of the mass matrix, the momentum of every body without Dirichlet nodes changes by dt times its external forces plus the contact impulses, which act oppositely on the two bodies of a contact; elastic forces contribute nothing. In an isolated world total momentum and (for StVK and neo-Hookean) angular momentum are conserved over a whole simulate. The mass matrix is diagonal and positive; the stepper keeps its inverse through every step and every call but create_soft_body and set_material.", "quantifier": "all reachable engines, contacts, solvers", "why_tests_cant": "It must hold after every history of API calls; tests run a few fixed histories.", "anchors": ["rainbow/simulators/prox_soft_bodies/solver.py:SemiImplicitStepper.step", "rainbow/simulators/prox_soft_bodies/solver.py:compute_mass_matrix", "rainbow/simulators/prox_soft_bodies/solver.py:compute_inverse_mass_matrix", "rainbow/simulators/prox_soft_bodies/api.py:simulate"]}
{"id": "C113", "title": "Dirichlet nodes stay put", "statement": "After every step every node with a Dirichlet condition is at its rest position and has velocity zero, whatever the forces and contacts.", "quantifier": "all reachable engines and steps", "why_tests_cant": "It must hold after every history of API calls; tests run a few fixed histories.", "anchors": ["rainbow/simulators/prox_soft_bodies/solver.py:apply_boundary_conditions_on_positions", "rainbow/simulators/prox_soft_bodies/solver.py:apply_boundary_conditions_on_velocities", "rainbow/simulators/prox_soft_bodies/solver.py:SemiImplicitStepper.step"]}
{"id": "C114", "title": "the soft contact Jacobian measures relative velocity", "statement": "For every contact the rows of the Jacobian times the nodal velocities are the normal and tangential components of the relative velocity of the two contact points (second minus first body), interpolated with the contact's barycentric weights.", "quantifier": "all engines, contacts, velocities", "why_tests_cant": "The claim ranges over an uncountable/unbounded input space; unit tests sample a handful of values.", "anchors": ["rainbow/simulators/prox_soft_bodies/solver.py:compute_jacobian_matrix"]}
{"id": "C115", "title": "when a soft-body step returns", "statement": "A step returns exactly when every body is completely created, has a material with a usable stress and no inverted tetrahedron, the stepper fits the world, and every contact has a surface interaction, a nonzero normal and no stabilisation that raises.", "quantifier": "all reachable engines", "why_tests_cant": "It must hold after every history of API calls; tests run a few fixed histories.", "anchors": ["rainbow/simulators/prox_soft_bodies/solver.py:SemiImplicitStepper.step"]}
{"id": "C116", "title": "a soft-body call that raises changes nothing", "statement": "For every engine, a call of the interface that raises leaves the engine as it was.", "quantifier": "all engines and calls", "why_tests_cant": "It must hold after every history of API calls; tests run a few fixed histories.", "anchors": ["rainbow/simulators/prox_soft_bodies/api.py:create_soft_body", "rainbow/simulators/prox_soft_bodies/api.py:set_material"]}
{"id": "C117", "title": "stabilisation can be switched on", "statement": "With pre_stabilization or post_stabilization switched on, every step that returns without it still returns.", "quantifier": "all engines and contacts", "why_tests_cant": "The claim ranges over an uncountable/unbounded input space; unit tests sample a handful of values.", "anchors": ["rainbow/simulators/prox_soft_bodies/solver.py:apply_post_stabilization", "rainbow/simulators/prox_soft_bodies/solver.py:SemiImplicitStepper.step"]}
{"id": "C118", "title": "soft-body simulate advances exactly T", "statement": "simulate(T) raises for T <= 0; otherwise, with a positive time step, it ends after finitely many steps or raises; when it returns its steps have the length time_step, the last one possibly shorter, and add up to T; the time stamp counts the steps.", "quantifier": "all T, time steps and engines", "why_tests_cant": "The claim ranges over an uncountable/unbounded input space; unit tests sample a handful of values.", "anchors": ["rainbow/simulators/prox_soft_bodies/api.py:simulate"]}
{"id": "C119", "title": "soft bodies fall like particles", "statement": "A body in a rotated and translated rest configuration with uniform velocity, without conditions and contacts, stays undeformed: every node accelerates with gravity minus viscosity over density times velocity; without viscosity its velocity after simulate(T) is v + T g. Density and viscosity are the ones of the body's material.", "quantifier": "all rest meshes, placements, velocities, step sequences", "why_tests_cant": "It must hold after every history of API calls; tests run a few fixed histories.", "anchors": ["rainbow/simulators/prox_soft_bodies/solver.py:SemiImplicitStepper.step", "rainbow/simulators/prox_soft_bodies/api.py:set_mass_density", "rainbow/simulators/prox_soft_bodies/api.py:set_viscosity", "rainbow/simulators/prox_soft_bodies/api.py:set_material"]}
{"id": "C120", "title": "fixed soft bodies do not move", "statement": "After set_type(body, 'fixed') the body does not move.", "quantifier": "all engines and steps", "why_tests_cant": "It must hold after every history of API calls; tests run a few fixed histories.", "anchors": ["rainbow/simulators/prox_soft_bodies/api.py:set_type", "rainbow/simulators/prox_soft_bodies/solver.py:SemiImplicitStepper.step"]}
{"id": "C121", "title": "conditions select what the level set covers", "statement": "create_dirichlet_conditions pins exactly the nodes whose rest position has phi <= 0, at their rest positions; create_traction_conditions loads exactly the surface triangles with phi <= 0 at all three corners, with the given load; earlier conditions and all other bodies are untouched.", "quantifier": "all meshes and level-set functions", "why_tests_cant": "The claim ranges over an uncountable/unbounded input space; unit tests sample a handful of values.", "anchors": ["rainbow/simulators/prox_soft_bodies/api.py:create_dirichlet_conditions", "rainbow/simulators/prox_soft_bodies/api.py:create_traction_conditions"]}
{"id": "C122", "title": "surface interactions of soft materials", "statement": "Interactions are symmetric in the two materials, can be created once for existing materials and mu >= 0, keep their coefficient for ever, and other pairs are unaffected. A pair without one uses the default interaction.", "quantifier": "all histories of calls", "why_tests_cant": "It must hold after every history of API calls; tests run a few fixed histories.", "anchors": ["rainbow/simulators/prox_soft_bodies/types.py:SurfacesInteractionLibrary.get_interaction", "rainbow/simulators/prox_soft_bodies/api.py:create_surfaces_interaction", "rainbow/simulators/prox_soft_bodies/solver.py:get_friction_coefficient_vector"]}
{"id": "C123", "title": "soft contacts obey Coulomb's law", "statement": "In every step solved with Gauss-Seidel, parallel Gauss-Seidel or hybrid Jacobi, every contact impulse pushes the bodies apart and its tangential part is at most mu times its normal part, with mu of the pair of materials.", "quantifier": "all reachable engines, contacts, solver parameters and schedules", "why_tests_cant": "It must hold after every history of API calls; tests run a few fixed histories.", "anchors": ["rainbow/simulators/prox_soft_bodies/solver.py:SemiImplicitStepper.step", "rainbow/simulators/prox_soft_bodies/solver.py:get_friction_coefficient_vector", "rainbow/simulators/proximal_contact/prox_solvers.py:solve"]}
{"id": "C124", "title": "bodies can be added between simulations", "statement": "After a simulate, creating another soft body and simulating again works.", "quantifier": "all histories", "why_tests_cant": "It must hold after every history of API calls; tests run a few fixed histories.", "anchors": ["rainbow/simulators/prox_soft_bodies/api.py:simulate", "rainbow/simulators/prox_soft_bodies/api.py:create_soft_body", "rainbow/simulators/prox_soft_bodies/solver.py:SemiImplicitStepper"]}
{"id": "C125", "title": "every accepted material can be simulated", "statement": "A body made of any material with any constants the setters accept, in particular the default material, can be simulated.", "quantifier": "all materials and constants", "why_tests_cant": "The claim ranges over an uncountable/unbounded input space; unit tests sample a handful of values.", "anchors": ["rainbow/simulators/prox_soft_bodies/types.py:MaterialDescription", "rainbow/simulators/prox_soft_bodies/api.py:set_elasticity", "rainbow/simulators/prox_soft_bodies/solver.py:compute_elastic_forces"]}
{"id": "C126", "title": "what a contact solver that has converged has solved", "statement": "For every scheme (Gauss-Seidel, its parallel variant, both Jacobi variants) the multipliers a further sweep leaves unchanged are exactly those that satisfy Signorini's condition and Coulomb's friction law for all contacts. A rigid body solve that ends because the absolute tolerance is reached satisfies them up to an explicit multiple of the tolerance.", "quantifier": "all contact problems, r-factors, orders and groupings", "why_tests_cant": "The claim ranges over an uncountable/unbounded input space; unit tests sample a handful of values.", "anchors": ["rainbow/simulators/proximal_contact/prox_solvers.py:solve", "rainbow/simulators/prox_rigid_bodies/gauss_seidel_solver.py:solve", "rainbow/simulators/prox_rigid_bodies/constraints/contacts.py:Contacts.sweep"]}
{"id": "C127", "title": "contacts after a step", "statement": "After a step with converged contact multipliers no contact approaches: the normal relative velocity plus restitution times the velocity before (plus the stabilisation push for a penetrating contact) is non-negative and zero where a contact force acts; friction has at most mu of the two materials times the normal impulse and opposes sliding, measured in the weights of the solver.", "quantifier": "all engines without joints, collision results, solvers and time steps", "why_tests_cant": "The claim ranges over an uncountable/unbounded input space; unit tests sample a handful of values.", "anchors": ["rainbow/simulators/prox_rigid_bodies/steppers.py:SemiImplicitStepper.step", "rainbow/simulators/prox_rigid_bodies/constraints/contacts.py:Contacts.initialize", "rainbow/simulators/prox_rigid_bodies/gauss_seidel_solver.py:solve"]}
{"id": "C128", "title": "contacts do not create energy", "statement": "Without restitution and stabilisation, and with fixed bodies at rest, a step with converged multipliers leaves at most the kinetic energy that the external forces alone would have produced.", "quantifier": "all engines without joints, collision results, solvers and time steps", "why_tests_cant": "The claim ranges over an uncountable/unbounded input space; unit tests sample a handful of values.", "anchors": ["rainbow/simulators/prox_rigid_bodies/steppers.py:SemiImplicitStepper.step", "rainbow/simulators/prox_rigid_bodies/constraints/contacts.py:Contacts.initialize"]}
{"id": "C129", "title": "joints hold during a step", "statement": "After a step with converged multipliers the two anchor points of every hinge move with the same velocity and the bodies rotate relative to each other about the hinge axis only, with or without contacts.", "quantifier": "all engines, collision results, solvers and time steps", "why_tests_cant": "The claim ranges over an uncountable/unbounded input space; unit tests sample a handful of values.", "anchors": ["rainbow/simulators/prox_rigid_bodies/steppers.py:SemiImplicitStepper.step", "rainbow/simulators/prox_rigid_bodies/constraints/hinges.py:Hinges.initialize", "rainbow/simulators/prox_rigid_bodies/gauss_seidel_solver.py:solve"]}
{"id": "C130", "title": "collision detection misses no probed triangle", "statement": "If a triangle of one body and a triangle of another have points at most the envelope apart, and the search along the first triangle in the second body's distance field ends at a point at least 1/2 inside its grid with distance at most the envelope and a gradient that is not zero, then a contact between the two bodies at that point is reported, whatever the order of the bodies, whether they are fixed or not, and whatever the state of the bounding volumes before.", "quantifier": "all ready engines, pairs of bodies, triangles and poses", "why_tests_cant": "The claim ranges over an uncountable/unbounded input space; unit tests sample a handful of values.", "anchors": ["rainbow/simulators/prox_rigid_bodies/collision_detection.py:run_collision_detection", "rainbow/simulators/prox_rigid_bodies/collision_detection.py:_narrow_phase", "rainbow/simulators/prox_rigid_bodies/collision_detection.py:_contact_determination"]}
{"id": "C131", "title": "post-stabilisation separates what penetrates", "statement": "With post-stabilisation on, a step in which no contact is deeper than min_gap moves the bodies as if it were off. Otherwise every free body is moved and turned once more after its ordinary motion, velocities and fixed bodies are not touched, and with converged multipliers the extra motion separates every contact by at least its penetration (counted when deeper than min_gap), by exactly that where a projection force acts, and there are no tangential projection forces.", "quantifier": "all engines, collision results, solvers and time steps", "why_tests_cant": "The claim ranges over an uncountable/unbounded input space; unit tests sample a handful of values.", "anchors": ["rainbow/simulators/prox_rigid_bodies/steppers.py:_apply_post_stabilization", "rainbow/simulators/prox_rigid_bodies/constraints/post_stabilization.py:PostStabilization", "rainbow/simulators/prox_rigid_bodies/steppers.py:SemiImplicitStepper.step"]}
{"id": "C132", "title": "a soft contact is where it says", "statement": "Every contact point that collision detection reports between soft bodies lies at the stated point of the tetrahedron of each body (barycentric coordinates that sum to 1), on a surface triangle of the second body and inside that body's tetrahedron, its gap is the value of the first body's distance field at the same point of the undeformed shape and at most the envelope, and its normal has length 1. Hence an isolated engine with this collision detection conserves momentum.", "quantifier": "all engines, distance fields, hash grids and both modes of detection", "why_tests_cant": "The claim ranges over an uncountable/unbounded input space; unit tests sample a handful of values.", "anchors": ["rainbow/simulators/prox_soft_bodies/collision_detection.py:run_collision_detection", "rainbow/simulators/prox_soft_bodies/collision_detection.py:_compute_contacts", "rainbow/simulators/prox_soft_bodies/collision_detection.py:_xform_contact_to_world"]}
{"id": "C133", "title": "soft contact normals turn with the body", "statement": "The normal of a contact is the gradient of the first body's distance field, turned as the first body's tetrahedron has turned.", "quantifier": "all contacts and deformations", "why_tests_cant": "The claim ranges over an uncountable/unbounded input space; unit tests sample a handful of values.", "anchors": ["rainbow/simulators/prox_soft_bodies/collision_detection.py:_xform_contact_to_world"]}
{"id": "C134", "title": "soft collision detection misses no probed triangle", "statement": "If surface triangles of two bodies have points at most the envelope apart, and the first one, pulled back into the undeformed shape of the second body, probes its distance field at a point with distance at most the envelope, then a contact between these bodies at that point is reported, whatever the order of the bodies, the state of the bounding volumes or the hash grid before; detection raises no exception on bodies without flat tetrahedra.", "quantifier": "all bodies, triangles, deformations and histories of the bounding volumes and the hash grid; both modes", "why_tests_cant": "It must hold after every history of API calls; tests run a few fixed histories.", "anchors": ["rainbow/simulators/prox_soft_bodies/collision_detection.py:run_collision_detection", "rainbow/simulators/prox_soft_bodies/collision_detection.py:_narrow_phase", "rainbow/simulators/prox_soft_bodies/collision_detection.py:_spatial_hashing_narrow_phase"]}
{"id": "C135", "title": "soft contact reduction only removes repetitions", "statement": "The reduction of the contacts keeps for every contact exactly one between the same two bodies in the same order at the same position, and invents none.", "quantifier": "all lists of contacts", "why_tests_cant": "The claim ranges over an uncountable/unbounded input space; unit tests sample a handful of values.", "anchors": ["rainbow/simulators/prox_soft_bodies/collision_detection.py:_contact_reduction"]}
{"id": "C136", "title": "the curvature field is the curvature of the level sets", "statement": "create_from_sdf accepts every field of values on a box with positive extent and returns a field on the same grid that is 0 at the boundary nodes and never larger than one over the smallest spacing. On a quadratic field the value at an interior node with a gradient of length at least 1/2 is the divergence of the unit normal of the level set through the node (2/s at distance s from the centre of a sphere), cut off at that bound. The value depends on the neighbouring nodes only, does not change when a constant is added and changes its sign with the field.", "quantifier": "all grids, fields of values and nodes", "why_tests_cant": "The claim ranges over an uncountable/unbounded input space; unit tests sample a handful of values.", "anchors": ["rainbow/geometry/mean_curvature.py:create_from_sdf"]}
{"id": "C137", "title": "create_mesh only renumbers", "statement": "API.create_mesh keeps every vertex and every oriented triangle of the mesh it is given; only the order changes, along an axis of unit length which direction_of_most_variance returns: the direction in which the points vary most.", "quantifier": "all meshes with at least two vertices and indices in range, all orthonormal eigenvectors that np.linalg.eig may return", "why_tests_cant": "The claim ranges over an uncountable/unbounded input space; unit tests sample a handful of values.", "anchors": ["rainbow/simulators/prox_rigid_bodies/api.py:create_mesh", "rainbow/math/functions.py:direction_of_most_variance", "rainbow/math/functions.py:PCA"]}
{"id": "C138", "title": "a box stack stands", "statement": "create_box_stack(engine, w, h, d, K, density, material) returns the names of exactly K new free bodies at rest of mass w h d density; body k is a w x h x d box whose lower face is at height k h, centred over the origin and turned by 45 degrees with respect to the one below. Neighbouring boxes touch, and no two boxes share a point that is not on the plane between neighbours. Everything else in the engine is unchanged, and the stack can be simulated for any time.", "quantifier": "all engines reached through the API, sizes, numbers of boxes, densities", "why_tests_cant": "It must hold after every history of API calls; tests run a few fixed histories.", "anchors": ["rainbow/simulators/prox_rigid_bodies/scenes/create_box_stack.py:create_box_stack"]}
{"id": "C139", "title": "the ground is where it should be", "statement": "create_ground(engine, r, q, ...) adds one fixed body, a 100 x 1 x 100 box turned by q whose upper face has its centre at r; the body is entirely below the plane through r with normal q(0,1,0).", "quantifier": "all engines reached through the API, positions and orientations", "why_tests_cant": "It must hold after every history of API calls; tests run a few fixed histories.", "anchors": ["rainbow/simulators/prox_rigid_bodies/scenes/create_ground.py:create_ground"]}
{"id": "C140", "title": "a hinge chain is closed and free of overlap", "statement": "create_cube_hinge_chain(engine, a, K, ...) adds K cubes of edge a standing on their edges, in a row centred at the origin, no two of which share a point; the first is fixed, the others are free, and cube k and cube k+1 are joined by a closed hinge halfway between their centres that turns about the z-axis. Older bodies and hinges are unchanged and the chain can be simulated. K = 0 raises.", "quantifier": "all engines reached through the API, edge lengths, numbers of cubes", "why_tests_cant": "It must hold after every history of API calls; tests run a few fixed histories.", "anchors": ["rainbow/simulators/prox_rigid_bodies/scenes/create_cube_hinge_chain.py:create_cube_hinge_chain"]}
{"id": "C141", "title": "a lattice fills its cells", "statement": "create_lattice(engine, r, q, shapes, w, h, d, I, J, K, density, material, random, q_body) adds exactly I J K free bodies at rest, one at the centre of each cell of a box of size w x h x d with its corner at r turned by q; the body in cell (i, j, k) has shape number (i + j + k) mod len(shapes), the orientation q times the given (or a random) one, and mass density times the volume of its shape. If the shapes are smaller than the cells no two bodies share a point, whatever the random orientations. Everything else in the engine is unchanged.", "quantifier": "all engines reached through the API, poses, sizes, cell counts, lists of shapes, random orientations", "why_tests_cant": "It must hold after every history of API calls; tests run a few fixed histories.", "anchors": ["rainbow/simulators/prox_rigid_bodies/scenes/create_lattice.py:create_lattice"]}
{"id": "C142", "title": "a tower is a wall of bricks that do not overlap", "statement": "create_tower(engine, r, q, outer, inner, height, layers, segments, use_cubes, density, material) adds exactly layers x segments free bodies at rest; brick (l, s) is the brick of the wall (a box or a wedge between the inner and the outer radius, as high as a layer) turned about the axis by 2 pi / segments times s, every second layer by half a brick more, and lifted to its layer. Every brick stays in its layer, between the radii and in its sector; two bricks share at most points on the plane between neighbouring layers. Everything else in the engine is unchanged and the tower can be simulated.", "quantifier": "all engines reached through the API, poses, radii, heights, numbers of layers and segments, both kinds of brick", "why_tests_cant": "It must hold after every history of API calls; tests run a few fixed histories.", "anchors": ["rainbow/simulators/prox_rigid_bodies/scenes/create_tower.py:create_tower"]}
{"id": "C143", "title": "vectors are read from text", "statement": "vector3.from_string reads ones, zero, i, j, k in any capitalisation as these vectors; a list of at least three decimal numbers in brackets, with blanks anywhere around the numbers, as the values of its first three numbers; rand:lo:hi as a random vector of the range lo to hi. A list with fewer than three numbers raises. A string without blanks and without exponents that is read at all is one of these, so no number is misread.", "quantifier": "all strings, numbers of any length, blanks, capitalisation", "why_tests_cant": "The claim ranges over an uncountable/unbounded input space; unit tests sample a handful of values.", "anchors": ["rainbow/math/vector3.py:from_string", "rainbow/math/vector3.py:check_string", "rainbow/util/parse_string.py"]}
{"id": "C144", "title": "rotations are read from text", "statement": "quaternion.from_string reads identity; rx:d, ry:d, rz:d as the rotation by d degrees about that axis; ru:d:[x,y,z] as the rotation by d degrees about the direction (x,y,z); a list of at least four numbers as the four components, scalar part first. A shorter list raises. A string without blanks and without exponents that is read at all is one of these.", "quantifier": "all strings, numbers of any length, blanks, capitalisation", "why_tests_cant": "The claim ranges over an uncountable/unbounded input space; unit tests sample a handful of values.", "anchors": ["rainbow/math/quaternion.py:from_string", "rainbow/math/quaternion.py:check_string", "rainbow/util/parse_string.py"]}
{"id": "C145", "title": "every decimal numeral is understood in text", "statement": "A bracketed list of decimal numbers as Python prints them (0.05, 1e-05) is read, and as the numbers written. Refuted: a fraction or exponent with a leading zero followed by another digit makes the whole string raise, and an exponent with a fraction is read without its fraction.", "quantifier": "all lists and numerals", "why_tests_cant": "The claim ranges over an uncountable/unbounded input space; unit tests sample a handful of values.", "anchors": ["rainbow/util/parse_string.py:Float", "rainbow/util/parse_string.py:Number"]}
{"id": "C146", "title": "an arch stands on its piers", "statement": "create_arch(engine, r, q, width, height, depth, pier_stones, arch_stones, density, material) raises and creates nothing when a length, the density or a number of stones is not positive, when there are fewer than 3 or an even number of arch stones, or when height <= width / 2. Otherwise it adds exactly 2 pier_stones + arch_stones free bodies at rest: two piers of boxes of width/5 at the two ends of the base, and a ring of equal wedges from angle 0 to pi between the radii 3/10 width and width/2, whose centre is at height - width/2. The stones are in their slots: two stones share at most points of the joint between neighbours, and of the piers only the top stones touch the ring, at its first and last stone. Everything else in the engine is unchanged and the arch can be simulated.", "quantifier": "all engines reached through the API, poses, sizes, numbers of stones, densities", "why_tests_cant": "It must hold after every history of API calls; tests run a few fixed histories.", "anchors": ["rainbow/simulators/prox_rigid_bodies/scenes/create_arch.py:create_arch"]}
{"id": "C147", "title": "a colosseum is levels of arches with a ring of stones on each", "statement": "create_colosseum(engine, r, q, outer, inner, height, levels, arches, density, material, safety) raises and creates nothing when levels or arches is 0 or when the arches would not be valid (see C146: too low for their width, outer <= inner, ...). Otherwise it adds exactly 20 levels arches free bodies at rest with new, different names: on every level, of height height/levels, the arches, nine tenths of the level high, side by side around the axis and facing it, and on top of them a closed ring of wedges. With safety < 1 stones of different arches and different wedges of a ring have no common point, stones of parts on top of each other share at most points of the floor between them, and the stones of one arch share at most its joints. Everything else in the engine is unchanged and the colosseum can be simulated.", "quantifier": "all engines reached through the API, poses, sizes, numbers of levels and arches, densities, safety factors", "why_tests_cant": "It must hold after every history of API calls; tests run a few fixed histories.", "anchors": ["rainbow/simulators/prox_rigid_bodies/scenes/create_colosseum.py:create_colosseum", "rainbow/simulators/prox_rigid_bodies/scenes/create_arch.py:create_arch", "rainbow/simulators/prox_rigid_bodies/scenes/create_tower.py:create_tower"]}
{"id": "C148", "title": "a URDF link becomes a body", "statement": "read_urdf(engine, file) makes one new free body for every link that has a readable collision mesh, with the name of the link, the mass and the moments ixx, iyy, izz as written (zero when missing), at rest, without forces and with the default material; its shape is the collision mesh seen from the inertial frame of the link: the same vertices and the same oriented triangles. Every revolute joint makes one new hinge with its name, nothing else is added, and the bodies, hinges, forces, materials and parameters the engine had before are unchanged. Refuted: the attribute scale of a mesh and the products of inertia ixy, ixz, iyz have an effect.", "quantifier": "all documents, engines, mesh contents, eigenvectors and distance functions", "why_tests_cant": "The claim ranges over an uncountable/unbounded input space; unit tests sample a handful of values.", "anchors": ["rainbow/simulators/prox_rigid_bodies/scenes/read_urdf.py:read_urdf", "rainbow/simulators/prox_rigid_bodies/scenes/read_urdf.py:URDF"]}
{"id": "C149", "title": "a robot is assembled as its URDF document says", "statement": "After read_urdf the root (the last body that is no child of a revolute joint) is placed by its inertial frame, every body that is reached from it by revolute joints by the root's inertial frame, followed by the joint frames along the path, followed by its own inertial frame, and every other body is at the origin. So the links are where the document puts them, up to one common motion, exactly if the root's inertial frame is its link frame (refuted in general). Reading ends after at most as many rounds as there are links when every link has at most one parent, it succeeds for every document whose names are new, whose meshes are proper solids, whose axes are not zero and that has a root, and never succeeds when the root leads into a loop of joints.", "quantifier": "all documents, engines, trees of joints of any depth", "why_tests_cant": "The claim ranges over an uncountable/unbounded input space; unit tests sample a handful of values.", "anchors": ["rainbow/simulators/prox_rigid_bodies/scenes/read_urdf.py:read_urdf", "rainbow/simulators/prox_rigid_bodies/scenes/read_urdf.py:URDF"]}
{"id": "C150", "title": "the hinges of a robot are closed", "statement": "After read_urdf every revolute joint whose parent is reached from the root is a hinge between the parent and the child named in the document, both anchors of which are at the origin of the joint frame and both axes of which are the normalised joint axis turned into the world by the frame of the joint; an axis of length zero is never accepted.", "quantifier": "all documents in which every link has at most one parent, all engines", "why_tests_cant": "The claim ranges over an uncountable/unbounded input space; unit tests sample a handful of values.", "anchors": ["rainbow/simulators/prox_rigid_bodies/scenes/read_urdf.py:read_urdf"]}
{"id": "C151", "title": "a scene file says what the scene is", "statement": "write_xml raises when a body has no shape or a hinge has not been attached. Otherwise it writes a well-formed XML file which can be read in exactly one way: its root is a scene with the bodies, forces, shapes, interactions, hinges and parameters of the engine, each with its values as printed, in the order of the engine; names are read as they were, whatever characters they have. Refuted for interactions of materials whose names have special characters: with one the file is no XML, with another the call raises.", "quantifier": "all engines reached through the API, names, materials, printed forms of numbers", "why_tests_cant": "It must hold after every history of API calls; tests run a few fixed histories.", "anchors": ["rainbow/simulators/prox_rigid_bodies/scenes/write_xml.py:write_xml"]}
{"id": "C152", "title": "a scene file determines the scene", "statement": "Two engines have the same scene file exactly when they have the same bodies (pose, motion, mass, material, names of shape and forces), forces, shapes, interactions, parameters and hinges (links, anchor and axis on the parent in the world). Refuted in general, because numbers are printed with a fixed number of digits; proved for all numbers that are printed without loss.", "quantifier": "all pairs of engines reached through the API, names, numbers", "why_tests_cant": "It must hold after every history of API calls; tests run a few fixed histories.", "anchors": ["rainbow/simulators/prox_rigid_bodies/scenes/write_xml.py:write_xml"]}
{"id": "C153", "title": "a hinge is written in world coordinates", "statement": "If a hinge has just been attached with set_hinge in any mode, the scene file has an element for it that names its parent and its child, has mode world, and gives the point that was asked for, seen from the world, and the direction that was asked for, seen from the world and of length 1.", "quantifier": "all engines reached through the API, hinges, modes, origins, axes", "why_tests_cant": "It must hold after every history of API calls; tests run a few fixed histories.", "anchors": ["rainbow/simulators/prox_rigid_bodies/scenes/write_xml.py:write_xml", "rainbow/simulators/prox_rigid_bodies/api.py:set_hinge"]}
{"id": "C154", "title": "solids of revolution have the volume and the axis of the solid they stand for", "statement": "The mesh of a profile that starts and ends on the axis, swept in n slices, has as volume the sum over the profile of the frusta over regular n-gons; its centre of mass is on the axis, at the height given by the sum of the moments of the frusta; its products of inertia with respect to the axis vanish and its two moments across the axis agree; the second moment along the axis and the two across it are the sums of those of the frusta. So a cylinder, cone or conical of n slices has n sin(2 pi/n)/2 times the square of the radius where the round solid has pi, which is less than the round solid for every n.", "quantifier": "all profiles of any length, numbers of slices from 3, radii, heights", "why_tests_cant": "The claim ranges over an uncountable/unbounded input space; unit tests sample a handful of values.", "anchors": ["rainbow/geometry/surface_mesh.py:profile_sweep", "rainbow/geometry/surface_mesh.py:create_cylinder", "rainbow/geometry/surface_mesh.py:create_cone", "rainbow/geometry/surface_mesh.py:create_conical"]}
{"id": "C155", "title": "a pillar is a stack of stones from the ground to its height", "statement": "create_pillar with at least one stone succeeds and adds exactly one body for the socle, the abacus, the base, the echinus and each stone of the column, at rest, free, with the mass of their volume, standing on the axis of the pillar one on top of the other without gaps from its base to its height: the radius of the column decreases linearly and each stone has at its top the radius of the next one at its bottom. Two different parts share at most points in a horizontal joint. If its parts are not too small, the engine can be simulated for any time afterwards. With no stones it raises.", "quantifier": "all engines reached through the API, poses, sizes, numbers of stones of any size, densities, materials", "why_tests_cant": "It must hold after every history of API calls; tests run a few fixed histories.", "anchors": ["rainbow/simulators/prox_rigid_bodies/scenes/create_pillar.py:create_pillar"]}
{"id": "C156", "title": "a sandbox is a closed box under a lattice of grains", "statement": "create_sandbox adds exactly I J K free grains at rest, in a lattice above the box, each with one of the shapes in turn, and five fixed boxes: the left, right, front and back wall and the floor, of thickness a tenth of the height of the box. The five fill exactly the block of the outer size without the inner space of the given width, height and depth, which is open above; two of them share at most points of the inner faces of the floor and of the front and back wall. All names are new and different, everything else in the engine is unchanged and the sandbox can be simulated. Without grains it raises.", "quantifier": "all engines reached through the API, sizes of the box, numbers of grains, shapes, rotations of the grains, densities, materials", "why_tests_cant": "It must hold after every history of API calls; tests run a few fixed histories.", "anchors": ["rainbow/simulators/prox_rigid_bodies/scenes/create_sandbox.py:create_sandbox"]}
{"id": "C157", "title": "poles stand apart under a lattice of objects", "statement": "create_poles adds exactly I J K free objects at rest in a lattice that starts at twice the height of the poles, each with one of the shapes in turn and, if not random, not rotated, and one fixed pole for each point of the grid of poles, with the mass of their volume: upright cylinders of the given radius from the ground to the given height, whose axes are at the radius from the corner of the lattice and then every width/I and depth/K. A pole has no point farther than its radius from its axis; two poles have no common point when their spacing is more than a diameter. All names are new and different, everything else in the engine is unchanged and the scene can be simulated. Without objects or poles it raises.", "quantifier": "all engines reached through the API, sizes, numbers of poles and objects, shapes, rotations, densities, materials", "why_tests_cant": "It must hold after every history of API calls; tests run a few fixed histories.", "anchors": ["rainbow/simulators/prox_rigid_bodies/scenes/create_poles.py:create_poles"]}
{"id": "C158", "title": "a mesh is fitted to the size that is asked for", "statement": "In the scenes that fill a lattice with meshes, a mesh is scaled by one and the same positive factor in all directions so that the largest side of its bounding box is 0.9 (for poles 1) times the smallest side of a cell: no side of its box is longer than that part of the same side of a cell. The glass and the funnel get exactly the given diameter and height. Fitting fails only for a mesh without points or of extent zero (for glass and funnel: flat along an axis) and for no cells. An object that is rotated, as with random orientations, therefore always fits its cell.", "quantifier": "all meshes, sizes of the lattice, numbers of cells, factors, diameters and heights", "why_tests_cant": "The claim ranges over an uncountable/unbounded input space; unit tests sample a handful of values.", "anchors": ["rainbow/simulators/prox_rigid_bodies/scenes/create_sandbox.py:create_sandbox", "rainbow/simulators/prox_rigid_bodies/scenes/create_glasses.py:create_glasses", "rainbow/simulators/prox_rigid_bodies/scenes/create_funnel.py:create_funnel", "rainbow/simulators/prox_rigid_bodies/scenes/create_jack_lattice.py:create_jack_lattice", "rainbow/simulators/prox_rigid_bodies/scenes/create_rock_slide.py:create_rock_slide", "rainbow/simulators/prox_rigid_bodies/scenes/create_poles.py:create_poles"]}
{"id": "C159", "title": "a lattice of jacks is all or nothing", "statement": "create_jack_lattice either raises and leaves the engine as it was or adds exactly one shape and I J K free bodies at rest that all have this shape: in its own frame the shape is no larger than 0.9 times a cell, and its largest side is 0.9 times the smallest side of a cell. The body i, j, k is at the centre of its cell, moved and rotated by r and q, with the rotation of the lattice (times the random one, if asked for) and the mass of the shape times the density. All names are new and different, everything else in the engine is unchanged.", "quantifier": "all meshes in the file, engines reached through the API, positions and rotations, sizes, numbers of cells, densities, materials", "why_tests_cant": "It must hold after every history of API calls; tests run a few fixed histories.", "anchors": ["rainbow/simulators/prox_rigid_bodies/scenes/create_jack_lattice.py:create_jack_lattice"]}
