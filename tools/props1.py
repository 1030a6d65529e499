import json
P=[]
def p(id,title,statement,quant,why,anchors):
    P.append(dict(id=id,title=title,statement=statement,quantifier=quant,why_tests_cant=why,anchors=anchors))
INF="The claim ranges over an uncountable/unbounded input space; unit tests sample a handful of values."
HIST="It must hold after every history of API calls; tests run a few fixed histories."
M="rainbow/math/"; G="rainbow/geometry/"; S="rainbow/simulators/"; R=S+"prox_rigid_bodies/"; X=S+"proximal_contact/"
p("C01","quaternion.to_matrix always yields a proper rotation","For every quaternion q given to quaternion.to_matrix - normalised or not, zero or not - the returned matrix R satisfies R R^T = I, R^T R = I and det R = 1, and depends only on the direction of q (scaling q by s != 0 gives the same R).","all quaternions in R^4 and all non-zero scalings",INF,[M+"quaternion.py:to_matrix",M+"quaternion.py:unit"])
p("C02","quaternion.rotate is the rotation described by to_matrix","For every unit quaternion q and vector v, rotate(q,v) = to_matrix(q) v, and rotate preserves inner products, lengths and cross products; for non-unit q it scales lengths by |q|^2.","all quaternions, all vectors",INF,[M+"quaternion.py:rotate",M+"quaternion.py:to_matrix"])
p("C03","from_matrix / to_matrix round trip","For every rotation matrix M (M M^T = I, det M = 1) from_matrix(M) is a unit quaternion and to_matrix(from_matrix(M)) = M, whichever of the four trace branches is taken and without ever dividing by zero or taking the root of a negative number; for every unit q, from_matrix(to_matrix(q)) is q or -q.","all rotation matrices, all unit quaternions",INF+" The branch boundaries (trace 0, equal diagonal entries) have measure zero.",[M+"quaternion.py:from_matrix",M+"quaternion.py:to_matrix"])
p("C04","quaternion product algebra","prod is associative with identity() as unit, conjugate reverses products, |prod(a,b)| = |a||b|, prod(q,conjugate(q)) = (|q|^2,0,0,0), and rotate(prod(a,b),v) = rotate(a,rotate(b,v)) for all a, b, v.","all quaternions and vectors",INF,[M+"quaternion.py:prod",M+"quaternion.py:conjugate",M+"quaternion.py:rotate"])
p("C05","rotate_array agrees with rotate row by row","For every quaternion q and every array of points (any length) rotate_array(q, rs) has the same length and its row n is rotate(q, rs[n]).","all quaternions, all arrays of points of any length",INF,[M+"quaternion.py:rotate_array",M+"quaternion.py:prod_array"])
p("C06","coordinate systems: inverse, composition and change of frame","For coordinate systems with unit quaternions: xform_point(inverse(X), xform_point(X,p)) = p and conversely; xform_point(concat(B,A),p) = xform_point(B, xform_point(A,p)); with X = make_coordsys_from_to(A,B), xform_point(B, xform_point(X,p)) = xform_point(A,p); results again carry unit quaternions.","all rigid transforms and points",INF,[M+"coordsys.py:inverse",M+"coordsys.py:concat",M+"coordsys.py:make_coordsys_from_to",M+"coordsys.py:xform_point"])
p("C07","make_orthonormal_vectors builds a right-handed orthonormal frame","For every non-zero vector n, make_orthonormal_vectors(n) returns (t,b,m) with m = n/|n|, unit length t, b, m, pairwise orthogonal, and t x b = m; no division by zero occurs, including when components tie in magnitude.","all non-zero vectors",INF+" Ties between components select branches of measure zero.",[M+"vector3.py:make_orthonormal_vectors"])
p("C08","lexicographic vector comparison is a strict total order","less is irreflexive, transitive, asymmetric and total up to equality; greather(a,b) = less(b,a); less_than_equal / greather_than_equal are the complements, and exactly one of less, greather, componentwise-equal holds.","all pairs and triples of vectors",INF,[M+"vector3.py:less",M+"vector3.py:greather",M+"vector3.py:less_than_equal",M+"vector3.py:greather_than_equal"])
p("C09","axis rotations agree between quaternion and matrix form","For every angle a and non-zero axis u: quaternion.Ru(a,u) is a unit quaternion, to_matrix of it is matrix3.Ru(a,u), Rx/Ry/Rz are the special cases for the coordinate axes in both modules, the axis is a fixed vector, and rotations about the same axis add angles.","all angles and axes",INF,[M+"quaternion.py:Ru",M+"quaternion.py:Rx",M+"quaternion.py:Ry",M+"quaternion.py:Rz",M+"matrix3.py:Ru",M+"matrix3.py:Rx",M+"matrix3.py:Ry",M+"matrix3.py:Rz"])
p("C10","Euler angles reproduce the rotation","For every rotation matrix R, with (rx,ry,rz) = make_euler_xyz_from_matrix(R), Rz(rz) Ry(ry) Rx(rx) = R, including both gimbal-lock branches; make_euler_xyz_from_quaternion reproduces to_matrix(q) for every q.","all rotation matrices and quaternions",INF+" Gimbal lock is a measure-zero branch.",[M+"euler.py:make_euler_xyz_from_matrix",M+"euler.py:make_euler_xyz_from_quaternion"])
p("C11","slerp interpolates rotations on the unit sphere","For unit quaternions a, b and every t, slerp(a,b,t) is a unit quaternion, slerp(a,b,0) = a, slerp(a,b,1) = b or -b (same rotation as b), t is clamped to [0,1], and interpolating between two quaternions that describe the same rotation (b = -a) yields that rotation for every t.","all unit quaternion pairs and all real t",INF,[M+"quaternion.py:slerp",M+"quaternion.py:lerp"])
p("C12","exponential map yields the rotation by |v| about v","For every v with |v| at or above the Taylor cross-over, exp(v) is a unit quaternion whose rotation is the rotation by angle |v| about v/|v|, reparameterization does not change the rotation and returns a vector of length at most pi; log(exp(v)) = v whenever |v| < pi, and log inverts every unit quaternion up to sign.","all exponential-map vectors, all unit quaternions",INF,[M+"expmap.py:exp",M+"expmap.py:reparameterization",M+"expmap.py:log"])
p("C13","expmap derivatives are derivatives","Away from the Taylor region dQdv_i(v,i) is the partial derivative of v -> exp(v) (no reparameterisation) with respect to component i, and dRdv_i is the partial derivative of the rotation matrix.","all v, all component indices",INF,[M+"expmap.py:dQdv_i",M+"expmap.py:dRdv_i",M+"expmap.py:__dRdv_i"])
p("C14","2D polynomial monomials are complete and duplicate free","For every order n, poly2_make_monomial_powers(n) lists every pair (i,j) with i+j <= n exactly once and nothing else, its length equals number_of_monomial_terms(2,n) = C(n+2,2), and evaluate computes the sum of coefficient * x^i * y^j.","all orders n >= 0, all coefficients and points","Unbounded order; tests check a few small orders.",[M+"polynomial.py:Helpers.poly2_make_monomial_powers",M+"polynomial.py:Helpers.number_of_monomial_terms",M+"polynomial.py:evaluate"])
p("C15","polynomial derivative and interpolation are exact","For every polynomial P and point, derivative(P)[d] evaluates to the partial derivative of evaluate(P,.) in direction d; if the linear solve returns a solution of V a = b then interpolate(order,x,v) evaluates to v[k] at each of the first K points for every column.","all orders, coefficients, points and data arrays",INF,[M+"polynomial.py:derivative",M+"polynomial.py:interpolate",M+"polynomial.py:Helpers.make_vandermonde_matrix"])
p("C16","Heap behaves as an updatable priority map","After any history of push/update/pop, pop returns the index whose most recently pushed value is smallest (ties by smallest index) and removes it, or None exactly when no index is present; bool(heap) tells whether any index is present; a stale value is never popped.","all operation histories, all keys and values",HIST,["rainbow/util/heap.py:Heap"])
p("C17","Timer accounting","For every history of start/end calls with arbitrary clock readings: end without a pending start raises and changes nothing, elapsed is the last completed interval, total is the sum of all completed intervals.","all start/end histories and clock readings",HIST,["rainbow/util/timer.py:Timer"])
p("C18","AABB is the tight bounding box and overlap is exact","create_from_vertices encloses every vertex and touches a vertex on each of the six faces; is_overlap(a,b) holds iff the two boxes share a point; it is symmetric; with boundary d >= 0 it holds iff the boxes grown by d share a point, and it is monotone in d; two vertex sets whose boxes do not overlap share no point.","all vertex arrays of any length and all boundaries",INF,[G+"aabb.py:AABB.create_from_vertices",G+"aabb.py:AABB.is_overlap"])
p("C19","k-DOP operations are conservative and exact on slabs","make(K,V,e) bounds every vertex by slack at least e and is tight; union(A,B) is the smallest k-DOP containing both; overlap(A,B) is symmetric, monotone under enlarging either k-DOP, and never false when a common point lies in both; mismatched K raises.","all K-DOPs, all vertex arrays, all envelopes",INF,[G+"kdop.py:make",G+"kdop.py:union",G+"kdop.py:overlap"])
p("C20","BVH construction is a well-formed binary tree over all elements","For every element count M and chunk size N >= 1, make_bvh partitions elements 0..M-1 over its chunks so that each element is in exactly one leaf, children always have larger node indices than their parent, no node index reaches N, and each internal node has exactly two children.","all mesh sizes and chunk sizes","Unbounded sizes; off-by-one errors appear only for particular residues of M and N.",[G+"kdop_bvh.py:_make_sub_tree",G+"kdop_bvh.py:make_bvh"])
p("C21","BVH refit bounds every descendant","After make_bvh or refit_bvh with coordinates V, every leaf volume is the k-DOP of its element's vertices at V (with envelope), every internal volume contains the volumes of all its descendants, and the tree root contains every volume.","all meshes, coordinates, chunk sizes and refit histories",HIST,[G+"kdop_bvh.py:_refit_sub_tree",G+"kdop_bvh.py:refit_bvh"])
p("C22","BVH traversal reports exactly the overlapping element pairs","traversal(A,B) terminates and returns a pair (i,j) iff the k-DOPs of element i of A and element j of B overlap, each pair exactly once; in particular two elements that share a point are always reported.","all pairs of meshes, sizes, chunk sizes, coordinates and envelopes",INF,[G+"kdop_bvh.py:traversal",G+"kdop_bvh.py:_iterative_sub_tree_traversal"])
p("C23","grid node indexing is a bijection and eval_on_grid stores exactly the samples","get_linear_index maps the valid (i,j,k) one-to-one onto 0..IJK-1, is_valid_node_index accepts exactly those, node coordinates run from min_coord to max_coord, and after eval_on_grid(grid,f) get_node_value(i,j,k) = f(get_node_coord(i,j,k)) for all valid nodes; get_nodes_array agrees.","all grid sizes, all functions f","Unbounded grid dimensions and arbitrary sampled functions.",[G+"grid3.py:Grid.get_linear_index",G+"grid3.py:Grid.is_valid_node_index",G+"grid3.py:Grid.get_node_coord",G+"grid3.py:eval_on_grid",G+"grid3.py:get_nodes_array"])
p("C24","enclosing cell lookup","For every point p, get_enclosing_cell_idx returns a cell index in [0,I-2]x[0,J-2]x[0,K-2]; if p lies inside the grid box the cell's corner coordinates bracket p on every axis; outside it is the closest cell.","all grids with positive spacing, all points",INF,[G+"grid3.py:Grid.get_enclosing_cell_idx"])
p("C25","trilinear interpolation","get_value reproduces the node values at nodes, reproduces every trilinear function exactly, lies between the smallest and largest of the eight corner values when p is inside the grid, and is continuous across cell boundaries.","all grids, values and points",INF,[G+"grid3.py:get_value"])
p("C26","get_gradient is the gradient of get_value","For every grid with positive spacing and every point strictly inside a cell, get_gradient(grid,p) is the spatial gradient of get_value(grid,.) at p.","all grids, values and points",INF,[G+"grid3.py:get_gradient"])
p("C27","grid is_inside","is_inside(grid,p,d) is true iff p is at distance at least d from every face of the grid box on the inner side, is antitone in d, and raises for negative d.","all grids, points, boundaries",INF,[G+"grid3.py:is_inside"])
p("C28","barycentric coordinates of an edge","For distinct x1,x2 and any p, compute_barycentric_edge returns w1+w2 = 1 and w1 x1 + w2 x2 is the orthogonal projection of p on the line through x1,x2 (its closest point).","all edges and points",INF,[G+"barycentric.py:compute_barycentric_edge"])
p("C29","barycentric coordinates of triangle and tetrahedron","For non-degenerate simplices the weights sum to one; for a triangle w1 x1+w2 x2+w3 x3 is the orthogonal projection of p on its plane, for a tetrahedron of either orientation it is p itself; the weights are unique; is_inside_* holds for the computed weights iff all weights are non-negative.","all simplices and points",INF,[G+"barycentric.py:compute_barycentric_triangle",G+"barycentric.py:compute_barycentric_tetrahedron",G+"barycentric.py:is_inside_triangle",G+"barycentric.py:is_inside_tetrahedron"])
p("C30","barycentric derivative of a tetrahedron","For every positively oriented tetrahedron the four returned vectors are the spatial gradients of its four barycentric coordinates (and sum to zero).","all positively oriented tetrahedra",INF,[G+"barycentric.py:compute_barycentric_derivatives_tetrahedron"])
p("C31","circumscribed and inscribed sphere","For every non-degenerate tetrahedron the circumscribed centre has the returned radius as distance to all four vertices; the inscribed centre has the returned radius as (signed) distance to the four face planes.","all non-degenerate tetrahedra",INF,[G+"tetrahedron.py:compute_circumscribed_sphere",G+"tetrahedron.py:compute_inscribed_sphere"])
p("C32","tetrahedron sample points","For every N >= 2 generate_sample_points(N) lists exactly once every barycentric grid point with denominator N-1 (count C(N+2,3)), each with non-negative weights summing to one; generate_interior_sample_points(N) keeps exactly the strictly interior ones.","all N >= 2","Unbounded N.",[G+"tetrahedron.py:generate_sample_points",G+"tetrahedron.py:generate_interior_sample_points"])
p("C33","cube-to-tetrahedra meshing","For all I,J,K the array has 5(I-1)(J-1)(K-1) rows, every index is a valid node, and on a beam of positive dimensions every tetrahedron has positive signed volume and the volumes sum to width*height*depth.","all grid dimensions and beam sizes","Unbounded dimensions; parity-alternating pattern.",[G+"volume_mesh.py:create_tetrahedron_array_from_cube_mesh",G+"volume_mesh.py:create_beam",G+"volume_mesh.py:compute_volumes"])
p("C34","tetrahedron neighbours and boundary surface","For every tetrahedral mesh in which each face is shared by at most two tetrahedra: N[e,v]=n>=0 iff tetrahedron n has the face of e opposite local node v, the relation is symmetric, -1 marks exactly the unshared faces, and compute_surface returns exactly those faces once each with the owning element and outward orientation for positively oriented elements.","all tetrahedral meshes",INF,[G+"volume_mesh.py:compute_neighbors",G+"volume_mesh.py:compute_surface"])
p("C35","loop subdivision of tetrahedra","create_loop_subdivision produces 8 tetrahedra per input tetrahedron whose signed volumes sum to the input volume, shares one midpoint vertex per mesh edge, keeps all original vertices, and uses only valid indices.","all tetrahedral meshes",INF,[G+"volume_mesh.py:create_loop_subdivision"])
p("C36","vertex circulator","VertexTetrahedronCirculator.tetrahedra(v) returns exactly the tetrahedra incident to v, in increasing order.","all meshes and vertices",INF,[G+"volume_mesh.py:VertexTetrahedronCirculator"])
p("C37","generated surfaces are closed","profile_sweep (hence cylinder, cone, conical, sphere, capsule), create_torus and create_box/create_cuboid return triangle arrays with valid indices in which each directed edge occurs exactly once and its reverse occurs exactly once (closed oriented 2-manifold).","all profile lengths >= 3 and slices >= 3; all torus segments/slices >= 3","Unbounded mesh resolution.",[G+"surface_mesh.py:profile_sweep",G+"surface_mesh.py:create_torus",G+"surface_mesh.py:create_box",G+"surface_mesh.py:create_cuboid"])
p("C38","axis_sort preserves the geometry","axis_sort permutes vertices and triangles: vertices end up sorted along the axis, the multiset of triangles seen as coordinate triples is unchanged, and triangles are ordered by mean vertex index.","all meshes and axes",INF,[G+"surface_mesh.py:axis_sort"])
p("C39","spatial hash insertion","Inserting an object in a cell at time t returns the objects earlier inserted at time t in cells with the same hash; objects of older time steps are never returned; the hash depends only on the cell index and is within range.","all insertion histories with non-decreasing time stamps",HIST,[G+"spatial_hashing.py:HashCell.add",G+"spatial_hashing.py:HashGird.insert",G+"spatial_hashing.py:HashGird.get_prefect_hash_value"])
p("C40","prox_sphere is the projection on the friction disc","For mu >= 0 prox_sphere(z,mu,x_n) is the unique closest point to z of the ball of radius mu*max(x_n,0); it is idempotent and non-expansive.","all z, mu >= 0, x_n",INF,[R+"prox_operators.py:prox_sphere",X+"proximal_operators.py:prox_sphere"])
p("C41","prox_ellipsoid","Whenever prox_ellipsoid returns for a point outside the ellipsoid, the returned point is a^2 z/(a^2+t) for a t bracketed between values where the ellipsoid equation is positive and non-positive; the expansion loop terminates for expansion factors > 1; points inside are returned unchanged; frictionless returns the origin.","all z, positive radii, tolerances",INF,[X+"proximal_operators.py:prox_ellipsoid"])
p("C42","contact solutions satisfy the friction cone","For the Gauss-Seidel, parallel Gauss-Seidel, Jacobi and hybrid-Jacobi solvers, and for the rigid-body contact problem, whatever J, W, b, parameters and number of iterations, the returned contact force has non-negative normal components and friction components in the ball of radius mu times that normal component.","all contact problems, parameters and iteration counts",INF+" The solver accepts/rejects iterates adaptively.",[X+"gauss_seidel_solver.py:GaussSeidelSolver.sweep",X+"jacobi_solver.py:sweep_worker",X+"solver_interface.py:SolverInterface.solve",R+"constraints/contacts.py:Contacts.sweep",R+"gauss_seidel_solver.py:solve"])
p("C43","solver merit and r-factor control","In every run the recorded merit of accepted iterates never increases, the returned solution is an accepted iterate (or the zero start), at most max_iterations sweeps are made, r-factors stay positive, and a rejected iterate is rolled back exactly to the last accepted one.","all problems, all sweep functions, all parameters with positive rates",HIST,[X+"solver_interface.py:SolverInterface.solve",X+"solver_interface.py:SolverInterface.update_r_factor_and_handle_sol_state",R+"gauss_seidel_solver.py:solve",R+"constraints/problem.py:Problem"])
p("C44","Gauss-Seidel bookkeeping of w","During every sweep the incrementally updated vector w equals WJ^T x for the current x, so each block update uses z_b = x_b - r_b (A x + b)_b with the latest x.","all problems and sweeps",INF,[X+"gauss_seidel_solver.py:GaussSeidelSolver.sweep",R+"constraints/contacts.py:Contacts.sweep",R+"constraints/hinges.py:Hinges.sweep"])
p("C45","contact graph and colour groups","build_contact_graph joins two rigid contacts iff they share a body; for any proper colouring of it, greedy_graph_coloring's colour groups partition the blocks (4k,4k+4), and two blocks in one group never touch the same body, so the blocks of a colour can be processed in any order with the same result.","all contact lists, all proper colourings, all schedules within a colour","Needs all thread schedules.",[X+"blocking.py:build_contact_graph",X+"blocking.py:greedy_graph_coloring",X+"gauss_seidel_solver.py:sweep_worker"])
p("C46","random_graph_coloring always returns a proper colouring","For every simple graph, every max_iter and every sequence of random choices (and every set iteration order), random_graph_coloring terminates and gives adjacent vertices different colours, colouring every vertex exactly once.","all graphs, all random choices, all iteration limits","Ranges over all random outcomes.",[X+"blocking.py:random_graph_coloring"])
p("C47","parallel Gauss-Seidel equals a sequential sweep","The parallel Gauss-Seidel sweep gives the same result as a sequential Gauss-Seidel sweep that visits the colour groups in order.","all problems and colourings",INF,[X+"gauss_seidel_solver.py:ParallelGaussSeidelSolver.sweep"])
p("C48","simulate advances exactly the requested time","simulate(engine,T) raises for T <= 0 or a missing stepper; for time_step > 0 it terminates, every step size is in (0,time_step], step sizes sum to T and all but the last equal time_step; for a non-positive time_step it never terminates.","all T and time_step","Unbounded durations.",[R+"api.py:simulate"])
p("C49","fixed bodies never move","For every engine, every number of steps, any forces, contacts and joints and whatever the solver returns, a body marked fixed keeps position, orientation and velocities.","all engines, step counts and solver outcomes",HIST,[R+"steppers.py:SemiImplicitStepper.step",R+"state_storage.py:StateStorage"])
p("C50","orientations stay unit quaternions","After every step the orientation of each free body is a unit quaternion, whatever the velocities.","all engines and histories",HIST,[R+"state_storage.py:StateStorage.position_update"])
p("C51","constraint impulses conserve momentum","For every contact set and every contact impulse vector (and hinge impulse vector when the anchor points coincide), the generalized impulse J^T x has zero total linear momentum and zero total angular momentum about the origin.","all contacts, impulses, body states",INF,[R+"constraints/contacts.py:Contacts._compute_jacobian_matrix",R+"constraints/hinges.py:Hinges._compute_jacobian_matrix"])
p("C52","contact and hinge Jacobians compute relative velocity","J u gives, per contact, the relative velocity of the two bodies' material points at the contact along normal and two tangents plus the relative spin about the normal; per hinge, the relative anchor velocity and the relative angular velocity orthogonal to the hinge axis.","all contacts, hinges, velocities",INF,[R+"constraints/contacts.py:Contacts._compute_jacobian_matrix",R+"constraints/hinges.py:Hinges._compute_jacobian_matrix"])
p("C53","contact reduction removes exactly the duplicates","After _contact_reduction no two contacts have the same unordered body pair and position, every removed contact has a kept one with the same body pair and position, order is preserved and the first of each class is kept.","all contact lists",INF,[R+"collision_detection.py:_contact_reduction"])
p("C54","contact optimisation stays on the triangle","The contact point search never leaves the triangle: the optimised point is always a convex combination of the triangle's three vertices; it starts at a vertex and makes at most contact_optimization_max_iterations steps.","all triangles, gradient fields, iteration limits",INF,[R+"collision_detection.py:_compute_contacts"])
p("C55","engine state round trip","copy_from_engine followed by copy_to_engine leaves all positions, orientations and velocities unchanged; body k of the engine owns slots 7k..7k+6 and 6k..6k+5.","all engines with any number of bodies",INF,[R+"state_storage.py:StateStorage.copy_from_engine",R+"state_storage.py:StateStorage.copy_to_engine"])
p("C56","engine API: names, indices, setters and getters","For every history of API calls: body, shape, force and hinge names stay unique, body idx values are 0..N-1 in creation order, getters return the last value set for that body and setters touch no other body; a force is attached to a body at most once.","all API call histories",HIST,[R+"api.py:create_rigid_body",R+"api.py:create_hinge",R+"api.py:connect_force",R+"api.py:set_velocity",R+"api.py:set_body_type"])
p("C57","surface interaction library","For every history: get_interaction(A,B) = get_interaction(B,A); after create_surfaces_interaction(A,B,e,mu) it returns exactly (e,mu) until the end of time (re-creation raises); undefined pairs give the default; stored epsilon and mu (created through the API) are non-negative; set_body_material succeeds iff the material occurs in some interaction.","all histories, all names",HIST,[R+"types.py:SurfacesInteractionLibrary",R+"api.py:create_surfaces_interaction",R+"api.py:set_body_material"])
p("C58","placing bodies through the model frame","set_position(...,use_model_frame=True) puts the model-frame origin at r without changing orientation; set_orientation(...,use_model_frame=True) gives the model frame orientation q/|q| and keeps the model-frame origin where it was.","all bodies, shapes, positions, orientations",INF,[R+"api.py:set_position",R+"api.py:set_orientation"])
p("C59","set_hinge makes both sockets coincide","After set_hinge in any mode, parent and child sockets transform to the same world origin (the requested one) and to the same world axis (the normalised requested axis), so the joint error vector is zero.","all bodies, origins, non-zero axes, modes",INF,[R+"api.py:set_hinge",R+"types.py:Hinge"])
p("C60","world inertia tensor","update_inertia_tensor(R,B) = R diag(B) R^T; it is symmetric, and for a rotation R and positive B it is positive definite and the tensors of B and 1/B are inverse to each other.","all rotations and inertia vectors",INF,[R+"mass.py:update_inertia_tensor"])
p("C61","mass properties of a watertight mesh","For every closed, consistently oriented triangle mesh without degenerate triangles, compute_mass_properties raises exactly when the enclosed signed volume is not positive, and otherwise returns density times the volume, the centre of mass and density times the inertia tensor of the enclosed solid (the integrals of 1, x_i and x_i x_j over it); numbers up to 1e-10 are replaced by 0. Moving the mesh keeps the mass and moves the centre of mass along.","all meshes and densities",INF,[R+"mass.py:compute_mass_properties"])
p("C62","parallel axis transfer","Translating mass properties to the centre of mass gives the inertia tensor of the translated body: for every finite mass distribution with the given mass, centre and inertia (off-diagonal entries up to 1e-10 become 0).","all mass distributions",INF,[R+"mass.py:__translate_to_body_space_origin"])
p("C63","pre- and post-stabilisation targets are bounded","Contact error entries are non-positive, no larger in magnitude than max_gap_value/dt, zero for contacts with penetration within min_gap_value or separating, only in normal rows; get_largest_penetration (rigid bodies) and get_largest_penetration_error (soft bodies) are the maximum of 0 and all penetrations.","all contact lists and parameters",INF,["rainbow/simulators/prox_soft_bodies/solver.py:get_largest_penetration_error",R+"constraints/contacts.py:Contacts._compute_error_vector",R+"constraints/post_stabilization.py:PostStabilization._compute_error_vector",R+"constraints/contacts.py:Contacts.get_largest_penetration"])
p("C64","energy report","Reported kinetic energy is non-negative for positive masses and inertias, fixed bodies contribute nothing, and the potential energy of a body counts the gravity forces acting on it.","all engines",INF,[R+"state_storage.py:StateStorage.compute_total_energy"])
exec(open('/verif/tools/props2.py').read())
with open('/verif/properties.jsonl','w') as f:
    for x in P: f.write(json.dumps(x)+"\n")
print(len(P))
