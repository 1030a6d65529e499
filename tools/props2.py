p("C65","exponential-map rate follows the angular velocity","For every rotation vector v outside the Taylor region (and not a full turn) and every angular velocity omega, moving v with velocity expmap.dvdt(omega,v) moves the quaternion exp(v) with velocity 1/2 omega*exp(v): dvdt composed with the dQdv_i columns is the quaternion kinematic equation.","all v with |v| >= 1e-6 and sin(|v|/2) != 0, all omega",INF,[M+"expmap.py:dvdt",M+"expmap.py:dQdv_i"])
p("C66","ortonormalize is Gram-Schmidt","For every matrix whose first two rows are linearly independent matrix3.ortonormalize returns a rotation matrix whose first row is the direction of the first input row and whose second row spans, with the first, the same half plane as the input; the input's first two rows are overwritten with the result's.","all matrices with independent first two rows",INF,[M+"matrix3.py:ortonormalize"])
p("C67","angle-axis extraction","For every unit quaternion with non-zero vector part to_angle_axis returns an angle in (0,2pi) and a unit axis with Ru(angle,axis) = q; otherwise the axis is zero and the angle 0 or 2pi. to_angle(Ru(theta,u),u) is the representative of theta in (-pi,pi].","all unit quaternions, all angles and non-zero axes",INF,[M+"quaternion.py:to_angle_axis",M+"quaternion.py:to_angle"])
p("C68","printed polynomials determine the polynomial","polynomial.to_str of two different polynomials of the same order gives different strings, so that printing P shows its signs, coefficients and powers faithfully.","all coefficient vectors",INF,[M+"polynomial.py:to_str"])
p("C69","signed distance grid","create_signed_distance(V,F,I,J,K,d) rejects a negative boundary and an empty mesh; otherwise the grid box is the tight bounding box of the vertices enlarged by d on every side, so every vertex is inside at distance d, and the value at every node is the signed distance igl reports at that node's coordinate.","all meshes, grid sizes and boundaries",INF,[G+"grid3.py:create_signed_distance"])
p("C70","generated vertices lie on the named surface","The vertices of create_sphere are at distance radius from the origin, those of create_ellipsoid satisfy the ellipsoid equation, those of create_cylinder are on the mantle or the cap centres, those of create_capsule on one of the two end spheres, those of create_torus on the torus, and those of create_box are the eight corners, with outward faces. profile_sweep places the turned profile points slice by slice.","all radii, sizes and resolutions accepted by the generators",INF,[G+"surface_mesh.py:profile_sweep",G+"surface_mesh.py:create_sphere",G+"surface_mesh.py:create_box",G+"surface_mesh.py:create_torus"])
p("C71","scale_to_unit","scale_to_unit scales a mesh uniformly about the centre of its bounding box so that the new bounding box has the same centre and largest side exactly 1; it succeeds for every mesh whose bounding box has positive extent.","all meshes",INF,[G+"surface_mesh.py:scale_to_unit",G+"surface_mesh.py:aabb"])
p("C72","convex hull triangles face outwards","Given the vertices and simplices of a hull, create_convex_hull keeps each triangle's vertices and orders them so that the counter-clockwise normal does not point towards the mean of the vertices.","all vertex arrays and simplices",INF,[G+"surface_mesh.py:create_convex_hull"])
SB="rainbow/simulators/prox_soft_bodies/"
p("C73","spatial-hashing narrow phase is complete","With spatial hashing, every pair of triangles of different soft bodies whose bounding boxes overlap (in particular every pair with a common point) is reported, whatever hash table, cell size > 0 and earlier time steps; pairs of one body are reported iff they pass the self-collision test; only pairs whose current boxes overlap are reported.","all bodies, cell sizes, hash functions, earlier histories",INF,[SB+"collision_detection.py:_spatial_hashing_narrow_phase",G+"spatial_hashing.py:HashGird.insert"])
p("C74","self-collision test","_is_self_collision returns true exactly for triangles of a body that share no vertex, have overlapping boxes and intersect.","all pairs of triangles",INF,[SB+"collision_detection.py:_is_self_collision",SB+"collision_detection.py:_triangle_intersection",SB+"collision_detection.py:_is_share_vertex"])
p("C75","free flight is semi-implicit Euler","In a step without hinges in which no contact is found, every free body gets v' = v + dt F/m, w' = w + dt I^-1 T (F, T the sum of its attached forces and the gyroscopic torque) and r' = r + dt v'; n such steps under gravity alone give v - n h g and r + n h v - h^2 n(n+1)/2 g. An engine with one body and no hinges always flies freely.","all engines, step sizes and step counts",HIST,[R+"steppers.py:SemiImplicitStepper.step",R+"state_storage.py:StateStorage",R+"types.py:Gravity.compute"])
p("C76","a step never raises on a ready engine","For every engine whose bodies have positive mass and inertia, a shape with a non-empty mesh, grid and BVH, hinges connected to bodies of the engine, and positive parameters, a step of any non-zero size succeeds and leaves the engine ready again, so simulate returns.","all ready engines, all step sizes and histories",HIST,[R+"steppers.py:SemiImplicitStepper.step",R+"collision_detection.py:run_collision_detection",R+"api.py:simulate"])
p("C77","stored contacts are meaningful","After collision detection every stored contact joins two different bodies of the engine; its point lies on a triangle of one of them, at the point's position in the other's frame its gap is the value of the other's distance field (at most the envelope), and its normal is the unit vector along the gradient there, in world space.","all engines with unit orientations on which collision detection succeeds",INF,[R+"collision_detection.py:run_collision_detection",R+"collision_detection.py:_compute_contacts",R+"collision_detection.py:_contact_determination"])
p("C78","hinge pre-stabilisation reduces drift","With pre-stabilisation on, velocities that satisfy the hinge equations exactly move the two anchor points of every hinge so that after the time step their gap is (1 - gap_reduction) times the present gap.","all engines with hinges, time steps and exact solutions",INF,[R+"constraints/hinges.py:Hinges._compute_error_vector",R+"constraints/hinges.py:Hinges.initialize"])
p("C79","touching bodies get contacts","Collision detection finds a contact for bodies whose surfaces touch or penetrate.","all engines",INF,[R+"collision_detection.py:_compute_contacts",G+"grid3.py:is_inside"])
p("C80","the body frame diagonalises the inertia","For every mass distribution, in the frame (r, q) returned by xform_model_2_body_space the first moments vanish, the inertia tensor is the diagonal matrix of the returned moments, which are in descending order, and q is a unit quaternion, provided np.linalg.eig returns an orthonormal eigenbasis; unit eigenvectors are enough for that when the three moments differ.","all mass distributions, all eigensolvers",INF,[R+"mass.py:xform_model_2_body_space",R+"mass.py:__rotate_to_model_space_orientation"])
p("C81","create_shape centres and aligns the mesh","For every closed mesh (with nothing lost to the 1e-10 clamps) the mesh kept by create_shape has volume equal to the stored mass, zero first moments and a diagonal inertia tensor equal to the stored moments, and rotating by q and translating by r gives back the mesh the user passed.","all closed meshes",INF,[R+"api.py:create_shape",R+"mass.py:compute_mass_properties",R+"mass.py:xform_model_2_body_space"])
p("C82","positive volume gives positive mass","For every closed mesh of positive volume the computed mass is positive.","all closed meshes",INF,[R+"mass.py:compute_mass_properties"])
p("C83","a call that raises changes nothing","For every engine reached through the API, a call that raises leaves every body, shape, force, hinge, interaction and parameter as they were.","all API call histories and all calls",HIST,[R+"api.py:connect_shape",R+"api.py:create_rigid_body",R+"api.py:set_hinge"])
p("C84","an engine set up through the API simulates","For every history of API calls (with at least one triangle per chunk, a positive envelope and a valid k-DOP count) that leaves every body connected to a shape and with a mass, and every hinge set, simulate returns: no time step raises. The shapes' grid boxes must have no zero coordinate in their lower corner.","all API call histories, all time steps",HIST,[R+"api.py:simulate",R+"api.py:connect_shape",R+"api.py:set_mass_properties"])
p("C85","meshes stay where the user modelled them","The vertices of a shape's mesh, taken from the body frame to the world of a body connected to the shape, are the vertices the user passed to create_shape taken from the model frame to the world.","all meshes, all placements",INF,[R+"api.py:create_shape",R+"api.py:set_position"])
p("C86","create_shape leaves the caller's mesh alone","create_shape does not change the vertex array of the mesh the caller passes.","all meshes",INF,[R+"api.py:create_shape"])
IK="rainbow/simulators/inverse_kinematics/"
p("C87","a skeleton is always a tree","After any sequence of create_root, add_bone and the other API calls a non-empty skeleton is a tree rooted at bone 0: every other bone has exactly one parent, which has a smaller index and lists it once as a child; the Euler code of every bone is one of the twelve sequences. create_root on an empty skeleton and add_bone with an existing parent succeed exactly when the code is valid, leave all other bones as they were and store the given frame and angles; otherwise the call raises.","all histories of skeleton-building calls",HIST,[IK+"api.py:create_root",IK+"api.py:add_bone",IK+"types.py:Bone",IK+"types.py:Skeleton"])
p("C88","forward kinematics composes the frames","For every skeleton update_skeleton gives every bone the world position and orientation obtained by composing the relative frames (translation, Euler rotation) along its path from the root; joint angles and relative frames are untouched; the result depends only on the joints, so calling it again changes nothing; distances between a bone and its parent are the length of the relative translation whatever the angles.","all skeletons, angles and Euler sequences",INF,[IK+"api.py:update_skeleton",IK+"types.py:Bone.update_parameters"])
p("C89","one chain per leaf","For every skeleton make_chains returns exactly one chain for every bone without children, whose bones are the path from the root to that leaf in order, with the default goal (10,0,0) and no tool offset; so every bone is on some chain.","all skeletons",INF,[IK+"api.py:make_chains"])
p("C90","joint angles can be read and written back","get_joint_angles returns three angles per bone in bone order; set_joint_angles with an array of at least that length makes the angles equal to it and changes nothing else; writing what was read changes nothing; a too short array raises. set_angle/get_angle address the same positions (Python index wrap-around included). A call that raises changes nothing.","all skeletons and arrays",INF,[IK+"api.py:get_joint_angles",IK+"api.py:set_joint_angles",IK+"api.py:set_angle",IK+"api.py:get_angle"])
p("C91","the Jacobian is the derivative of the end effectors","For every skeleton with up-to-date poses and every list of root-to-bone chains, entry (3n+r, i) of compute_jacobian is the exact partial derivative of coordinate r of the n-th chain's end effector with respect to joint angle i, for all twelve Euler sequences.","all skeletons, chains and angles",INF,[IK+"api.py:compute_jacobian"])
p("C92","the gradient is the derivative of the objective","compute_objective is half the sum of the squared distances from end effectors to goals, and compute_gradient is its exact gradient with respect to the joint angles.","all skeletons, chains, goals and angles",INF,[IK+"api.py:compute_gradient",IK+"api.py:compute_objective"])
p("C93","the Hessian is the second derivative of the objective","compute_hessian returns the matrix of second partial derivatives of the objective with respect to the joint angles; in particular it is symmetric.","all skeletons, chains, goals and angles",INF,[IK+"api.py:compute_hessian"])
p("C94","finite differences approximate the derivatives","The finite-difference gradient is the central difference quotient of the objective, and as h tends to 0 the finite-difference gradient and Hessian tend to the exact first and second derivatives.","all skeletons, chains and angles",INF,[IK+"api.py:compute_finite_difference_gradient",IK+"api.py:compute_finite_difference_hessian"])
p("C95","finite differences leave the skeleton as it was","After the finite-difference functions joint angles and world poses of the skeleton are what they were before.","all skeletons, chains and step sizes",INF,[IK+"api.py:compute_finite_difference_gradient",IK+"api.py:compute_finite_difference_hessian"])
p("C96","Lame parameters are the elastic constants","For E > 0 and -1 < nu < 1/2 first_lame and second_lame return the parameters lambda, mu whose material, stretched along one axis, has Young's modulus E and Poisson ratio nu; mu and the bulk modulus are positive and different (E, nu) give different parameters. set_elasticity only lets through values the functions can handle.","all Young moduli and Poisson ratios",INF,[SB+"mechanics.py:first_lame",SB+"mechanics.py:second_lame",SB+"api.py:set_elasticity"])
p("C97","StVK stress is the gradient of its energy","For every deformation gradient SVK.pk1_stress is the derivative of SVK.energy_density, both are frame indifferent, the Kirchhoff stress is symmetric, rotations cause neither stress nor energy, and with positive moduli the energy is non-negative and zero only at orthogonal F. The Cauchy stress of a symmetric second Piola-Kirchhoff stress is symmetric and is F S F^T / det F.","all 3x3 deformation gradients and Lame parameters",INF,[SB+"mechanics.py:SVK.pk1_stress",SB+"mechanics.py:SVK.energy_density",SB+"mechanics.py:cauchy_stress_tensor"])
p("C98","stable neo-Hookean stress is the gradient of its energy","For every deformation gradient SNH.pk1_stress is the derivative of SNH.energy_density; both are frame indifferent, the Kirchhoff stress is symmetric and rotations cause no stress.","all 3x3 deformation gradients and Lame parameters",INF,[SB+"mechanics.py:SNH.pk1_stress",SB+"mechanics.py:SNH.energy_density"])
p("C99","the default constitutive model can be used","The co-rotational model, which every new material gets, returns a stress and an energy for every invertible deformation gradient.","all deformation gradients",INF,[SB+"mechanics.py:COR.pk1_stress",SB+"mechanics.py:COR.energy_density",SB+"types.py:MaterialDescription"])
p("C100","polar decomposition","For every 3x3 matrix the polar decomposition raises exactly when the matrix is singular and otherwise returns the unique factorisation A = R S with R orthogonal and S symmetric positive definite; R is a rotation.","all 3x3 matrices, all correct symmetric eigensolvers",INF,["rainbow/math/matrix3.py:polar_decomposition_eig"])
p("C101","matrix-free products equal assembled matrices","For every mesh, element arrays and nodal vector, prod_mat_vec returns the product of the assembled sparse matrix with the vector, for both memory layouts of the vector.","all tetrahedral meshes, element arrays and vectors",INF,[SB+"solver.py:ElementArrayUtil.prod_mat_vec",SB+"solver.py:ElementArrayUtil.assembly_csr"])
p("C102","the mass matrix is symmetric positive definite and carries the mass","For every mesh with positive volumes that uses all its nodes, the lumped and the consistent mass matrix are symmetric positive definite (so invertible); applied to a uniform velocity they give the momentum rho * volume * velocity; the lumped one is diagonal.","all tetrahedral meshes and densities",INF,[SB+"solver.py:Native.compute_mass_element_array"])
p("C103","damping dissipates, gravity is weight","Viscous damping forces never do positive work, and strictly negative work on every moving node set when c > 0; the gravity forces equal the lumped mass matrix times g and add up to rho * volume * g.","all meshes, velocities and gravity vectors",INF,[SB+"solver.py:Native.compute_damping_element_array",SB+"solver.py:Native.compute_damping_forces",SB+"solver.py:Native.compute_gravity_forces"])
p("C104","face vectors are outward area vectors","For every tetrahedron the outward face vectors are orthogonal to their faces with the area as length, point away from the opposite vertex for positive volume, add up to zero, and are -3 V times the gradients of the linear shape functions.","all tetrahedra",INF,[SB+"solver.py:Native.compute_outward_face_vectors"])
p("C105","the deformation gradient maps rest edges to deformed edges","For every mesh compute_inverse_D0 raises exactly when a rest tetrahedron is not positive and compute_deformation_gradient when a current one is not; otherwise F maps every rest edge to the current edge; an affine map with linear part B gives F = B everywhere; rotating the current configuration rotates F.","all rest and current configurations",INF,[SB+"solver.py:Native.compute_D",SB+"solver.py:Native.compute_inverse_D0",SB+"solver.py:Native.compute_deformation_gradient"])
p("C106","elastic forces are minus the gradient of the elastic energy","For every mesh, configuration and constitutive model the nodal elastic forces are minus the derivative of the elastic energy with respect to the nodal positions.","all meshes, configurations, constitutive models",INF,[SB+"solver.py:Native.compute_elastic_forces",SB+"solver.py:Native.compute_elastic_energy"])
p("C107","elastic forces are internal","For every configuration the elastic forces have no resultant and (for StVK and neo-Hookean) no torque; a rigidly moved rest configuration has none at all.","all meshes and configurations",INF,[SB+"solver.py:Native.compute_elastic_forces"])
p("C108","traction puts the load on the surface","Traction forces act on the nodes of the loaded triangles only, equally on the three nodes, and add up to current area times traction vector.","all configurations and traction conditions",INF,[SB+"solver.py:Native.compute_traction_forces"])
p("C109","reported energies belong to the forces","The kinetic energy is (1/2) u^T M u; the potential energy decreases by exactly the work of the gravity forces under any displacement.","all meshes, velocities and displacements",INF,[SB+"solver.py:compute_kinetic_energy",SB+"solver.py:compute_potential_energy"])
p("C110","Dirichlet conditions on linear systems","After apply_dirichlet_conditions every solution of A x = b takes the prescribed values (the last one given for a node), and the equations of all other nodes are unchanged.","all systems and lists of conditions",INF,[SB+"solver.py:Native.apply_dirichlet_conditions"])
p("C111","the soft-body engine stays consistent","After every history of calls (returning or raising), parameter changes and time steps: body names are distinct, completely created bodies own disjoint consecutive blocks of the global node range, every body's volumes, face vectors and inverse rest matrices are those of its rest mesh, conditions refer to existing nodes, densities and viscosities are not negative. Spatial coordinates that are written are what a step starts from; writing back the material coordinates resets a body.","all histories of API calls and steps",HIST,[SB+"api.py:create_soft_body",SB+"api.py:set_spatial_coordinates",SB+"api.py:get_material_coordinates",SB+"solver.py:get_position_vector",SB+"solver.py:set_position_vector"])
p("C112","soft bodies obey the momentum balance","For every step of an engine whose stepper holds the inverse of the mass matrix, the momentum of every body without Dirichlet nodes changes by dt times its external forces plus the contact impulses, which act oppositely on the two bodies of a contact; elastic forces contribute nothing. In an isolated world total momentum and (for StVK and neo-Hookean) angular momentum are conserved over a whole simulate. The mass matrix is diagonal and positive; the stepper keeps its inverse through every step and every call but create_soft_body and set_material.","all reachable engines, contacts, solvers",HIST,[SB+"solver.py:SemiImplicitStepper.step",SB+"solver.py:compute_mass_matrix",SB+"solver.py:compute_inverse_mass_matrix",SB+"api.py:simulate"])
p("C113","Dirichlet nodes stay put","After every step every node with a Dirichlet condition is at its rest position and has velocity zero, whatever the forces and contacts.","all reachable engines and steps",HIST,[SB+"solver.py:apply_boundary_conditions_on_positions",SB+"solver.py:apply_boundary_conditions_on_velocities",SB+"solver.py:SemiImplicitStepper.step"])
p("C114","the soft contact Jacobian measures relative velocity","For every contact the rows of the Jacobian times the nodal velocities are the normal and tangential components of the relative velocity of the two contact points (second minus first body), interpolated with the contact's barycentric weights.","all engines, contacts, velocities",INF,[SB+"solver.py:compute_jacobian_matrix"])
p("C115","when a soft-body step returns","A step returns exactly when every body is completely created, has a material with a usable stress and no inverted tetrahedron, the stepper fits the world, and every contact has a surface interaction, a nonzero normal and no stabilisation that raises.","all reachable engines",HIST,[SB+"solver.py:SemiImplicitStepper.step"])
p("C116","a soft-body call that raises changes nothing","For every engine, a call of the interface that raises leaves the engine as it was.","all engines and calls",HIST,[SB+"api.py:create_soft_body",SB+"api.py:set_material"])
p("C117","stabilisation can be switched on","With pre_stabilization or post_stabilization switched on, every step that returns without it still returns.","all engines and contacts",INF,[SB+"solver.py:apply_post_stabilization",SB+"solver.py:SemiImplicitStepper.step"])
p("C118","soft-body simulate advances exactly T","simulate(T) raises for T <= 0; otherwise, with a positive time step, it ends after finitely many steps or raises; when it returns its steps have the length time_step, the last one possibly shorter, and add up to T; the time stamp counts the steps.","all T, time steps and engines",INF,[SB+"api.py:simulate"])
p("C119","soft bodies fall like particles","A body in a rotated and translated rest configuration with uniform velocity, without conditions and contacts, stays undeformed: every node accelerates with gravity minus viscosity over density times velocity; without viscosity its velocity after simulate(T) is v + T g. Density and viscosity are the ones of the body's material.","all rest meshes, placements, velocities, step sequences",HIST,[SB+"solver.py:SemiImplicitStepper.step",SB+"api.py:set_mass_density",SB+"api.py:set_viscosity",SB+"api.py:set_material"])
p("C120","fixed soft bodies do not move","After set_type(body, 'fixed') the body does not move.","all engines and steps",HIST,[SB+"api.py:set_type",SB+"solver.py:SemiImplicitStepper.step"])
p("C121","conditions select what the level set covers","create_dirichlet_conditions pins exactly the nodes whose rest position has phi <= 0, at their rest positions; create_traction_conditions loads exactly the surface triangles with phi <= 0 at all three corners, with the given load; earlier conditions and all other bodies are untouched.","all meshes and level-set functions",INF,[SB+"api.py:create_dirichlet_conditions",SB+"api.py:create_traction_conditions"])
p("C122","surface interactions of soft materials","Interactions are symmetric in the two materials, can be created once for existing materials and mu >= 0, keep their coefficient for ever, and other pairs are unaffected. A pair without one uses the default interaction.","all histories of calls",HIST,[SB+"types.py:SurfacesInteractionLibrary.get_interaction",SB+"api.py:create_surfaces_interaction",SB+"solver.py:get_friction_coefficient_vector"])
p("C123","soft contacts obey Coulomb's law","In every step solved with Gauss-Seidel, parallel Gauss-Seidel or hybrid Jacobi, every contact impulse pushes the bodies apart and its tangential part is at most mu times its normal part, with mu of the pair of materials.","all reachable engines, contacts, solver parameters and schedules",HIST,[SB+"solver.py:SemiImplicitStepper.step",SB+"solver.py:get_friction_coefficient_vector","rainbow/simulators/proximal_contact/prox_solvers.py:solve"])
p("C124","bodies can be added between simulations","After a simulate, creating another soft body and simulating again works.","all histories",HIST,[SB+"api.py:simulate",SB+"api.py:create_soft_body",SB+"solver.py:SemiImplicitStepper"])
p("C125","every accepted material can be simulated","A body made of any material with any constants the setters accept, in particular the default material, can be simulated.","all materials and constants",INF,[SB+"types.py:MaterialDescription",SB+"api.py:set_elasticity",SB+"solver.py:compute_elastic_forces"])
p("C126","what a contact solver that has converged has solved","For every scheme (Gauss-Seidel, its parallel variant, both Jacobi variants) the multipliers a further sweep leaves unchanged are exactly those that satisfy Signorini's condition and Coulomb's friction law for all contacts. A rigid body solve that ends because the absolute tolerance is reached satisfies them up to an explicit multiple of the tolerance.","all contact problems, r-factors, orders and groupings",INF,["rainbow/simulators/proximal_contact/prox_solvers.py:solve",R+"gauss_seidel_solver.py:solve",R+"constraints/contacts.py:Contacts.sweep"])
p("C127","contacts after a step","After a step with converged contact multipliers no contact approaches: the normal relative velocity plus restitution times the velocity before (plus the stabilisation push for a penetrating contact) is non-negative and zero where a contact force acts; friction has at most mu of the two materials times the normal impulse and opposes sliding, measured in the weights of the solver.","all engines without joints, collision results, solvers and time steps",INF,[R+"steppers.py:SemiImplicitStepper.step",R+"constraints/contacts.py:Contacts.initialize",R+"gauss_seidel_solver.py:solve"])
p("C128","contacts do not create energy","Without restitution and stabilisation, and with fixed bodies at rest, a step with converged multipliers leaves at most the kinetic energy that the external forces alone would have produced.","all engines without joints, collision results, solvers and time steps",INF,[R+"steppers.py:SemiImplicitStepper.step",R+"constraints/contacts.py:Contacts.initialize"])
p("C129","joints hold during a step","After a step with converged multipliers the two anchor points of every hinge move with the same velocity and the bodies rotate relative to each other about the hinge axis only, with or without contacts.","all engines, collision results, solvers and time steps",INF,[R+"steppers.py:SemiImplicitStepper.step",R+"constraints/hinges.py:Hinges.initialize",R+"gauss_seidel_solver.py:solve"])
p("C130","collision detection misses no probed triangle","If a triangle of one body and a triangle of another have points at most the envelope apart, and the search along the first triangle in the second body's distance field ends at a point at least 1/2 inside its grid with distance at most the envelope and a gradient that is not zero, then a contact between the two bodies at that point is reported, whatever the order of the bodies, whether they are fixed or not, and whatever the state of the bounding volumes before.","all ready engines, pairs of bodies, triangles and poses",INF,[R+"collision_detection.py:run_collision_detection",R+"collision_detection.py:_narrow_phase",R+"collision_detection.py:_contact_determination"])
p("C131","post-stabilisation separates what penetrates","With post-stabilisation on, a step in which no contact is deeper than min_gap moves the bodies as if it were off. Otherwise every free body is moved and turned once more after its ordinary motion, velocities and fixed bodies are not touched, and with converged multipliers the extra motion separates every contact by at least its penetration (counted when deeper than min_gap), by exactly that where a projection force acts, and there are no tangential projection forces.","all engines, collision results, solvers and time steps",INF,[R+"steppers.py:_apply_post_stabilization",R+"constraints/post_stabilization.py:PostStabilization",R+"steppers.py:SemiImplicitStepper.step"])
p("C132","a soft contact is where it says","Every contact point that collision detection reports between soft bodies lies at the stated point of the tetrahedron of each body (barycentric coordinates that sum to 1), on a surface triangle of the second body and inside that body's tetrahedron, its gap is the value of the first body's distance field at the same point of the undeformed shape and at most the envelope, and its normal has length 1. Hence an isolated engine with this collision detection conserves momentum.","all engines, distance fields, hash grids and both modes of detection",INF,[SB+"collision_detection.py:run_collision_detection",SB+"collision_detection.py:_compute_contacts",SB+"collision_detection.py:_xform_contact_to_world"])
p("C133","soft contact normals turn with the body","The normal of a contact is the gradient of the first body's distance field, turned as the first body's tetrahedron has turned.","all contacts and deformations",INF,[SB+"collision_detection.py:_xform_contact_to_world"])
p("C134","soft collision detection misses no probed triangle","If surface triangles of two bodies have points at most the envelope apart, and the first one, pulled back into the undeformed shape of the second body, probes its distance field at a point with distance at most the envelope, then a contact between these bodies at that point is reported, whatever the order of the bodies, the state of the bounding volumes or the hash grid before; detection raises no exception on bodies without flat tetrahedra.","all bodies, triangles, deformations and histories of the bounding volumes and the hash grid; both modes",HIST,[SB+"collision_detection.py:run_collision_detection",SB+"collision_detection.py:_narrow_phase",SB+"collision_detection.py:_spatial_hashing_narrow_phase"])
p("C135","soft contact reduction only removes repetitions","The reduction of the contacts keeps for every contact exactly one between the same two bodies in the same order at the same position, and invents none.","all lists of contacts",INF,[SB+"collision_detection.py:_contact_reduction"])

p("C136","the curvature field is the curvature of the level sets","create_from_sdf accepts every field of values on a box with positive extent and returns a field on the same grid that is 0 at the boundary nodes and never larger than one over the smallest spacing. On a quadratic field the value at an interior node with a gradient of length at least 1/2 is the divergence of the unit normal of the level set through the node (2/s at distance s from the centre of a sphere), cut off at that bound. The value depends on the neighbouring nodes only, does not change when a constant is added and changes its sign with the field.","all grids, fields of values and nodes",INF,[G+"mean_curvature.py:create_from_sdf"])

SC=R+"scenes/"
p("C137","create_mesh only renumbers","API.create_mesh keeps every vertex and every oriented triangle of the mesh it is given; only the order changes, along an axis of unit length which direction_of_most_variance returns: the direction in which the points vary most.","all meshes with at least two vertices and indices in range, all orthonormal eigenvectors that np.linalg.eig may return",INF,[R+"api.py:create_mesh","rainbow/math/functions.py:direction_of_most_variance","rainbow/math/functions.py:PCA"])
p("C138","a box stack stands","create_box_stack(engine, w, h, d, K, density, material) returns the names of exactly K new free bodies at rest of mass w h d density; body k is a w x h x d box whose lower face is at height k h, centred over the origin and turned by 45 degrees with respect to the one below. Neighbouring boxes touch, and no two boxes share a point that is not on the plane between neighbours. Everything else in the engine is unchanged, and the stack can be simulated for any time.","all engines reached through the API, sizes, numbers of boxes, densities",HIST,[SC+"create_box_stack.py:create_box_stack"])
p("C139","the ground is where it should be","create_ground(engine, r, q, ...) adds one fixed body, a 100 x 1 x 100 box turned by q whose upper face has its centre at r; the body is entirely below the plane through r with normal q(0,1,0).","all engines reached through the API, positions and orientations",HIST,[SC+"create_ground.py:create_ground"])
p("C140","a hinge chain is closed and free of overlap","create_cube_hinge_chain(engine, a, K, ...) adds K cubes of edge a standing on their edges, in a row centred at the origin, no two of which share a point; the first is fixed, the others are free, and cube k and cube k+1 are joined by a closed hinge halfway between their centres that turns about the z-axis. Older bodies and hinges are unchanged and the chain can be simulated. K = 0 raises.","all engines reached through the API, edge lengths, numbers of cubes",HIST,[SC+"create_cube_hinge_chain.py:create_cube_hinge_chain"])
p("C141","a lattice fills its cells","create_lattice(engine, r, q, shapes, w, h, d, I, J, K, density, material, random, q_body) adds exactly I J K free bodies at rest, one at the centre of each cell of a box of size w x h x d with its corner at r turned by q; the body in cell (i, j, k) has shape number (i + j + k) mod len(shapes), the orientation q times the given (or a random) one, and mass density times the volume of its shape. If the shapes are smaller than the cells no two bodies share a point, whatever the random orientations. Everything else in the engine is unchanged.","all engines reached through the API, poses, sizes, cell counts, lists of shapes, random orientations",HIST,[SC+"create_lattice.py:create_lattice"])
p("C142","a tower is a wall of bricks that do not overlap","create_tower(engine, r, q, outer, inner, height, layers, segments, use_cubes, density, material) adds exactly layers x segments free bodies at rest; brick (l, s) is the brick of the wall (a box or a wedge between the inner and the outer radius, as high as a layer) turned about the axis by 2 pi / segments times s, every second layer by half a brick more, and lifted to its layer. Every brick stays in its layer, between the radii and in its sector; two bricks share at most points on the plane between neighbouring layers. Everything else in the engine is unchanged and the tower can be simulated.","all engines reached through the API, poses, radii, heights, numbers of layers and segments, both kinds of brick",HIST,[SC+"create_tower.py:create_tower"])
p("C143","vectors are read from text","vector3.from_string reads ones, zero, i, j, k in any capitalisation as these vectors; a list of at least three decimal numbers in brackets, with blanks anywhere around the numbers, as the values of its first three numbers; rand:lo:hi as a random vector of the range lo to hi. A list with fewer than three numbers raises. A string without blanks and without exponents that is read at all is one of these, so no number is misread.","all strings, numbers of any length, blanks, capitalisation",INF,[M+"vector3.py:from_string",M+"vector3.py:check_string","rainbow/util/parse_string.py"])
p("C144","rotations are read from text","quaternion.from_string reads identity; rx:d, ry:d, rz:d as the rotation by d degrees about that axis; ru:d:[x,y,z] as the rotation by d degrees about the direction (x,y,z); a list of at least four numbers as the four components, scalar part first. A shorter list raises. A string without blanks and without exponents that is read at all is one of these.","all strings, numbers of any length, blanks, capitalisation",INF,[M+"quaternion.py:from_string",M+"quaternion.py:check_string","rainbow/util/parse_string.py"])
p("C145","every decimal numeral is understood in text","A bracketed list of decimal numbers as Python prints them (0.05, 1e-05) is read, and as the numbers written. Refuted: a fraction or exponent with a leading zero followed by another digit makes the whole string raise, and an exponent with a fraction is read without its fraction.","all lists and numerals",INF,["rainbow/util/parse_string.py:Float","rainbow/util/parse_string.py:Number"])
p("C146","an arch stands on its piers","create_arch(engine, r, q, width, height, depth, pier_stones, arch_stones, density, material) raises and creates nothing when a length, the density or a number of stones is not positive, when there are fewer than 3 or an even number of arch stones, or when height <= width / 2. Otherwise it adds exactly 2 pier_stones + arch_stones free bodies at rest: two piers of boxes of width/5 at the two ends of the base, and a ring of equal wedges from angle 0 to pi between the radii 3/10 width and width/2, whose centre is at height - width/2. The stones are in their slots: two stones share at most points of the joint between neighbours, and of the piers only the top stones touch the ring, at its first and last stone. Everything else in the engine is unchanged and the arch can be simulated.","all engines reached through the API, poses, sizes, numbers of stones, densities",HIST,[SC+"create_arch.py:create_arch"])
p("C147","a colosseum is levels of arches with a ring of stones on each","create_colosseum(engine, r, q, outer, inner, height, levels, arches, density, material, safety) raises and creates nothing when levels or arches is 0 or when the arches would not be valid (see C146: too low for their width, outer <= inner, ...). Otherwise it adds exactly 20 levels arches free bodies at rest with new, different names: on every level, of height height/levels, the arches, nine tenths of the level high, side by side around the axis and facing it, and on top of them a closed ring of wedges. With safety < 1 stones of different arches and different wedges of a ring have no common point, stones of parts on top of each other share at most points of the floor between them, and the stones of one arch share at most its joints. Everything else in the engine is unchanged and the colosseum can be simulated.","all engines reached through the API, poses, sizes, numbers of levels and arches, densities, safety factors",HIST,[SC+"create_colosseum.py:create_colosseum",SC+"create_arch.py:create_arch",SC+"create_tower.py:create_tower"])
p("C148","a URDF link becomes a body","read_urdf(engine, file) makes one new free body for every link that has a readable collision mesh, with the name of the link, the mass and the moments ixx, iyy, izz as written (zero when missing), at rest, without forces and with the default material; its shape is the collision mesh seen from the inertial frame of the link: the same vertices and the same oriented triangles. Every revolute joint makes one new hinge with its name, nothing else is added, and the bodies, hinges, forces, materials and parameters the engine had before are unchanged. Refuted: the attribute scale of a mesh and the products of inertia ixy, ixz, iyz have an effect.","all documents, engines, mesh contents, eigenvectors and distance functions",INF,[SC+"read_urdf.py:read_urdf",SC+"read_urdf.py:URDF"])
p("C149","a robot is assembled as its URDF document says","After read_urdf the root (the last body that is no child of a revolute joint) is placed by its inertial frame, every body that is reached from it by revolute joints by the root's inertial frame, followed by the joint frames along the path, followed by its own inertial frame, and every other body is at the origin. So the links are where the document puts them, up to one common motion, exactly if the root's inertial frame is its link frame (refuted in general). Reading ends after at most as many rounds as there are links when every link has at most one parent, it succeeds for every document whose names are new, whose meshes are proper solids, whose axes are not zero and that has a root, and never succeeds when the root leads into a loop of joints.","all documents, engines, trees of joints of any depth",INF,[SC+"read_urdf.py:read_urdf",SC+"read_urdf.py:URDF"])
p("C150","the hinges of a robot are closed","After read_urdf every revolute joint whose parent is reached from the root is a hinge between the parent and the child named in the document, both anchors of which are at the origin of the joint frame and both axes of which are the normalised joint axis turned into the world by the frame of the joint; an axis of length zero is never accepted.","all documents in which every link has at most one parent, all engines",INF,[SC+"read_urdf.py:read_urdf"])
p("C151","a scene file says what the scene is","write_xml raises when a body has no shape or a hinge has not been attached. Otherwise it writes a well-formed XML file which can be read in exactly one way: its root is a scene with the bodies, forces, shapes, interactions, hinges and parameters of the engine, each with its values as printed, in the order of the engine; names are read as they were, whatever characters they have. Refuted for interactions of materials whose names have special characters: with one the file is no XML, with another the call raises.","all engines reached through the API, names, materials, printed forms of numbers",HIST,[SC+"write_xml.py:write_xml"])
p("C152","a scene file determines the scene","Two engines have the same scene file exactly when they have the same bodies (pose, motion, mass, material, names of shape and forces), forces, shapes, interactions, parameters and hinges (links, anchor and axis on the parent in the world). Refuted in general, because numbers are printed with a fixed number of digits; proved for all numbers that are printed without loss.","all pairs of engines reached through the API, names, numbers",HIST,[SC+"write_xml.py:write_xml"])
p("C153","a hinge is written in world coordinates","If a hinge has just been attached with set_hinge in any mode, the scene file has an element for it that names its parent and its child, has mode world, and gives the point that was asked for, seen from the world, and the direction that was asked for, seen from the world and of length 1.","all engines reached through the API, hinges, modes, origins, axes",HIST,[SC+"write_xml.py:write_xml",R+"api.py:set_hinge"])
p("C154","solids of revolution have the volume and the axis of the solid they stand for","The mesh of a profile that starts and ends on the axis, swept in n slices, has as volume the sum over the profile of the frusta over regular n-gons; its centre of mass is on the axis, at the height given by the sum of the moments of the frusta; its products of inertia with respect to the axis vanish and its two moments across the axis agree; the second moment along the axis and the two across it are the sums of those of the frusta. So a cylinder, cone or conical of n slices has n sin(2 pi/n)/2 times the square of the radius where the round solid has pi, which is less than the round solid for every n.","all profiles of any length, numbers of slices from 3, radii, heights",INF,[G+"surface_mesh.py:profile_sweep",G+"surface_mesh.py:create_cylinder",G+"surface_mesh.py:create_cone",G+"surface_mesh.py:create_conical"])
p("C155","a pillar is a stack of stones from the ground to its height","create_pillar with at least one stone succeeds and adds exactly one body for the socle, the abacus, the base, the echinus and each stone of the column, at rest, free, with the mass of their volume, standing on the axis of the pillar one on top of the other without gaps from its base to its height: the radius of the column decreases linearly and each stone has at its top the radius of the next one at its bottom. Two different parts share at most points in a horizontal joint. If its parts are not too small, the engine can be simulated for any time afterwards. With no stones it raises.","all engines reached through the API, poses, sizes, numbers of stones of any size, densities, materials",HIST,[SC+"create_pillar.py:create_pillar"])
p("C156","a sandbox is a closed box under a lattice of grains","create_sandbox adds exactly I J K free grains at rest, in a lattice above the box, each with one of the shapes in turn, and five fixed boxes: the left, right, front and back wall and the floor, of thickness a tenth of the height of the box. The five fill exactly the block of the outer size without the inner space of the given width, height and depth, which is open above; two of them share at most points of the inner faces of the floor and of the front and back wall. All names are new and different, everything else in the engine is unchanged and the sandbox can be simulated. Without grains it raises.","all engines reached through the API, sizes of the box, numbers of grains, shapes, rotations of the grains, densities, materials",HIST,[SC+"create_sandbox.py:create_sandbox"])
p("C157","poles stand apart under a lattice of objects","create_poles adds exactly I J K free objects at rest in a lattice that starts at twice the height of the poles, each with one of the shapes in turn and, if not random, not rotated, and one fixed pole for each point of the grid of poles, with the mass of their volume: upright cylinders of the given radius from the ground to the given height, whose axes are at the radius from the corner of the lattice and then every width/I and depth/K. A pole has no point farther than its radius from its axis; two poles have no common point when their spacing is more than a diameter. All names are new and different, everything else in the engine is unchanged and the scene can be simulated. Without objects or poles it raises.","all engines reached through the API, sizes, numbers of poles and objects, shapes, rotations, densities, materials",HIST,[SC+"create_poles.py:create_poles"])
p("C158","a mesh is fitted to the size that is asked for","In the scenes that fill a lattice with meshes, a mesh is scaled by one and the same positive factor in all directions so that the largest side of its bounding box is 0.9 (for poles 1) times the smallest side of a cell: no side of its box is longer than that part of the same side of a cell. The glass and the funnel get exactly the given diameter and height. Fitting fails only for a mesh without points or of extent zero (for glass and funnel: flat along an axis) and for no cells. An object that is rotated, as with random orientations, therefore always fits its cell.","all meshes, sizes of the lattice, numbers of cells, factors, diameters and heights",INF,[SC+"create_sandbox.py:create_sandbox",SC+"create_glasses.py:create_glasses",SC+"create_funnel.py:create_funnel",SC+"create_jack_lattice.py:create_jack_lattice",SC+"create_rock_slide.py:create_rock_slide",SC+"create_poles.py:create_poles"])
p("C159","a lattice of jacks is all or nothing","create_jack_lattice either raises and leaves the engine as it was or adds exactly one shape and I J K free bodies at rest that all have this shape: in its own frame the shape is no larger than 0.9 times a cell, and its largest side is 0.9 times the smallest side of a cell. The body i, j, k is at the centre of its cell, moved and rotated by r and q, with the rotation of the lattice (times the random one, if asked for) and the mass of the shape times the density. All names are new and different, everything else in the engine is unchanged.","all meshes in the file, engines reached through the API, positions and rotations, sizes, numbers of cells, densities, materials",HIST,[SC+"create_jack_lattice.py:create_jack_lattice"])
