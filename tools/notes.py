NOTES['C11']=('partial','Everything but the last clause is proved for all unit quaternions; the last clause (b=-a) is false of the code and refuted: slerp(a,-a,1/2) normalises the zero quaternion and returns the identity.')
NOTES['C12']=('partial','exp and reparameterization proved; log proved to invert exp for |v|<pi and to be inverted by exp when the scalar part is non-zero; "log inverts every unit quaternion" is false: half turns (scalar part 0) map to the zero vector and log(identity) divides by zero.')
NOTES['C13']=('partial','dQdv_i proved everywhere outside the Taylor region; dRdv_i proved for |v|<pi and refuted for pi<|v|<2pi, where the code returns the negated derivative (exp reparameterises, dQdv_i does not).')
NOTES['C68']=('partial','False of the code: the sign of the first printed term is dropped, so x and -x print identically (refuted for every number rendering).')
NOTES['C26']=('partial','False of the code: get_gradient divides by min_coord where it must divide by the spacing (refuted; undefined when a component of min_coord is 0). Proved instead: the exact displaced point at which it evaluates the gradient, and exactness when min_coord equals the spacing or the samples come from an affine function.')
NOTES['C32']=('partial','generate_sample_points fully proved. The claim about generate_interior_sample_points is false: it keeps exactly the points with one zero weight (on the surface) and drops the strictly interior ones (both proved for all N).')
NOTES['C35']=('partial','8 children per tetrahedron, one midpoint vertex per unordered edge, old vertices kept, valid indices, absolute volumes conserved: all proved. The signed-volume clause is false: the child [ij,ik,im,i] is inverted, so the signed volumes sum to 3/4 of the input (proved for all meshes) and the claim is refuted.')
NOTES['C39']=('partial','The returned list is characterised exactly for every history; nothing inserted earlier at the same stamp is missing. Two clauses are false of the code and refuted: a newer time stamp returns the stale objects of the previous one (the list is taken before the lazy clear), and the second object inserted in a cell gets itself back through the alias.')
NOTES['C73']=('partial','Completeness proved for every hash, cell size, and earlier history; soundness proved for a fresh grid and refuted for later steps (stale objects are tested with their old boxes).')
NOTES['C74']=('partial','False of the code: refuted in both directions (crossing triangles missed, disjoint triangles reported, triangles skipped because some scalar coordinate coincides). Proved: a reported pair has no common vertex, overlapping boxes, and edge v1v2 meets the plane of the other triangle.')
NOTES['C41']=('proved','The expansion loop is in fact never entered: the first bracket always suffices (proved), so it terminates for every expansion factor.')
NOTES['C42']=('partial','Proved for Gauss-Seidel, parallel Gauss-Seidel (any colouring, any schedule), hybrid Jacobi and the rigid contact problem. False for plain parallel Jacobi: refuted by a run of the modelled solver (friction is bounded by the previous normal force); only non-negativity of normal forces is proved for it.')
NOTES['C47']=('partial','False of the code: refuted on a chain of three contacts (the deltas of blocks with an index above the group\'s first are not added to w). Proved when no coupled earlier block has such an index, e.g. for mutually adjacent contacts.')
NOTES['C48']=('proved','Termination, step sizes and their sum for time_step > 0; for time_step <= 0 no number of iterations returns (the loop runs until a step raises).')
NOTES['C64']=('partial','Kinetic energy and its sign proved. "Counts the gravity forces acting on it" is false: every gravity force of the engine is counted for every free body, attached or not (proved; refuted on a body without forces).')
NOTES['C76']=('proved','Ready is spelled out in ReadySpec.v (engine_ready); it is shown to be met by a concrete engine and preserved by every step.')
NOTES['C78']=('partial','False of the code: the error vector is (child - parent) while the Jacobian is (parent - child), so exact solutions enlarge the gap by the factor 1 + gap_reduction (proved for all engines; refuted on a concrete one).')
NOTES['C79']=('partial','False of the code: candidate points must be at least 0.5 inside the other body\'s grid box (default boundary of is_inside), so bodies with a grid narrower than 1 never get contacts (proved for all engines; refuted by two coincident tetrahedra).')
NOTES['C61']=('proved','Exact reals; np.linalg/float rounding not modelled. The specification sums signed tetrahedra; C61_tetrahedron shows their formulas are the iterated integrals (Coquelicot RInt). C61_moved: origin independence.')
NOTES['C62']=('proved','For every finite distribution of point masses.')
NOTES['C80']=('proved','np.linalg.eig is a parameter: C80_body_frame assumes that it returned an orthonormal eigenbasis for this matrix, C80_distinct_eigenvalues derives that from its documented contract when the eigenvalues differ. For repeated eigenvalues the code relies on more than np.linalg.eig promises (eigh would).')
NOTES['C81']=('proved','Same assumption on np.linalg.eig as C80; hypothesis all_counted excludes meshes on which a 1e-10 clamp fires.')
NOTES['C82']=('partial','Refuted: the clamp turns any mass up to 1e-10 into 0 (a tetrahedron of edge 1e-4).')
NOTES['C56']=('proved','Histories are sequences of API calls (succeeding or raising), parameter changes and simulation steps (reach in ApiSpec.v). Two shapes made from one mesh object are not modelled (each shape owns its vertices).')
NOTES['C57']=('proved','The friction array is stored by value in the model; the code keeps a reference to the caller\'s list.')
NOTES['C58']=('proved','np.linalg.eig is a parameter whose result is assumed to be an orthonormal basis only where a unit shape orientation is needed.')
NOTES['C59']=('proved','')
NOTES['C83']=('partial','Refuted: connect_shape assigns body.shape before building the BVH, which raises for chunk size 0. Proved for all other calls, and for connect_shape with a chunk size of at least 1 (C83_raised_partial, C83_connect_shape_partial).')
NOTES['C84']=('proved','The grid corner condition is needed by the code (division by the lower corner\'s coordinates when contact points are clamped); np.linalg.eig is assumed to return an orthonormal basis.')
NOTES['C85']=('partial','Proved with transform_to_body_frame=True; refuted with False: the shape still gets the mass frame (r,q) although the vertices were left in the model frame.')
NOTES['C86']=('partial','False of the code: vertices are moved in place, even if create_shape then raises (refuted).')
NOTES['C87']=('proved','Histories of create_root/add_bone/set_angle/set_joint_angles/update_skeleton (built in IkSpec.v).')
NOTES['C90']=('partial','Everything is proved but the last clause, which is false: a too short array makes set_joint_angles raise after the first bones have been changed (refuted).')
NOTES['C93']=('partial','False of the code: refuted (wrong values and a non-symmetric matrix). Proved: which entries are exact, exactness when all end effectors are at their goals, and what the other entries are (the second derivative with the order of the two rotation axes exchanged).')
NOTES['C94']=('proved','The Hessian limit is the mixed second derivative (Coquelicot is used in the proof, not in the statement).')
NOTES['C95']=('partial','False of the code: the joint angles are restored, but the world poses are left at the last angle minus h (proved for all skeletons; refuted).')
NOTES['C96']=('partial','Proved for 0 < E, -1 < nu < 1/2. The last clause is false: set_elasticity accepts nu = 1/2, on which first_lame divides by zero (refuted).')
NOTES['C97']=('proved','')
NOTES['C98']=('partial','False of the code: energy_density uses np.log2 where the stress is the derivative of the energy with the natural logarithm (refuted; rest state not stationary either). C98_gradient_partial: the stress is the gradient of the energy with ln. Objectivity, symmetry, rest are proved.')
NOTES['C99']=('partial','False of the code: both functions always raise, since polar_decomposition_array only takes stacks of matrices (refuted). C99_formula_partial: the formulas themselves are stress-free at rotations and give a symmetric Kirchhoff stress.')
NOTES['C100']=('partial','The factorisation is proved (np.linalg.eigh is a parameter assumed correct on A^T A). "R is a rotation" is false for det A < 0 (refuted), proved for det A > 0.')
NOTES['C106']=('partial','Proved for every constitutive model whose stress is the gradient of its energy (C106_gradient), so for StVK (C106_svk); false for the neo-Hookean model because of np.log2 (refuted); the co-rotational model always raises (C99).')
NOTES['C108']=('partial','False of the code: half the load arrives (the reference-triangle matrix must be scaled by 2A, the code scales by A; refuted). Proved: support, equal share, total = half the load.')
NOTES['C109']=('partial','The kinetic energy is only a lower bound of (1/2) u^T M u (equal for translations; refuted in general), because it samples the mid-point of every element. The potential energy part is proved.')
NOTES['C112']=('proved','Collision detection and the contact solver are parameters; conservation needs contacts whose weights sum to the same number (momentum) and whose two points coincide (angular momentum).')
NOTES['C115']=('proved','C115_step_succeeds and C115_step_requires; collision detection itself is a parameter.')
NOTES['C116']=('partial','False for create_soft_body: a failing call leaves a half-made body behind, after which no simulate can return any more (C116_create_refuted), and set_material of such a body. C116_atomic: all other calls.')
NOTES['C117']=('partial','False of the code: pre-stabilisation always raises when there is a contact, post-stabilisation raises when a contact is deeper than min_gap (both refuted). C117_post_partial: no effect otherwise.')
NOTES['C119']=('partial','Proved for StVK and neo-Hookean bodies whose density and viscosity were not changed since set_material. After set_mass_density or set_viscosity the body keeps the old mass and damping (refuted: falls with 2 g; no drag).')
NOTES['C120']=('partial','False of the code: the flag is never read by the stepper (C120_no_effect: a step does the same with and without it; refuted).')
NOTES['C122']=('partial','All but the last clause. There is no default: a contact of a pair without interaction makes the step raise (refuted).')
NOTES['C124']=('partial','False of the code: the stepper keeps the inverse mass matrix of the first simulate, so every later step raises (refuted). C124_partial: calls other than create_soft_body.')
NOTES['C125']=('partial','False: the default co-rotational material and Poisson ratio 1/2 make every step raise (refuted). C125_partial: StVK and neo-Hookean with 0 <= nu < 1/2 have a stress for every F.')
NOTES['C126']=('partial','Fixed points of all four schemes are exactly the solutions of the contact law in which the sliding velocity is weighted by the r-factors (C126_stationary); with equal r-factors this is Coulomb\'s law (C126_coulomb_partial). With the r-factors the solvers start from it is not (C126_coulomb_refuted: friction is not opposed to sliding). C126_stopped: exit code 1 of the rigid solver means the law holds up to tolerance * (1/r + row sum).')
NOTES['C127']=('proved','C127_residual holds for any solver; C127_contact_law for converged multipliers; C127_stopped for the solver of the engine at its absolute tolerance.')
NOTES['C128']=('proved','Kinetic energy is measured at the pose before the step (the velocities change, then the positions move).')
NOTES['C129']=('partial','Proved without contacts (C129_hinges_partial). With contacts it is false of the code: contact and joint problems are solved independently of each other, so a contact impulse tears an intact joint apart even if both are solved exactly (C129_refuted).')
NOTES['C130']=('proved','The margin 1/2 inside the grid is the code\'s (see C79).')
NOTES['C131']=('proved','Separation is measured to first order at the contact point, with the pose in which the contacts were found.')
NOTES['C132']=('proved','C132_in_own_tetrahedron: for engines reached through the API. C112_with_detection: momentum with the real detection. C134_nonvacuous: such an engine with a contact, in both modes.')
NOTES['C133']=('partial','Proved for tetrahedra that are only translated (C133_normal_translation_partial). False otherwise: the code multiplies the edge vectors as rows with the solution, so a turned body gets a wrong normal; after a quarter turn the normal is the opposite of the correct one (C133_normal_refuted).')
NOTES['C134']=('partial','With bounding volume hierarchies proved in full (C134_total, C134_bvh_detected). With spatial hashing proved for triangles with a common point (C134_hash_total, C134_hash_detected); the envelope is ignored there (C134_envelope_refuted: of two bodies 1/20 apart with envelope 1/10 the hash grid reports nothing).')
NOTES['C135']=('proved','')

NOTES['C136']=('proved','The value is the sum of the principal curvatures (twice their mean). Where the gradient is shorter than 1/2 the code does not divide by its length (C136_small_gradient says what is stored then). A field without values raises (C136_no_values).')

NOTES['C137']=('partial','create_mesh keeps the mesh (C137_create_mesh). The axis is not the direction of most variance: the code takes a row of the matrix of eigenvectors instead of a column (C137_axis_refuted: an axis along which the points do not vary at all); it is when that matrix is symmetric (C137_axis_partial).')
NOTES['C138']=('proved','For 0 < w, h, d, distance-grid resolution at least 2, and unique names; np.linalg.eig is assumed to give an orthonormal eigenbasis of diagonal matrices only. Masses below 1e-10 are clamped by the code (pos_up_to_clamp). Simulating needs a non-zero density and a box whose mass and moments exceed the clamp.')
NOTES['C139']=('proved','As C138.')
NOTES['C140']=('proved','As C138; the names of the new hinges are assumed to be new.')
NOTES['C141']=('proved','Smaller than the cells: every vertex is at distance at most rho from the origin of its shape, with 2 rho less than each edge of a cell. I, J, K are at least 1 (0 divides by zero).')
NOTES['C142']=('proved','For 0 < inner < outer, 0 < height, at least one layer, at least 3 segments, a unit q; no overlap for every safety factor below 1 (the code uses one below 1). np.linalg.eig as in C138.')
NOTES['C143']=('proved','Numbers: an optional minus, digits, an optional fraction and signed exponent, every digit string "0" or without a leading zero (see C145 for the others). Strings are lists of ASCII codes; np.random is a parameter; rounding to float64 is left out.')
NOTES['C144']=('proved','As C143.')
NOTES['C145']=('partial','Refuted for every list that contains such a numeral. C143 and C144 are the part that holds.')
NOTES['C146']=('proved','The stones must be large enough for the library not to round their volume and centre of mass to zero (1e-10); np.linalg.eig as in C138. Radii are those of the corners: the inner face of a wedge is a chord, so its points are between 3/10 width cos(pi / (2 arch_stones)) and width/2 from the centre.')
NOTES['C147']=('proved','At least 3 arches (with 1 or 2 the width of an arch is not defined: tan(pi/arches)). Sizes large enough as in C146 and C142; 0.1 and 0.9 are the reals 1/10 and 9/10.')
NOTES['C148']=('partial','The document is the tree of tags with the numbers float() makes of the attributes; meshes with indices in range. The two claims about scale and products of inertia are refuted (the reader gives the same result without these attributes).')
NOTES['C149']=('partial','Where the bodies end up is proved, and equivalent to the documented assembly exactly when the inertial frame of the root is the identity; the general claim is refuted with two boxes. np.linalg.eig as in C138 for the documents that are read (C149_reads).')
NOTES['C150']=('proved','Every link has at most one parent (otherwise reading may not end, see C149). The world frame is the one of C149.')
NOTES['C151']=('partial','Proved for printable ASCII materials without & < apostrophe, quotation mark and backslash, and for all other names without restriction; the two remaining claims are refuted by the materials "a<" and "&". np.array2string and str of a number are parameters of the model; names are lists of code points.')
NOTES['C152']=('partial','Same scene implies same file without restriction (C152_same_file); the converse for numbers that are printed without loss and plain materials. Refuted: whenever two vectors are printed alike, two different scenes have the same file.')
NOTES['C153']=('proved','Plain materials (see C151). The mode body and model are the interpretations of set_hinge in C59.')
NOTES['C154']=('proved','Number of slices at least 3; the profile lies in the half plane z=0, x>=0 and starts and ends on the axis. Volume and moments are the integrals over the tetrahedra of MassSpec.')
NOTES['C155']=('proved','np.linalg.eig as in C138, new names as in C142. A negative number of stones gives a pillar without column (C155_pillar with length column = 0). C155_simulates needs parts whose masses, centres and moments are above the clamp 1e-10 (big_pillar) and a material density other than zero.')
NOTES['C156']=('proved','The shapes of the grains (random convex hulls, lines 38-52) are parameters: any list of shapes in the engine. Q.rand is any function. np.linalg.eig as in C138. C156_simulates needs walls above the clamp 1e-10 (big_sandbox), shapes with mass and moments other than zero and a density other than zero.')
NOTES['C157']=('proved','The shapes of the objects (meshes read from files, lines 56-74) are parameters: any list of shapes in the engine. Q.rand is any function, np.linalg.eig as in C138. C157_simulates needs poles above the clamp 1e-10 (big_pole), shapes with mass and moments other than zero and a density other than zero.')
NOTES['C158']=('partial','The last claim is false: C158_turned_refuted gives a cube in a unit cell with factor 0.9 and a unit quaternion for which the rotated box is wider than the cell (the comment "ensure some padding to avoid initial contact" does not hold with random orientations). Everything else is proved. Division by zero is failure (None).')
NOTES['C159']=('proved','What the file contains is a parameter. np.linalg.eigh is assumed correct for the inertia of the fitted mesh (eig_good, as for create_shape). With an unknown material all-or-nothing does not hold (the lattice is built before set_body_material raises), hence the hypothesis exist_material.')
