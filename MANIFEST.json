{
 "claims": [
  {
   "property": "C01",
   "status": "proved",
   "theorems": [
    "C01_to_matrix_is_rotation",
    "C01_to_matrix_scale_invariant"
   ],
   "note": ""
  },
  {
   "property": "C02",
   "status": "proved",
   "theorems": [
    "C02_rotate_is_to_matrix",
    "C02_rotate_preserves",
    "C02_rotate_nonunit_scales"
   ],
   "note": ""
  },
  {
   "property": "C03",
   "status": "proved",
   "theorems": [
    "C03_from_matrix_correct",
    "C03_from_to_matrix"
   ],
   "note": ""
  },
  {
   "property": "C04",
   "status": "proved",
   "theorems": [
    "C04_product_algebra",
    "C04_hamilton"
   ],
   "note": ""
  },
  {
   "property": "C05",
   "status": "proved",
   "theorems": [
    "C05_rotate_array"
   ],
   "note": ""
  },
  {
   "property": "C06",
   "status": "proved",
   "theorems": [
    "C06_coordsys",
    "C06_xform_meaning"
   ],
   "note": ""
  },
  {
   "property": "C07",
   "status": "proved",
   "theorems": [
    "C07_orthonormal_frame"
   ],
   "note": ""
  },
  {
   "property": "C08",
   "status": "proved",
   "theorems": [
    "C08_less_lexicographic",
    "C08_strict_total_order",
    "C08_exactly_one",
    "C08_max_abs_component"
   ],
   "note": ""
  },
  {
   "property": "C09",
   "status": "proved",
   "theorems": [
    "C09_axis_rotation",
    "C09_coordinate_axes",
    "C09_angles_add"
   ],
   "note": ""
  },
  {
   "property": "C10",
   "status": "proved",
   "theorems": [
    "C10_euler_from_matrix",
    "C10_euler_from_quaternion"
   ],
   "note": ""
  },
  {
   "property": "C11",
   "status": "partial",
   "theorems": [
    "C11_slerp",
    "C11_slerp_angle",
    "C11_same_rotation_refuted"
   ],
   "note": "Everything but the last clause is proved for all unit quaternions; the last clause (b=-a) is false of the code and refuted: slerp(a,-a,1/2) normalises the zero quaternion and returns the identity."
  },
  {
   "property": "C12",
   "status": "partial",
   "theorems": [
    "C12_exp_is_rotation",
    "C12_reparameterization",
    "C12_exp_taylor_error",
    "C12_log_exp",
    "C12_exp_log_partial",
    "C12_log_half_turn_refuted",
    "C12_log_identity_refuted"
   ],
   "note": "exp and reparameterization proved; log proved to invert exp for |v|<pi and to be inverted by exp when the scalar part is non-zero; \"log inverts every unit quaternion\" is false: half turns (scalar part 0) map to the zero vector and log(identity) divides by zero."
  },
  {
   "property": "C13",
   "status": "partial",
   "theorems": [
    "C13_dQdv",
    "C13_dRdv_partial",
    "C13_dRdv_sign_refuted",
    "C13_dRdv_refuted"
   ],
   "note": "dQdv_i proved everywhere outside the Taylor region; dRdv_i proved for |v|<pi and refuted for pi<|v|<2pi, where the code returns the negated derivative (exp reparameterises, dQdv_i does not)."
  },
  {
   "property": "C14",
   "status": "proved",
   "theorems": [
    "C14_monomial_powers_complete",
    "C14_powers_total",
    "C14_evaluate_is_the_polynomial"
   ],
   "note": ""
  },
  {
   "property": "C15",
   "status": "proved",
   "theorems": [
    "C15_derivative",
    "C15_interpolate_reproduces_data"
   ],
   "note": ""
  },
  {
   "property": "C16",
   "status": "proved",
   "theorems": [
    "C16_pop_some",
    "C16_pop_none",
    "C16_bool",
    "C16_pop_terminates"
   ],
   "note": ""
  },
  {
   "property": "C17",
   "status": "proved",
   "theorems": [
    "C17_elapsed_total",
    "C17_end_raises_iff_not_pending"
   ],
   "note": ""
  },
  {
   "property": "C18",
   "status": "proved",
   "theorems": [
    "C18_create_tight",
    "C18_create_total",
    "C18_overlap_exact",
    "C18_no_overlap_no_common_point"
   ],
   "note": ""
  },
  {
   "property": "C19",
   "status": "proved",
   "theorems": [
    "C19_make_tight",
    "C19_make_supported",
    "C19_union_least",
    "C19_overlap",
    "C19_overlap_slabs_share_a_number",
    "C19_make_encloses_hull"
   ],
   "note": ""
  },
  {
   "property": "C20",
   "status": "proved",
   "theorems": [
    "C20_make_bvh_shape",
    "C20_each_element_in_exactly_one_leaf",
    "C20_indices_in_range",
    "C20_height"
   ],
   "note": ""
  },
  {
   "property": "C21",
   "status": "proved",
   "theorems": [
    "C21_refit_bounds",
    "C21_refit_succeeds"
   ],
   "note": ""
  },
  {
   "property": "C22",
   "status": "proved",
   "theorems": [
    "C22_close_reported",
    "C22_traversal_exact",
    "C22_common_point_reported"
   ],
   "note": ""
  },
  {
   "property": "C23",
   "status": "proved",
   "theorems": [
    "C23_linear_index_bijection",
    "C23_node_coords",
    "C23_eval_on_grid",
    "C23_nodes_array",
    "C23_constructor_rejects"
   ],
   "note": ""
  },
  {
   "property": "C24",
   "status": "proved",
   "theorems": [
    "C24_enclosing_cell",
    "C24_closest_cell"
   ],
   "note": ""
  },
  {
   "property": "C25",
   "status": "proved",
   "theorems": [
    "C25_total",
    "C25_node_value",
    "C25_trilinear_exact",
    "C25_between_corners",
    "C25_continuous"
   ],
   "note": ""
  },
  {
   "property": "C26",
   "status": "partial",
   "theorems": [
    "C26_gradient_refuted",
    "C26_zero_min_refuted",
    "C26_displaced_gradient_partial",
    "C26_spacing_partial",
    "C26_affine_partial"
   ],
   "note": "False of the code: get_gradient divides by min_coord where it must divide by the spacing (refuted; undefined when a component of min_coord is 0). Proved instead: the exact displaced point at which it evaluates the gradient, and exactness when min_coord equals the spacing or the samples come from an affine function."
  },
  {
   "property": "C27",
   "status": "proved",
   "theorems": [
    "C27_is_inside",
    "C27_antitone"
   ],
   "note": ""
  },
  {
   "property": "C28",
   "status": "proved",
   "theorems": [
    "C28_edge",
    "C28_edge_degenerate",
    "C28_edge_inside"
   ],
   "note": ""
  },
  {
   "property": "C29",
   "status": "proved",
   "theorems": [
    "C29_triangle",
    "C29_tetrahedron",
    "C29_is_inside",
    "C29_inside_tetrahedron_hull"
   ],
   "note": ""
  },
  {
   "property": "C30",
   "status": "proved",
   "theorems": [
    "C30_gradients",
    "C30_rejects"
   ],
   "note": ""
  },
  {
   "property": "C31",
   "status": "proved",
   "theorems": [
    "C31_circumscribed",
    "C31_circumscribed_exists",
    "C31_inscribed",
    "C31_inscribed_exists"
   ],
   "note": ""
  },
  {
   "property": "C32",
   "status": "partial",
   "theorems": [
    "C32_sample_points",
    "C32_sample_weights",
    "C32_interior_all_on_surface_refuted",
    "C32_interior_dropped_refuted",
    "C32_interior_partial"
   ],
   "note": "generate_sample_points fully proved. The claim about generate_interior_sample_points is false: it keeps exactly the points with one zero weight (on the surface) and drops the strictly interior ones (both proved for all N)."
  },
  {
   "property": "C33",
   "status": "proved",
   "theorems": [
    "C33_count",
    "C33_valid_indices",
    "C33_beam",
    "C33_from_grid"
   ],
   "note": ""
  },
  {
   "property": "C34",
   "status": "proved",
   "theorems": [
    "C34_boundary_marks",
    "C34_neighbors",
    "C34_symmetric",
    "C34_surface",
    "C34_surface_outward"
   ],
   "note": ""
  },
  {
   "property": "C35",
   "status": "partial",
   "theorems": [
    "C35_subdivision_partial",
    "C35_volume_refuted",
    "C35_volume_sums_partial"
   ],
   "note": "8 children per tetrahedron, one midpoint vertex per unordered edge, old vertices kept, valid indices, absolute volumes conserved: all proved. The signed-volume clause is false: the child [ij,ik,im,i] is inverted, so the signed volumes sum to 3/4 of the input (proved for all meshes) and the claim is refuted."
  },
  {
   "property": "C36",
   "status": "proved",
   "theorems": [
    "C36_circulator",
    "C36_circulator_once"
   ],
   "note": ""
  },
  {
   "property": "C37",
   "status": "proved",
   "theorems": [
    "C37_profile_sweep",
    "C37_swept_shapes",
    "C37_swept_total",
    "C37_torus",
    "C37_box_cuboid"
   ],
   "note": ""
  },
  {
   "property": "C38",
   "status": "proved",
   "theorems": [
    "C38_axis_sort"
   ],
   "note": ""
  },
  {
   "property": "C39",
   "status": "partial",
   "theorems": [
    "C39_insert_returns_partial",
    "C39_complete",
    "C39_stale_refuted",
    "C39_self_refuted",
    "C39_hash_range",
    "C39_hash_collisions",
    "C39_cell_size"
   ],
   "note": "The returned list is characterised exactly for every history; nothing inserted earlier at the same stamp is missing. Two clauses are false of the code and refuted: a newer time stamp returns the stale objects of the previous one (the list is taken before the lazy clear), and the second object inserted in a cell gets itself back through the alias."
  },
  {
   "property": "C40",
   "status": "proved",
   "theorems": [
    "C40_closest",
    "C40_idempotent",
    "C40_nonexpansive",
    "C40_unchanged_iff"
   ],
   "note": ""
  },
  {
   "property": "C41",
   "status": "proved",
   "theorems": [
    "C41_separating",
    "C41_frictionless",
    "C41_isotropic",
    "C41_mixed_zero_raises",
    "C41_prox_ellipsoid",
    "C41_point_error"
   ],
   "note": "The expansion loop is in fact never entered: the first bracket always suffices (proved), so it terminates for every expansion factor."
  },
  {
   "property": "C42",
   "status": "partial",
   "theorems": [
    "C42_gauss_seidel",
    "C42_parallel_gauss_seidel",
    "C42_hybrid_jacobi",
    "C42_rigid",
    "C42_jacobi_refuted",
    "C42_jacobi_normal_partial"
   ],
   "note": "Proved for Gauss-Seidel, parallel Gauss-Seidel (any colouring, any schedule), hybrid Jacobi and the rigid contact problem. False for plain parallel Jacobi: refuted by a run of the modelled solver (friction is bounded by the previous normal force); only non-negativity of normal forces is proved for it."
  },
  {
   "property": "C43",
   "status": "proved",
   "theorems": [
    "C43_control",
    "C43_r_positive",
    "C43_initial_r",
    "C43_rigid",
    "C43_rigid_solution",
    "C43_returns",
    "C43_no_contacts_raises"
   ],
   "note": ""
  },
  {
   "property": "C44",
   "status": "proved",
   "theorems": [
    "C44_gauss_seidel_sweep",
    "C44_w_invariant"
   ],
   "note": ""
  },
  {
   "property": "C45",
   "status": "proved",
   "theorems": [
    "C45_rigid_graph",
    "C45_soft_graph",
    "C45_groups",
    "C45_any_order"
   ],
   "note": ""
  },
  {
   "property": "C46",
   "status": "proved",
   "theorems": [
    "C46_random_coloring"
   ],
   "note": ""
  },
  {
   "property": "C47",
   "status": "partial",
   "theorems": [
    "C47_sequential_partial",
    "C47_complete_graph",
    "C47_refuted"
   ],
   "note": "False of the code: refuted on a chain of three contacts (the deltas of blocks with an index above the group's first are not added to w). Proved when no coupled earlier block has such an index, e.g. for mutually adjacent contacts."
  },
  {
   "property": "C48",
   "status": "proved",
   "theorems": [
    "C48_rejects",
    "C48_simulate",
    "C48_nonpositive_step"
   ],
   "note": "Termination, step sizes and their sum for time_step > 0; for time_step <= 0 no number of iterations returns (the loop runs until a step raises)."
  },
  {
   "property": "C49",
   "status": "proved",
   "theorems": [
    "C49_fixed_step",
    "C49_fixed_steps",
    "C49_fixed_simulate"
   ],
   "note": ""
  },
  {
   "property": "C50",
   "status": "proved",
   "theorems": [
    "C50_unit_step",
    "C50_unit_steps",
    "C50_rotation"
   ],
   "note": ""
  },
  {
   "property": "C51",
   "status": "proved",
   "theorems": [
    "C51_contacts",
    "C51_hinges",
    "C51_step_linear",
    "C51_step_angular"
   ],
   "note": ""
  },
  {
   "property": "C52",
   "status": "proved",
   "theorems": [
    "C52_contacts",
    "C52_hinges",
    "C52_hinge_axis"
   ],
   "note": ""
  },
  {
   "property": "C53",
   "status": "proved",
   "theorems": [
    "C53_first_of_each",
    "C53_no_duplicates"
   ],
   "note": ""
  },
  {
   "property": "C54",
   "status": "proved",
   "theorems": [
    "C54_stays_on_triangle",
    "C54_start"
   ],
   "note": ""
  },
  {
   "property": "C55",
   "status": "proved",
   "theorems": [
    "C55_round_trip",
    "C55_slots",
    "C55_write"
   ],
   "note": ""
  },
  {
   "property": "C56",
   "status": "proved",
   "theorems": [
    "C56_well_formed",
    "C56_create_body",
    "C56_create_hinge",
    "C56_create_force",
    "C56_setters",
    "C56_set_type",
    "C56_getters",
    "C56_force_once"
   ],
   "note": "Histories are sequences of API calls (succeeding or raising), parameter changes and simulation steps (reach in ApiSpec.v). Two shapes made from one mesh object are not modelled (each shape owns its vertices)."
  },
  {
   "property": "C57",
   "status": "proved",
   "theorems": [
    "C57_symmetric",
    "C57_created",
    "C57_others",
    "C57_step",
    "C57_default",
    "C57_nonnegative",
    "C57_material",
    "C57_rejects"
   ],
   "note": "The friction array is stored by value in the model; the code keeps a reference to the caller's list."
  },
  {
   "property": "C58",
   "status": "proved",
   "theorems": [
    "C58_set_position",
    "C58_set_orientation"
   ],
   "note": "np.linalg.eig is a parameter whose result is assumed to be an orthonormal basis only where a unit shape orientation is needed."
  },
  {
   "property": "C59",
   "status": "proved",
   "theorems": [
    "C59_set_hinge",
    "C59_when"
   ],
   "note": ""
  },
  {
   "property": "C60",
   "status": "proved",
   "theorems": [
    "C60_tensor",
    "C60_positive",
    "C60_inverse"
   ],
   "note": ""
  },
  {
   "property": "C61",
   "status": "proved",
   "theorems": [
    "C61_closed",
    "C61_tetrahedron",
    "C61_moved"
   ],
   "note": "Exact reals; np.linalg/float rounding not modelled. The specification sums signed tetrahedra; C61_tetrahedron shows their formulas are the iterated integrals (Coquelicot RInt). C61_moved: origin independence."
  },
  {
   "property": "C62",
   "status": "proved",
   "theorems": [
    "C62_parallel_axis"
   ],
   "note": "For every finite distribution of point masses."
  },
  {
   "property": "C63",
   "status": "proved",
   "theorems": [
    "C63_contact_error",
    "C63_error_bounded",
    "C63_post_error",
    "C63_largest_penetration",
    "C63_soft_largest_penetration"
   ],
   "note": ""
  },
  {
   "property": "C64",
   "status": "partial",
   "theorems": [
    "C64_energy",
    "C64_kinetic_nonneg",
    "C64_potential_partial",
    "C64_potential_refuted"
   ],
   "note": "Kinetic energy and its sign proved. \"Counts the gravity forces acting on it\" is false: every gravity force of the engine is counted for every free body, attached or not (proved; refuted on a body without forces)."
  },
  {
   "property": "C65",
   "status": "proved",
   "theorems": [
    "C65_dvdt_follows_omega"
   ],
   "note": ""
  },
  {
   "property": "C66",
   "status": "proved",
   "theorems": [
    "C66_ortonormalize",
    "C66_argument_overwritten"
   ],
   "note": ""
  },
  {
   "property": "C67",
   "status": "proved",
   "theorems": [
    "C67_to_angle_axis",
    "C67_to_angle"
   ],
   "note": ""
  },
  {
   "property": "C68",
   "status": "partial",
   "theorems": [
    "C68_to_str_loses_leading_sign_refuted"
   ],
   "note": "False of the code: the sign of the first printed term is dropped, so x and -x print identically (refuted for every number rendering)."
  },
  {
   "property": "C69",
   "status": "proved",
   "theorems": [
    "C69_signed_distance_grid",
    "C69_signed_distance_total"
   ],
   "note": ""
  },
  {
   "property": "C70",
   "status": "proved",
   "theorems": [
    "C70_sweep_vertices",
    "C70_sweep_layout",
    "C70_sphere",
    "C70_ellipsoid",
    "C70_cylinder",
    "C70_capsule",
    "C70_torus",
    "C70_box"
   ],
   "note": ""
  },
  {
   "property": "C71",
   "status": "proved",
   "theorems": [
    "C71_scale_to_unit",
    "C71_scale_to_unit_total"
   ],
   "note": ""
  },
  {
   "property": "C72",
   "status": "proved",
   "theorems": [
    "C72_convex_hull"
   ],
   "note": ""
  },
  {
   "property": "C73",
   "status": "partial",
   "theorems": [
    "C73_complete",
    "C73_touching_reported",
    "C73_self_complete",
    "C73_sound_partial",
    "C73_stale_refuted"
   ],
   "note": "Completeness proved for every hash, cell size, and earlier history; soundness proved for a fresh grid and refuted for later steps (stale objects are tested with their old boxes)."
  },
  {
   "property": "C74",
   "status": "partial",
   "theorems": [
    "C74_reported_partial",
    "C74_missed_refuted",
    "C74_shared_coordinate_refuted",
    "C74_false_alarm_refuted"
   ],
   "note": "False of the code: refuted in both directions (crossing triangles missed, disjoint triangles reported, triangles skipped because some scalar coordinate coincides). Proved: a reported pair has no common vertex, overlapping boxes, and edge v1v2 meets the plane of the other triangle."
  },
  {
   "property": "C75",
   "status": "proved",
   "theorems": [
    "C75_free_flight",
    "C75_ballistic",
    "C75_single_body"
   ],
   "note": ""
  },
  {
   "property": "C76",
   "status": "proved",
   "theorems": [
    "C76_step_never_raises",
    "C76_simulate_returns"
   ],
   "note": "Ready is spelled out in ReadySpec.v (engine_ready); it is shown to be met by a concrete engine and preserved by every step."
  },
  {
   "property": "C77",
   "status": "proved",
   "theorems": [
    "C77_contacts"
   ],
   "note": ""
  },
  {
   "property": "C78",
   "status": "partial",
   "theorems": [
    "C78_gap_partial",
    "C78_refuted"
   ],
   "note": "False of the code: the error vector is (child - parent) while the Jacobian is (parent - child), so exact solutions enlarge the gap by the factor 1 + gap_reduction (proved for all engines; refuted on a concrete one)."
  },
  {
   "property": "C79",
   "status": "partial",
   "theorems": [
    "C79_deep_partial",
    "C79_small_bodies_partial",
    "C79_refuted"
   ],
   "note": "False of the code: candidate points must be at least 0.5 inside the other body's grid box (default boundary of is_inside), so bodies with a grid narrower than 1 never get contacts (proved for all engines; refuted by two coincident tetrahedra)."
  },
  {
   "property": "C80",
   "status": "proved",
   "theorems": [
    "C80_distinct_eigenvalues",
    "C80_body_frame"
   ],
   "note": "np.linalg.eig is a parameter: C80_body_frame assumes that it returned an orthonormal eigenbasis for this matrix, C80_distinct_eigenvalues derives that from its documented contract when the eigenvalues differ. For repeated eigenvalues the code relies on more than np.linalg.eig promises (eigh would)."
  },
  {
   "property": "C81",
   "status": "proved",
   "theorems": [
    "C81_create_shape"
   ],
   "note": "Same assumption on np.linalg.eig as C80; hypothesis all_counted excludes meshes on which a 1e-10 clamp fires."
  },
  {
   "property": "C82",
   "status": "partial",
   "theorems": [
    "C82_positive_mass_refuted"
   ],
   "note": "Refuted: the clamp turns any mass up to 1e-10 into 0 (a tetrahedron of edge 1e-4)."
  },
  {
   "property": "C83",
   "status": "partial",
   "theorems": [
    "C83_raised_partial",
    "C83_connect_shape_partial",
    "C83_connect_shape_refuted"
   ],
   "note": "Refuted: connect_shape assigns body.shape before building the BVH, which raises for chunk size 0. Proved for all other calls, and for connect_shape with a chunk size of at least 1 (C83_raised_partial, C83_connect_shape_partial)."
  },
  {
   "property": "C84",
   "status": "proved",
   "theorems": [
    "C84_ready",
    "C84_simulate"
   ],
   "note": "The grid corner condition is needed by the code (division by the lower corner's coordinates when contact points are clamped); np.linalg.eig is assumed to return an orthonormal basis."
  },
  {
   "property": "C85",
   "status": "partial",
   "theorems": [
    "C85_transformed",
    "C85_untransformed_refuted"
   ],
   "note": "Proved with transform_to_body_frame=True; refuted with False: the shape still gets the mass frame (r,q) although the vertices were left in the model frame."
  },
  {
   "property": "C86",
   "status": "partial",
   "theorems": [
    "C86_mesh_unchanged_refuted"
   ],
   "note": "False of the code: vertices are moved in place, even if create_shape then raises (refuted)."
  },
  {
   "property": "C87",
   "status": "proved",
   "theorems": [
    "C87_tree",
    "C87_create_root",
    "C87_add_bone"
   ],
   "note": "Histories of create_root/add_bone/set_angle/set_joint_angles/update_skeleton (built in IkSpec.v)."
  },
  {
   "property": "C88",
   "status": "proved",
   "theorems": [
    "C88_poses",
    "C88_frame_unique",
    "C88_idempotent",
    "C88_rigid"
   ],
   "note": ""
  },
  {
   "property": "C89",
   "status": "proved",
   "theorems": [
    "C89_chains",
    "C89_path_unique"
   ],
   "note": ""
  },
  {
   "property": "C90",
   "status": "partial",
   "theorems": [
    "C90_get",
    "C90_set",
    "C90_round_trip",
    "C90_short",
    "C90_short_unchanged_refuted",
    "C90_single"
   ],
   "note": "Everything is proved but the last clause, which is false: a too short array makes set_joint_angles raise after the first bones have been changed (refuted)."
  },
  {
   "property": "C91",
   "status": "proved",
   "theorems": [
    "C91_jacobian"
   ],
   "note": ""
  },
  {
   "property": "C92",
   "status": "proved",
   "theorems": [
    "C92_gradient",
    "C92_objective"
   ],
   "note": ""
  },
  {
   "property": "C93",
   "status": "partial",
   "theorems": [
    "C93_exact_entries_partial",
    "C93_at_goal_partial",
    "C93_exchanged_partial",
    "C93_hessian_refuted",
    "C93_symmetric_refuted"
   ],
   "note": "False of the code: refuted (wrong values and a non-symmetric matrix). Proved: which entries are exact, exactness when all end effectors are at their goals, and what the other entries are (the second derivative with the order of the two rotation axes exchanged)."
  },
  {
   "property": "C94",
   "status": "proved",
   "theorems": [
    "C94_gradient_value",
    "C94_gradient_limit",
    "C94_hessian_limit"
   ],
   "note": "The Hessian limit is the mixed second derivative (Coquelicot is used in the proof, not in the statement)."
  },
  {
   "property": "C95",
   "status": "partial",
   "theorems": [
    "C95_joints_kept_partial",
    "C95_poses_left",
    "C95_unchanged_refuted"
   ],
   "note": "False of the code: the joint angles are restored, but the world poses are left at the last angle minus h (proved for all skeletons; refuted)."
  },
  {
   "property": "C96",
   "status": "partial",
   "theorems": [
    "C96_lame",
    "C96_injective",
    "C96_incompressible_refuted"
   ],
   "note": "Proved for 0 < E, -1 < nu < 1/2. The last clause is false: set_elasticity accepts nu = 1/2, on which first_lame divides by zero (refuted)."
  },
  {
   "property": "C97",
   "status": "proved",
   "theorems": [
    "C97_gradient",
    "C97_objective",
    "C97_symmetric",
    "C97_rest",
    "C97_energy",
    "C97_cauchy"
   ],
   "note": ""
  },
  {
   "property": "C98",
   "status": "partial",
   "theorems": [
    "C98_objective",
    "C98_symmetric",
    "C98_rest",
    "C98_gradient_partial",
    "C98_gradient_refuted",
    "C98_rest_not_stationary_refuted"
   ],
   "note": "False of the code: energy_density uses np.log2 where the stress is the derivative of the energy with the natural logarithm (refuted; rest state not stationary either). C98_gradient_partial: the stress is the gradient of the energy with ln. Objectivity, symmetry, rest are proved."
  },
  {
   "property": "C99",
   "status": "partial",
   "theorems": [
    "C99_usable_refuted",
    "C99_formula_partial"
   ],
   "note": "False of the code: both functions always raise, since polar_decomposition_array only takes stacks of matrices (refuted). C99_formula_partial: the formulas themselves are stress-free at rotations and give a symmetric Kirchhoff stress."
  },
  {
   "property": "C100",
   "status": "partial",
   "theorems": [
    "C100_decomposition",
    "C100_rotation",
    "C100_always_rotation_refuted"
   ],
   "note": "The factorisation is proved (np.linalg.eigh is a parameter assumed correct on A^T A). \"R is a rotation\" is false for det A < 0 (refuted), proved for det A > 0."
  },
  {
   "property": "C101",
   "status": "proved",
   "theorems": [
    "C101_assembly",
    "C101_layouts",
    "C101_meaning"
   ],
   "note": ""
  },
  {
   "property": "C102",
   "status": "proved",
   "theorems": [
    "C102_symmetric",
    "C102_positive_definite",
    "C102_injective",
    "C102_total_mass",
    "C102_lumped_diagonal"
   ],
   "note": ""
  },
  {
   "property": "C103",
   "status": "proved",
   "theorems": [
    "C103_damping_dissipates",
    "C103_damping_strict",
    "C103_gravity",
    "C103_weight"
   ],
   "note": ""
  },
  {
   "property": "C104",
   "status": "proved",
   "theorems": [
    "C104_face_vectors",
    "C104_sum_zero",
    "C104_shape_functions"
   ],
   "note": ""
  },
  {
   "property": "C105",
   "status": "proved",
   "theorems": [
    "C105_raises",
    "C105_edges",
    "C105_affine",
    "C105_rigid",
    "C105_objective"
   ],
   "note": ""
  },
  {
   "property": "C106",
   "status": "partial",
   "theorems": [
    "C106_gradient",
    "C106_svk",
    "C106_svk_defined",
    "C106_snh_refuted"
   ],
   "note": "Proved for every constitutive model whose stress is the gradient of its energy (C106_gradient), so for StVK (C106_svk); false for the neo-Hookean model because of np.log2 (refuted); the co-rotational model always raises (C99)."
  },
  {
   "property": "C107",
   "status": "proved",
   "theorems": [
    "C107_no_net_force",
    "C107_no_net_torque",
    "C107_no_net_torque_models",
    "C107_rigid_motion",
    "C107_rigid_motion_models"
   ],
   "note": ""
  },
  {
   "property": "C108",
   "status": "partial",
   "theorems": [
    "C108_traction_partial",
    "C108_total_load_refuted"
   ],
   "note": "False of the code: half the load arrives (the reference-triangle matrix must be scaled by 2A, the code scales by A; refuted). Proved: support, equal share, total = half the load."
  },
  {
   "property": "C109",
   "status": "partial",
   "theorems": [
    "C109_kinetic",
    "C109_kinetic_translation",
    "C109_kinetic_exact_refuted",
    "C109_potential"
   ],
   "note": "The kinetic energy is only a lower bound of (1/2) u^T M u (equal for translations; refuted in general), because it samples the mid-point of every element. The potential energy part is proved."
  },
  {
   "property": "C110",
   "status": "proved",
   "theorems": [
    "C110_dirichlet"
   ],
   "note": ""
  },
  {
   "property": "C111",
   "status": "proved",
   "theorems": [
    "C111_consistent",
    "C111_layout",
    "C111_write_read",
    "C111_reset",
    "C111_surface_kept"
   ],
   "note": ""
  },
  {
   "property": "C112",
   "status": "proved",
   "theorems": [
    "C112_body_momentum",
    "C112_total_momentum",
    "C112_angular_momentum",
    "C112_conservation",
    "C112_mass_invertible",
    "C112_fresh_first",
    "C112_fresh_steps",
    "C112_fresh_calls",
    "C112_simulate",
    "C112_with_detection"
   ],
   "note": "Collision detection and the contact solver are parameters; conservation needs contacts whose weights sum to the same number (momentum) and whose two points coincide (angular momentum)."
  },
  {
   "property": "C113",
   "status": "proved",
   "theorems": [
    "C113_dirichlet"
   ],
   "note": ""
  },
  {
   "property": "C114",
   "status": "proved",
   "theorems": [
    "C114_jacobian"
   ],
   "note": ""
  },
  {
   "property": "C115",
   "status": "proved",
   "theorems": [
    "C115_step_succeeds",
    "C115_step_requires"
   ],
   "note": "C115_step_succeeds and C115_step_requires; collision detection itself is a parameter."
  },
  {
   "property": "C116",
   "status": "partial",
   "theorems": [
    "C116_atomic",
    "C116_create_refuted"
   ],
   "note": "False for create_soft_body: a failing call leaves a half-made body behind, after which no simulate can return any more (C116_create_refuted), and set_material of such a body. C116_atomic: all other calls."
  },
  {
   "property": "C117",
   "status": "partial",
   "theorems": [
    "C117_pre_refuted",
    "C117_post_refuted",
    "C117_post_partial"
   ],
   "note": "False of the code: pre-stabilisation always raises when there is a contact, post-stabilisation raises when a contact is deeper than min_gap (both refuted). C117_post_partial: no effect otherwise."
  },
  {
   "property": "C118",
   "status": "proved",
   "theorems": [
    "C118_rejects",
    "C118_time",
    "C118_terminates",
    "C118_nonpositive_step"
   ],
   "note": ""
  },
  {
   "property": "C119",
   "status": "partial",
   "theorems": [
    "C119_step",
    "C119_simulate",
    "C119_density_refuted",
    "C119_viscosity_refuted"
   ],
   "note": "Proved for StVK and neo-Hookean bodies whose density and viscosity were not changed since set_material. After set_mass_density or set_viscosity the body keeps the old mass and damping (refuted: falls with 2 g; no drag)."
  },
  {
   "property": "C120",
   "status": "partial",
   "theorems": [
    "C120_no_effect",
    "C120_set_type",
    "C120_refuted"
   ],
   "note": "False of the code: the flag is never read by the stepper (C120_no_effect: a step does the same with and without it; refuted)."
  },
  {
   "property": "C121",
   "status": "proved",
   "theorems": [
    "C121_dirichlet",
    "C121_traction",
    "C121_returns"
   ],
   "note": ""
  },
  {
   "property": "C122",
   "status": "partial",
   "theorems": [
    "C122_symmetric",
    "C122_conditions",
    "C122_created",
    "C122_others",
    "C122_steps",
    "C122_default_refuted"
   ],
   "note": "All but the last clause. There is no default: a contact of a pair without interaction makes the step raise (refuted)."
  },
  {
   "property": "C123",
   "status": "proved",
   "theorems": [
    "C123_cone",
    "C123_step"
   ],
   "note": ""
  },
  {
   "property": "C124",
   "status": "partial",
   "theorems": [
    "C124_added_body_refuted",
    "C124_partial"
   ],
   "note": "False of the code: the stepper keeps the inverse mass matrix of the first simulate, so every later step raises (refuted). C124_partial: calls other than create_soft_body."
  },
  {
   "property": "C125",
   "status": "partial",
   "theorems": [
    "C125_default_refuted",
    "C125_incompressible_refuted",
    "C125_accepts",
    "C125_partial"
   ],
   "note": "False: the default co-rotational material and Poisson ratio 1/2 make every step raise (refuted). C125_partial: StVK and neo-Hookean with 0 <= nu < 1/2 have a stress for every F."
  },
  {
   "property": "C126",
   "status": "partial",
   "theorems": [
    "C126_stationary",
    "C126_coulomb_partial",
    "C126_coulomb_refuted",
    "C126_stopped"
   ],
   "note": "Fixed points of all four schemes are exactly the solutions of the contact law in which the sliding velocity is weighted by the r-factors (C126_stationary); with equal r-factors this is Coulomb's law (C126_coulomb_partial). With the r-factors the solvers start from it is not (C126_coulomb_refuted: friction is not opposed to sliding). C126_stopped: exit code 1 of the rigid solver means the law holds up to tolerance * (1/r + row sum)."
  },
  {
   "property": "C127",
   "status": "proved",
   "theorems": [
    "C127_residual",
    "C127_contact_law",
    "C127_stopped"
   ],
   "note": "C127_residual holds for any solver; C127_contact_law for converged multipliers; C127_stopped for the solver of the engine at its absolute tolerance."
  },
  {
   "property": "C128",
   "status": "proved",
   "theorems": [
    "C128_energy"
   ],
   "note": "Kinetic energy is measured at the pose before the step (the velocities change, then the positions move)."
  },
  {
   "property": "C129",
   "status": "partial",
   "theorems": [
    "C129_hinges_partial",
    "C129_refuted"
   ],
   "note": "Proved without contacts (C129_hinges_partial). With contacts it is false of the code: contact and joint problems are solved independently of each other, so a contact impulse tears an intact joint apart even if both are solved exactly (C129_refuted)."
  },
  {
   "property": "C130",
   "status": "proved",
   "theorems": [
    "C130_detected"
   ],
   "note": "The margin 1/2 inside the grid is the code's (see C79)."
  },
  {
   "property": "C131",
   "status": "proved",
   "theorems": [
    "C131_nothing_to_do",
    "C131_residual",
    "C131_separates"
   ],
   "note": "Separation is measured to first order at the contact point, with the pose in which the contacts were found."
  },
  {
   "property": "C132",
   "status": "proved",
   "theorems": [
    "C132_contacts_sound",
    "C132_in_own_tetrahedron"
   ],
   "note": "C132_in_own_tetrahedron: for engines reached through the API. C112_with_detection: momentum with the real detection. C134_nonvacuous: such an engine with a contact, in both modes."
  },
  {
   "property": "C133",
   "status": "partial",
   "theorems": [
    "C133_normal_translation_partial",
    "C133_normal_refuted"
   ],
   "note": "Proved for tetrahedra that are only translated (C133_normal_translation_partial). False otherwise: the code multiplies the edge vectors as rows with the solution, so a turned body gets a wrong normal; after a quarter turn the normal is the opposite of the correct one (C133_normal_refuted)."
  },
  {
   "property": "C134",
   "status": "partial",
   "theorems": [
    "C134_total",
    "C134_bvh_detected",
    "C134_hash_total",
    "C134_hash_detected",
    "C134_envelope_refuted"
   ],
   "note": "With bounding volume hierarchies proved in full (C134_total, C134_bvh_detected). With spatial hashing proved for triangles with a common point (C134_hash_total, C134_hash_detected); the envelope is ignored there (C134_envelope_refuted: of two bodies 1/20 apart with envelope 1/10 the hash grid reports nothing)."
  },
  {
   "property": "C135",
   "status": "proved",
   "theorems": [
    "C135_reduction"
   ],
   "note": ""
  },
  {
   "property": "C136",
   "status": "proved",
   "theorems": [
    "C136_range",
    "C136_quadratic",
    "C136_small_gradient",
    "C136_sphere",
    "C136_local",
    "C136_negated",
    "C136_no_values"
   ],
   "note": "The value is the sum of the principal curvatures (twice their mean). Where the gradient is shorter than 1/2 the code does not divide by its length (C136_small_gradient says what is stored then). A field without values raises (C136_no_values)."
  },
  {
   "property": "C137",
   "status": "partial",
   "theorems": [
    "C137_create_mesh",
    "C137_axis_partial",
    "C137_axis_refuted"
   ],
   "note": "create_mesh keeps the mesh (C137_create_mesh). The axis is not the direction of most variance: the code takes a row of the matrix of eigenvectors instead of a column (C137_axis_refuted: an axis along which the points do not vary at all); it is when that matrix is symmetric (C137_axis_partial)."
  },
  {
   "property": "C138",
   "status": "proved",
   "theorems": [
    "C138_box_stack",
    "C138_on_top",
    "C138_simulates"
   ],
   "note": "For 0 < w, h, d, distance-grid resolution at least 2, and unique names; np.linalg.eig is assumed to give an orthonormal eigenbasis of diagonal matrices only. Masses below 1e-10 are clamped by the code (pos_up_to_clamp). Simulating needs a non-zero density and a box whose mass and moments exceed the clamp."
  },
  {
   "property": "C139",
   "status": "proved",
   "theorems": [
    "C139_ground"
   ],
   "note": "As C138."
  },
  {
   "property": "C140",
   "status": "proved",
   "theorems": [
    "C140_chain",
    "C140_apart",
    "C140_empty",
    "C140_simulates"
   ],
   "note": "As C138; the names of the new hinges are assumed to be new."
  },
  {
   "property": "C141",
   "status": "proved",
   "theorems": [
    "C141_lattice",
    "C141_apart"
   ],
   "note": "Smaller than the cells: every vertex is at distance at most rho from the origin of its shape, with 2 rho less than each edge of a cell. I, J, K are at least 1 (0 divides by zero)."
  },
  {
   "property": "C142",
   "status": "proved",
   "theorems": [
    "C142_tower",
    "C142_apart",
    "C142_simulates"
   ],
   "note": "For 0 < inner < outer, 0 < height, at least one layer, at least 3 segments, a unit q; no overlap for every safety factor below 1 (the code uses one below 1). np.linalg.eig as in C138."
  },
  {
   "property": "C143",
   "status": "proved",
   "theorems": [
    "C143_words",
    "C143_list",
    "C143_rand",
    "C143_only"
   ],
   "note": "Numbers: an optional minus, digits, an optional fraction and signed exponent, every digit string \"0\" or without a leading zero (see C145 for the others). Strings are lists of ASCII codes; np.random is a parameter; rounding to float64 is left out."
  },
  {
   "property": "C144",
   "status": "proved",
   "theorems": [
    "C144_identity",
    "C144_axis",
    "C144_about",
    "C144_list",
    "C144_only"
   ],
   "note": "As C143."
  },
  {
   "property": "C145",
   "status": "partial",
   "theorems": [
    "C145_padded_refuted",
    "C145_dropped_refuted"
   ],
   "note": "Refuted for every list that contains such a numeral. C143 and C144 are the part that holds."
  },
  {
   "property": "C146",
   "status": "proved",
   "theorems": [
    "C146_rejects",
    "C146_arch",
    "C146_apart",
    "C146_simulates"
   ],
   "note": "The stones must be large enough for the library not to round their volume and centre of mass to zero (1e-10); np.linalg.eig as in C138. Radii are those of the corners: the inner face of a wedge is a chord, so its points are between 3/10 width cos(pi / (2 arch_stones)) and width/2 from the centre."
  },
  {
   "property": "C147",
   "status": "proved",
   "theorems": [
    "C147_colosseum",
    "C147_rejects",
    "C147_apart",
    "C147_simulates"
   ],
   "note": "At least 3 arches (with 1 or 2 the width of an arch is not defined: tan(pi/arches)). Sizes large enough as in C146 and C142; 0.1 and 0.9 are the reals 1/10 and 9/10."
  },
  {
   "property": "C148",
   "status": "partial",
   "theorems": [
    "C148_bodies",
    "C148_others",
    "C148_scale_and_products_refuted"
   ],
   "note": "The document is the tree of tags with the numbers float() makes of the attributes; meshes with indices in range. The two claims about scale and products of inertia are refuted (the reader gives the same result without these attributes)."
  },
  {
   "property": "C149",
   "status": "partial",
   "theorems": [
    "C149_assembly",
    "C149_correct_iff",
    "C149_terminates",
    "C149_loop_refuted",
    "C149_reads",
    "C149_assembly_refuted"
   ],
   "note": "Where the bodies end up is proved, and equivalent to the documented assembly exactly when the inertial frame of the root is the identity; the general claim is refuted with two boxes. np.linalg.eig as in C138 for the documents that are read (C149_reads)."
  },
  {
   "property": "C150",
   "status": "proved",
   "theorems": [
    "C150_hinges"
   ],
   "note": "Every link has at most one parent (otherwise reading may not end, see C149). The world frame is the one of C149."
  },
  {
   "property": "C151",
   "status": "partial",
   "theorems": [
    "C151_says",
    "C151_strings",
    "C151_written",
    "C151_refuted"
   ],
   "note": "Proved for printable ASCII materials without & < apostrophe, quotation mark and backslash, and for all other names without restriction; the two remaining claims are refuted by the materials \"a<\" and \"&\". np.array2string and str of a number are parameters of the model; names are lists of code points."
  },
  {
   "property": "C152",
   "status": "partial",
   "theorems": [
    "C152_same_scene",
    "C152_same_file",
    "C152_refuted"
   ],
   "note": "Same scene implies same file without restriction (C152_same_file); the converse for numbers that are printed without loss and plain materials. Refuted: whenever two vectors are printed alike, two different scenes have the same file."
  },
  {
   "property": "C153",
   "status": "proved",
   "theorems": [
    "C153_hinge"
   ],
   "note": "Plain materials (see C151). The mode body and model are the interpretations of set_hinge in C59."
  },
  {
   "property": "C154",
   "status": "proved",
   "theorems": [
    "C154_sweep",
    "C154_inertia",
    "C154_shapes",
    "C154_round"
   ],
   "note": "Number of slices at least 3; the profile lies in the half plane z=0, x>=0 and starts and ends on the axis. Volume and moments are the integrals over the tetrahedra of MassSpec."
  },
  {
   "property": "C155",
   "status": "proved",
   "theorems": [
    "C155_pillar",
    "C155_joints",
    "C155_simulates",
    "C155_none"
   ],
   "note": "np.linalg.eig as in C138, new names as in C142. A negative number of stones gives a pillar without column (C155_pillar with length column = 0). C155_simulates needs parts whose masses, centres and moments are above the clamp 1e-10 (big_pillar) and a material density other than zero."
  },
  {
   "property": "C156",
   "status": "proved",
   "theorems": [
    "C156_sandbox",
    "C156_closed",
    "C156_simulates",
    "C156_none"
   ],
   "note": "The shapes of the grains (random convex hulls, lines 38-52) are parameters: any list of shapes in the engine. Q.rand is any function. np.linalg.eig as in C138. C156_simulates needs walls above the clamp 1e-10 (big_sandbox), shapes with mass and moments other than zero and a density other than zero."
  },
  {
   "property": "C157",
   "status": "proved",
   "theorems": [
    "C157_poles",
    "C157_extent",
    "C157_apart",
    "C157_simulates",
    "C157_none"
   ],
   "note": "The shapes of the objects (meshes read from files, lines 56-74) are parameters: any list of shapes in the engine. Q.rand is any function, np.linalg.eig as in C138. C157_simulates needs poles above the clamp 1e-10 (big_pole), shapes with mass and moments other than zero and a density other than zero."
  },
  {
   "property": "C158",
   "status": "partial",
   "theorems": [
    "C158_fit_cell",
    "C158_fit_cell_total",
    "C158_fit_size",
    "C158_fit_size_total",
    "C158_turned_refuted"
   ],
   "note": "The last claim is false: C158_turned_refuted gives a cube in a unit cell with factor 0.9 and a unit quaternion for which the rotated box is wider than the cell (the comment \"ensure some padding to avoid initial contact\" does not hold with random orientations). Everything else is proved. Division by zero is failure (None)."
  },
  {
   "property": "C159",
   "status": "proved",
   "theorems": [
    "C159_jacks",
    "C159_all_or_nothing"
   ],
   "note": "What the file contains is a parameter. np.linalg.eigh is assumed correct for the inertia of the fitted mesh (eig_good, as for create_shape). With an unknown material all-or-nothing does not hold (the lattice is built before set_body_material raises), hence the hypothesis exist_material."
  }
 ]
}