(** Model of rainbow/simulators/prox_soft_bodies/collision_detection.py (the engine part; the spatial-hashing narrow phase
    itself is [HashModel.hash_narrow_phase]).  Profiling (stats, timers) is left out.  [None] = an exception.

    What create_soft_body stores for collision detection only (api.py:53-90: owners, grid, bvh) is not in [sbody]; it is given
    here as one [cattr] per body, in the order of engine.bodies.  Bodies are named by their index, as in [scontact]. *)
From Verif Require Import Base VecModel BvhModel GridModel VolModel BaryModel RigidTypes CollModel HashModel MechModel FemModel SoftModel.
Open Scope R_scope.

(** types.py:168-175: body.grid, body.bvh ([None]: no BVH, the body was created while use_spatial_hashing was on) *)
Record cattr := mkCA { ca_grid : grid; ca_bvh : option tree }.
(** types.py:244-257, the parameters collision detection reads *)
Record cparams := mkCP { cp_iterations : nat; cp_tolerance : R; cp_K : nat; cp_envelope : R; cp_hashing : bool }.
(** api.py:55-56 body.owners[t][0]: the tetrahedron a surface triangle comes from *)
Definition owners (T : list elem) : list nat :=
  let Z4 := map tet_of_elem T in map (fun q : tri * (nat * nat) => fst (snd q)) (compute_surface Z4 (compute_neighbors Z4)).

(** X[T[e], :] *)
Definition quad : Type := vec3 * vec3 * vec3 * vec3.
Definition tet_corners (x : field) (t : elem) : quad := let '(a, b, c, d) := t in (x a, x b, x c, x d).
(** BC.compute_barycentric_tetrahedron(X[0], X[1], X[2], X[3], p) *)
Definition quad_bary (X : quad) (p : vec3) : option (R * R * R * R) := let '(a, b, c, d) := X in compute_barycentric_tetrahedron a b c d p.
(** np.dot(X.T, w) *)
Definition quad_comb (X : quad) (w : R * R * R * R) : vec3 :=
  let '(a, b, c, d) := X in let '(w0, w1, w2, w3) := w in vadd (vadd (vadd (vscale w0 a) (vscale w1 b)) (vscale w2 c)) (vscale w3 d).
(** X[0:3] - X[3]: the three edge vectors are the ROWS *)
Definition edge_rows (X : quad) : mat3 :=
  let '(a, b, c, d) := X in let r0 := vsub a d in let r1 := vsub b d in let r2 := vsub c d in
  mkM (vx r0) (vy r0) (vz r0) (vx r1) (vy r1) (vz r1) (vx r2) (vy r2) (vz r2).

(** body.x[body.surface[t], :] *)
Definition surface_triangle (b : sbody) (t : Z) : option (vec3 * vec3 * vec3) :=
  do ijk <- py_get (s_surface b) t; let '(i, j, k) := ijk in Some (s_x b i, s_x b j, s_x b k).
(** body.T[body.owners[t][0]] with its index *)
Definition owner_tet (b : sbody) (t : Z) : option (nat * elem) :=
  do k <- py_get (owners (s_T b)) t; do el <- nth_error (s_T b) k; Some (k, el).

(** collision_detection.py:10-39 [_update_bvh] *)
Definition soft_vertices (b : sbody) : list vec3 := map (s_x b) (seq 0 (s_n b)).
Definition soft_elements (b : sbody) : list (list Z) := map (fun ijk => let '(i, j, k) := ijk in [Z.of_nat i; Z.of_nat j; Z.of_nat k]) (s_surface b).
Definition soft_update_bvh (P : cparams) (bs : list (sbody * cattr)) : option (list (sbody * cattr)) :=
  map_opt (fun ba : sbody * cattr => let '(b, a) := ba in
    do t <- ca_bvh a; do t' <- refit_bvh (soft_vertices b) (soft_elements b) t (cp_K P) (cp_envelope P); Some (b, mkCA (ca_grid a) (Some t'))) bs.
(** collision_detection.py:187-222 [_narrow_phase]: body index pairs with their triangle pairs *)
Definition soft_narrow_phase (bs : list (sbody * cattr)) : option (list ((nat * nat) * list (Z * Z))) :=
  do rs <- map_opt (fun kl : (nat * (sbody * cattr)) * (nat * (sbody * cattr)) =>
      do tA <- ca_bvh (snd (snd (fst kl))); do tB <- ca_bvh (snd (snd (snd kl)));
      do r <- traversal tA tB; Some ((fst (fst kl), fst (snd kl)), r)) (combinations2 (combine (seq 0 (length bs)) bs));
  Some (filter (fun x => match snd x with [] => false | _ => true end) rs).

(** collision_detection.py:225-245 [_xform_triangle_to_model_space] *)
Definition xform_triangle_to_model_space (ps : vec3 * vec3 * vec3) (X X0 : quad) : option (vec3 * vec3 * vec3) :=
  let '(p0, p1, p2) := ps in
  do w0 <- quad_bary X p0; do w1 <- quad_bary X p1; do w2 <- quad_bary X p2;
  Some (quad_comb X0 w0, quad_comb X0 w1, quad_comb X0 w2).
(** collision_detection.py:248-268 [_xform_contact_to_world] *)
Definition xform_contact_to_world (p n : vec3) (XA XB X0B : quad) : option (vec3 * vec3 * (R * R * R * R) * (R * R * R * R)) :=
  do omegaB <- quad_bary X0B p;
  let p' := quad_comb XB omegaB in
  do omegaA <- quad_bary XA p';
  do s <- np_solve3 (edge_rows X0B) n;
  Some (p', mvec (edge_rows XB) s, omegaA, omegaB).
(** types.py:85-98 [ContactPoint.__init__]: the normal must have length 1 (within 0.1) *)
Definition make_scontact (A B tA tB : nat) (wA wB : R * R * R * R) (p n : vec3) (g : R) : option scontact :=
  if Rltb (1 / 10) (Rabs (1 - vnorm n)) then None else Some (mkSC A B tA tB wA wB p n g).
(** collision_detection.py:295-372, one pair of triangles: triangle tA of body A (index iA) against the distance field of body
    B (index iB); the contact's first body is B.  The search is the same code as for rigid bodies (CollModel.fw_point) *)
Definition contact_of_pair (P : cparams) (iA iB : nat) (A B : sbody) (gB : grid) (tr : Z * Z) : option (list scontact) :=
  do oA <- owner_tet A (fst tr); do oB <- owner_tet B (snd tr);
  do ps <- surface_triangle A (fst tr);
  let XB := tet_corners (s_x B) (snd oB) in
  let X0B := tet_corners (s_x0 B) (snd oB) in
  do p0s <- xform_triangle_to_model_space ps XB X0B;
  do x <- fw_point (get_gradient gB) (cp_tolerance P) (cp_iterations P) p0s;
  do inside <- grid_is_inside gB x (1 / 2);
  if inside then
    do phi <- get_value gB x;
    if Rleb phi (cp_envelope P) then
      do n <- get_gradient gB x;
      if Rltb 0 (vnorm n) then
        do r <- xform_contact_to_world x n (tet_corners (s_x A) (snd oA)) XB X0B;
        let '(p, n', wA, wB) := r in
        do cp <- make_scontact iB iA (fst oB) (fst oA) wB wA p (v3_unit n') phi;
        Some [cp]
      else Some []
    else Some []
  else Some [].
(** collision_detection.py:271-388 [_compute_contacts] *)
Definition soft_compute_contacts (P : cparams) (bs : list (sbody * cattr)) (iA iB : nat) (results : list (Z * Z)) : option (list scontact) :=
  do A <- nth_error bs iA; do B <- nth_error bs iB;
  do cs <- map_opt (contact_of_pair P iA iB (fst A) (fst B) (ca_grid (snd B))) results;
  Some (concat cs).
(** collision_detection.py:391-430 [_contact_determination] *)
Definition soft_contact_determination (P : cparams) (bs : list (sbody * cattr)) (overlaps : list ((nat * nat) * list (Z * Z))) : option (list scontact) :=
  do cs <- map_opt (fun o : (nat * nat) * list (Z * Z) =>
      do c1 <- soft_compute_contacts P bs (fst (fst o)) (snd (fst o)) (snd o);
      do c2 <- soft_compute_contacts P bs (snd (fst o)) (fst (fst o)) (map (fun t => (snd t, fst t)) (snd o));
      Some (c1 ++ c2)) overlaps;
  Some (concat cs).
(** collision_detection.py:461-463: uid = (bodyA, bodyB, tuple(p)), membership in the set seen_ids *)
Definition same_uid (c1 c2 : scontact) : bool :=
  Nat.eqb (sc_A c1) (sc_A c2) && Nat.eqb (sc_B c1) (sc_B c2) &&
  (Reqb (vx (sc_p c1)) (vx (sc_p c2)) && Reqb (vy (sc_p c1)) (vy (sc_p c2)) && Reqb (vz (sc_p c1)) (vz (sc_p c2))).
(** collision_detection.py:433-471 [_contact_reduction]; seen_ids holds the uids of reduced_list *)
Definition soft_contact_reduction (cs : list scontact) : list scontact :=
  fold_left (fun reduced cp => if existsb (same_uid cp) reduced then reduced else reduced ++ [cp]) cs [].

(** collision_detection.py:146-182: the dictionary of sets filled from the reported pairs, and the set turned into an array.
    The order in which a set is enumerated is not fixed, so [enum] is any function with this property *)
Definition enumerates (enum : list report -> list ((nat * nat) * list (Z * Z))) : Prop := forall reports,
  NoDup (map fst (enum reports)) /\
  (forall k l, In (k, l) (enum reports) -> NoDup l /\ l <> []) /\
  (forall b ob t ot, In ((b, ob), (t, ot)) reports <-> exists l, In ((b, ob), l) (enum reports) /\ In (Z.of_nat t, Z.of_nat ot) l) /\
  (forall k l t ot, In (k, l) (enum reports) -> In (t, ot) l -> (0 <= t)%Z /\ (0 <= ot)%Z).
(** the surface triangles of all bodies in world coordinates *)
Definition soft_bodies (bs : list sbody) : bodies := map (fun b => map (fun ijk => let '(i, j, k) := ijk in (s_x b i, s_x b j, s_x b k)) (s_surface b)) bs.

(** collision_detection.py:474-506 [run_collision_detection].  [hash] is the hash grid's hash function, [cs] its cell size and
    [hg] its contents; the time stamp is a parameter of the engine.  The contacts that the engine holds afterwards. *)
Definition soft_cd (P : cparams) (attrs : list cattr) (enum : list report -> list ((nat * nat) * list (Z * Z)))
    (hash : Z -> Z -> Z -> Z) (cs : R) (hg : hgrid hobj) (e : sengine) : option (list scontact) :=
  if negb (forallb ready (sg_bodies e) && Nat.eqb (length attrs) (length (sg_bodies e))) then None else
  let bs := combine (sg_bodies e) attrs in
  if cp_hashing P then
    do r <- hash_narrow_phase hash cs (soft_bodies (sg_bodies e)) (Z.of_nat (sq_stamp (sg_params e))) hg;
    do l <- soft_contact_determination P bs (enum (snd r));
    Some (soft_contact_reduction l)
  else
    do bs' <- soft_update_bvh P bs;
    do ov <- soft_narrow_phase bs';
    do l <- soft_contact_determination P bs' ov;
    Some (soft_contact_reduction l).
