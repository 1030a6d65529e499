(** Model of rainbow/simulators/prox_rigid_bodies/api.py.
    A call returns [Done e], raises leaving the engine [e] behind ([Raised e]), or computes with nan ([Nan]: V3.unit or
    make_orthonormal_vectors of a zero vector).  np.copy makes arguments values; create_surfaces_interaction is the one
    function that keeps a reference to a caller's array (mu), which the model ignores.  create_shape keeps and changes the
    mesh object of the caller: the model returns the vertices that object has afterwards; shapes are otherwise values
    (two shapes made from the same mesh object are not modelled).
    np.linalg.eig and igl.signed_distance are the parameters [eig] and [sd]. *)
From Verif Require Import Base QuatModel VecModel BvhModel GridModel VolModel RigidTypes CollModel BaryModel MassModel.
Open Scope R_scope.

Inductive outcome := Done (e : engine) | Raised (e : engine) | Nan.
Definition has_body (e : engine) (n : name) : bool := match find_body e n with Some _ => true | None => false end.

(** api.py:56-68 [create_rigid_body] *)
Definition create_rigid_body (e : engine) (n : name) : outcome :=
  match find_body e n with
  | Some _ => Raised e
  | None => Done (set_bodies e (e_bodies e ++ [body_init n (length (e_bodies e))]))
  end.
Definition set_hinges (e : engine) (hs : list hinge) : engine :=
  mkEngine (e_bodies e) (e_forces e) (e_shapes e) hs (e_contacts e) (e_lib e) (e_params e) (e_stepper e).
Definition set_forces (e : engine) (fs : list force) : engine :=
  mkEngine (e_bodies e) fs (e_shapes e) (e_hinges e) (e_contacts e) (e_lib e) (e_params e) (e_stepper e).
Definition set_shapes (e : engine) (ss : list shape) : engine :=
  mkEngine (e_bodies e) (e_forces e) ss (e_hinges e) (e_contacts e) (e_lib e) (e_params e) (e_stepper e).
Definition set_lib (e : engine) (l : library) : engine :=
  mkEngine (e_bodies e) (e_forces e) (e_shapes e) (e_hinges e) (e_contacts e) l (e_params e) (e_stepper e).
Definition set_params (e : engine) (p : params) : engine :=
  mkEngine (e_bodies e) (e_forces e) (e_shapes e) (e_hinges e) (e_contacts e) (e_lib e) p (e_stepper e).
(** api.py:71-83 [create_hinge] *)
Definition create_hinge (e : engine) (n : name) : outcome :=
  match find_hinge e n with
  | Some _ => Raised e
  | None => Done (set_hinges e (e_hinges e ++ [mkHinge n (length (e_hinges e)) None]))
  end.
(** the argument mode of set_hinge: "world", "body", "model", anything else *)
Inductive hinge_mode := World | Body | Model | OtherMode.
(** api.py:121-141: o_world, s_world; [None] = exception (unknown mode, or no shape) *)
Definition hinge_world (mode : hinge_mode) (P : body) (origin axis : vec3) : option (vec3 * vec3) :=
  match mode with
  | World => Some (origin, axis)
  | Body => Some (vadd (q_rotate (b_q P) origin) (b_r P), q_rotate (b_q P) axis)
  | Model =>
    match b_shape P with
    | None => None
    | Some s =>
      let o_body := q_rotate (q_conj (sh_q s)) (vsub origin (sh_r s)) in
      let s_body := q_rotate (q_conj (sh_q s)) axis in
      Some (vadd (q_rotate (b_q P) o_body) (b_r P), q_rotate (b_q P) s_body)
    end
  | OtherMode => None
  end.
(** api.py:148-154: the socket of one link *)
Definition make_socket (b : body) (o_world : vec3) (q_world : quat) : socket :=
  mkSocket (b_name b) (mkX (q_rotate (q_conj (b_q b)) (vsub o_world (b_r b))) (q_prod (q_conj (b_q b)) q_world)).
(** api.py:86-156 [set_hinge] *)
Definition set_hinge (e : engine) (hn pn cn : name) (origin axis : vec3) (mode : hinge_mode) : outcome :=
  match find_hinge e hn with None => Raised e | Some h =>
  match find_body e pn with None => Raised e | Some P =>
  match find_body e cn with None => Raised e | Some C =>
  match hinge_world mode P origin axis with None => Raised e | Some (o, s) =>
  match make_orthonormal_vectors s with None => Nan | Some (t, b, n) =>
  match q_from_matrix (make_from_cols t b n) with None => Nan | Some q =>
    Done (set_hinges e (map (fun h' => if name_eqb (h_name h') hn then mkHinge (h_name h') (h_idx h') (Some (make_socket P o q, make_socket C o q)) else h')
                            (e_hinges e)))
  end end end end end end.

(** V.max(axis=0), V.min(axis=0) and .max() of the difference; api.py:232-233 *)
Definition shape_boundary (V : list vec3) (P : params) : option R :=
  do lo <- np_min0 V; do hi <- np_max0 V;
  let d := vsub hi lo in
  Some (Rmax (Rmax (vx d) (Rmax (vy d) (vz d)) * (1 / 10)) (p_envelope P * 2)).
(** api.py:176-242 [create_shape]; the second component is the vertex array of the caller's mesh afterwards *)
Definition create_shape (eig : mat3 -> vec3 * mat3) (sd : list vec3 -> list tri -> vec3 -> R)
    (e : engine) (n : name) (V : list vec3) (T : list tri) (to_body : bool) : outcome * list vec3 :=
  match find_shape e n with Some _ => (Raised e, V) | None =>
  match compute_mass_properties V T 1 with None => (Raised e, V) | Some prop =>
  match xform_model_2_body_space eig prop with None => (Raised e, V) | Some (r, q, m, Ib) =>
    let V' := if to_body then to_body_frame r q V else V in
    match shape_boundary V' (e_params e) with None => (Raised e, V') | Some boundary =>
    let N := p_resolution (e_params e) in
    match create_signed_distance (sd V' T) V' N N N boundary with None => (Raised e, V') | Some g =>
      (Done (set_shapes e (e_shapes e ++ [mkShape n V' T g m Ib r q])), V')
    end end
  end end end.
(** api.py:245-281 [connect_shape]: the shape is assigned before make_bvh runs *)
Definition connect_shape (e : engine) (bn sn : name) : outcome :=
  match find_body e bn with None => Raised e | Some _ =>
  match find_shape e sn with None => Raised e | Some s =>
  match make_bvh (sh_V s) (map tri_list (sh_T s)) (p_K (e_params e)) (p_chunk (e_params e)) (p_envelope (e_params e)) with
  | None => Raised (upd_body e bn (fun b => with_shape b s (b_bvh b)))
  | Some t => Done (upd_body e bn (fun b => with_shape b s (Some t)))
  end end end.
(** api.py:284-307 [create_gravity_force] *)
Definition create_gravity_force (e : engine) (n : name) (g : R) (up : vec3) : outcome :=
  match find_force e n with Some _ => Raised e | None =>
  if Rleb g 0 then Raised e else
  if Reqb (vnorm up) 0 then Nan else
  Done (set_forces e (e_forces e ++ [Gravity n g (v3_unit up)]))
  end.
(** api.py:310-333 [create_damping_force] *)
Definition create_damping_force (e : engine) (n : name) (alpha beta : R) : outcome :=
  match find_force e n with Some _ => Raised e | None =>
  if Rleb alpha 0 then Raised e else if Rleb beta 0 then Raised e else
  Done (set_forces e (e_forces e ++ [Damping n alpha beta]))
  end.
(** api.py:336-355 [connect_force]; [force in body.forces] compares objects: the forces of an engine have different names *)
Definition connect_force (e : engine) (bn fn : name) : outcome :=
  match find_body e bn with None => Raised e | Some b =>
  match find_force e fn with None => Raised e | Some f =>
  if existsb (fun f' => name_eqb (force_name f') (force_name f)) (b_forces b) then Raised e
  else Done (upd_body e bn (fun b => with_forces b (b_forces b ++ [f])))
  end end.
(** api.py:358-415 [set_position] *)
Definition set_position (e : engine) (bn : name) (r : vec3) (use_model_frame : bool) : outcome :=
  match find_body e bn with None => Raised e | Some b =>
  if use_model_frame then
    match b_shape b with None => Raised e | Some s =>
      let q_mf2wcs := q_prod (b_q b) (q_conj (sh_q s)) in
      Done (upd_body e bn (fun b => with_pose b (vadd (q_rotate q_mf2wcs (sh_r s)) r) (b_q b)))
    end
  else Done (upd_body e bn (fun b => with_pose b r (b_q b)))
  end.
(** api.py:433-489 [set_orientation] *)
Definition set_orientation (e : engine) (bn : name) (q : quat) (use_model_frame : bool) : outcome :=
  match find_body e bn with None => Raised e | Some b =>
  if use_model_frame then
    match b_shape b with None => Raised e | Some s =>
      let q_mf2wcs := q_prod (b_q b) (q_conj (sh_q s)) in
      let r_mf2wcs := vsub (b_r b) (q_rotate q_mf2wcs (sh_r s)) in
      let q' := q_unit q in
      Done (upd_body e bn (fun b => with_pose b (vadd (q_rotate q' (sh_r s)) r_mf2wcs) (q_prod q' (sh_q s))))
    end
  else Done (upd_body e bn (fun b => with_pose b (b_r b) (q_unit q)))
  end.
(** api.py:507-520, 538-551 [set_velocity], [set_spin] *)
Definition set_velocity (e : engine) (bn : name) (v : vec3) : outcome :=
  match find_body e bn with None => Raised e | Some _ => Done (upd_body e bn (fun b => with_vel b v (b_w b))) end.
Definition set_spin (e : engine) (bn : name) (w : vec3) : outcome :=
  match find_body e bn with None => Raised e | Some _ => Done (upd_body e bn (fun b => with_vel b (b_v b) w)) end.
(** api.py:418-430, 492-504, 523-535, 554-566, 610-621: the getters; [None] = RuntimeError *)
Definition get_position (e : engine) (bn : name) : option vec3 := option_map b_r (find_body e bn).
Definition get_orientation (e : engine) (bn : name) : option quat := option_map b_q (find_body e bn).
Definition get_velocity (e : engine) (bn : name) : option vec3 := option_map b_v (find_body e bn).
Definition get_spin (e : engine) (bn : name) : option vec3 := option_map b_w (find_body e bn).
Definition is_fixed_body (e : engine) (bn : name) : option bool := option_map b_fixed (find_body e bn).
(** api.py:569-587 [set_mass_properties] *)
Definition set_mass_properties (e : engine) (bn : name) (density : R) : outcome :=
  match find_body e bn with None => Raised e | Some b =>
  match b_shape b with None => Raised e | Some s =>
    Done (upd_body e bn (fun b => with_mass b (sh_mass s * density) (vscale density (sh_inertia s))))
  end end.
(** the strings fixed, Fixed, FIXED, free, Free, FREE *)
Definition fixed_names : list name := [[102; 105; 120; 101; 100]; [70; 105; 120; 101; 100]; [70; 73; 88; 69; 68]]%nat.
Definition free_names : list name := [[102; 114; 101; 101]; [70; 114; 101; 101]; [70; 82; 69; 69]]%nat.
(** api.py:590-607 [set_body_type] *)
Definition set_body_type (e : engine) (bn ty : name) : outcome :=
  match find_body e bn with None => Raised e | Some _ =>
  if existsb (name_eqb ty) fixed_names then Done (upd_body e bn (fun b => with_fixed b true))
  else if existsb (name_eqb ty) free_names then Done (upd_body e bn (fun b => with_fixed b false))
  else Raised e
  end.
(** api.py:624-643 [set_body_material] *)
Definition set_body_material (e : engine) (bn m : name) : outcome :=
  match find_body e bn with None => Raised e | Some _ =>
  if exist_material (e_lib e) m then Done (upd_body e bn (fun b => with_material b m)) else Raised e
  end.
(** api.py:667-669: tmp = [A, B]; tmp.sort(); key = tuple(tmp) *)
Definition sorted_key (A B : name) : name * name := if name_ltb B A then (B, A) else (A, B).
(** api.py:646-673 [create_surfaces_interaction] *)
Definition create_surfaces_interaction (e : engine) (A B : name) (epsilon : R) (mu : vec3) : outcome :=
  if exist_interaction (e_lib e) A B then Raised e else
  if Rltb epsilon 0 then Raised e else
  if Rltb (vx mu) 0 then Raised e else if Rltb (vy mu) 0 then Raised e else if Rltb (vz mu) 0 then Raised e else
  Done (set_lib e (lib_set (e_lib e) (sorted_key A B) (mkInter mu epsilon))).

(** one call of the set-up interface *)
Inductive call :=
| CreateBody (n : name) | CreateHinge (n : name)
| SetHinge (h p c : name) (origin axis : vec3) (mode : hinge_mode)
| CreateShape (n : name) (V : list vec3) (T : list tri) (to_body : bool) | ConnectShape (b s : name)
| CreateGravity (n : name) (g : R) (up : vec3) | CreateDamping (n : name) (alpha beta : R) | ConnectForce (b f : name)
| SetPosition (b : name) (r : vec3) (model : bool) | SetOrientation (b : name) (q : quat) (model : bool)
| SetVelocity (b : name) (v : vec3) | SetSpin (b : name) (w : vec3)
| SetMass (b : name) (density : R) | SetType (b ty : name) | SetMaterial (b m : name)
| CreateInteraction (A B : name) (epsilon : R) (mu : vec3).
Definition run_call (eig : mat3 -> vec3 * mat3) (sd : list vec3 -> list tri -> vec3 -> R) (c : call) (e : engine) : outcome :=
  match c with
  | CreateBody n => create_rigid_body e n | CreateHinge n => create_hinge e n
  | SetHinge h p c o s m => set_hinge e h p c o s m
  | CreateShape n V T f => fst (create_shape eig sd e n V T f) | ConnectShape b s => connect_shape e b s
  | CreateGravity n g up => create_gravity_force e n g up | CreateDamping n a b => create_damping_force e n a b
  | ConnectForce b f => connect_force e b f
  | SetPosition b r m => set_position e b r m | SetOrientation b q m => set_orientation e b q m
  | SetVelocity b v => set_velocity e b v | SetSpin b w => set_spin e b w
  | SetMass b d => set_mass_properties e b d | SetType b t => set_body_type e b t | SetMaterial b m => set_body_material e b m
  | CreateInteraction A B eps mu => create_surfaces_interaction e A B eps mu
  end.
