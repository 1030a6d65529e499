(** Vocabulary for the statements about the soft-body engine. *)
From Verif Require Import Base VecModel ProxModel SolverModel RigidTypes StepModel MechModel FemModel FemSpec SoftModel.
Open Scope R_scope.

(** the completely created bodies own consecutive blocks of the nodes start, ..., N-1 *)
Fixpoint layout (bs : list sbody) (start N : nat) : Prop :=
  match bs with
  | [] => start = N
  | b :: r => if ready b then s_offset b = start /\ layout r (start + s_n b) N else layout r start N
  end.
(** one body: its data are those of its rest mesh *)
Record body_ok (b : sbody) : Prop := mkBodyOk {
  bo_mesh : valid_mesh (s_n b) (s_T b);
  bo_vol : s_vol0 b = map (elem_volume (s_x0 b)) (s_T b);
  bo_grad : s_gradN0 b = compute_outward_face_vectors (s_x0 b) (s_T b);
  bo_inv : ready b = true -> compute_inverse_D0 (s_x0 b) (s_T b) = Some (s_invD0 b);
  bo_dir : Forall (fun d => (d_idx d < s_n b)%nat /\ d_value d = s_x0 b (d_idx d)) (s_dirichlet b);
  bo_surface : Forall (fun t => let '(i, j, k) := t in (i < s_n b /\ j < s_n b /\ k < s_n b)%nat) (s_surface b);
  bo_trac : Forall (fun t => (tr_i t < s_n b /\ tr_j t < s_n b /\ tr_k t < s_n b)%nat) (s_traction b);
  bo_lumped : s_lumped b = true;
  bo_M : forall M, s_M b = Some M -> exists rho, 0 <= rho /\ M = compute_mass_element_array rho (s_vol0 b) (s_lumped b);
  bo_C : forall C, s_C b = Some C -> exists c, 0 <= c /\ C = compute_damping_element_array c (s_vol0 b) (s_lumped b) }.
(** a well-formed engine *)
Record soft_ok (e : sengine) : Prop := mkSoftOk {
  so_names : NoDup (map s_name (sg_bodies e));
  so_layout : layout (sg_bodies e) 0 (sg_N e);
  so_bodies : Forall body_ok (sg_bodies e);
  so_material : forall b n, In b (sg_bodies e) -> s_material b = Some n -> find_material (sg_materials e) n <> None;
  so_constants : forall n m, find_material (sg_materials e) n = Some m -> 0 <= sm_rho m /\ 0 <= sm_c m }.

(** W is the inverse of the n-by-n matrix M *)
Definition delta (i j : nat) : R := if Nat.eqb i j then 1 else 0.
Definition is_inverse (n : nat) (M W : mat) : Prop :=
  forall i j, (i < n)%nat -> (j < n)%nat -> rsum n (fun k => M i k * W k j) = delta i j /\ rsum n (fun k => W i k * M k j) = delta i j.
(** sparse.linalg.inv keeps its promise *)
Definition inv_correct (inv : nat -> mat -> option mat) : Prop := forall n M W, inv n M = Some W -> is_inverse n M W.

(** everything that can happen to an engine: calls of the interface (whether they return or raise), changes of the
    parameters, and time steps (whether they return or raise) *)
Inductive soft_reach (eigh : mat3 -> vec3 * mat3) (axis : list vec3 -> option vec3) : sengine -> Prop :=
| reach_init : soft_reach eigh axis (soft_engine_init eigh)
| reach_call e c e' : soft_reach eigh axis e -> srun eigh axis c e = SDone e' \/ srun eigh axis c e = SRaised e' -> soft_reach eigh axis e'
| reach_params e P : soft_reach eigh axis e -> soft_reach eigh axis (mkSE (sg_materials e) (sg_lib e) P (sg_bodies e) (sg_contacts e) (sg_N e) (sg_stepper e))
| reach_stepper inv e W : soft_reach eigh axis e -> sg_stepper e = None -> soft_inverse_mass_matrix inv e = Some W -> soft_reach eigh axis (sg_with_stepper e W)
| reach_step cd sv dt e e' : soft_reach eigh axis e -> soft_step cd sv dt e = SDone e' \/ soft_step cd sv dt e = SRaised e' -> soft_reach eigh axis e'.

(** the momentum of a body, M u summed over its nodes; nodal velocities u *)
Definition body_momentum (b : sbody) (u : field) : vec3 :=
  match s_M b with Some M => vtotal (s_n b) (prod_mat_vec (s_T b) M u) | None => vzero end.
Fixpoint vsum_over {A} (f : A -> vec3) (l : list A) : vec3 := match l with [] => vzero | a :: r => vadd (f a) (vsum_over f r) end.
(** the point of a tetrahedron with barycentric coordinates w, for nodal values x (positions or velocities) *)
Definition interpolate (x : field) (t : elem) (w : R * R * R * R) : vec3 :=
  vadd (vadd (vadd (vscale (w4 w 0) (x (node t 0%nat))) (vscale (w4 w 1) (x (node t 1%nat)))) (vscale (w4 w 2) (x (node t 2%nat)))) (vscale (w4 w 3) (x (node t 3%nat))).
(** the impulse of contact k: the multipliers of the solver along the contact normal and the two tangents *)
Definition contact_impulse (sol : vec) (k : nat) (cp : scontact) : vec3 :=
  match make_orthonormal_vectors (sc_n cp) with
  | Some (vs, vt, vn) => vadd (vadd (vscale (sol (4 * k)%nat) vn) (vscale (sol (4 * k + 1)%nat) vs)) (vscale (sol (4 * k + 2)%nat) vt)
  | None => vzero
  end.
Definition wsum (w : R * R * R * R) : R := w4 w 0 + w4 w 1 + w4 w 2 + w4 w 3.
(** the sum over all contacts, numbered from 0 *)
Definition over_contacts (cs : list scontact) (f : nat -> scontact -> vec3) : vec3 :=
  vtotal (length cs) (fun k => match nth_error cs k with Some cp => f k cp | None => vzero end).
(** the part of a body in a contact point: the sum of its barycentric weights if the body is the named one *)
Definition part (bs : list sbody) (b : sbody) (idx : nat) (w : R * R * R * R) : R :=
  match nth_error bs idx with Some c => if name_eqb (s_name c) (s_name b) then wsum w else 0 | None => 0 end.
(** the net impulse on body b: + on the second body of a contact, - on the first *)
Definition net_impulse (bs : list sbody) (b : sbody) (cs : list scontact) (sol : vec) : vec3 :=
  over_contacts cs (fun k cp => vscale (part bs b (sc_B cp) (sc_wB cp) - part bs b (sc_A cp) (sc_wA cp)) (contact_impulse sol k cp)).
(** the point of body number idx at which a contact acts *)
Definition contact_point (bs : list sbody) (f : sbody -> field) (idx tet : nat) (w : R * R * R * R) : option vec3 :=
  match nth_error bs idx with Some b => match nth_error (s_T b) tet with Some t => Some (interpolate (f b) t w) | None => None end | None => None end.
(** [sol] is what the contact solver answered for the contacts cs of the engine: it was given the Jacobian, its product with the
    inverse mass matrix, the relative contact velocities J u' of velocities u' and the friction coefficients *)
Definition solver_answer (sv : ssolver) (e : sengine) (cs : list scontact) (u' sol : vec) : Prop :=
  let n := (3 * sg_N e)%nat in
  cs = [] \/ exists J W mu, soft_jacobian (sg_with_contacts e cs) = Some J /\ sg_stepper e = Some (n, W) /\ soft_friction (sg_with_contacts e cs) = Some mu /\
    sv (length cs) n J (mat_WJT n W J) (mdotv n J u') mu prox_sphere = Some sol.
(** angular momentum about the origin *)
Definition body_angular_momentum (b : sbody) (x u : field) : vec3 :=
  match s_M b with Some M => torque (s_n b) x (prod_mat_vec (s_T b) M u) | None => vzero end.
(** the external forces on the nodes of a body *)
Definition applied_forces (e : sengine) (b : sbody) : field := fun i =>
  vadd (vadd (match material_of e b with Some m => compute_gravity_forces (s_T b) (s_vol0 b) (sm_rho m) (s_gravity b) i | None => vzero end) (compute_traction_forces (s_x b) (s_traction b) i))
       (match s_C b with Some C => compute_damping_forces (s_T b) C (s_u b) i | None => vzero end).
(** an isolated world: no gravity, no tractions, no viscosity *)
Definition isolated (e : sengine) : Prop := forall b, In b (sg_bodies e) ->
  s_gravity b = vzero /\ s_traction b = [] /\ (forall C, s_C b = Some C -> C = compute_damping_element_array 0 (s_vol0 b) (s_lumped b)).
(** the stepper holds the inverse of the current mass matrix (as it does after the first simulate, C112_fresh) *)
Definition stepper_fresh (e : sengine) : Prop := exists M W, soft_mass_matrix e = Some M /\ sg_stepper e = Some ((3 * sg_N e)%nat, W) /\ is_inverse (3 * sg_N e) M W.
(** everything that can happen to an engine from some point on *)
Inductive soft_future (eigh : mat3 -> vec3 * mat3) (axis : list vec3 -> option vec3) (e0 : sengine) : sengine -> Prop :=
| future_now : soft_future eigh axis e0 e0
| future_call e c e' : soft_future eigh axis e0 e -> srun eigh axis c e = SDone e' \/ srun eigh axis c e = SRaised e' -> soft_future eigh axis e0 e'
| future_params e P : soft_future eigh axis e0 e -> soft_future eigh axis e0 (mkSE (sg_materials e) (sg_lib e) P (sg_bodies e) (sg_contacts e) (sg_N e) (sg_stepper e))
| future_simulate inv cd sv fuel T e e' : soft_future eigh axis e0 e -> (exists dts, soft_simulate inv cd sv fuel T e = SimEnd e' dts) \/ soft_simulate inv cd sv fuel T e = SimRaised e' -> soft_future eigh axis e0 e'.
(** where a step starts from: the Dirichlet nodes are put back to their rest positions *)
Definition pinned (b : sbody) (i : nat) : Prop := exists d, In d (s_dirichlet b) /\ d_idx d = i.
Definition start_position (b : sbody) : field := fun i => if existsb (fun d => Nat.eqb (d_idx d) i) (s_dirichlet b) then s_x0 b i else s_x b i.
(** what a step needs from the bodies *)
Definition steppable (e : sengine) : Prop := forall b, In b (sg_bodies e) -> s_stage b = Complete /\ s_C b <> None /\ Forall (fun t => 0 < elem_volume (start_position b) t) (s_T b) /\
  exists m lam mu, material_of e b = Some m /\ first_lame (sm_E m) (sm_nu m) = Some lam /\ second_lame (sm_E m) (sm_nu m) = Some mu /\ forall F, pk1_stress (sm_model m) F lam mu <> None.
(** what a step needs from the contacts *)
Definition contacts_fine (e : sengine) (cs : list scontact) : Prop := forall cp, In cp cs -> exists A B tA tB ma mb,
  nth_error (sg_bodies e) (sc_A cp) = Some A /\ nth_error (sg_bodies e) (sc_B cp) = Some B /\ nth_error (s_T A) (sc_tetA cp) = Some tA /\ nth_error (s_T B) (sc_tetB cp) = Some tB /\
  make_orthonormal_vectors (sc_n cp) <> None /\ s_material A = Some ma /\ s_material B = Some mb /\ soft_get_interaction (sg_lib e) ma mb <> None.
