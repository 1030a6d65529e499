(** Vocabulary for the properties of the rigid body interface: histories of calls, well-formed engines, frames. *)
From Verif Require Import Base QuatModel VecModel BvhModel GridModel VolModel RigidTypes CollModel MassModel MassSpec StepModel ApiModel ConSpec.
Open Scope R_scope.

(** np.linalg.eig gives an orthonormal eigenbasis of the inertia tensor it is asked about when a shape is made of this mesh *)
Definition eig_good (eig : mat3 -> vec3 * mat3) (V : list vec3) (T : list tri) : Prop :=
  forall p, compute_mass_properties V T 1 = Some p ->
  let A := inertia_matrix (snd (translate_to_body p)) in eigen_basis A (eig A).
(** the only calls about which something is assumed *)
Definition call_fine (eig : mat3 -> vec3 * mat3) (c : call) : Prop :=
  match c with CreateShape _ V T _ => eig_good eig V T | _ => True end.
(** engines that a program can see: a new engine, an assignment to engine.params, a call that returned, a call that raised,
    a time step; [ok] restricts the parameters the program uses *)
Inductive reach (eig : mat3 -> vec3 * mat3) (sd : list vec3 -> list tri -> vec3 -> R) (ok : params -> Prop) : engine -> Prop :=
| reach_new : ok params_init -> reach eig sd ok create_engine
| reach_params : forall P e, ok P -> reach eig sd ok e -> reach eig sd ok (set_params e P)
| reach_done : forall c e e', reach eig sd ok e -> call_fine eig c -> run_call eig sd c e = Done e' -> reach eig sd ok e'
| reach_raised : forall c e e', reach eig sd ok e -> call_fine eig c -> run_call eig sd c e = Raised e' -> reach eig sd ok e'
| reach_step : forall dt e e', reach eig sd ok e -> step dt e = Some e' -> reach eig sd ok e'.

(** names are unique, indices are positions *)
Definition unique_names (e : engine) : Prop :=
  NoDup (map b_name (e_bodies e)) /\ NoDup (map force_name (e_forces e)) /\ NoDup (map sh_name (e_shapes e)) /\ NoDup (map h_name (e_hinges e)).
Definition body_sound (e : engine) (b : body) : Prop :=
  is_unit (b_q b) /\
  (forall s, b_shape b = Some s -> In s (e_shapes e)) /\
  NoDup (map force_name (b_forces b)) /\ (forall f, In f (b_forces b) -> In f (e_forces e)) /\
  exist_material (e_lib e) (b_material b) = true.
Definition hinge_sound (e : engine) (h : hinge) : Prop :=
  forall sp sc, h_sockets h = Some (sp, sc) ->
    In (sk_body sp) (map b_name (e_bodies e)) /\ In (sk_body sc) (map b_name (e_bodies e)) /\
    is_unit (xq (sk_frame sp)) /\ is_unit (xq (sk_frame sc)).
Definition interaction_sound (i : interaction) : Prop := 0 <= i_eps i /\ 0 <= vx (i_mu i) /\ 0 <= vy (i_mu i) /\ 0 <= vz (i_mu i).
Definition library_sound (L : library) : Prop :=
  NoDup (map fst L) /\ Forall (fun e => name_ltb (snd (fst e)) (fst (fst e)) = false /\ interaction_sound (snd e)) L /\
  lib_get L (default_name, default_name) <> None.
Definition force_sound (f : force) : Prop :=
  match f with Gravity _ g up => 0 < g /\ vnorm up = 1 | Damping _ alpha beta => 0 < alpha /\ 0 < beta end.
Definition well_formed (e : engine) : Prop :=
  unique_names e /\ bodies_indexed e /\ hinges_indexed e /\
  Forall (body_sound e) (e_bodies e) /\ Forall (hinge_sound e) (e_hinges e) /\ Forall force_sound (e_forces e) /\
  Forall (fun s => is_unit (sh_q s)) (e_shapes e) /\ library_sound (e_lib e) /\ e_stepper e = true.

(** a point of the model frame (the frame in which the user made the mesh), in the world *)
Definition model_to_world (b : body) (s : shape) (p : vec3) : vec3 :=
  vadd (q_rotate (b_q b) (q_rotate (q_conj (sh_q s)) (vsub p (sh_r s)))) (b_r b).
(** a point of the body frame, in the world *)
Definition body_to_world (b : body) (p : vec3) : vec3 := vadd (q_rotate (b_q b) p) (b_r b).
(** everything but the body called n is as before, and the body called n differs from before by f *)
Definition only_body (e e' : engine) (n : name) (f : body -> body) : Prop :=
  (forall m, m <> n -> find_body e' m = find_body e m) /\ find_body e' n = option_map f (find_body e n) /\
  map b_name (e_bodies e') = map b_name (e_bodies e) /\
  e_forces e' = e_forces e /\ e_shapes e' = e_shapes e /\ e_hinges e' = e_hinges e /\ e_contacts e' = e_contacts e /\
  e_lib e' = e_lib e /\ e_params e' = e_params e /\ e_stepper e' = e_stepper e.

(** one event after another: the engines a program can see later *)
Inductive later (eig : mat3 -> vec3 * mat3) (sd : list vec3 -> list tri -> vec3 -> R) (ok : params -> Prop) (e : engine) : engine -> Prop :=
| later_here : later eig sd ok e e
| later_params : forall P e1, ok P -> later eig sd ok e e1 -> later eig sd ok e (set_params e1 P)
| later_done : forall c e1 e2, later eig sd ok e e1 -> call_fine eig c -> run_call eig sd c e1 = Done e2 -> later eig sd ok e e2
| later_raised : forall c e1 e2, later eig sd ok e e1 -> call_fine eig c -> run_call eig sd c e1 = Raised e2 -> later eig sd ok e e2
| later_step : forall dt e1 e2, later eig sd ok e e1 -> step dt e1 = Some e2 -> later eig sd ok e e2.
(** a sequence of calls, each of which returns or raises an exception that the program catches *)
Inductive history (eig : mat3 -> vec3 * mat3) (sd : list vec3 -> list tri -> vec3 -> R) : list call -> engine -> engine -> Prop :=
| history_nil : forall e, history eig sd [] e e
| history_done : forall c cs e e1 e2, run_call eig sd c e = Done e1 -> history eig sd cs e1 e2 -> history eig sd (c :: cs) e e2
| history_raised : forall c cs e e1 e2, run_call eig sd c e = Raised e1 -> history eig sd cs e1 e2 -> history eig sd (c :: cs) e e2.
(** the calls that set a position, an orientation, ... of the body called n *)
Definition sets_position (n : name) (c : call) : Prop :=
  match c with SetPosition b _ _ => b = n | SetOrientation b _ model => b = n /\ model = true | _ => False end.
Definition sets_orientation (n : name) (c : call) : Prop := match c with SetOrientation b _ _ => b = n | _ => False end.
Definition sets_velocity (n : name) (c : call) : Prop := match c with SetVelocity b _ => b = n | _ => False end.
Definition sets_spin (n : name) (c : call) : Prop := match c with SetSpin b _ => b = n | _ => False end.
Definition sets_type (n : name) (c : call) : Prop := match c with SetType b _ => b = n | _ => False end.

(** the world origin and axis that a set_hinge call asks for *)
Definition requested (mode : hinge_mode) (P : body) (origin axis o a : vec3) : Prop :=
  match mode with
  | World => o = origin /\ a = axis
  | Body => o = body_to_world P origin /\ a = vsub (body_to_world P axis) (body_to_world P vzero)
  | Model => exists s, b_shape P = Some s /\ o = model_to_world P s origin /\ a = vsub (model_to_world P s axis) (model_to_world P s vzero)
  | OtherMode => False
  end.

(** the parameters the set-up calls depend on: the default number of k-DOP directions, a chunk size of at least one, a positive envelope *)
Definition sane_params (P : params) : Prop := p_K P = p_K params_init /\ (1 <= p_chunk P)%Z /\ 0 < p_envelope P.
(** no coordinate of the lower corner of the shape's distance grid is zero *)
Definition corner_nonzero (s : shape) : Prop := vx (g_min (sh_grid s)) <> 0 /\ vy (g_min (sh_grid s)) <> 0 /\ vz (g_min (sh_grid s)) <> 0.
(** what the user must have done before simulating: every body has a shape and, unless it is fixed, a mass and an inertia;
    every hinge has been set *)
Definition set_up (e : engine) : Prop :=
  (forall b, In b (e_bodies e) -> exists s, b_shape b = Some s /\ corner_nonzero s) /\
  (forall b, In b (e_bodies e) -> b_fixed b = false -> b_mass b <> 0 /\ vx (b_inertia b) <> 0 /\ vy (b_inertia b) <> 0 /\ vz (b_inertia b) <> 0) /\
  (forall h, In h (e_hinges e) -> h_sockets h <> None).
