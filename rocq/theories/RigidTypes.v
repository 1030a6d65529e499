(** Model of rainbow/simulators/prox_rigid_bodies/types.py.

    Strings are lists of Unicode code points, so that Python's [<] on strings is the
    lexicographic order below.  A dictionary keyed by names is the list of its values in
    insertion order; the key of a value is its own [name] field (types.py and api.py never
    rename an object and never delete a key).  A reference to a body is its name; a
    reference to a shape or to a force is the (immutable) value itself: api.py never
    changes a shape or a force after creating it. *)
From Verif Require Import Base QuatModel VecModel BvhModel GridModel VolModel.
Open Scope R_scope.

Definition name := list nat.
Fixpoint name_eqb (a b : name) : bool :=
  match a, b with
  | [], [] => true
  | x :: a', y :: b' => Nat.eqb x y && name_eqb a' b'
  | _, _ => false
  end.
(** Python [a < b] on strings *)
Fixpoint name_ltb (a b : name) : bool :=
  match a, b with
  | [], [] => false
  | [], _ :: _ => true
  | _ :: _, [] => false
  | x :: a', y :: b' => Nat.ltb x y || (Nat.eqb x y && name_ltb a' b')
  end.
(** the string "default" *)
Definition default_name : name := [100; 101; 102; 97; 117; 108; 116]%nat.

(** types.py:20-30 [SurfacesInteraction] *)
Record interaction := mkInter { i_mu : vec3; i_eps : R }.
Definition interaction_init : interaction := mkInter (mkV 1 1 1) 0.
(** types.py:33-40 [SurfacesInteractionLibrary.__init__]: a dictionary with pairs as keys *)
Definition library := list ((name * name) * interaction).
Definition library_init : library := [((default_name, default_name), interaction_init)].
Definition key_eqb (a b : name * name) : bool := name_eqb (fst a) (fst b) && name_eqb (snd a) (snd b).
Fixpoint lib_get (L : library) (k : name * name) : option interaction :=
  match L with [] => None | (k', i) :: t => if key_eqb k' k then Some i else lib_get t k end.
Fixpoint lib_set (L : library) (k : name * name) (i : interaction) : library :=
  match L with [] => [(k, i)] | (k', i') :: t => if key_eqb k' k then (k', i) :: t else (k', i') :: lib_set t k i end.
(** types.py:50, 63 : key = (A, B) if A < B else (B, A) *)
Definition pair_key (A B : name) : name * name := if name_ltb A B then (A, B) else (B, A).
(** types.py:42-53 [get_interaction]; [None] = KeyError *)
Definition get_interaction (L : library) (A B : name) : option interaction :=
  match lib_get L (pair_key A B) with Some i => Some i | None => lib_get L (default_name, default_name) end.
(** types.py:55-66 [exist_interaction] *)
Definition exist_interaction (L : library) (A B : name) : bool :=
  match lib_get L (pair_key A B) with Some _ => true | None => false end.
(** types.py:68-79 [exist_material] *)
Definition exist_material (L : library) (m : name) : bool :=
  existsb (fun e => name_eqb m (fst (fst e)) || name_eqb m (snd (fst e))) L.

(** types.py:82-108 [Shape] *)
Record shape := mkShape { sh_name : name; sh_V : list vec3; sh_T : list tri; sh_grid : grid;
                          sh_mass : R; sh_inertia : vec3; sh_r : vec3; sh_q : quat }.
Definition tri_list (t : tri) : list Z := let '(i, j, k) := t in [i; j; k].

(** types.py:189-221 [Gravity], 224-256 [Damping] *)
Inductive force := Gravity (nm : name) (g : R) (up : vec3) | Damping (nm : name) (alpha beta : R).
Definition force_name (f : force) : name := match f with Gravity n _ _ => n | Damping n _ _ => n end.

(** types.py:111-152 [RigidBody] *)
Record body := mkBody {
  b_name : name; b_idx : nat; b_q : quat; b_r : vec3; b_v : vec3; b_w : vec3;
  b_mass : R; b_inertia : vec3; b_shape : option shape; b_fixed : bool;
  b_forces : list force; b_material : name; b_bvh : option tree }.
Definition body_init (nm : name) (idx : nat) : body :=
  mkBody nm idx q_identity vzero vzero vzero 0 vzero None false [] default_name None.

(** types.py:204-221, 239-256 [compute]: force and torque *)
Definition force_compute (f : force) (mass : R) (v w : vec3) : vec3 * vec3 :=
  match f with
  | Gravity _ g up => (vscale (- mass * g) up, vzero)
  | Damping _ alpha beta => (vscale alpha (vopp v), vscale beta (vopp w))
  end.

(** types.py:259-301 [ContactPoint]; [None] = RuntimeError *)
Record contact := mkContact { c_A : name; c_B : name; c_p : vec3; c_n : vec3; c_g : R }.
Definition make_contact (A B : name) (p n : vec3) (g : R) : option contact :=
  if Rltb (1 / 10) (Rabs (1 - vnorm n)) then None else Some (mkContact A B p n g).

(** types.py:304-353 [Hinge]: the part of a hinge set by set_parent_socket / set_child_socket
    is one option, since set_hinge is the only caller and sets both.  [sk_body] is the link,
    [sk_frame] the joint frame, arm = sk_frame.r, axis = rotate(sk_frame.q, k). *)
Record socket := mkSocket { sk_body : name; sk_frame : coordsys }.
Record hinge := mkHinge { h_name : name; h_idx : nat; h_sockets : option (socket * socket) }.
Definition sk_arm (s : socket) : vec3 := xr (sk_frame s).
Definition sk_axis (s : socket) : vec3 := q_rotate (xq (sk_frame s)) v3_k.

(** types.py:356-418 [Parameters] (the solver tolerances are [sparams], see StepModel.v) *)
Record params := mkParams {
  p_time_step : R; p_max_iterations : nat; p_use_bounce : bool; p_use_pre : bool; p_use_post : bool;
  p_gap_reduction : R; p_min_gap : R; p_max_gap : R; p_abs_tol : R; p_rel_tol : R;
  p_nu_reduce : R; p_nu_increase : R; p_small_merit : R;
  p_opt_iterations : nat; p_opt_tol : R; p_chunk : Z; p_K : nat; p_envelope : R; p_resolution : Z }.
Definition params_init : params :=
  mkParams (1/100) 200 false false false (1/2) (1/1000) (1/100) (1/1000) (1/10000)
           (7/10) (13/10) (1/100) 8 0 255 3 (1/10) 64.

(** types.py:421-445 [Engine] *)
Record engine := mkEngine {
  e_bodies : list body; e_forces : list force; e_shapes : list shape; e_hinges : list hinge;
  e_contacts : list contact; e_lib : library; e_params : params; e_stepper : bool }.
(** api.py:42-53 [create_engine]: Engine() with a stepper *)
Definition create_engine : engine := mkEngine [] [] [] [] [] library_init params_init true.

(** dictionary look-ups: [name in engine.bodies] / engine.bodies[name] *)
Definition find_body (e : engine) (n : name) : option body := find (fun b => name_eqb (b_name b) n) (e_bodies e).
Definition find_force (e : engine) (n : name) : option force := find (fun f => name_eqb (force_name f) n) (e_forces e).
Definition find_shape (e : engine) (n : name) : option shape := find (fun s => name_eqb (sh_name s) n) (e_shapes e).
Definition find_hinge (e : engine) (n : name) : option hinge := find (fun h => name_eqb (h_name h) n) (e_hinges e).

Definition set_bodies (e : engine) (bs : list body) : engine :=
  mkEngine bs (e_forces e) (e_shapes e) (e_hinges e) (e_contacts e) (e_lib e) (e_params e) (e_stepper e).
Definition set_contacts (e : engine) (cs : list contact) : engine :=
  mkEngine (e_bodies e) (e_forces e) (e_shapes e) (e_hinges e) cs (e_lib e) (e_params e) (e_stepper e).
(** an assignment to attributes of the body called [n]: the object is changed in place *)
Definition upd_body (e : engine) (n : name) (f : body -> body) : engine :=
  set_bodies e (map (fun b => if name_eqb (b_name b) n then f b else b) (e_bodies e)).
Definition with_pose (b : body) (r : vec3) (q : quat) : body :=
  mkBody (b_name b) (b_idx b) q r (b_v b) (b_w b) (b_mass b) (b_inertia b) (b_shape b) (b_fixed b) (b_forces b) (b_material b) (b_bvh b).
Definition with_vel (b : body) (v w : vec3) : body :=
  mkBody (b_name b) (b_idx b) (b_q b) (b_r b) v w (b_mass b) (b_inertia b) (b_shape b) (b_fixed b) (b_forces b) (b_material b) (b_bvh b).
Definition with_mass (b : body) (m : R) (i : vec3) : body :=
  mkBody (b_name b) (b_idx b) (b_q b) (b_r b) (b_v b) (b_w b) m i (b_shape b) (b_fixed b) (b_forces b) (b_material b) (b_bvh b).
Definition with_fixed (b : body) (x : bool) : body :=
  mkBody (b_name b) (b_idx b) (b_q b) (b_r b) (b_v b) (b_w b) (b_mass b) (b_inertia b) (b_shape b) x (b_forces b) (b_material b) (b_bvh b).
Definition with_forces (b : body) (x : list force) : body :=
  mkBody (b_name b) (b_idx b) (b_q b) (b_r b) (b_v b) (b_w b) (b_mass b) (b_inertia b) (b_shape b) (b_fixed b) x (b_material b) (b_bvh b).
Definition with_material (b : body) (x : name) : body :=
  mkBody (b_name b) (b_idx b) (b_q b) (b_r b) (b_v b) (b_w b) (b_mass b) (b_inertia b) (b_shape b) (b_fixed b) (b_forces b) x (b_bvh b).
Definition with_shape (b : body) (s : shape) (t : option tree) : body :=
  mkBody (b_name b) (b_idx b) (b_q b) (b_r b) (b_v b) (b_w b) (b_mass b) (b_inertia b) (Some s) (b_fixed b) (b_forces b) (b_material b) t.
Definition with_bvh (b : body) (t : tree) : body :=
  mkBody (b_name b) (b_idx b) (b_q b) (b_r b) (b_v b) (b_w b) (b_mass b) (b_inertia b) (b_shape b) (b_fixed b) (b_forces b) (b_material b) (Some t).
