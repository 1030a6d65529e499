(** Vocabulary for the scene builders: what a body looks like in the world, what a builder adds to an engine. *)
From Verif Require Import Base QuatModel VecModel BvhModel GridModel VolModel RigidTypes CollModel MassModel MassSpec StepModel ApiModel ApiSpec ConSpec.
From Verif Require SurfModel.
From Coq Require Import Permutation.
Open Scope R_scope.

(** the point p of a model that has been turned by q and then moved by r *)
Definition at_pose (r : vec3) (q : quat) (p : vec3) : vec3 := vadd (q_rotate q p) r.
(** the corners of the triangles of a mesh, in order *)
Definition corners (V : list vec3) (T : list tri) : list (list (option vec3)) := map (map (py_get V)) (map tri_list T).
(** the vertices of the body called n, in the world *)
Definition world_mesh (e : engine) (n : name) (W : list vec3) (T : list tri) : Prop :=
  exists b s, find_body e n = Some b /\ b_shape b = Some s /\ W = map (body_to_world b) (sh_V s) /\ T = sh_T s.
(** the body called n is the given mesh, turned by q and moved by r: the same vertices and the same oriented triangles, in another order *)
Definition stands (e : engine) (n : name) (VT : list vec3 * list tri) (r : vec3) (q : quat) : Prop :=
  exists W T, world_mesh e n W T /\ Permutation (map (at_pose r q) (fst VT)) W /\
    Permutation (corners (map (at_pose r q) (fst VT)) (snd VT)) (corners W T).
(** the convex hull of a set of points *)
Definition in_hull (V : list vec3) (p : vec3) : Prop := forall n c, (forall v, In v V -> vdot n v <= c) -> vdot n p <= c.
(** the point p of the world belongs to the (convex) body called n *)
Definition occupies (e : engine) (n : name) (p : vec3) : Prop := exists W T, world_mesh e n W T /\ in_hull W p.
(** the body called n is at rest, without forces, fixed or not, of the given material and mass *)
Definition at_rest (e : engine) (n : name) (fixed : bool) (material : name) (mass : R) : Prop :=
  exists b, find_body e n = Some b /\ b_fixed b = fixed /\ b_material b = material /\ b_mass b = mass /\
    b_v b = vzero /\ b_w b = vzero /\ b_forces b = [].
(** the names that api.generate_unique_name returns are new and different from one another *)
Definition new_names (e : engine) (fresh : nat -> name) : Prop :=
  (forall i j, fresh i = fresh j -> i = j) /\
  (forall i, ~ In (fresh i) (map b_name (e_bodies e)) /\ ~ In (fresh i) (map sh_name (e_shapes e))).
(** exactly the bodies called [names] have been added; the other bodies, the shapes, forces, hinges, materials and parameters are as before *)
Definition adds (e e' : engine) (names : list name) : Prop :=
  map b_name (e_bodies e') = map b_name (e_bodies e) ++ names /\
  (forall m, In m (map b_name (e_bodies e)) -> find_body e' m = find_body e m) /\
  (forall m, In m (map sh_name (e_shapes e)) -> find_shape e' m = find_shape e m) /\
  e_forces e' = e_forces e /\ e_contacts e' = e_contacts e /\ e_lib e' = e_lib e /\ e_params e' = e_params e /\ e_stepper e' = e_stepper e.
(** the bodies called [names] and the new shapes are called by names that api.generate_unique_name has returned *)
Definition names_from (fresh : nat -> name) (e e' : engine) (names : list name) : Prop :=
  (forall n, In n names -> exists i, n = fresh i) /\
  (forall m, In m (map sh_name (e_shapes e')) -> In m (map sh_name (e_shapes e)) \/ exists i, m = fresh i).
(** np.linalg.eig gives an orthonormal basis of eigenvectors of every diagonal matrix *)
Definition eig_diagonal (eig : mat3 -> vec3 * mat3) : Prop := forall d, eigen_basis (mdiag d) (eig (mdiag d)).
(** the variance of a cloud of points along the direction u *)
Definition variance_along (P : list vec3) (u : vec3) : R :=
  fold_right Rplus 0 (map (fun p => vdot u (vsub p (SurfModel.vmean P)) * vdot u (vsub p (SurfModel.vmean P))) P) / (INR (length P) - 1).
