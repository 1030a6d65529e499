(** What a user must have set up before simulating: conditions under which no step raises. *)
From Verif Require Import Base QuatModel QuatProofs VecModel BvhModel BvhSpec GridModel VolModel RigidTypes Prop_Grid.
Open Scope R_scope.

(** a signed distance grid with a value at every node, in a box of positive extent none of whose
    lower bounds is 0 (get_gradient divides by the lower corner, see C26) *)
Definition grid_ready (g : grid) : Prop :=
  exists lo hi I J K v, grid_of lo hi I J K g /\ node_values g v /\ vx lo <> 0 /\ vy lo <> 0 /\ vz lo <> 0.
(** a body with a shape whose triangles name existing vertices, with a grid, and with a bounding
    volume hierarchy over that mesh, built and refitted with K directions; if it is free, its mass
    and inertia are not zero; its orientation is a unit quaternion *)
Definition body_ready (K : nat) (b : body) : Prop :=
  (exists s tr N X env, b_shape b = Some s /\ valid_mesh (sh_V s) (map tri_list (sh_T s)) /\ grid_ready (sh_grid s) /\
     b_bvh b = Some tr /\ (1 <= N)%Z /\ bvh_reach (map tri_list (sh_T s)) K N tr X env) /\
  is_unit (b_q b) /\
  (b_fixed b = false -> b_mass b <> 0 /\ vx (b_inertia b) <> 0 /\ vy (b_inertia b) <> 0 /\ vz (b_inertia b) <> 0).
(** a hinge whose two sockets have been set on bodies of the engine *)
Definition hinge_ready (e : engine) (h : hinge) : Prop :=
  exists sp sc, h_sockets h = Some (sp, sc) /\ is_unit (xq (sk_frame sp)) /\
    In (sk_body sp) (map b_name (e_bodies e)) /\ In (sk_body sc) (map b_name (e_bodies e)).
Definition engine_ready (e : engine) : Prop :=
  supported_K (p_K (e_params e)) /\
  Forall (body_ready (p_K (e_params e))) (e_bodies e) /\
  Forall (hinge_ready e) (e_hinges e) /\
  lib_get (e_lib e) (default_name, default_name) <> None.
