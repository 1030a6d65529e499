(** Vocabulary for read_urdf: what a URDF document says, read off its tags. *)
From Verif Require Import Base QuatModel VecModel VolModel RigidTypes UrdfModel.
Open Scope R_scope.

(** three numbers of an attribute; zeros when it is missing *)
Inductive numbers : option (list R) -> vec3 -> Prop :=
| numbers_none : numbers None vzero
| numbers_some : forall a b c t, numbers (Some (a :: b :: c :: t)) (mkV a b c).
(** a rigid motion *)
Definition motion := vec3 -> vec3.
(** an <origin> tag: turn around x by roll, then around y by pitch, then around z by yaw, then translate; the identity when missing *)
Definition origin_is (o : option frame_tag) (f : motion) : Prop :=
  match o with
  | None => forall p, f p = p
  | Some t => exists rpy xyz, numbers (f_rpy t) rpy /\ numbers (f_xyz t) xyz /\
      forall p, f p = vadd (mvec (m3_Rz (vz rpy)) (mvec (m3_Ry (vy rpy)) (mvec (m3_Rx (vx rpy)) p))) xyz
  end.
(** an <axis> tag: the direction of the joint in the joint frame, the x axis when missing *)
Definition axis_is (o : option frame_tag) (a : vec3) : Prop :=
  match o with None => a = mkV 1 0 0 | Some t => numbers (f_xyz t) a end.
(** the link has a collision mesh that the reader can read: its vertices and triangles, and the motion from mesh to link *)
Definition has_mesh (l : link_tag) (scale : option (list R)) (V : list vec3) (T : list tri) (C : motion) : Prop :=
  exists g rest, l_collision l = Some g /\ g_shapes g = Some (MeshTag true scale V T :: rest) /\ origin_is (g_origin g) C.
Definition is_body (l : link_tag) : Prop := exists s V T C, has_mesh l s V T C.
(** the motion from the inertial frame of the link (its centre of mass and principal axes) to the link *)
Definition inertial_is (l : link_tag) (B : motion) : Prop := exists i, l_inertial l = Some i /\ origin_is (in_origin i) B.
(** the joints the reader understands *)
Definition is_hinge (j : joint_tag) : Prop := j_type j = revolute.
Definition hinge_children (js : list joint_tag) : list name := map j_child (filter (fun j => name_eqb (j_type j) revolute) js).
(** the frame of a link in the rest pose, with respect to the link called root: every joint places its child relative to its parent *)
Inductive link_frame (js : list joint_tag) (root : name) : name -> motion -> Prop :=
| frame_root : forall F, (forall p, F p = p) -> link_frame js root root F
| frame_child : forall j F O G, In j js -> is_hinge j -> link_frame js root (j_parent j) F -> origin_is (j_origin j) O ->
    (forall p, G p = F (O p)) -> link_frame js root (j_child j) G.
(** the body called n is placed by the motion M: this is where its points are *)
Definition placed_by (e : engine) (n : name) (M : motion) : Prop :=
  exists b, find_body e n = Some b /\ is_unit (b_q b) /\ forall p, vadd (q_rotate (b_q b) p) (b_r b) = M p.
(** an optional number, zero when missing *)
Definition given (o : option R) (x : R) : Prop := match o with Some y => x = y | None => x = 0 end.
(** the document without the attributes scale of <mesh>, and ixy, ixz, iyz of <inertia> *)
Definition drop_shape (s : shape_tag) : shape_tag := match s with MeshTag b _ V T => MeshTag b None V T | OtherShape => OtherShape end.
Definition drop_link (l : link_tag) : link_tag :=
  mkLink (l_name l)
    (option_map (fun g => mkGeometry (g_origin g) (option_map (map drop_shape) (g_shapes g))) (l_collision l))
    (option_map (fun i => mkInertial (in_origin i) (in_mass i) (in_xx i) (in_yy i) (in_zz i) None None None) (l_inertial l)).

(** the root of the robot: the last body that is the child of no revolute joint *)
Definition is_root (ls : list link_tag) (js : list joint_tag) (lr : link_tag) : Prop :=
  exists l1 l2, ls = l1 ++ lr :: l2 /\ is_body lr /\ ~ In (l_name lr) (hinge_children js) /\
    forall l, In l l2 -> is_body l -> In (l_name l) (hinge_children js).
