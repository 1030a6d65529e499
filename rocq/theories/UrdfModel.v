(** Model of rainbow/simulators/prox_rigid_bodies/scenes/read_urdf.py.
    The XML document is given as the tree of the tags the reader looks at: which attributes are present, and the numbers that
    float() makes of them (a string that is no number, a missing mandatory attribute, and the names of files are not modelled; the
    content of a mesh file is part of the tag).  [visual] tags are parsed and otherwise ignored by the code: they are not modelled.
    [None] of a parser is an exception.  np.linalg.eig and igl.signed_distance are the parameters [eig] and [sd]. *)
From Verif Require Import Base QuatModel VecModel BvhModel GridModel VolModel RigidTypes SurfModel MassModel ApiModel SceneModel.
Open Scope R_scope.

(** ** the document *)
(** <origin rpy="..." xyz="..."/>, <axis xyz="..."/> *)
Record frame_tag := mkFrame { f_rpy : option (list R); f_xyz : option (list R) }.
(** the first child of <geometry>: a <mesh> (a file in a supported format or not, its scale, its content), or another shape *)
Inductive shape_tag := OtherShape | MeshTag (supported : bool) (scale : option (list R)) (V : list vec3) (T : list tri).
(** <collision>: [g_shapes = None] when there is no <geometry> *)
Record geometry_tag := mkGeometry { g_origin : option frame_tag; g_shapes : option (list shape_tag) }.
(** <inertial>: each attribute may be missing *)
Record inertial_tag := mkInertial { in_origin : option frame_tag; in_mass : option R;
  in_xx : option R; in_yy : option R; in_zz : option R; in_xy : option R; in_xz : option R; in_yz : option R }.
Record link_tag := mkLink { l_name : name; l_collision : option geometry_tag; l_inertial : option inertial_tag }.
Record joint_tag := mkJoint { j_name : name; j_type : name; j_parent : name; j_child : name; j_origin : option frame_tag; j_axis : option frame_tag }.

(** ** URDF *)
(** rpy[0], rpy[1], rpy[2] of read_urdf.py:32-44: zeros by default, IndexError when there are fewer than three numbers *)
Definition three (o : option (list R)) : option vec3 :=
  match o with None => Some vzero | Some (a :: b :: c :: _) => Some (mkV a b c) | Some _ => None end.
(** read_urdf.py:31-45 [_convert_frame] *)
Definition convert_frame (f : frame_tag) : option coordsys :=
  do rpy <- three (f_rpy f); do xyz <- three (f_xyz f);
  Some (mkX xyz (q_prod (q_Rz (vz rpy)) (q_prod (q_Ry (vy rpy)) (q_Rx (vx rpy))))).
(** read_urdf.py:91-92, 130-131, 171, 175: an absent tag is an empty dictionary *)
Definition convert_origin (o : option frame_tag) : option coordsys :=
  convert_frame (match o with Some f => f | None => mkFrame None None end).
(** read_urdf.py:47-74 [_convert_mass], [_convert_inertia_tensor]: zero by default *)
Definition or_zero (o : option R) : R := match o with Some x => x | None => 0 end.

Record geometry := mkGeom { ge_origin : coordsys; ge_scale : list R; ge_V : list vec3; ge_T : list tri }.
(** read_urdf.py:76-123 [_parse_geometry_tag]; Some None = returns None *)
Definition parse_geometry (o : option geometry_tag) : option (option geometry) :=
  match o with None => Some None | Some g =>
  match g_shapes g with None => Some None | Some [] => None
  | Some (OtherShape :: _) => Some None
  | Some (MeshTag supported scale V T :: _) =>
    do X <- convert_origin (g_origin g);
    if supported then Some (Some (mkGeom X (match scale with Some s => s | None => [1; 1; 1] end) V T)) else Some None
  end end.
Record inertial := mkInert { ia_origin : coordsys; ia_mass : R; ia_xx : R; ia_yy : R; ia_zz : R; ia_xy : R; ia_xz : R; ia_yz : R }.
(** read_urdf.py:125-139 [_parse_inertial_tag] *)
Definition parse_inertial (o : option inertial_tag) : option (option inertial) :=
  match o with None => Some None | Some i =>
  do X <- convert_origin (in_origin i);
  Some (Some (mkInert X (or_zero (in_mass i)) (or_zero (in_xx i)) (or_zero (in_yy i)) (or_zero (in_zz i)) (or_zero (in_xy i)) (or_zero (in_xz i)) (or_zero (in_yz i))))
  end.
Record link := mkL { k_name : name; k_collision : option geometry; k_inertial : option inertial }.
(** read_urdf.py:153-165 *)
Definition parse_link (l : link_tag) : option link :=
  do g <- parse_geometry (l_collision l); do i <- parse_inertial (l_inertial l); Some (mkL (l_name l) g i).
(** [jt_axis = None]: V3.unit of the zero vector, an array of nan *)
Record joint := mkJt { jt_name : name; jt_type : name; jt_parent : name; jt_child : name; jt_X : coordsys; jt_axis : option vec3 }.
(** read_urdf.py:166-187; the axis is (1 0 0) by default *)
Definition parse_joint (j : joint_tag) : option joint :=
  do X <- convert_origin (j_origin j);
  do A <- convert_frame (match j_axis j with Some f => f | None => mkFrame None (Some [1; 0; 0]) end);
  Some (mkJt (j_name j) (j_type j) (j_parent j) (j_child j) X (if Reqb (vnorm (xr A)) 0 then None else Some (v3_unit (xr A)))).
(** read_urdf.py:141-188 [parse_urdf_file] *)
Definition parse_urdf (ls : list link_tag) (js : list joint_tag) : option (list link * list joint) :=
  do l <- map_opt parse_link ls; do j <- map_opt parse_joint js; Some (l, j).

(** ** read_urdf *)
(** read_urdf.py:191-198 [LinkBody]: [children] and [joints] are filled together, so they are one list *)
Record node := mkNode { n_name : name; n_X : coordsys; n_parent : option name; n_children : list (name * joint) }.
Definition find_node (robot : list node) (n : name) : option node := find (fun k => name_eqb (n_name k) n) robot.
Definition upd_node (robot : list node) (n : name) (f : node -> node) : list node := map (fun k => if name_eqb (n_name k) n then f k else k) robot.
(** read_urdf.py:246: np.array_equal *)
Definition veqb (a b : vec3) : bool := Reqb (vx a) (vx b) && Reqb (vy a) (vy b) && Reqb (vz a) (vz b).
Definition qeqb (a b : quat) : bool := Reqb (qs a) (qs b) && Reqb (qx a) (qx b) && Reqb (qy a) (qy b) && Reqb (qz a) (qz b).
Definition to_link_body (X_c2b : coordsys) (V : list vec3) : list vec3 :=
  if negb (veqb (xr X_c2b) vzero) || negb (qeqb (xq X_c2b) q_identity) then map (xform_point X_c2b) V else V.
(** the string "shape" *)
Definition shape_suffix : name := [115; 104; 97; 112; 101]%nat.
(** the string "revolute" *)
Definition revolute : name := [114; 101; 118; 111; 108; 117; 116; 101]%nat.

Section Urdf.
Variable eig : mat3 -> vec3 * mat3.
Variable sd : list vec3 -> list tri -> vec3 -> R.

(** read_urdf.py:225-278: one link that has a shape.  The mass and the inertia are assigned directly, without set_mass_properties *)
Definition load_body (n : name) (g : geometry) (i : inertial) (e : engine) : outcome :=
  match create_mesh eig (to_link_body (x_from_to (ge_origin g) (ia_origin i)) (ge_V g)) (ge_T g) with
  | None => Raised e
  | Some (V, T) =>
    andthen (fst (create_shape eig sd e (n ++ shape_suffix) V T false)) (fun e =>
    andthen (create_rigid_body e n) (fun e =>
    andthen (connect_shape e n (n ++ shape_suffix)) (fun e =>
    Done (upd_body e n (fun b => with_mass b (ia_mass i) (mkV (ia_xx i) (ia_yy i) (ia_zz i)))))))
  end.
(** read_urdf.py:219-281; link['inertial']['origin'] of a link without <inertial> raises TypeError *)
Fixpoint load_links (ls : list link) (e : engine) (robot : list node) : outcome * list node :=
  match ls with
  | [] => (Done e, robot)
  | l :: t =>
    match k_collision l with
    | None => load_links t e robot
    | Some g =>
      match k_inertial l with
      | None => (Raised e, robot)
      | Some i =>
        match load_body (k_name l) g i e with
        | Done e' => load_links t e' (robot ++ [mkNode (k_name l) (ia_origin i) None []])
        | o => (o, robot)
        end
      end
    end
  end.
(** read_urdf.py:283-308; robot[...] of a name without a body raises KeyError *)
Fixpoint load_joints (js : list joint) (e : engine) (robot : list node) : outcome * list node :=
  match js with
  | [] => (Done e, robot)
  | j :: t =>
    if negb (name_eqb (jt_type j) revolute) then load_joints t e robot else
    match create_hinge e (jt_name j) with
    | Done e' =>
      match find_node robot (jt_parent j), find_node robot (jt_child j) with
      | Some _, Some _ =>
        load_joints t e'
          (upd_node (upd_node robot (jt_parent j) (fun k => mkNode (n_name k) (n_X k) (n_parent k) (n_children k ++ [(jt_child j, j)])))
                    (jt_child j) (fun k => mkNode (n_name k) (n_X k) (Some (jt_parent j)) (n_children k)))
      | _, _ => (Raised e', robot)
      end
    | o => (o, robot)
    end
  end.
(** read_urdf.py:311-322: the last link without a parent; root.name of None raises AttributeError *)
Definition find_root (robot : list node) : option node :=
  find (fun k => match n_parent k with None => true | Some _ => false end) (rev robot).
(** read_urdf.py:327-338, 368-379 *)
Definition set_frame (e : engine) (n : name) (X : coordsys) : outcome :=
  andthen (set_position e n (xr X) false) (fun e => set_orientation e n (xq X) false).
(** read_urdf.py:346-390: the children of a link, whose frame in the world is taken to be X_r2w *)
Fixpoint place_children (pn : name) (X_r2w : coordsys) (cs : list (name * joint)) (e : engine) (robot : list node) : outcome * list node :=
  match cs with
  | [] => (Done e, robot)
  | (c, j) :: t =>
    match find_node robot c with
    | None => (Raised e, robot)
    | Some child =>
      let X_j2w := x_concat X_r2w (jt_X j) in
      let X_b2w := x_concat X_j2w (n_X child) in
      let robot1 := upd_node robot c (fun k => mkNode (n_name k) X_j2w (n_parent k) (n_children k)) in
      match jt_axis j with
      | None => (Nan, robot1)
      | Some axis =>
        match andthen (set_frame e c X_b2w) (fun e =>
              set_hinge e (jt_name j) pn c (xform_point X_j2w vzero) (xform_vector X_j2w axis) World) with
        | Done e' => place_children pn X_r2w t e' robot1
        | o => (o, robot1)
        end
      end
    end
  end.
(** read_urdf.py:340-392: the stack, top first.  [None]: still running after [fuel] rounds *)
Fixpoint walk (fuel : nat) (stack : list name) (e : engine) (robot : list node) : option outcome :=
  match stack with
  | [] => Some (Done e)
  | n :: rest =>
    match fuel with
    | O => None
    | S f =>
      match find_node robot n with
      | None => Some (Raised e)
      | Some p =>
        match place_children n (n_X p) (n_children p) e robot with
        | (Done e', robot') => walk f (rev (map fst (n_children p)) ++ rest) e' robot'
        | (o, _) => Some o
        end
      end
    end
  end.
(** read_urdf.py:201-392 [read_urdf] *)
Definition read_urdf (fuel : nat) (ls : list link_tag) (js : list joint_tag) (e : engine) : option outcome :=
  match parse_urdf ls js with
  | None => Some (Raised e)
  | Some (links, joints) =>
    match load_links links e [] with
    | (Done e1, robot1) =>
      match load_joints joints e1 robot1 with
      | (Done e2, robot2) =>
        match find_root robot2 with
        | None => Some (Raised e2)
        | Some root =>
          match set_frame e2 (n_name root) (n_X root) with
          | Done e3 => walk fuel [n_name root] e3 robot2
          | o => Some o
          end
        end
      | (o, _) => Some o
      end
    | (o, _) => Some o
    end
  end.
End Urdf.
