(** scenes/create_poles.py: a lattice of objects above a grid of poles.
    The shapes of the objects (lines 56-74: meshes read from files and scaled) are not modelled: [shapes] are the names of the shapes that exist when line 76 is reached.
    Simplification: the numbers of poles are natural numbers; zero divides by zero in line 102 or 103, which is an exception. *)
From Verif Require Import Base QuatModel VecModel BvhModel BvhSpec GridModel VolModel RigidTypes SurfModel MassModel ApiModel SceneModel.
Open Scope R_scope.

Section Poles.
Variable eig : mat3 -> vec3 * mat3.
Variable sd : list vec3 -> list tri -> vec3 -> R.
(** create_poles.py:98-112: position of the pole i, k *)
Definition pole_place (pole_height pole_radius w d : R) (Ip Kp i k : nat) : vec3 :=
  mkV (INR i * (w / INR Ip) + (- w / 2 + pole_radius)) (pole_height / 2) (INR k * (d / INR Kp) + (- d / 2 + pole_radius)).
(** create_poles.py:104-115: for i, for k: name, shape, r_g and q_g of the poles, numbered from one *)
Definition pole_items (fresh : nat -> name) (pole_height pole_radius w d : R) (Ip Kp : nat) : list (name * name * vec3 * quat) :=
  map (fun mg : nat * (nat * nat) => let '(m, (i, k)) := mg in
    let '(rg, qg) := in_world (mkV 0 0 0) q_identity (pole_place pole_height pole_radius w d Ip Kp i k) q_identity in
    (fresh (S m), fresh 0%nat, rg, qg)) (number (tower_grid Ip Kp)).
(** create_poles.py:107-108, 117-122 *)
Definition pole (material : name) (density : R) (x : name * name * vec3 * quat) (e : engine) : outcome :=
  let '(bn, sn, r, q) := x in andthen (place bn sn r q e) (finish bn fixed_name material density).
(** create_poles.py:76-123; create_cylinder has 12 slices and one segment by default *)
Definition create_poles (fresh : nat -> name) (rnd : nat -> quat) (shapes : list name) (pole_height pole_radius : R) (Ip Kp : nat) (w h d : R) (I J K : nat)
    (density : R) (material : name) (random : bool) (e : engine) : outcome * list name :=
  let '(o, falling) := create_lattice fresh rnd (mkV (- w / 2) (2 * pole_height) (- d / 2)) q_identity shapes w h d I J K density material random None e in
  let fresh' := fun i => fresh (I * J * K + i)%nat in
  let l := pole_items fresh' pole_height pole_radius w d Ip Kp in
  (andthen o (fun e =>
     match create_cylinder pole_radius pole_height 12 1 with
     | None => Raised e
     | Some VT => andthen (make_shape eig sd (fresh' 0%nat) VT e) (fun e =>
         if Nat.eqb Ip 0 || Nat.eqb Kp 0 then Raised e else each (pole material density) l e)
     end),
   falling ++ map (fun x => fst (fst (fst x))) l).
End Poles.
