(** scenes/create_sandbox.py: a box of four walls and a floor, and a lattice of grains above it.
    The twenty shapes of the grains (lines 38-52: random convex hulls) are not modelled: [shapes] are the names of the shapes that exist when line 54 is reached. *)
From Verif Require Import Base QuatModel VecModel BvhModel GridModel VolModel RigidTypes SurfModel MassModel ApiModel SceneModel.
Open Scope R_scope.

Section Sandbox.
Variable eig : mat3 -> vec3 * mat3.
Variable sd : list vec3 -> list tri -> vec3 -> R.
(** create_sandbox.py:36 *)
Definition thickness (h : R) : R := 1 / 10 * h.
(** create_sandbox.py:72-168: mesh and position of the left, right, front and back wall and of the floor, numbered in the order of the calls *)
Definition sandbox_walls (w h d : R) : list (nat * ((list vec3 * list tri) * vec3)) :=
  let t := thickness h in
  [(0%nat, (create_box t h d, mkV (- w / 2 - t / 2) (h / 2 + t) 0));
   (1%nat, (create_box t h d, mkV (w / 2 + t / 2) (h / 2 + t) 0));
   (2%nat, (create_box (t * 2 + w) h t, mkV 0 (h / 2 + t) (d / 2 + t / 2)));
   (3%nat, (create_box (t * 2 + w) h t, mkV 0 (h / 2 + t) (- d / 2 - t / 2)));
   (4%nat, (create_box (t * 2 + w) t (d + 2 * t), mkV 0 (t / 2) 0))].
(** create_sandbox.py:72-89 and the like: the calls for one wall; its shape and its body get the names number 2 m and 2 m + 1 *)
Definition sandbox_wall (fresh : nat -> name) (density : R) (material : name) (p : nat * ((list vec3 * list tri) * vec3)) (e : engine) : outcome :=
  let '(m, (VT, r)) := p in
  andthen (make_shape eig sd (fresh (2 * m)%nat) VT e) (fun e =>
  andthen (place (fresh (2 * m + 1)%nat) (fresh (2 * m)%nat) r q_identity e)
    (finish (fresh (2 * m + 1)%nat) fixed_name material density)).
(** create_sandbox.py:54-170 *)
Definition create_sandbox (fresh : nat -> name) (rnd : nat -> quat) (shapes : list name) (w h d : R) (I J K : nat) (density : R) (material : name) (e : engine) : outcome * list name :=
  let '(o, grains) := create_lattice fresh rnd (mkV (- w / 2) (15 / 10 * h + thickness h) (- d / 2)) q_identity shapes w h d I J K density material true None e in
  let fresh' := fun i => fresh (I * J * K + i)%nat in
  (andthen o (each (sandbox_wall fresh' density material) (sandbox_walls w h d)), grains ++ map (fun p => fresh' (2 * fst p + 1)%nat) (sandbox_walls w h d)).
End Sandbox.
