(** scenes/create_pillar.py: a pillar of a plinth (socle), a base, a column of stones, an echinus and an abacus. *)
From Verif Require Import Base QuatModel VecModel BvhModel GridModel VolModel RigidTypes SurfModel MassModel ApiModel SceneModel.
Open Scope R_scope.

Section Pillar.
Variable eig : mat3 -> vec3 * mat3.
Variable sd : list vec3 -> list tri -> vec3 -> R.
(** create_pillar.py:47-54 *)
Definition base_height (height : R) : R := height / 15.
Definition top_height (height : R) : R := height / 20.
Definition pillar_base_radius (width : R) : R := 9 / 10 * (width / 2).
Definition pillar_top_radius (width : R) : R := 8 / 10 * (width / 2).
Definition pillar_radius_start (width : R) : R := 7 / 10 * pillar_base_radius width.
Definition pillar_radius_stop (width : R) : R := 5 / 10 * pillar_base_radius width.
Definition cap_height (height : R) : R := base_height height * (9 / 10).
Definition cup_height (height : R) : R := base_height height * (7 / 10).
(** create_pillar.py:56-126, number m and mesh and position of each of the first four parts, in the order of the calls *)
Definition pillar_caps (width height depth : R) : list (nat * (option (list vec3 * list tri) * vec3)) :=
  [(0%nat, (Some (create_box width (base_height height) depth), mkV 0 (base_height height / 2) 0));
   (1%nat, (Some (create_box width (top_height height) depth), mkV 0 (height - top_height height / 2) 0));
   (2%nat, (create_conical (pillar_base_radius width) (pillar_radius_start width) (cap_height height) 12, mkV 0 (base_height height) 0));
   (3%nat, (create_conical (pillar_radius_stop width) (pillar_top_radius width) (cup_height height) 12, mkV 0 (height - top_height height - cup_height height) 0))].
(** create_pillar.py:128-129 *)
Definition start_y (height : R) : R := base_height height + cap_height height.
Definition end_y (height : R) : R := height - top_height height - cup_height height.
(** create_pillar.py:132-154: a stone of the column *)
Definition pillar_stone (width height dy slope : R) (stone : nat) : nat * (option (list vec3 * list tri) * vec3) :=
  let bottom_y := start_y height + INR stone * dy in
  let top_y := bottom_y + dy in
  let bottom_radius := pillar_radius_start width + slope * (bottom_y - start_y height) in
  let top_radius := pillar_radius_start width + slope * (top_y - start_y height) in
  ((4 + stone)%nat, (create_conical bottom_radius top_radius dy 12, mkV 0 bottom_y 0)).
(** create_pillar.py:56-72 and the like: the calls for one part; its shape and its body get the names number 2 m and 2 m + 1 *)
Definition pillar_part (fresh : nat -> name) (r : vec3) (q : quat) (p : nat * (option (list vec3 * list tri) * vec3)) (e : engine) : outcome :=
  let '(m, (mesh, rl)) := p in
  match mesh with
  | None => Raised e
  | Some VT => let '(rg, qg) := in_world r q rl q_identity in
    andthen (make_shape eig sd (fresh (2 * m)%nat) VT e) (place (fresh (2 * m + 1)%nat) (fresh (2 * m)%nat) rg qg)
  end.
(** create_pillar.py:14-161; stones = 0 or a column of height zero: a division by zero (lines 130-131) after the first four parts have been made;
    a negative number of stones: no column *)
Definition create_pillar (fresh : nat -> name) (r : vec3) (q : quat) (width height depth : R) (stones : Z) (density : R) (material : name) (e : engine) : outcome * list name :=
  let dy := (end_y height - start_y height) / IZR stones in
  let slope := (pillar_radius_stop width - pillar_radius_start width) / (end_y height - start_y height) in
  let column := map (pillar_stone width height dy slope) (seq 0 (Z.to_nat stones)) in
  let names := map (fun p => fresh (2 * fst p + 1)%nat) (pillar_caps width height depth ++ column) in
  (andthen (each (pillar_part fresh r q) (pillar_caps width height depth) e) (fun e =>
   if Z.eqb stones 0 || Reqb (end_y height) (start_y height) then Raised e else
   andthen (each (pillar_part fresh r q) column e) (finish_all names material density)),
   names).
End Pillar.
