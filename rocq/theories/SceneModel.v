(** Model of rainbow/math/functions.py (PCA), of create_mesh of rainbow/simulators/prox_rigid_bodies/api.py and of the scene
    builders rainbow/simulators/prox_rigid_bodies/scenes/create_{ground,box_stack,cube_hinge_chain,lattice,tower,arch}.py.
    A scene builder is a sequence of calls of the interface: the first call that does not return ends it.
    api.generate_unique_name (a random number and the time) is the parameter [fresh]: [fresh i] is what its i-th call inside the
    builder returns.  np.linalg.eig is [eig], igl.signed_distance is [sd], Q.rand() is [rnd] (its i-th value).
    Division by an integer argument that is zero is not modelled (the theorems assume at least one layer, segment, ...). *)
From Verif Require Import Base QuatModel VecModel BvhModel GridModel VolModel RigidTypes SurfModel MassModel ApiModel.
Open Scope R_scope.

(** functions.py:27-37 [PCA]: the mean, and the covariance matrix np.cov((P - mean).T) with divisor M - 1; the points are
    centred twice, the second time around a mean that is zero *)
Definition centred (P : list vec3) : list vec3 := map (fun p => vsub p (vmean P)) P.
Definition rsum (f : vec3 -> R) (P : list vec3) : R := fold_right (fun p s => f p + s) 0 P.
Definition covariance (P : list vec3) : mat3 :=
  let C := centred (centred P) in let n := INR (length P) - 1 in
  let c i j := rsum (fun p => comp p i * comp p j) C / n in
  mkM (c 0 0)%nat (c 0 1)%nat (c 0 2)%nat (c 1 0)%nat (c 1 1)%nat (c 1 2)%nat (c 2 0)%nat (c 2 1)%nat (c 2 2)%nat.
(** np.argmax of three values: the first largest *)
Definition argmax3 (d : vec3) : nat :=
  if Rleb (vy d) (vx d) && Rleb (vz d) (vx d) then 0 else if Rleb (vz d) (vy d) then 1 else 2.
Definition mrow (A : mat3) (i : nat) : vec3 := match i with O => mrow0 A | 1%nat => mrow1 A | _ => mrow2 A end.
(** functions.py:40-48 [direction_of_most_variance]: vectors[i] is the i-th ROW of the matrix of eigenvectors.  Fewer than two
    points: np.cov gives nan and np.linalg.eig raises *)
Definition direction_of_most_variance (eig : mat3 -> vec3 * mat3) (P : list vec3) : option vec3 :=
  if Nat.ltb (length P) 2 then None else
  let '(values, vectors) := eig (covariance P) in Some (mrow vectors (argmax3 values)).
(** a row of mesh.T with three entries *)
Definition row_tri (row : list Z) : option tri := match row with [a; b; c] => Some (a, b, c) | _ => None end.
(** api.py:159-173 [create_mesh]; [None]: fewer than two points, an axis of length zero (nan keys), an index that names no vertex *)
Definition create_mesh (eig : mat3 -> vec3 * mat3) (V : list vec3) (T : list tri) : option (list vec3 * list tri) :=
  do axis <- direction_of_most_variance eig V;
  if Reqb (vnorm axis) 0 then None else
  do r <- axis_sort V (map tri_list T) axis;
  let '(V', T') := r in
  do T'' <- map_opt row_tri T'; Some (V', T'').

(** one call after another *)
Definition andthen (o : outcome) (k : engine -> outcome) : outcome := match o with Done e => k e | other => other end.
Fixpoint each {A} (f : A -> engine -> outcome) (l : list A) (e : engine) : outcome :=
  match l with [] => Done e | a :: t => andthen (f a e) (each f t) end.

Section Builders.
Variable eig : mat3 -> vec3 * mat3.
Variable sd : list vec3 -> list tri -> vec3 -> R.

(** the three lines [V, T = MESH.create_...; mesh = API.create_mesh(V, T); API.create_shape(engine, shape_name, mesh)] that every
    builder contains, e.g. create_box_stack.py:36-38.  [None] of create_mesh is an exception (or nan) before the engine is changed *)
Definition make_shape (sn : name) (VT : list vec3 * list tri) (e : engine) : outcome :=
  match create_mesh eig (fst VT) (snd VT) with
  | None => Raised e
  | Some (V, T) => fst (create_shape eig sd e sn V T true)
  end.
(** create_rigid_body, connect_shape, set_position and set_orientation in the model frame, e.g. create_box_stack.py:46-56 *)
Definition place (bn sn : name) (r : vec3) (q : quat) (e : engine) : outcome :=
  andthen (create_rigid_body e bn) (fun e => andthen (connect_shape e bn sn) (fun e =>
  andthen (set_position e bn r true) (fun e => set_orientation e bn q true))).
(** set_body_type, set_body_material and set_mass_properties, e.g. create_box_stack.py:57-59 *)
Definition finish (bn ty material : name) (density : R) (e : engine) : outcome :=
  andthen (set_body_type e bn ty) (fun e => andthen (set_body_material e bn material) (fun e => set_mass_properties e bn density)).
(** the strings "free" and "fixed" *)
Definition free_name : name := [102; 114; 101; 101]%nat.
Definition fixed_name : name := [102; 105; 120; 101; 100]%nat.

(** create_ground.py:13-48 *)
Definition create_ground (fresh : nat -> name) (r : vec3) (q : quat) (density : R) (material : name) (e : engine) : outcome :=
  andthen (make_shape (fresh 0%nat) (create_box 100 1 100) e) (fun e =>
  andthen (place (fresh 1%nat) (fresh 0%nat) (vadd (q_rotate q (mkV 0 (- (1/2)) 0)) r) (q_prod q q_identity) e) (fun e =>
  finish (fresh 1%nat) fixed_name material density e)).

(** create_box_stack.py:13-61; the names it returns *)
Definition stack_names (fresh : nat -> name) (K : nat) : list name := map (fun k => fresh (S k)) (seq 0 K).
Definition create_box_stack (fresh : nat -> name) (w h d : R) (K : nat) (density : R) (material : name) (e : engine) : outcome * list name :=
  (andthen (make_shape (fresh 0%nat) (create_box w h d) e)
     (each (fun k e => andthen (place (fresh (S k)) (fresh 0%nat) (mkV 0 (INR k * h + h / 2) 0) (q_Ry (INR k * PI / 4)) e)
                         (finish (fresh (S k)) free_name material density)) (seq 0 K)),
   stack_names fresh K).

(** create_cube_hinge_chain.py:33-36 *)
Definition chain_diameter (edge : R) : R := sqrt (2 * (edge * edge)).
Definition chain_margin (edge : R) : R := 1 / 10 * (chain_diameter edge / 2).
Definition chain_length (edge : R) (K : nat) : R := INR K * chain_diameter edge + (INR K - 1) * chain_margin edge.
(** create_cube_hinge_chain.py:51 *)
Definition chain_x (edge : R) (K k : nat) : R :=
  INR k * (chain_diameter edge + chain_margin edge) + chain_diameter edge / 2 - chain_length edge K / 2.
(** create_cube_hinge_chain.py:66-83: the hinge between link k and link k+1; its name is the two names joined by an underscore *)
Definition hinge_between (p c : name) : name := p ++ [95%nat] ++ c.
Definition chain_hinge (p c : name) (e : engine) : outcome :=
  andthen (create_hinge e (hinge_between p c)) (fun e =>
  match get_position e p, get_position e c with
  | Some rp, Some rc => set_hinge e (hinge_between p c) p c (vdiv (vadd rp rc) 2) v3_k World
  | _, _ => Raised e
  end).
(** create_cube_hinge_chain.py:13-85; body_names[0] of an empty list raises *)
Definition create_cube_hinge_chain (fresh : nat -> name) (edge : R) (K : nat) (density : R) (material : name) (e : engine) : outcome * list name :=
  (andthen (make_shape (fresh 0%nat) (create_box edge edge edge) e) (fun e =>
   andthen (each (fun k e => andthen (place (fresh (S k)) (fresh 0%nat) (mkV (chain_x edge K k) 0 0) (q_Rz (PI / 4)) e)
                               (finish (fresh (S k)) free_name material density)) (seq 0 K) e) (fun e =>
   match K with
   | O => Raised e
   | S K' => andthen (set_body_type e (fresh 1%nat) fixed_name)
               (each (fun k => chain_hinge (fresh (S k)) (fresh (S (S k)))) (seq 0 K'))
   end)),
   stack_names fresh K).

(** the loop that ends most builders: create_lattice.py:79-82, create_tower.py:111-114, create_arch.py:154-157, create_dome.py:83-86 *)
Definition finish_all (names : list name) (material : name) (density : R) : engine -> outcome :=
  each (fun bn => finish bn free_name material density) names.

(** create_lattice.py:53-77: for i, for j, for k *)
Definition cells (I J K : nat) : list (nat * nat * nat) :=
  flat_map (fun i => flat_map (fun j => map (fun k => (i, j, k)) (seq 0 K)) (seq 0 J)) (seq 0 I).
Definition number {A} (l : list A) : list (nat * A) := combine (seq 0 (length l)) l.
(** create_lattice.py:58, 63, 65-70 *)
Definition cell_point (w h d : R) (I J K : nat) (c : nat * nat * nat) : vec3 :=
  let '(i, j, k) := c in
  let dW := w / INR I in let dH := h / INR J in let dD := d / INR K in
  vadd (mkV (INR i * dW) (INR j * dH) (INR k * dD)) (vdiv (mkV dW dH dD) 2).
Definition cell_shape (shapes : list name) (c : nat * nat * nat) : option name :=
  let '(i, j, k) := c in nth_error shapes ((i + j + k) mod length shapes).
Definition cell_turn (random : bool) (rnd : nat -> quat) (q_body : option quat) (m : nat) : quat :=
  if random then rnd m else match q_body with Some q => q | None => q_identity end.
(** create_lattice.py:14-84; I, J, K = 0 or no shape names: a division by zero, an exception *)
Definition create_lattice (fresh : nat -> name) (rnd : nat -> quat) (r : vec3) (q : quat) (shapes : list name) (w h d : R) (I J K : nat)
    (density : R) (material : name) (random : bool) (q_body : option quat) (e : engine) : outcome * list name :=
  if Nat.eqb I 0 || Nat.eqb J 0 || Nat.eqb K 0 || Nat.eqb (length shapes) 0 then (Raised e, []) else
  let names := map fresh (seq 0 (I * J * K)) in
  (andthen (each (fun mc e => let '(m, c) := mc in
      match cell_shape shapes c with
      | None => Raised e
      | Some sn =>
        andthen (create_rigid_body e (fresh m)) (fun e => andthen (connect_shape e (fresh m) sn) (fun e =>
        andthen (set_position e (fresh m) (vadd (q_rotate q (cell_point w h d I J K c)) r) false) (fun e =>
        set_orientation e (fresh m) (q_prod q (cell_turn random rnd q_body m)) false)))
      end) (number (cells I J K)) e)
     (finish_all names material density),
   names).

(** stones that are placed one after another and get their type, material and mass at the end: (name, shape, position, orientation) *)
Definition place_all (stones : list (name * name * vec3 * quat)) : engine -> outcome :=
  each (fun s => let '(bn, sn, r, q) := s in place bn sn r q) stones.
(** r_g = Q.rotate(q, r_l) + r;  q_g = Q.prod(q, q_l) *)
Definition in_world (r : vec3) (q : quat) (rl : vec3) (ql : quat) : vec3 * quat := (vadd (q_rotate q rl) r, q_prod q ql).

(** create_tower.py:43-55, 57-79: half the width of a brick at distance rad from the axis, and the two kinds of brick *)
Definition half_width (delta_phi rad safety : R) : R := sin (delta_phi / 2) / sin (PI / 2 - delta_phi / 2) * rad * safety.
Definition tower_brick (outer inner height : R) (layers segments : nat) (use_cubes : bool) (safety : R) : list vec3 * list tri :=
  let bh := height / INR layers in let bd := outer - inner in let dphi := 2 * PI / INR segments in
  if use_cubes then create_box (2 * (sin (dphi / 2) / sin (PI / 2 - dphi / 2)) * inner * safety) bh bd
  else let wi := half_width dphi inner safety in let wo := half_width dphi outer safety in
    create_cuboid (mkV (- wi) (- bh / 2) (bd / 2)) (mkV wi (- bh / 2) (bd / 2)) (mkV wi (bh / 2) (bd / 2)) (mkV (- wi) (bh / 2) (bd / 2))
                  (mkV (- wo) (- bh / 2) (- bd / 2)) (mkV wo (- bh / 2) (- bd / 2)) (mkV wo (bh / 2) (- bd / 2)) (mkV (- wo) (bh / 2) (- bd / 2)).
(** create_tower.py:94-101: where brick number [seg] of layer [lay] goes, in the frame of the tower *)
Definition tower_angle (segments lay seg : nat) : R :=
  let dphi := 2 * PI / INR segments in
  dphi * INR seg + (if Nat.eqb (lay mod 2) 0 then dphi / 2 else 0).
Definition tower_place (outer inner height : R) (layers segments : nat) (lay seg : nat) : vec3 * quat :=
  let bh := height / INR layers in
  let ql := q_Ry (tower_angle segments lay seg) in
  (q_rotate ql (mkV 0 (bh / 2 + INR lay * bh) (- ((outer + inner) / 2))), ql).
Definition tower_grid (layers segments : nat) : list (nat * nat) :=
  flat_map (fun lay => map (fun seg => (lay, seg)) (seq 0 segments)) (seq 0 layers).
(** create_tower.py:13-116 *)
Definition create_tower (fresh : nat -> name) (r : vec3) (q : quat) (outer inner height : R) (layers segments : nat) (use_cubes : bool)
    (density : R) (material : name) (safety : R) (e : engine) : outcome * list name :=
  let names := map (fun m => fresh (S m)) (seq 0 (layers * segments)) in
  (andthen (make_shape (fresh 0%nat) (tower_brick outer inner height layers segments use_cubes safety) e) (fun e =>
   andthen (place_all (map (fun mg => let '(m, (lay, seg)) := mg in
       let '(rl, ql) := tower_place outer inner height layers segments lay seg in
       let '(rg, qg) := in_world r q rl ql in (fresh (S m), fresh 0%nat, rg, qg)) (number (tower_grid layers segments))) e)
     (finish_all names material density)),
   names).
(** create_arch.py:43-70: the arguments for which it raises (a division by zero in line 49 comes before the checks) *)
Definition arch_rejects (width height depth : R) (pier_stones arch_stones : Z) (density : R) : bool :=
  Z.eqb pier_stones 0 || Rleb width 0 || Rleb height 0 || Rleb depth 0 || Z.leb pier_stones 0 || Z.leb arch_stones 2 ||
  Z.eqb (Z.modulo arch_stones 2) 0 || Rleb density 0 || Rleb (height - width / 2) 0.
(** create_arch.py:80-107: the two bodies of layer [stone] of the piers, left and right *)
Definition arch_pier (fresh : nat -> name) (r : vec3) (q : quat) (width bw bh : R) (stone : nat) : list (name * name * vec3 * quat) :=
  let y := bh / 2 + INR stone * bh in
  let '(rl, ql) := in_world r q (mkV (- width / 2 + bw / 2) y 0) q_identity in
  let '(rr, qr) := in_world r q (mkV (width / 2 - bw / 2) y 0) q_identity in
  [(fresh (1 + 2 * stone)%nat, fresh 0%nat, rl, ql); (fresh (2 + 2 * stone)%nat, fresh 0%nat, rr, qr)].
(** create_arch.py:111-137: the mesh of a stone of the arch; its vertices are relative to r0 *)
Definition arch_r0 (width bw depth : R) : vec3 := mkV (width / 2 - bw / 2) 0 (depth / 2).
Definition arch_mesh (width bw depth dphi : R) : list vec3 * list tri :=
  let ro := width / 2 in let ri := ro - bw in let r0 := arch_r0 width bw depth in
  let p0 := vsub (q_rotate (q_Rz (- dphi / 2)) (mkV ri 0 (depth / 2))) r0 in
  let p1 := vsub (q_rotate (q_Rz (- dphi / 2)) (mkV ro 0 (depth / 2))) r0 in
  let p2 := vsub (q_rotate (q_Rz (dphi / 2)) (mkV ro 0 (depth / 2))) r0 in
  let p3 := vsub (q_rotate (q_Rz (dphi / 2)) (mkV ri 0 (depth / 2))) r0 in
  let back p := vsub p (mkV 0 0 depth) in
  create_cuboid p0 p1 p2 p3 (back p0) (back p1) (back p2) (back p3).
(** create_arch.py:140-152 *)
Definition arch_stone (fresh : nat -> name) (r : vec3) (q : quat) (width bw depth pier_height dphi : R) (piers stone : nat) : name * name * vec3 * quat :=
  let ql := q_Rz (dphi / 2 + INR stone * dphi) in
  let '(rg, qg) := in_world r q (vadd (q_rotate ql (arch_r0 width bw depth)) (mkV 0 pier_height 0)) ql in
  (fresh (2 + 2 * piers + stone)%nat, fresh (1 + 2 * piers)%nat, rg, qg).
(** create_arch.py:14-159 *)
Definition create_arch (fresh : nat -> name) (r : vec3) (q : quat) (width height depth : R) (pier_stones arch_stones : Z)
    (density : R) (material : name) (e : engine) : outcome * list name :=
  if arch_rejects width height depth pier_stones arch_stones density then (Raised e, []) else
  let ph := height - width / 2 in let bw := width / 5 in let bh := ph / IZR pier_stones in let dphi := PI / IZR arch_stones in
  let P := Z.to_nat pier_stones in let A := Z.to_nat arch_stones in
  let piers := flat_map (arch_pier fresh r q width bw bh) (seq 0 P) in
  let ring := map (arch_stone fresh r q width bw depth ph dphi P) (seq 0 A) in
  let names := map (fun s => let '(bn, _, _, _) := s in bn) (piers ++ ring) in
  (andthen (make_shape (fresh 0%nat) (create_box bw bh depth) e) (fun e =>
   andthen (place_all piers e) (fun e =>
   andthen (make_shape (fresh (1 + 2 * P)%nat) (arch_mesh width bw depth dphi) e) (fun e =>
   andthen (place_all ring e) (finish_all names material density)))),
   names).
(** body_names.extend(names) after every call: one builder after another, until one raises *)
Fixpoint each_named {A} (f : A -> engine -> outcome * list name) (l : list A) (e : engine) : outcome * list name :=
  match l with
  | [] => (Done e, [])
  | a :: t => match f a e with
              | (Done e1, ns) => let '(o, ms) := each_named f t e1 in (o, ns ++ ms)
              | other => other
              end
  end.
(** create_colosseum.py:50-56 *)
Definition colosseum_width (inner : R) (arches : nat) (safety : R) : R :=
  let dphi := 2 * PI / INR arches in 2 * (sin (dphi / 2) / sin (PI / 2 - dphi / 2)) * inner * safety.
(** create_colosseum.py:45-49, 59-99: call number k of level lvl -- the loop over the arches (61-80) makes the calls 0, ..., arches - 1, the last one (81-99) is the ring on top *)
Definition colosseum_call (fresh : nat -> nat -> nat -> name) (r : vec3) (q : quat) (outer inner height : R) (levels arches : nat)
    (density : R) (material : name) (safety : R) (lk : nat * nat) (e : engine) : outcome * list name :=
  let '(lvl, k) := lk in
  let level_height := height / INR levels in
  let y := INR lvl * level_height in
  if Nat.ltb k arches then
    let ql := q_Ry (2 * PI / INR arches * INR k) in
    let '(rg, qg) := in_world r q (q_rotate ql (mkV 0 y (- ((outer + inner) / 2)))) ql in
    create_arch (fresh lvl k) rg qg (colosseum_width inner arches safety) (level_height * (9 / 10)) (outer - inner) 5 9 density material e
  else
    let '(rg, qg) := in_world r q (mkV 0 (y + level_height * (9 / 10)) 0) q_identity in
    create_tower (fresh lvl k) rg qg outer inner (level_height * (1 / 10)) 1 arches false density material safety e.
(** create_colosseum.py:14-101; levels = 0 or arches = 0: a division by zero, an exception *)
Definition create_colosseum (fresh : nat -> nat -> nat -> name) (r : vec3) (q : quat) (outer inner height : R) (levels arches : nat)
    (density : R) (material : name) (safety : R) (e : engine) : outcome * list name :=
  if Nat.eqb levels 0 || Nat.eqb arches 0 then (Raised e, []) else
  each_named (colosseum_call fresh r q outer inner height levels arches density material safety)
    (flat_map (fun lvl => map (fun k => (lvl, k)) (seq 0 (S arches))) (seq 0 levels)) e.
End Builders.
