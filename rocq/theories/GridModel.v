(** Model of rainbow/geometry/grid3.py *)
From Verif Require Import Base BvhModel.
Open Scope R_scope.

(** grid3.py:16-45 [Grid.__init__]; the spacing is stored.  [g_values] is the flat value array
    ([None] before it is created; one number per row). *)
Record grid := mkG { g_min : vec3; g_max : vec3; g_I : Z; g_J : Z; g_K : Z; g_spacing : vec3; g_values : option (list R) }.
Definition grid_make (min_coord max_coord : vec3) (I J K : Z) : option grid :=
  if any_lt max_coord min_coord then None            (* np.any(min_coord > max_coord) *)
  else if (I <? 2)%Z then None else if (J <? 2)%Z then None else if (K <? 2)%Z then None
  else let dims := vsub max_coord min_coord in
       Some (mkG min_coord max_coord I J K (mkV (vx dims / IZR (I - 1)) (vy dims / IZR (J - 1)) (vz dims / IZR (K - 1))) None).
(** grid3.py:47-60 [is_valid_node_index] *)
Definition is_valid_node_index (g : grid) (i j k : Z) : bool :=
  if ((i <? 0) || (j <? 0) || (k <? 0))%Z then false
  else if ((g_I g <=? i) || (g_J g <=? j) || (g_K g <=? k))%Z then false
  else true.
(** grid3.py:62-71 [get_linear_index] *)
Definition get_linear_index (g : grid) (i j k : Z) : Z := (i + g_I g * (j + g_J g * k))%Z.
(** grid3.py:73-86 [get_node_value]; [None] = exception *)
Definition get_node_value (g : grid) (i j k : Z) : option R :=
  match g_values g with Some vs => py_get vs (get_linear_index g i j k) | None => None end.
(** grid3.py:88-105 [get_node_coord] *)
Definition get_node_coord (g : grid) (i j k : Z) : vec3 :=
  vadd (g_min g) (mkV (vx (g_spacing g) * IZR i) (vy (g_spacing g) * IZR j) (vz (g_spacing g) * IZR k)).
(** np.floor *)
Definition zfloor (x : R) : Z := Int_part x.
(** np.clip(x, lo, hi) = minimum(maximum(x, lo), hi) *)
Definition zclip (x lo hi : Z) : Z := Z.min (Z.max x lo) hi.
(** grid3.py:107-123 [get_enclosing_cell_idx] *)
Definition get_enclosing_cell_idx (g : grid) (p : vec3) : Z * Z * Z :=
  (zclip (zfloor ((vx p - vx (g_min g)) / vx (g_spacing g))) 0 (g_I g - 2),
   zclip (zfloor ((vy p - vy (g_min g)) / vy (g_spacing g))) 0 (g_J g - 2),
   zclip (zfloor ((vz p - vz (g_min g)) / vz (g_spacing g))) 0 (g_K g - 2)).

(** grid3.py:148-176: the interpolation formula *)
Definition trilinear (d000 d001 d010 d011 d100 d101 d110 d111 s t u : R) : R :=
  let x00 := (d100 - d000) * s + d000 in
  let x01 := (d101 - d001) * s + d001 in
  let x10 := (d110 - d010) * s + d010 in
  let x11 := (d111 - d011) * s + d011 in
  let y0 := (x10 - x00) * t + x00 in
  let y1 := (x11 - x01) * t + x01 in
  (y1 - y0) * u + y0.
(** grid3.py:126-177 [get_value] *)
Definition get_value (g : grid) (p : vec3) : option R :=
  let '(i, j, k) := get_enclosing_cell_idx g p in
  do d000 <- get_node_value g i j k;
  do d001 <- get_node_value g i j (k + 1);
  do d010 <- get_node_value g i (j + 1) k;
  do d011 <- get_node_value g i (j + 1) (k + 1);
  do d100 <- get_node_value g (i + 1) j k;
  do d101 <- get_node_value g (i + 1) j (k + 1);
  do d110 <- get_node_value g (i + 1) (j + 1) k;
  do d111 <- get_node_value g (i + 1) (j + 1) (k + 1);
  let s := (vx p - (IZR i * vx (g_spacing g) + vx (g_min g))) / vx (g_spacing g) in
  let t := (vy p - (IZR j * vy (g_spacing g) + vy (g_min g))) / vy (g_spacing g) in
  let u := (vz p - (IZR k * vz (g_spacing g) + vz (g_min g))) / vz (g_spacing g) in
  Some (trilinear d000 d001 d010 d011 d100 d101 d110 d111 s t u).
(** grid3.py:180-254 [get_gradient].  Note the divisors of s, t, u.  If a component of min_coord is 0
    numpy divides by zero and the result is not a number: [None]. *)
Definition get_gradient (g : grid) (p : vec3) : option vec3 :=
  let '(i, j, k) := get_enclosing_cell_idx g p in
  do d000 <- get_node_value g i j k;
  do d001 <- get_node_value g i j (k + 1);
  do d010 <- get_node_value g i (j + 1) k;
  do d011 <- get_node_value g i (j + 1) (k + 1);
  do d100 <- get_node_value g (i + 1) j k;
  do d101 <- get_node_value g (i + 1) j (k + 1);
  do d110 <- get_node_value g (i + 1) (j + 1) k;
  do d111 <- get_node_value g (i + 1) (j + 1) (k + 1);
  if (Reqb (vx (g_min g)) 0 || Reqb (vy (g_min g)) 0 || Reqb (vz (g_min g)) 0)%bool then None else
  let s := (vx p - (IZR i * vx (g_spacing g) + vx (g_min g))) / vx (g_min g) in
  let t := (vy p - (IZR j * vy (g_spacing g) + vy (g_min g))) / vy (g_min g) in
  let u := (vz p - (IZR k * vz (g_spacing g) + vz (g_min g))) / vz (g_min g) in
  let x00 := (d100 - d000) * s + d000 in
  let x01 := (d101 - d001) * s + d001 in
  let x10 := (d110 - d010) * s + d010 in
  let x11 := (d111 - d011) * s + d011 in
  let y0 := (x10 - x00) * t + x00 in
  let y1 := (x11 - x01) * t + x01 in
  let dx00_ds := d100 - d000 in
  let dx01_ds := d101 - d001 in
  let dx10_ds := d110 - d010 in
  let dx11_ds := d111 - d011 in
  let dy0_ds := (dx10_ds - dx00_ds) * t + dx00_ds in
  let dy1_ds := (dx11_ds - dx01_ds) * t + dx01_ds in
  let dy0_dt := x10 - x00 in
  let dy1_dt := x11 - x01 in
  let dp_ds := (dy1_ds - dy0_ds) * u + dy0_ds in
  let dp_dt := (dy1_dt - dy0_dt) * u + dy0_dt in
  let dp_du := y1 - y0 in
  Some (mkV (dp_ds * (1 / vx (g_spacing g))) (dp_dt * (1 / vy (g_spacing g))) (dp_du * (1 / vz (g_spacing g)))).

(** the loop nest of eval_on_grid / get_nodes_array: k outermost, i innermost *)
Definition zupto (n : Z) : list Z := map Z.of_nat (seq 0 (Z.to_nat n)).
Definition node_loop (g : grid) : list (Z * Z * Z) :=
  flat_map (fun k => flat_map (fun j => map (fun i => (i, j, k)) (zupto (g_I g))) (zupto (g_J g))) (zupto (g_K g)).
Fixpoint store_all {A} (f : Z * Z * Z -> A) (ix : Z * Z * Z -> Z) (ts : list (Z * Z * Z)) (l : list A) : option (list A) :=
  match ts with [] => Some l | t :: ts' => do l' <- py_set l (ix t) (f t); store_all f ix ts' l' end.
(** grid3.py:257-272 [eval_on_grid] *)
Definition eval_on_grid (g : grid) (func : vec3 -> R) : option grid :=
  do vs <- store_all (fun '(i, j, k) => func (get_node_coord g i j k)) (fun '(i, j, k) => get_linear_index g i j k)
             (node_loop g) (repeat 0 (Z.to_nat (g_I g * g_J g * g_K g)));
  Some (mkG (g_min g) (g_max g) (g_I g) (g_J g) (g_K g) (g_spacing g) (Some vs)).
(** grid3.py:303-317 [get_nodes_array] *)
Definition get_nodes_array (g : grid) : option (list vec3) :=
  store_all (fun '(i, j, k) => get_node_coord g i j k) (fun '(i, j, k) => get_linear_index g i j k)
    (node_loop g) (repeat vzero (Z.to_nat (g_I g * g_J g * g_K g))).
(** grid3.py:275-300 [is_inside]; [None] = ValueError *)
Definition grid_is_inside (g : grid) (p : vec3) (boundary : R) : option bool :=
  if Rltb boundary 0 then None
  else if Rltb (vx (g_max g) - boundary) (vx p) then Some false
  else if Rltb (vy (g_max g) - boundary) (vy p) then Some false
  else if Rltb (vz (g_max g) - boundary) (vz p) then Some false
  else if Rltb (vx p) (vx (g_min g) + boundary) then Some false
  else if Rltb (vy p) (vy (g_min g) + boundary) then Some false
  else if Rltb (vz p) (vz (g_min g) + boundary) then Some false
  else Some true.
(** grid3.py:320-339 [create_signed_distance]; igl.signed_distance is the parameter [sd] applied to each
    node (V, F fixed).  np.min/np.max over the vertices raise on an empty mesh. *)
Definition create_signed_distance (sd : vec3 -> R) (V : list vec3) (I J K : Z) (boundary : R) : option grid :=
  if Rltb boundary 0 then None else
  do lo <- np_min0 V; do hi <- np_max0 V;
  do g <- grid_make (vsubc lo boundary) (vaddc hi boundary) I J K;
  do nodes <- get_nodes_array g;
  Some (mkG (g_min g) (g_max g) (g_I g) (g_J g) (g_K g) (g_spacing g) (Some (map sd nodes))).
