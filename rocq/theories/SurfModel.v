(** Model of rainbow/geometry/surface_mesh.py.  A mesh is its vertex list and its list of triangles; rows
    written in order into preallocated arrays are appended (the proved counts show the arrays are filled
    exactly).  int32 overflow is not modelled. *)
From Verif Require Import Base QuatModel VecModel BvhModel GridModel VolModel.
Open Scope R_scope.

(** surface_mesh.py:110-115 V[v] = rotate(Ru(j*dtheta, y), profile[i+1]) for i < H; profile[i+1] of a list
    with N points and i < N-2 always exists, so the ring of slice j is the profile without its ends *)
Definition inner {A} (l : list A) : list A := removelast (tl l).
Definition sweep_slice (profile : list vec3) (dtheta : R) (j : Z) : list vec3 :=
  map (q_rotate (q_Ru (IZR j * dtheta) v3_j)) (inner profile).
(** surface_mesh.py:125-138 bottom ring, 141-156 middle rings, 159-169 top ring *)
Definition sweep_bottom (H J bottom : Z) : list tri :=
  map (fun j => (bottom, (H * ((j + 1) mod J))%Z, (H * j)%Z)) (zupto J).
Definition sweep_middle (H J : Z) : list tri :=
  flat_map (fun i => flat_map (fun j =>
    (let left := j in let right := (j + 1) mod J in let up := i + 1 in let down := i in
     let vi := left * H + down in let vj := right * H + down in let vk := right * H + up in let vm := left * H + up in
     [(vi, vj, vk); (vi, vk, vm)])%Z) (zupto J)) (zupto (H - 1)).
Definition sweep_top (N H J top : Z) : list tri :=
  map (fun j => (top, (j * H + (N - 3))%Z, (((j + 1) mod J) * H + (N - 3))%Z)) (zupto J).
(** surface_mesh.py:85-171 [profile_sweep]; [None] = RuntimeError *)
Definition profile_sweep (profile : list vec3) (slices : Z) : option (list vec3 * list tri) :=
  let N := Z.of_nat (length profile) in
  let J := slices in
  if (N <=? 2)%Z then None else if (J <=? 2)%Z then None else
  let K := ((N - 2) * J + 2)%Z in
  let bottom := (K - 1)%Z in
  let top := (K - 2)%Z in
  let H := (N - 2)%Z in
  let dtheta := 2 * PI / IZR J in
  Some (flat_map (sweep_slice profile dtheta) (zupto J) ++ [last profile vzero; hd vzero profile],
        sweep_bottom H J bottom ++ sweep_middle H J ++ sweep_top N H J top).
(** surface_mesh.py:174-189 [create_cylinder] (segments = 0 raises ZeroDivisionError; a negative count gives
    a list shorter than 3 and an IndexError or RuntimeError: [None]) *)
Definition cylinder_profile (radius height : R) (segments : Z) : list vec3 :=
  [mkV 0 (- height / 2) 0; mkV radius (- height / 2) 0] ++
  map (fun i => mkV radius (height / IZR segments * (IZR i + 1) - height / 2) 0) (zupto segments) ++
  [mkV 0 (height / 2) 0].
Definition create_cylinder (radius height : R) (slices segments : Z) : option (list vec3 * list tri) :=
  if (segments <=? 0)%Z then None else profile_sweep (cylinder_profile radius height segments) slices.
(** surface_mesh.py:192-198 [create_cone] *)
Definition create_cone (radius height : R) (slices : Z) : option (list vec3 * list tri) :=
  profile_sweep [mkV 0 0 0; mkV radius 0 0; mkV 0 height 0] slices.
(** surface_mesh.py:201-208 [create_conical] *)
Definition create_conical (bottom_radius top_radius height : R) (slices : Z) : option (list vec3 * list tri) :=
  profile_sweep [mkV 0 0 0; mkV bottom_radius 0 0; mkV top_radius height 0; mkV 0 height 0] slices.
(** surface_mesh.py:211-218 [create_sphere]; segments = 1 divides by zero *)
Definition sphere_point (radius : R) (segments i : Z) : vec3 :=
  q_rotate (q_Ru (PI / IZR (segments - 1) * IZR i) v3_k) (mkV 0 (- radius) 0).
Definition create_sphere (radius : R) (slices segments : Z) : option (list vec3 * list tri) :=
  if (segments =? 1)%Z then None else profile_sweep (map (sphere_point radius segments) (zupto segments)) slices.
(** surface_mesh.py:221-226 [create_ellipsoid] *)
Definition vmul3 (p s : vec3) : vec3 := mkV (vx p * vx s) (vy p * vy s) (vz p * vz s).
Definition create_ellipsoid (a b c : R) (slices segments : Z) : option (list vec3 * list tri) :=
  do r <- create_sphere 1 slices segments;
  let '(V, T) := r in Some (map (fun p => vmul3 p (mkV a b c)) V, T).
(** surface_mesh.py:229-237 [create_capsule]; i < segments/2 as 2i < segments *)
Definition capsule_point (radius height : R) (segments i : Z) : vec3 :=
  let dh := if (2 * i <? segments)%Z then - height / 2 else height / 2 in
  vadd (sphere_point radius segments i) (mkV 0 dh 0).
Definition create_capsule (radius height : R) (slices segments : Z) : option (list vec3 * list tri) :=
  if (segments =? 1)%Z then None else profile_sweep (map (capsule_point radius height segments) (zupto segments)) slices.
(** surface_mesh.py:267-274 quads of [create_cuboid] *)
Definition cuboid_quads : list (Z * Z * Z * Z) :=
  [(0, 1, 2, 3); (4, 7, 6, 5); (4, 0, 3, 7); (1, 5, 6, 2); (7, 3, 2, 6); (5, 1, 0, 4)]%Z.
(** surface_mesh.py:240-283 [create_cuboid] *)
Definition create_cuboid (p0 p1 p2 p3 p4 p5 p6 p7 : vec3) : list vec3 * list tri :=
  ([p0; p1; p2; p3; p4; p5; p6; p7], flat_map (fun '(vi, vj, vk, vm) => [(vi, vj, vk); (vi, vk, vm)]) cuboid_quads).
(** surface_mesh.py:286-329 [create_box] *)
Definition box_triangles : list tri :=
  [(0, 2, 3); (0, 3, 1); (4, 5, 7); (4, 7, 6); (1, 3, 7); (1, 7, 5); (0, 4, 6); (0, 6, 2); (0, 1, 5); (0, 5, 4); (3, 2, 6); (3, 6, 7)]%Z.
Definition create_box (width height depth : R) : list vec3 * list tri :=
  (map (vscale (1 / 2))
     [mkV (- width) (- height) (- depth); mkV width (- height) (- depth); mkV (- width) height (- depth); mkV width height (- depth);
      mkV (- width) (- height) depth; mkV width (- height) depth; mkV (- width) height depth; mkV width height depth],
   box_triangles).
(** surface_mesh.py:332-383 [create_torus]; np.linspace(0, 2 pi, n+1)[i] = i * (2 pi / n) *)
Definition torus_point (R r : R) (I K : Z) (i k : Z) : vec3 :=
  let theta := IZR i * (2 * PI / IZR I) in
  let phi := IZR k * (2 * PI / IZR K) in
  let l := r * cos theta + R in
  mkV (l * cos phi) (l * sin phi) (r * sin theta).
Definition torus_triangles (I K : Z) : list tri :=
  flat_map (fun k => flat_map (fun i =>
    (let a := k * I + i in
     let b := ((k + 1) mod K) * I + i in
     let c := ((k + 1) mod K) * I + (i + 1) mod I in
     let d := k * I + (i + 1) mod I in
     [(a, b, c); (a, c, d)])%Z) (zupto I)) (zupto K).
Definition create_torus (major_radius minor_radius : R) (segments slices : Z) : list vec3 * list tri :=
  (flat_map (fun k => map (fun i => torus_point major_radius minor_radius segments slices i k) (zupto segments)) (zupto slices),
   torus_triangles segments slices).

(** surface_mesh.py:17-19 [translate], 22-24 [rotate], 27-31 [scale] *)
Definition mesh_translate (V : list vec3) (r : vec3) : list vec3 := map (fun p => vadd p r) V.
Definition mesh_rotate (V : list vec3) (q : quat) : list vec3 := q_rotate_array q V.
Definition mesh_scale (V : list vec3) (a b c : R) : list vec3 := map (fun p => vmul3 p (mkV a b c)) V.
(** surface_mesh.py:40-53 [scale_to_unit]; [None] on an empty mesh; np.max(u - l) = 0 divides by zero *)
Definition vmaxcomp (v : vec3) : R := Rmax (Rmax (vx v) (vy v)) (vz v).
Definition scale_to_unit (V : list vec3) : option (list vec3) :=
  do l <- np_min0 V; do u <- np_max0 V;
  let center := vdiv (vadd l u) 2 in
  if Reqb (vmaxcomp (vsub u l)) 0 then None else
  let s := 1 / vmaxcomp (vsub u l) in
  Some (mesh_translate (mesh_scale (mesh_translate V (vopp center)) s s s) center).
(** surface_mesh.py:56-82 [axis_sort] on the rows of mesh.T.  sorted(range(n), key) is a stable argsort;
    [None] = IndexError.  np.mean(T, axis=1) of a row of n entries is sum/n. *)
Definition argsort (key : nat -> R) (n : nat) : list nat := isort (fun a b => Rleb (key a) (key b)) (seq 0 n).
Definition row_mean (row : list Z) : R := fold_right Rplus 0 (map IZR row) / INR (length row).
Definition axis_sort (V : list vec3) (T : list (list Z)) (axis : vec3) : option (list vec3 * list (list Z)) :=
  let n := v3_unit axis in
  let d := map (fun p => vdot p n) V in
  let new2old := argsort (fun k => nth k d 0) (length V) in
  let V' := map (fun k => nth k V vzero) new2old in
  let old2new := argsort (fun k => INR (nth k new2old 0%nat)) (length d) in
  do T' <- map_opt (map_opt (fun v => option_map Z.of_nat (py_get old2new v))) T;
  let tmean := map row_mean T' in
  let order := argsort (fun k => nth k tmean 0) (length T') in
  Some (V', map (fun k => nth k T' []) order).

(** surface_mesh.py:386-415 [create_convex_hull]: scipy's hull is a parameter (vertices and remapped
    simplices); the model covers the orientation loop 404-413.  np.mean of an empty array is nan: [None]. *)
Definition vmean (V : list vec3) : vec3 := vdiv (fold_right vadd vzero V) (INR (length V)).
Definition orient_ccw (V : list vec3) (pm : vec3) (t : tri) : option tri :=
  let '(i, j, k) := t in
  do pi <- py_get V i; do pj <- py_get V j; do pk <- py_get V k;
  if Rltb 0 (vdot (vsub pm pi) (vcross (vsub pj pi) (vsub pk pi))) then Some (j, i, k) else Some (i, j, k).
Definition convex_hull_orient (V : list vec3) (T : list tri) : option (list tri) :=
  map_opt (orient_ccw V (vmean V)) T.
