(** Model of rainbow/geometry/barycentric.py and tetrahedron.py *)
From Verif Require Import Base VecModel GridModel.
Open Scope R_scope.

(** matrix3.py:37-40 [make_from_cols] *)
Definition make_from_cols (c0 c1 c2 : vec3) : mat3 := mkM (vx c0) (vx c1) (vx c2) (vy c0) (vy c1) (vy c2) (vz c0) (vz c1) (vz c2).
(** np.linalg.solve on a 3x3 system: LinAlgError ([None]) on a singular matrix, else the solution
    (written by Cramer's rule). *)
Definition np_solve3 (A : mat3) (b : vec3) : option vec3 :=
  let d := mdet A in
  if Reqb d 0 then None else
  Some (mkV (mdet (make_from_cols b (mcol1 A) (mcol2 A)) / d)
            (mdet (make_from_cols (mcol0 A) b (mcol2 A)) / d)
            (mdet (make_from_cols (mcol0 A) (mcol1 A) b) / d)).
(** np.linalg.lstsq(A, b)[0]: some minimiser of |A x - b|; a relation, since nothing else is used.
    [dist2 r] is the squared residual. *)
Definition lstsq3 (A : mat3) (b x : vec3) : Prop :=
  forall y, let r := vsub (mvec A x) b in let s := vsub (mvec A y) b in vdot r r <= vdot s s.

(** barycentric.py:5-37 [compute_barycentric_edge]; [None] = assert uu > 0 fails *)
Definition compute_barycentric_edge (x1 x2 p : vec3) : option (R * R) :=
  let u := vsub x2 x1 in
  let uu := vdot u u in
  if Rleb uu 0 then None else
  let q := vadd (vscale (vdot u (vsub p x1) / uu) u) x1 in
  let a := vsub q x2 in
  let b := vsub q x1 in
  let aa := vdot a a in
  let bb := vdot b b in
  let w1 := if Rleb (vdot u a) 0 then sqrt (aa / uu) else - sqrt (aa / uu) in
  let w2 := if Rleb 0 (vdot u b) then sqrt (bb / uu) else - sqrt (bb / uu) in
  Some (w1, w2).
(** barycentric.py:40-71 [compute_barycentric_triangle]; [None] = a zero norm (NaN, assert fails) or a singular basis *)
Definition compute_barycentric_triangle (x1 x2 x3 p : vec3) : option (R * R * R) :=
  let b1 := vsub x2 x1 in
  let b2 := vsub x3 x1 in
  if (Reqb (vnorm b1) 0 || Reqb (vnorm b2) 0)%bool then None else
  let b3 := vcross (vdiv b1 (vnorm b1)) (vdiv b2 (vnorm b2)) in
  let basis := make_from_cols b1 b2 b3 in
  match np_solve3 basis (vsub p x1) with
  | None => None
  | Some q => Some (1 - vx q - vy q, vx q, vy q)
  end.
(** barycentric.py:74-113 [compute_barycentric_tetrahedron] *)
Definition compute_barycentric_tetrahedron (x1 x2 x3 x4 p : vec3) : option (R * R * R * R) :=
  let b1 := vsub x2 x1 in
  let b2 := vsub x3 x1 in
  let b3 := vsub x4 x1 in
  if Rltb 0 (vdot b3 (vcross b1 b2)) then
    match np_solve3 (make_from_cols b1 b2 b3) (vsub p x1) with
    | None => None
    | Some q => Some (1 - vx q - vy q - vz q, vx q, vy q, vz q)
    end
  else
    match np_solve3 (make_from_cols b1 b3 b2) (vsub p x1) with
    | None => None
    | Some q => Some (1 - vx q - vy q - vz q, vx q, vz q, vy q)
    end.
(** barycentric.py:116-131 [compute_barycentric_derivatives_tetrahedron]; [None] = assert *)
Definition compute_barycentric_derivatives_tetrahedron (x1 x2 x3 x4 : vec3) : option (vec3 * vec3 * vec3 * vec3) :=
  let vol6 := vdot (vsub x4 x1) (vcross (vsub x2 x1) (vsub x3 x1)) in
  if Rleb vol6 0 then None else
  Some (vdiv (vcross (vsub x4 x2) (vsub x3 x2)) vol6,
        vdiv (vcross (vsub x3 x1) (vsub x4 x1)) vol6,
        vdiv (vcross (vsub x4 x1) (vsub x2 x1)) vol6,
        vdiv (vcross (vsub x2 x1) (vsub x3 x1)) vol6).
(** barycentric.py:134-156, 159-187, 190-224 *)
Definition is_inside_edge (w1 w2 : R) : bool :=
  if Rltb w1 0 then false else if Rltb w2 0 then false else
  if Rltb 1 w1 then false else if Rltb 1 w2 then false else
  if Rltb 1 (w1 + w2) then false else if Rltb (w1 + w2) 0 then false else true.
Definition is_inside_triangle (w1 w2 w3 : R) : bool :=
  if Rltb w1 0 then false else if Rltb w2 0 then false else if Rltb w3 0 then false else
  if Rltb 1 w1 then false else if Rltb 1 w2 then false else if Rltb 1 w3 then false else
  if Rltb 1 (w1 + w2 + w3) then false else if Rltb (w1 + w2 + w3) 0 then false else true.
Definition is_inside_tetrahedron (w1 w2 w3 w4 : R) : bool :=
  if Rltb w1 0 then false else if Rltb w2 0 then false else if Rltb w3 0 then false else if Rltb w4 0 then false else
  if Rltb 1 w1 then false else if Rltb 1 w2 then false else if Rltb 1 w3 then false else if Rltb 1 w4 then false else
  if Rltb 1 (w1 + w2 + w3 + w4) then false else if Rltb (w1 + w2 + w3 + w4) 0 then false else true.

(** tetrahedron.py:6-17 [compute_signed_volume] *)
Definition compute_signed_volume (pi pj pk pm : vec3) : R := vdot (vsub pm pi) (vcross (vsub pj pi) (vsub pk pi)) / 6.
(** tetrahedron.py:20-30 [is_left_orientation] *)
Definition is_left_orientation (pi pj pk pm : vec3) : bool := Rltb (compute_signed_volume pi pj pk pm) 0.
(** tetrahedron.py:33-109 [compute_circumscribed_sphere]: relation, through lstsq *)
Definition compute_circumscribed_sphere (p0 p1 p2 p3 : vec3) (center : vec3) (radius : R) : Prop :=
  let A := vsub p0 p3 in
  let B := vsub p1 p3 in
  let C := vsub p2 p3 in
  let M := mkM (vdot A A) (vdot A B) (vdot A C) (vdot B A) (vdot B B) (vdot B C) (vdot C A) (vdot C B) (vdot C C) in
  let q := vscale (1 / 2) (mkV (vdot A A) (vdot B B) (vdot C C)) in
  exists u, lstsq3 M q u /\
    let u3 := 1 - vx u - vy u - vz u in
    radius = vnorm (vadd (vadd (vscale (vx u) A) (vscale (vy u) B)) (vscale (vz u) C)) /\
    center = vadd (vadd (vadd (vscale (vx u) p0) (vscale (vy u) p1)) (vscale (vz u) p2)) (vscale u3 p3).
(** tetrahedron.py:144-155: unit face normals and plane offsets *)
Definition insphere_normals (pi pj pk pm : vec3) : vec3 * vec3 * vec3 * vec3 :=
  (v3_unit (vcross (vsub pj pi) (vsub pk pi)), v3_unit (vcross (vsub pm pj) (vsub pk pj)),
   v3_unit (vcross (vsub pm pk) (vsub pi pk)), v3_unit (vcross (vsub pm pi) (vsub pj pi))).
(** squared residual of the 4x4 system (rows n.c - r = w) *)
Definition insphere_res (pi pj pk pm c : vec3) (r : R) : R :=
  let '(nm, ni, nj, nk) := insphere_normals pi pj pk pm in
  let e0 := vdot nm c + -1 * r - vdot nm pi in
  let e1 := vdot ni c + -1 * r - vdot ni pj in
  let e2 := vdot nj c + -1 * r - vdot nj pk in
  let e3 := vdot nk c + -1 * r - vdot nk pi in
  e0 * e0 + e1 * e1 + e2 * e2 + e3 * e3.
(** tetrahedron.py:112-200 [compute_inscribed_sphere]: least squares solution of the system *)
Definition compute_inscribed_sphere (pi pj pk pm c : vec3) (r : R) : Prop :=
  forall c' r', insphere_res pi pj pk pm c r <= insphere_res pi pj pk pm c' r'.
(** tetrahedron.py:203-228 [generate_sample_points]; [None] = ValueError *)
Definition generate_sample_points (N : Z) : option (list (list R)) :=
  if (N <? 2)%Z then None else
  Some (flat_map (fun m => flat_map (fun k => map (fun j =>
     let i := (N - j - k - m - 1)%Z in
     [IZR i / IZR (N - 1); IZR j / IZR (N - 1); IZR k / IZR (N - 1); IZR m / IZR (N - 1)])
     (zupto (N - k - m))) (zupto (N - m))) (zupto N)).
(** np.count_nonzero of a row *)
Definition count_nonzero (row : list R) : Z := Z.of_nat (length (filter (fun x => negb (Reqb x 0)) row)).
(** tetrahedron.py:231-243 [generate_interior_sample_points] *)
Definition generate_interior_sample_points (N : Z) : option (list (list R)) :=
  match generate_sample_points N with
  | None => None
  | Some samples => Some (filter (fun row => (count_nonzero row =? 3)%Z) samples)
  end.
