(** Models of rainbow/math/vector3.py, matrix3.py (rotation constructors, star,
    ortonormalize) and coordsys.py.  float64 -> R.  A division by a zero norm (NaN in
    numpy) is made visible as [None] where the property speaks about it. *)
From Verif Require Import Base QuatModel.

(** vector3.py:63-72 [i], [j], [k] *)
Definition v3_i := mkV 1 0 0.
Definition v3_j := mkV 0 1 0.
Definition v3_k := mkV 0 0 1.

(** vector3.py:75-113 [make_orthonormal_vectors]; the three [if]s overwrite [t], so the
    last true one wins.  [None] = a division by a zero norm. *)
Definition make_orthonormal_vectors (n0 : vec3) : option (vec3 * vec3 * vec3) :=
  let l := vnorm n0 in
  if Reqb l 0 then None else
  let n := vdiv n0 l in
  let nx := Rabs (vx n) in let ny := Rabs (vy n) in let nz := Rabs (vz n) in
  let t0 := None in
  let t1 := if Rleb nx ny && Rleb nx nz then Some v3_i else t0 in
  let t2 := if Rleb ny nx && Rleb ny nz then Some v3_j else t1 in
  let t3 := if Rleb nz nx && Rleb nz ny then Some v3_k else t2 in
  match t3 with
  | None => None (* NameError: t unbound *)
  | Some t =>
    let b0 := vcross n t in
    let lb := vnorm b0 in
    if Reqb lb 0 then None else
    let b := vdiv b0 lb in
    Some (vcross b n, b, n)
  end.

(** vector3.py:120-121 [unit] (no zero test) *)
Definition v3_unit (a : vec3) : vec3 := vdiv a (vnorm a).

(** vector3.py:127-133 [max_abs_component] *)
Definition v3_max_abs_component (a : vec3) : nat :=
  let b0 := Rabs (vx a) in let b1 := Rabs (vy a) in let b2 := Rabs (vz a) in
  if Rltb b1 b0 && Rltb b2 b0 then 0%nat
  else if Rltb b2 b1 then 1%nat else 2%nat.

(** vector3.py:140-156 [less] *)
Definition v3_less (a b : vec3) : bool :=
  if Rltb (vx b) (vx a) then false else
  if Rltb (vx a) (vx b) then true else
  if Rltb (vy b) (vy a) then false else
  if Rltb (vy a) (vy b) then true else
  if Rltb (vz b) (vz a) then false else
  if Rltb (vz a) (vz b) then true else false.
(** vector3.py:162-178 [greather] *)
Definition v3_greather (a b : vec3) : bool :=
  if Rltb (vx b) (vx a) then true else
  if Rltb (vx a) (vx b) then false else
  if Rltb (vy b) (vy a) then true else
  if Rltb (vy a) (vy b) then false else
  if Rltb (vz b) (vz a) then true else
  if Rltb (vz a) (vz b) then false else false.
(** vector3.py:181-182, 185-186 *)
Definition v3_less_than_equal (a b : vec3) : bool := negb (v3_greather a b).
Definition v3_greather_than_equal (a b : vec3) : bool := negb (v3_less a b).

(** matrix3.py:43-52 [star] *)
Definition m3_star (v : vec3) : mat3 :=
  mkM 0 (- vz v) (vy v) (vz v) 0 (- vx v) (- vy v) (vx v) 0.

(** matrix3.py:55-66 [ortonormalize].  [row0], [row1] are views of A, so the
    argument's first two rows are overwritten: the model returns the result and the
    matrix A as the caller sees it afterwards. *)
Definition m3_ortonormalize (A : mat3) : mat3 * mat3 :=
  let row0 := mrow0 A in
  let row1 := mrow1 A in
  let l0 := vnorm row0 in
  let row0 := if Rltb 0 l0 then vdiv row0 l0 else row0 in
  let row1 := vsub row1 (vscale (vdot row0 row1) row0) in
  let l1 := vnorm row1 in
  let row1 := if Rltb 0 l1 then vdiv row1 l1 else row1 in
  let row2 := vcross row0 row1 in
  (mkM (vx row0) (vy row0) (vz row0) (vx row1) (vy row1) (vz row1) (vx row2) (vy row2) (vz row2),
   mkM (vx row0) (vy row0) (vz row0) (vx row1) (vy row1) (vz row1) (m20 A) (m21 A) (m22 A)).

(** matrix3.py:69-84 [Ru] *)
Definition m3_Ru (radians : R) (axis : vec3) : mat3 :=
  let c := cos radians in
  let s := sin radians in
  let u := vdiv axis (vnorm axis) in
  let u0 := vx u in let u1 := vy u in let u2 := vz u in
  mkM (u0 * u0 + c * (1 - u0 * u0)) (u0 * u1 * (1 - c) - s * u2) (u0 * u2 * (1 - c) + s * u1)
      (u0 * u1 * (1 - c) + s * u2) (u1 * u1 + c * (1 - u1 * u1)) (u1 * u2 * (1 - c) - s * u0)
      (u0 * u2 * (1 - c) - s * u1) (u1 * u2 * (1 - c) + s * u0) (u2 * u2 + c * (1 - u2 * u2)).
(** matrix3.py:87-102 [Rx], [Ry], [Rz] *)
Definition m3_Rx (a : R) : mat3 := mkM 1 0 0 0 (cos a) (- sin a) 0 (sin a) (cos a).
Definition m3_Ry (a : R) : mat3 := mkM (cos a) 0 (sin a) 0 1 0 (- sin a) 0 (cos a).
Definition m3_Rz (a : R) : mat3 := mkM (cos a) (- sin a) 0 (sin a) (cos a) 0 0 0 1.

(** coordsys.py:6-17 [CoordSys], [make] *)
Record coordsys := mkX { xr : vec3; xq : quat }.
(** coordsys.py:20-25 [xform_point], [xform_vector] *)
Definition xform_point (X : coordsys) (p : vec3) : vec3 := vadd (q_rotate (xq X) p) (xr X).
Definition xform_vector (X : coordsys) (v : vec3) : vec3 := q_rotate (xq X) v.
(** coordsys.py:28-30 [xform_matrix] *)
Definition xform_matrix (X : coordsys) (M : mat3) : mat3 := mmul (q_to_matrix (xq X)) M.
(** coordsys.py:33-43 [concat] *)
Definition x_concat (B A : coordsys) : coordsys :=
  mkX (vadd (q_rotate (xq B) (xr A)) (xr B)) (q_unit (q_prod (xq B) (xq A))).
(** coordsys.py:46-53 [inverse] *)
Definition x_inverse (X : coordsys) : coordsys :=
  let q := q_conj (xq X) in mkX (q_rotate q (vopp (xr X))) q.
(** coordsys.py:56-67 [make_coordsys_from_to] *)
Definition x_from_to (A B : coordsys) : coordsys :=
  mkX (q_rotate (q_conj (xq B)) (vsub (xr A) (xr B)))
      (q_unit (q_prod (q_conj (xq B)) (xq A))).
