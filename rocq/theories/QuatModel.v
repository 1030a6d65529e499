(** Model of rainbow/math/quaternion.py (and the parts of matrix3.py / vector3.py
    it uses).  float64 -> R; [np.array(data[0:4])] copies are the value itself. *)
From Verif Require Import Base.

(** quaternion.py:68-69 [from_vector3] *)
Definition q_from_vector3 (w : vec3) : quat := mkQ 0 (vx w) (vy w) (vz w).

(** quaternion.py:72-73 [identity] *)
Definition q_identity : quat := mkQ 1 0 0 0.

(** quaternion.py:76-80 [unit] : [l > 0.0] test, identity for the zero quaternion *)
Definition q_unit (q : quat) : quat :=
  let l := qnorm q in
  if Rltb 0 l then mkQ (qs q / l) (qx q / l) (qy q / l) (qz q / l) else q_identity.

(** quaternion.py:83-87 [Ru] (axis is divided by its norm; the real code yields NaN
    for a zero axis, in the model [x / 0]; theorems require a non-zero axis) *)
Definition q_Ru (radians : R) (axis : vec3) : quat :=
  let c := cos (radians / 2) in
  let s := sin (radians / 2) in
  let n := vdiv axis (vnorm axis) in
  mkQ c (s * vx n) (s * vy n) (s * vz n).

(** quaternion.py:90-105 [Rx], [Ry], [Rz] *)
Definition q_Rx (radians : R) : quat := mkQ (cos (radians / 2)) (sin (radians / 2)) 0 0.
Definition q_Ry (radians : R) : quat := mkQ (cos (radians / 2)) 0 (sin (radians / 2)) 0.
Definition q_Rz (radians : R) : quat := mkQ (cos (radians / 2)) 0 0 (sin (radians / 2)).

(** quaternion.py:108-129 [to_matrix] *)
Definition q_to_matrix (Q : quat) : mat3 :=
  let q := q_unit Q in
  let s := qs q in let x := qx q in let y := qy q in let z := qz q in
  mkM (1 - 2 * (y * y + z * z)) (2 * (x * y - s * z)) (2 * (s * y + x * z))
      (2 * (x * y + s * z)) (1 - 2 * (x * x + z * z)) (2 * (z * y - s * x))
      (2 * (- s * y + x * z)) (2 * (z * y + s * x)) (1 - 2 * (y * y + x * x)).

(** quaternion.py:149-155, 157-163, 165-171, 172-178: the shared shape of the four
    branches of [from_matrix]: r = sqrt(a); first = 0.5 * r; r = 0.5 / r *)
Definition q_half_over (a : R) (k : R -> R -> quat) : option quat :=
  if Rltb a 0 then None
  else let r := sqrt a in
       if Reqb r 0 then None else Some (k (1/2 * r) ((1/2) / r)).

(** quaternion.py:132-179 [from_matrix].  [M[i,i]] after the first comparison is
    M11 when M11 > M00 and M00 otherwise.  [math.sqrt] raises on a negative
    argument and [0.5 / r] raises on r = 0: both give [None]. *)
Definition q_from_matrix (M : mat3) : option quat :=
  let tr := m00 M + m11 M + m22 M in
  if Rltb tr 0 then
    let i1 := Rltb (m00 M) (m11 M) in          (* if M11 > M00: i = 1 *)
    let mii := if i1 then m11 M else m00 M in
    let i2 := Rltb mii (m22 M) in              (* if M22 > M[i,i]: i = 2 *)
    if i2 then
      q_half_over ((m22 M - (m00 M + m11 M)) + 1)
        (fun z r => mkQ ((m10 M - m01 M) * r) ((m20 M + m02 M) * r) ((m12 M + m21 M) * r) z)
    else if i1 then
      q_half_over ((m11 M - (m22 M + m00 M)) + 1)
        (fun y r => mkQ ((m02 M - m20 M) * r) ((m01 M + m10 M) * r) y ((m12 M + m21 M) * r))
    else
      q_half_over ((m00 M - (m11 M + m22 M)) + 1)
        (fun x r => mkQ ((m21 M - m12 M) * r) x ((m01 M + m10 M) * r) ((m20 M + m02 M) * r))
  else
    q_half_over (tr + 1)
      (fun s r => mkQ s ((m21 M - m12 M) * r) ((m02 M - m20 M) * r) ((m10 M - m01 M) * r)).

(** quaternion.py:182-183 [conjugate] *)
Definition q_conj (q : quat) : quat := mkQ (qs q) (- qx q) (- qy q) (- qz q).

(** quaternion.py:186-193 [prod] : scalar/vector form with np.dot and np.cross *)
Definition qvec (q : quat) : vec3 := mkV (qx q) (qy q) (qz q).
Definition q_prod (Qa Qb : quat) : quat :=
  let a := qs Qa in let A := qvec Qa in
  let b := qs Qb in let B := qvec Qb in
  let s := a * b - vdot A B in
  let v := vadd (vadd (vscale a B) (vscale b A)) (vcross A B) in
  mkQ s (vx v) (vy v) (vz v).

(** quaternion.py:196-198 [rotate] *)
Definition q_rotate (q : quat) (r : vec3) : vec3 :=
  qvec (q_prod (q_prod q (mkQ 0 (vx r) (vy r) (vz r))) (q_conj q)).

(** quaternion.py:201-241 [prod_array], 1-D left / 2-D right case: a separate,
    component-wise formula (not a call of [prod]) *)
Definition q_prod_array_l (Qa : quat) (Qb : list quat) : list quat :=
  map (fun b => mkQ
    (qs Qa * qs b - qx Qa * qx b - qy Qa * qy b - qz Qa * qz b)
    (qs Qa * qx b + qx Qa * qs b + qy Qa * qz b - qz Qa * qy b)
    (qs Qa * qy b - qx Qa * qz b + qy Qa * qs b + qz Qa * qx b)
    (qs Qa * qz b + qx Qa * qy b - qy Qa * qx b + qz Qa * qs b)) Qb.
(** quaternion.py:221-235 [prod_array], 2-D left / 1-D right case *)
Definition q_prod_array_r (Qa : list quat) (Qb : quat) : list quat :=
  map (fun a => mkQ
    (qs a * qs Qb - qx a * qx Qb - qy a * qy Qb - qz a * qz Qb)
    (qs a * qx Qb + qx a * qs Qb + qy a * qz Qb - qz a * qy Qb)
    (qs a * qy Qb - qx a * qz Qb + qy a * qs Qb + qz a * qx Qb)
    (qs a * qz Qb + qx a * qy Qb - qy a * qx Qb + qz a * qs Qb)) Qa.

(** quaternion.py:244-250 [rotate_array] *)
Definition q_rotate_array (q : quat) (rs : list vec3) : list vec3 :=
  let conjugated := q_conj q in
  let qrs := map (fun r => mkQ 0 (vx r) (vy r) (vz r)) rs in
  let inner := q_prod_array_l q qrs in
  let outer := q_prod_array_r inner conjugated in
  map qvec outer.

(** quaternion.py:288-298 [lerp]; np.clip(t,0,1) *)
Definition clip (t lo hi : R) : R := Rmin (Rmax t lo) hi.
Definition q_lerp (a b : quat) (t : R) : quat :=
  let t := clip t 0 1 in
  qadd a (qscale t (qsub b a)).

(** quaternion.py:301-330 [slerp] *)
Definition q_slerp (a b : quat) (t : R) : quat :=
  let t := clip t 0 1 in
  let dot0 := clip (qdot a b) (-1) 1 in
  let flip := Rltb dot0 0 in
  let dot := if flip then - dot0 else dot0 in
  if Rltb (9999999 / 10000000) dot then q_unit (q_lerp a b t)
  else
    let omega := acos dot in
    let sin_omega := sin omega in
    let t_omega := t * omega in
    let x := sin (omega - t_omega) / sin_omega in
    let z := sin t_omega / sin_omega in
    let y := if flip then - z else z in
    qadd (qscale x a) (qscale y b).

(** quaternion.py:337-348 [hat] *)
Definition q_hat (q : quat) : quat := mkQ (qz q) (- qy q) (qx q) (- qs q).
