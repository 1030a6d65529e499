(** Models of rainbow/math/euler.py, expmap.py, functions.py (sinc) and the angle
    functions of quaternion.py.  math.sin/cos/acos/asin/atan2/fmod/pi are the real
    functions of Coq.Reals; [atan2] and [fmod] are defined here from [atan] and the
    integer part, following the C standard on real arguments. *)
From Verif Require Import Base QuatModel VecModel.

(** math.atan2 (C99 7.12.4.4 on reals, no signed zeros) *)
Definition atan2 (y x : R) : R :=
  if Rltb 0 x then atan (y / x)
  else if Rltb x 0 then (if Rleb 0 y then atan (y / x) + PI else atan (y / x) - PI)
  else if Rltb 0 y then PI / 2 else if Rltb y 0 then - (PI / 2) else 0.
(** math.fmod for a non-negative dividend and a positive divisor (the only use) *)
Definition fmod (x y : R) : R := x - IZR (Int_part (x / y)) * y.

(** euler.py:5-9 [EulerXYZ] *)
Record euler := mkE { ea : R; eb : R; eg : R }.
(** euler.py:12-34 [make_euler_xyz_from_matrix] *)
Definition euler_from_matrix (M : mat3) : euler :=
  if Rleb 1 (m20 M) then
    mkE 0 (- PI / 2) (atan2 (- m01 M) (- m02 M))
  else if Rleb (m20 M) (-1) then
    mkE 0 (PI / 2) (atan2 (- m01 M) (m02 M))
  else
    mkE (atan2 (m21 M) (m22 M)) (asin (- m20 M)) (atan2 (m10 M) (m00 M)).
(** euler.py:37-38 [make_euler_xyz_from_quaternion] *)
Definition euler_from_quaternion (q : quat) : euler := euler_from_matrix (q_to_matrix q).

(** quaternion.py:253-264 [to_angle_axis] *)
Definition q_to_angle_axis (Q : quat) : R * vec3 :=
  let ct2 := qs Q in
  let st2 := vnorm (qvec Q) in
  let theta := 2 * atan2 st2 ct2 in
  if Rltb 0 st2 then (theta, vdiv (qvec Q) st2) else (theta, vzero).
(** quaternion.py:267-285 [to_angle] *)
Definition q_to_angle (Q : quat) (axis : vec3) : R :=
  let ct2 := qs Q in
  let st2 := vnorm (qvec Q) in
  let theta := if Rleb 0 (vdot (qvec Q) axis) then 2 * atan2 st2 ct2 else 2 * atan2 st2 (- ct2) in
  if Rltb PI theta then theta - 2 * PI else theta.

(** expmap.py:8-26 [Constants] *)
Definition em_min_angle : R := / 1000000.
Definition em_cutoff_angle : R := PI.
(** expmap.py:29-49 [reparameterization] *)
Definition em_reparam (v0 : vec3) : vec3 :=
  let theta := vnorm v0 in
  let v := if Rltb (2 * PI) theta then vscale (fmod theta (2 * PI) / theta) v0 else v0 in
  let theta := vnorm v in
  if Rltb em_cutoff_angle theta then vscale (1 - (2 * PI / theta)) v else v.
(** expmap.py:52-72 [exp]; [v * s / theta] is [(v*s)/theta] *)
Definition em_exp (v : vec3) (reparm : bool) : quat :=
  let v := if reparm then em_reparam v else v in
  let theta := vnorm v in
  let c := cos (theta / 2) in
  let s := sin (theta / 2) in
  let w := if Rltb theta em_min_angle then vscale (1/2 - theta ^ 2 / 48) v
           else vdiv (vscale s v) theta in
  mkQ c (vx w) (vy w) (vz w).
(** expmap.py:75-103 [log] ([2 * t / s] raises ZeroDivisionError when s = 0: [None];
    [acos] raises ValueError outside [-1,1]: [None]) *)
Definition em_log (q : quat) : option vec3 :=
  if Rltb 0 (Rabs (qs q)) then
    if Rltb 1 (Rabs (qs q)) then None else
    let t := acos (qs q) in
    let s := sin t in
    if Reqb s 0 then None else
    let f := 2 * t / s in
    Some (mkV (f * qx q) (f * qy q) (f * qz q))
  else Some vzero.
(** expmap.py:114-115 [to_matrix] *)
Definition em_to_matrix (v : vec3) : mat3 := q_to_matrix (em_exp v true).
(** expmap.py:118-140 [dvdt] *)
Definition em_dvdt (omega v : vec3) : vec3 :=
  let theta := vnorm v in
  let cosp := cos (1/2 * theta) in
  let sinp := sin (1/2 * theta) in
  let '(gamma, eta) :=
    if Rltb theta em_min_angle then ((12 - theta ^ 2) / 6, vdot v omega * (60 + theta ^ 2) / 360)
    else let cotp := cosp / sinp in
         (theta * cotp, vdot v omega / theta * (cotp - 2 / theta)) in
  vscale (1/2) (vsub (vadd (vscale gamma omega) (vcross omega v)) (vscale eta v)).
(** component access v[i], i = 0,1,2 *)
Definition vget (v : vec3) (i : nat) : R := match i with O => vx v | S O => vy v | _ => vz v end.
(** expmap.py:143-174 [dQdv_i]; the writes to i+1, i1+1, i2+1 are the three vector slots;
    [None] = the assertion on the index *)
Definition em_dQdv (v : vec3) (i : nat) : option quat :=
  if Nat.leb 3 i then None else
  let theta := vnorm v in
  let slot (cterm diag : R) (j : nat) := if Nat.eqb i j then vget v j * cterm + diag else vget v j * cterm in
  if Rltb theta em_min_angle then
    let Tsinc := 1/2 - theta ^ 2 / 48 in
    let vTerm := vget v i * (theta ^ 2 / 40 - 1) / 24 in
    Some (mkQ (- (1/2) * vget v i * Tsinc) (slot vTerm Tsinc 0%nat) (slot vTerm Tsinc 1%nat) (slot vTerm Tsinc 2%nat))
  else
    let cosp := cos (1/2 * theta) in
    let sinp := sin (1/2 * theta) in
    let ang := 1 / theta in
    let sang := sinp * ang in
    let cterm := vget v i * ang ^ 2 * (1/2 * cosp - sang) in
    Some (mkQ (- (1/2) * vget v i * sang) (slot cterm sang 0%nat) (slot cterm sang 1%nat) (slot cterm sang 2%nat)).
(** expmap.py:177-214 [__dRdv_i] *)
Definition em_dR (q d : quat) : mat3 :=
  let prod0 := -4 * qx q * qx d in
  let prod1 := -4 * qy q * qy d in
  let prod2 := -4 * qz q * qz d in
  let prod3 := 2 * (qy q * qx d + qx q * qy d) in
  let prod4 := 2 * (qs q * qz d + qz q * qs d) in
  let prod5 := 2 * (qz q * qx d + qx q * qz d) in
  let prod6 := 2 * (qs q * qy d + qy q * qs d) in
  let prod7 := 2 * (qz q * qy d + qy q * qz d) in
  let prod8 := 2 * (qs q * qx d + qx q * qs d) in
  mkM (prod1 + prod2) (prod3 - prod4) (prod5 + prod6)
      (prod3 + prod4) (prod0 + prod2) (prod7 - prod8)
      (prod5 - prod6) (prod7 + prod8) (prod0 + prod1).
(** expmap.py:217-231 [dRdv_i]: q from exp with reparameterization, dQdv_i at the
    un-reparameterized v *)
Definition em_dRdv (v : vec3) (i : nat) : option mat3 :=
  let q := em_exp v true in
  match em_dQdv v i with None => None | Some d => Some (em_dR q d) end.

(** functions.py:4-24 [sinc]; np.where also evaluates sin(x)/x at 0 but discards it *)
Definition f_sinc (x : R) : R :=
  if Rltb (Rabs x) (1 / 10000) then 1 - x * x * (166666666666666666667 / 1000000000000000000000)
  else sin x / x.

(** angle.py:4-9 *)
Definition radians_to_degrees (radians : R) : R := 180 * radians / PI.
Definition degrees_to_radians (degrees : R) : R := degrees * PI / 180.
