(** Specification vocabulary for rotations, independent of the model. *)
From Verif Require Import Base.

(** Rotation by [theta] about the unit axis [n] (Rodrigues' formula), as a matrix. *)
Definition rodrigues (theta : R) (n : vec3) : mat3 :=
  let c := cos theta in let s := sin theta in
  mkM (c + (1 - c) * vx n * vx n) ((1 - c) * vx n * vy n - s * vz n) ((1 - c) * vx n * vz n + s * vy n)
      ((1 - c) * vy n * vx n + s * vz n) (c + (1 - c) * vy n * vy n) ((1 - c) * vy n * vz n - s * vx n)
      ((1 - c) * vz n * vx n - s * vy n) ((1 - c) * vz n * vy n + s * vx n) (c + (1 - c) * vz n * vz n).
(** direction of a vector *)
Definition direction (v : vec3) : vec3 := vdiv v (vnorm v).
(** [rodrigues] really is v |-> cos v + sin (n x v) + (1-cos)(n.v) n *)
Lemma rodrigues_formula theta n v :
  mvec (rodrigues theta n) v =
  vadd (vscale (cos theta) v) (vadd (vscale (sin theta) (vcross n v)) (vscale ((1 - cos theta) * vdot n v) n)).
Proof. unfold rodrigues; vring. Qed.
(** coordinate directions *)
Definition vbasis (i : nat) : vec3 := match i with O => mkV 1 0 0 | S O => mkV 0 1 0 | _ => mkV 0 0 1 end.
(** entry access *)
Definition mget (A : mat3) (i j : nat) : R :=
  match i, j with
  | O, O => m00 A | O, S O => m01 A | O, _ => m02 A
  | S O, O => m10 A | S O, S O => m11 A | S O, _ => m12 A
  | _, O => m20 A | _, S O => m21 A | _, _ => m22 A end.
Definition qget (q : quat) (j : nat) : R := match j with O => qs q | 1%nat => qx q | 2%nat => qy q | _ => qz q end.
(** Rotation described by the rotation vector [v]: by |v| about v/|v|, identity for v = 0. *)
Definition rotvec (v : vec3) : mat3 :=
  if vec3_eq_dec v vzero then mid else rodrigues (vnorm v) (direction v).
