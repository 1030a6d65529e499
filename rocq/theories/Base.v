(** Shared mathematical vocabulary: booleans on reals, 3-vectors, 3x3 matrices,
    quaternion 4-tuples.  Nothing in this file is specific to RAINBOW: it gives
    meaning to the numpy operations (+, -, np.dot, np.cross, np.linalg.norm,
    matrix product, transpose) the code applies to float64 arrays of shape
    (3,), (4,) and (3,3); float64 is abstracted to exact reals. *)
From Coq Require Export Reals Lra Lia List ZArith Bool.
Export ListNotations.
Open Scope R_scope.

(** ** Boolean comparisons (Python <, <=, ==, >, >= on floats) *)
Definition Rltb (x y : R) : bool := if Rlt_dec x y then true else false.
Definition Rleb (x y : R) : bool := if Rle_dec x y then true else false.
Definition Reqb (x y : R) : bool := if Req_EM_T x y then true else false.

Lemma Rltb_spec x y : reflect (x < y) (Rltb x y).
Proof. unfold Rltb; destruct (Rlt_dec x y); constructor; assumption. Qed.
Lemma Rleb_spec x y : reflect (x <= y) (Rleb x y).
Proof. unfold Rleb; destruct (Rle_dec x y); constructor; assumption. Qed.
Lemma Reqb_spec x y : reflect (x = y) (Reqb x y).
Proof. unfold Reqb; destruct (Req_EM_T x y); constructor; assumption. Qed.

Lemma Rltb_true x y : Rltb x y = true <-> x < y.
Proof. destruct (Rltb_spec x y); split; auto; discriminate || contradiction. Qed.
Lemma Rltb_false x y : Rltb x y = false <-> y <= x.
Proof. destruct (Rltb_spec x y); split; intros; try discriminate; auto; lra. Qed.
Lemma Rleb_true x y : Rleb x y = true <-> x <= y.
Proof. destruct (Rleb_spec x y); split; auto; discriminate || contradiction. Qed.
Lemma Rleb_false x y : Rleb x y = false <-> y < x.
Proof. destruct (Rleb_spec x y); split; intros; try discriminate; auto; lra. Qed.
Lemma Reqb_true x y : Reqb x y = true <-> x = y.
Proof. destruct (Reqb_spec x y); split; auto; discriminate || contradiction. Qed.
Lemma Reqb_false x y : Reqb x y = false <-> x <> y.
Proof. destruct (Reqb_spec x y); split; intros; try discriminate; auto; contradiction. Qed.

(** ** 3-vectors *)
Record vec3 := mkV { vx : R; vy : R; vz : R }.

Definition vzero : vec3 := mkV 0 0 0.
Definition vadd (a b : vec3) := mkV (vx a + vx b) (vy a + vy b) (vz a + vz b).
Definition vsub (a b : vec3) := mkV (vx a - vx b) (vy a - vy b) (vz a - vz b).
Definition vopp (a : vec3) := mkV (- vx a) (- vy a) (- vz a).
Definition vscale (s : R) (a : vec3) := mkV (s * vx a) (s * vy a) (s * vz a).
(** elementwise division by a scalar, numpy [a / s] *)
Definition vdiv (a : vec3) (s : R) := mkV (vx a / s) (vy a / s) (vz a / s).
Definition vdot (a b : vec3) : R := vx a * vx b + vy a * vy b + vz a * vz b.
Definition vcross (a b : vec3) : vec3 :=
  mkV (vy a * vz b - vz a * vy b) (vz a * vx b - vx a * vz b) (vx a * vy b - vy a * vx b).
Definition vnorm (a : vec3) : R := sqrt (vdot a a).

Lemma vec3_eq a b : vx a = vx b -> vy a = vy b -> vz a = vz b -> a = b.
Proof. destruct a, b; cbn; intros; subst; reflexivity. Qed.

Lemma vec3_eq_dec (a b : vec3) : {a = b} + {a <> b}.
Proof.
  destruct a as [a0 a1 a2], b as [b0 b1 b2].
  destruct (Req_EM_T a0 b0); [|right; congruence].
  destruct (Req_EM_T a1 b1); [|right; congruence].
  destruct (Req_EM_T a2 b2); [left|right]; congruence.
Qed.

Lemma vdot_self_nonneg a : 0 <= vdot a a.
Proof.
  unfold vdot. pose proof (Rle_0_sqr (vx a)); pose proof (Rle_0_sqr (vy a));
  pose proof (Rle_0_sqr (vz a)); unfold Rsqr in *; lra.
Qed.

Lemma vdot_self_zero a : vdot a a = 0 -> a = vzero.
Proof.
  unfold vdot; intros H. pose proof (Rle_0_sqr (vx a)) as Hx; pose proof (Rle_0_sqr (vy a)) as Hy;
  pose proof (Rle_0_sqr (vz a)) as Hz; unfold Rsqr in *.
  assert (vx a * vx a = 0) by lra. assert (vy a * vy a = 0) by lra. assert (vz a * vz a = 0) by lra.
  apply vec3_eq; cbn.
  - destruct (Rmult_integral _ _ H0); assumption.
  - destruct (Rmult_integral _ _ H1); assumption.
  - destruct (Rmult_integral _ _ H2); assumption.
Qed.

Lemma vnorm_nonneg a : 0 <= vnorm a.
Proof. apply sqrt_pos. Qed.
Lemma vnorm_sqr a : vnorm a * vnorm a = vdot a a.
Proof. apply sqrt_sqrt, vdot_self_nonneg. Qed.
Lemma vdot_self_pos a : a <> vzero -> 0 < vdot a a.
Proof.
  intros Hn. destruct (Rle_lt_or_eq_dec _ _ (vdot_self_nonneg a)) as [H|H]; auto.
  exfalso; apply Hn, vdot_self_zero; auto.
Qed.
Lemma vnorm_pos a : a <> vzero -> 0 < vnorm a.
Proof. intros H; apply sqrt_lt_R0, vdot_self_pos, H. Qed.
Lemma vnorm_zero_iff a : vnorm a = 0 <-> a = vzero.
Proof.
  split; intros H.
  - apply vdot_self_zero. rewrite <- vnorm_sqr, H; ring.
  - subst; unfold vnorm, vdot; cbn. replace (_ + _ + _) with 0 by ring. apply sqrt_0.
Qed.

(** ** 3x3 matrices *)
Record mat3 := mkM { m00 : R; m01 : R; m02 : R;
                     m10 : R; m11 : R; m12 : R;
                     m20 : R; m21 : R; m22 : R }.
Definition mid : mat3 := mkM 1 0 0 0 1 0 0 0 1.
Definition mzero : mat3 := mkM 0 0 0 0 0 0 0 0 0.
Definition mdiag (v : vec3) : mat3 := mkM (vx v) 0 0 0 (vy v) 0 0 0 (vz v).
Definition mT (A : mat3) : mat3 :=
  mkM (m00 A) (m10 A) (m20 A) (m01 A) (m11 A) (m21 A) (m02 A) (m12 A) (m22 A).
Definition mmul (A B : mat3) : mat3 :=
  mkM (m00 A * m00 B + m01 A * m10 B + m02 A * m20 B)
      (m00 A * m01 B + m01 A * m11 B + m02 A * m21 B)
      (m00 A * m02 B + m01 A * m12 B + m02 A * m22 B)
      (m10 A * m00 B + m11 A * m10 B + m12 A * m20 B)
      (m10 A * m01 B + m11 A * m11 B + m12 A * m21 B)
      (m10 A * m02 B + m11 A * m12 B + m12 A * m22 B)
      (m20 A * m00 B + m21 A * m10 B + m22 A * m20 B)
      (m20 A * m01 B + m21 A * m11 B + m22 A * m21 B)
      (m20 A * m02 B + m21 A * m12 B + m22 A * m22 B).
Definition mvec (A : mat3) (v : vec3) : vec3 :=
  mkV (m00 A * vx v + m01 A * vy v + m02 A * vz v)
      (m10 A * vx v + m11 A * vy v + m12 A * vz v)
      (m20 A * vx v + m21 A * vy v + m22 A * vz v).
Definition mdet (A : mat3) : R :=
  m00 A * (m11 A * m22 A - m12 A * m21 A)
  - m01 A * (m10 A * m22 A - m12 A * m20 A)
  + m02 A * (m10 A * m21 A - m11 A * m20 A).
Definition mrow0 (A : mat3) := mkV (m00 A) (m01 A) (m02 A).
Definition mrow1 (A : mat3) := mkV (m10 A) (m11 A) (m12 A).
Definition mrow2 (A : mat3) := mkV (m20 A) (m21 A) (m22 A).
Definition mcol0 (A : mat3) := mkV (m00 A) (m10 A) (m20 A).
Definition mcol1 (A : mat3) := mkV (m01 A) (m11 A) (m21 A).
Definition mcol2 (A : mat3) := mkV (m02 A) (m12 A) (m22 A).

Lemma mat3_eq A B :
  m00 A = m00 B -> m01 A = m01 B -> m02 A = m02 B ->
  m10 A = m10 B -> m11 A = m11 B -> m12 A = m12 B ->
  m20 A = m20 B -> m21 A = m21 B -> m22 A = m22 B -> A = B.
Proof. destruct A, B; cbn; intros; subst; reflexivity. Qed.

(** A proper rotation (element of SO(3)). *)
Definition is_rotation (A : mat3) : Prop := mmul A (mT A) = mid /\ mdet A = 1.

(** ** Quaternions as 4-tuples (scalar first) *)
Record quat := mkQ { qs : R; qx : R; qy : R; qz : R }.
Definition qdot (a b : quat) : R := qs a * qs b + qx a * qx b + qy a * qy b + qz a * qz b.
Definition qnorm (a : quat) : R := sqrt (qdot a a).
Definition qopp (a : quat) := mkQ (- qs a) (- qx a) (- qy a) (- qz a).
Definition qscale (s : R) (a : quat) := mkQ (s * qs a) (s * qx a) (s * qy a) (s * qz a).
Definition qadd (a b : quat) := mkQ (qs a + qs b) (qx a + qx b) (qy a + qy b) (qz a + qz b).
Definition qsub (a b : quat) := mkQ (qs a - qs b) (qx a - qx b) (qy a - qy b) (qz a - qz b).
Definition qzero := mkQ 0 0 0 0.
(** unit length *)
Definition is_unit (q : quat) : Prop := qdot q q = 1.

Lemma quat_eq a b : qs a = qs b -> qx a = qx b -> qy a = qy b -> qz a = qz b -> a = b.
Proof. destruct a, b; cbn; intros; subst; reflexivity. Qed.
Lemma qdot_self_nonneg a : 0 <= qdot a a.
Proof.
  unfold qdot. pose proof (Rle_0_sqr (qs a)); pose proof (Rle_0_sqr (qx a));
  pose proof (Rle_0_sqr (qy a)); pose proof (Rle_0_sqr (qz a)); unfold Rsqr in *; lra.
Qed.
Lemma qnorm_nonneg a : 0 <= qnorm a.
Proof. apply sqrt_pos. Qed.
Lemma qnorm_sqr a : qnorm a * qnorm a = qdot a a.
Proof. apply sqrt_sqrt, qdot_self_nonneg. Qed.
Lemma qdot_self_zero a : qdot a a = 0 -> a = qzero.
Proof.
  unfold qdot; intros H. pose proof (Rle_0_sqr (qs a)); pose proof (Rle_0_sqr (qx a));
  pose proof (Rle_0_sqr (qy a)); pose proof (Rle_0_sqr (qz a)); unfold Rsqr in *.
  apply quat_eq; cbn; apply Rsqr_eq_0; unfold Rsqr; lra.
Qed.
Lemma is_unit_norm q : is_unit q <-> qnorm q = 1.
Proof.
  unfold is_unit; split; intros H.
  - unfold qnorm; rewrite H; apply sqrt_1.
  - rewrite <- qnorm_sqr, H; ring.
Qed.

Ltac vunf := cbv [vzero vadd vsub vopp vscale vdiv vdot vcross
                  mid mzero mdiag mT mmul mvec mdet mrow0 mrow1 mrow2 mcol0 mcol1 mcol2
                  qdot qopp qscale qadd qsub qzero
                  vx vy vz m00 m01 m02 m10 m11 m12 m20 m21 m22 qs qx qy qz] in *.
(** close a vector/matrix/quaternion identity by ring on each component *)
Ltac vring :=
  intros;
  repeat match goal with
         | v : vec3 |- _ => destruct v
         | A : mat3 |- _ => destruct A
         | q : quat |- _ => destruct q
         end;
  vunf; first [ring | f_equal; ring].
