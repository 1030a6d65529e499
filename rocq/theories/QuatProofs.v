(** Proofs about the quaternion model. *)
From Verif Require Import Base QuatModel.
From Coq Require Import Nsatz.
Open Scope R_scope.

Ltac qunf := cbv [q_from_vector3 q_identity q_rotate q_conj q_prod qvec is_unit] in *; vunf.
Ltac qdes := intros; repeat match goal with
         | v : vec3 |- _ => destruct v
         | q : quat |- _ => destruct q
         end; qunf.
Ltac qring := qdes; first [ring | f_equal; ring].

(** ** algebra of prod *)
Lemma q_prod_assoc a b c : q_prod (q_prod a b) c = q_prod a (q_prod b c).
Proof. qring. Qed.
Lemma q_prod_id_l a : q_prod q_identity a = a.
Proof. qring. Qed.
Lemma q_prod_id_r a : q_prod a q_identity = a.
Proof. qring. Qed.
Lemma q_conj_prod a b : q_conj (q_prod a b) = q_prod (q_conj b) (q_conj a).
Proof. qring. Qed.
Lemma q_conj_conj a : q_conj (q_conj a) = a.
Proof. qring. Qed.
Lemma q_prod_conj_r q : q_prod q (q_conj q) = mkQ (qdot q q) 0 0 0.
Proof. qring. Qed.
Lemma q_prod_conj_l q : q_prod (q_conj q) q = mkQ (qdot q q) 0 0 0.
Proof. qring. Qed.
Lemma qdot_prod a b : qdot (q_prod a b) (q_prod a b) = qdot a a * qdot b b.
Proof. qring. Qed.
Lemma qdot_conj a : qdot (q_conj a) (q_conj a) = qdot a a.
Proof. qring. Qed.
Lemma qnorm_prod a b : qnorm (q_prod a b) = qnorm a * qnorm b.
Proof.
  unfold qnorm. rewrite qdot_prod. apply sqrt_mult; apply qdot_self_nonneg.
Qed.
Lemma is_unit_prod a b : is_unit a -> is_unit b -> is_unit (q_prod a b).
Proof. unfold is_unit; intros Ha Hb; rewrite qdot_prod, Ha, Hb; ring. Qed.
Lemma is_unit_conj a : is_unit a -> is_unit (q_conj a).
Proof. unfold is_unit; intros Ha; rewrite qdot_conj; exact Ha. Qed.
Lemma is_unit_identity : is_unit q_identity.
Proof. qring. Qed.

(** ** rotate *)
Lemma q_rotate_formula q r : q_rotate q r =
  mkV ((qs q*qs q + qx q*qx q - qy q*qy q - qz q*qz q) * vx r + 2*(qx q*qy q - qs q*qz q) * vy r + 2*(qx q*qz q + qs q*qy q) * vz r)
      (2*(qx q*qy q + qs q*qz q) * vx r + (qs q*qs q - qx q*qx q + qy q*qy q - qz q*qz q) * vy r + 2*(qy q*qz q - qs q*qx q) * vz r)
      (2*(qx q*qz q - qs q*qy q) * vx r + 2*(qy q*qz q + qs q*qx q) * vy r + (qs q*qs q - qx q*qx q - qy q*qy q + qz q*qz q) * vz r).
Proof. qring. Qed.
Lemma q_rotate_embed q r :
  q_prod (q_prod q (mkQ 0 (vx r) (vy r) (vz r))) (q_conj q) = q_from_vector3 (q_rotate q r).
Proof. qring. Qed.
Lemma q_rotate_prod a b v : q_rotate (q_prod a b) v = q_rotate a (q_rotate b v).
Proof.
  assert (H : q_from_vector3 (q_rotate (q_prod a b) v) = q_from_vector3 (q_rotate a (q_rotate b v))).
  { rewrite <- !q_rotate_embed.
    change (mkQ 0 (vx (q_rotate b v)) (vy (q_rotate b v)) (vz (q_rotate b v))) with (q_from_vector3 (q_rotate b v)).
    rewrite <- q_rotate_embed, q_conj_prod, !q_prod_assoc. reflexivity. }
  unfold q_from_vector3 in H. injection H; intros. apply vec3_eq; auto.
Qed.
Ltac rring := intros; rewrite ?q_rotate_formula;
  repeat match goal with
         | v : vec3 |- _ => destruct v
         | q : quat |- _ => destruct q
         end; qunf; first [ring | f_equal; ring].
Lemma q_rotate_id v : q_rotate q_identity v = v.
Proof. rring. Qed.
Lemma q_rotate_add q u v : q_rotate q (vadd u v) = vadd (q_rotate q u) (q_rotate q v).
Proof. rring. Qed.
Lemma q_rotate_sub q u v : q_rotate q (vsub u v) = vsub (q_rotate q u) (q_rotate q v).
Proof. rring. Qed.
Lemma q_rotate_opp q u : q_rotate q (vopp u) = vopp (q_rotate q u).
Proof. rring. Qed.
Lemma q_rotate_scale q s u : q_rotate q (vscale s u) = vscale s (q_rotate q u).
Proof. rring. Qed.
Lemma q_rotate_dot q u v :
  vdot (q_rotate q u) (q_rotate q v) = qdot q q * qdot q q * vdot u v.
Proof. rring. Qed.
Lemma q_rotate_cross q u v :
  vcross (q_rotate q u) (q_rotate q v) = vscale (qdot q q) (q_rotate q (vcross u v)).
Proof. rring. Qed.
Lemma q_rotate_opp_q q u : q_rotate (qopp q) u = q_rotate q u.
Proof. rring. Qed.
Lemma q_rotate_scale_q s q u : q_rotate (qscale s q) u = vscale (s * s) (q_rotate q u).
Proof. rring. Qed.
Lemma q_rotate_conj_l q v : q_rotate (q_conj q) (q_rotate q v) = vscale (qdot q q * qdot q q) v.
Proof.
  rewrite <- q_rotate_prod, q_prod_conj_l. rring.
Qed.
Lemma q_rotate_inv_l q v : is_unit q -> q_rotate (q_conj q) (q_rotate q v) = v.
Proof.
  intros H. rewrite q_rotate_conj_l. unfold is_unit in H; rewrite H. vring.
Qed.
Lemma q_rotate_inv_r q v : is_unit q -> q_rotate q (q_rotate (q_conj q) v) = v.
Proof.
  intros H. rewrite <- (q_conj_conj q) at 1. apply q_rotate_inv_l, is_unit_conj, H.
Qed.
Lemma q_rotate_norm q v : vnorm (q_rotate q v) = qdot q q * vnorm v.
Proof.
  unfold vnorm. rewrite q_rotate_dot. rewrite sqrt_mult.
  - rewrite sqrt_square; [ring|apply qdot_self_nonneg].
  - apply Rmult_le_pos; apply qdot_self_nonneg.
  - apply vdot_self_nonneg.
Qed.

(** ** unit *)
Lemma q_unit_is_unit q : is_unit (q_unit q).
Proof.
  unfold q_unit. destruct (Rltb_spec 0 (qnorm q)) as [H|H].
  - unfold is_unit. pose proof (qnorm_sqr q) as Hn. set (l := qnorm q) in *.
    unfold qdot in *; cbn [qs qx qy qz].
    replace (qs q / l * (qs q / l) + qx q / l * (qx q / l) + qy q / l * (qy q / l) + qz q / l * (qz q / l))
      with ((qs q * qs q + qx q * qx q + qy q * qy q + qz q * qz q) / (l * l)) by (field; lra).
    rewrite <- Hn. field; lra.
  - apply is_unit_identity.
Qed.
Lemma q_unit_of_unit q : is_unit q -> q_unit q = q.
Proof.
  intros H. apply is_unit_norm in H. unfold q_unit. rewrite H.
  destruct (Rltb_spec 0 1) as [_|C]; [|lra].
  apply quat_eq; cbn; field.
Qed.
Lemma q_unit_zero q : qnorm q = 0 -> q_unit q = q_identity.
Proof. intros H; unfold q_unit; rewrite H. destruct (Rltb_spec 0 0); [lra|reflexivity]. Qed.
Lemma q_unit_scale_rel q : q <> qzero -> exists s, 0 < s /\ q = qscale s (q_unit q).
Proof.
  intros Hq. exists (qnorm q).
  assert (Hp : 0 < qnorm q).
  { destruct (Rle_lt_or_eq_dec _ _ (qnorm_nonneg q)) as [H|H]; auto.
    exfalso; apply Hq, qdot_self_zero. rewrite <- qnorm_sqr, <- H; ring. }
  split; auto. unfold q_unit. destruct (Rltb_spec 0 (qnorm q)); [|contradiction].
  apply quat_eq; cbn; field; lra.
Qed.
Lemma qnorm_scale s q : qnorm (qscale s q) = Rabs s * qnorm q.
Proof.
  unfold qnorm. replace (qdot (qscale s q) (qscale s q)) with (Rsqr s * qdot q q) by (unfold Rsqr; qring).
  rewrite sqrt_mult; [|apply Rle_0_sqr|apply qdot_self_nonneg].
  rewrite sqrt_Rsqr_abs. reflexivity.
Qed.

(** matrix of an already-normalised quaternion *)
Definition umat (q : quat) : mat3 :=
  mkM (1 - 2 * (qy q * qy q + qz q * qz q)) (2 * (qx q * qy q - qs q * qz q)) (2 * (qs q * qy q + qx q * qz q))
      (2 * (qx q * qy q + qs q * qz q)) (1 - 2 * (qx q * qx q + qz q * qz q)) (2 * (qz q * qy q - qs q * qx q))
      (2 * (- qs q * qy q + qx q * qz q)) (2 * (qz q * qy q + qs q * qx q)) (1 - 2 * (qy q * qy q + qx q * qx q)).
Lemma to_matrix_umat q : q_to_matrix q = umat (q_unit q).
Proof. reflexivity. Qed.
Lemma to_matrix_unit q : is_unit q -> q_to_matrix q = umat q.
Proof. intros H; rewrite to_matrix_umat, q_unit_of_unit; auto. Qed.

Lemma umat_rot q : is_unit q -> is_rotation (umat q) /\ mmul (mT (umat q)) (umat q) = mid.
Proof.
  destruct q as [s x y z]; unfold is_unit, is_rotation, umat; vunf; intros H.
  repeat split; try (f_equal; nsatz); nsatz.
Qed.
Lemma umat_rotate q v : is_unit q -> mvec (umat q) v = q_rotate q v.
Proof.
  destruct q as [s x y z], v as [a b c]; unfold umat; qunf; intros H.
  f_equal; nsatz.
Qed.

Lemma q_to_matrix_rotation q : is_rotation (q_to_matrix q) /\ mmul (mT (q_to_matrix q)) (q_to_matrix q) = mid.
Proof. rewrite to_matrix_umat; apply umat_rot, q_unit_is_unit. Qed.

Lemma umat_opp q : umat (qopp q) = umat q.
Proof. destruct q; unfold umat; vunf; f_equal; ring. Qed.

Lemma q_to_matrix_scale s q : s <> 0 -> q_to_matrix (qscale s q) = q_to_matrix q.
Proof.
  intros Hs. rewrite !to_matrix_umat.
  unfold q_unit. rewrite qnorm_scale.
  destruct (Rltb_spec 0 (qnorm q)) as [Hq|Hq].
  - assert (Ha : 0 < Rabs s) by (apply Rabs_pos_lt; auto).
    destruct (Rltb_spec 0 (Rabs s * qnorm q)) as [_|C].
    2:{ exfalso; apply C, Rmult_lt_0_compat; auto. }
    cbn [qs qx qy qz qscale].
    assert (Hsgn : Rabs s = s \/ Rabs s = - s).
    { unfold Rabs; destruct (Rcase_abs s); auto. }
    destruct Hsgn as [E|E]; rewrite E.
    + f_equal. f_equal; field; lra.
    + rewrite <- umat_opp. f_equal. unfold qopp; cbn [qs qx qy qz]. f_equal; field; lra.
  - assert (E : qnorm q = 0) by (pose proof (qnorm_nonneg q); lra).
    rewrite E, Rmult_0_r. destruct (Rltb_spec 0 0); [lra|reflexivity].
Qed.

(** ** facts about rotation matrices *)
Lemma rotation_entries M : is_rotation M ->
  mmul (mT M) M = mid /\
  m00 M = m11 M * m22 M - m12 M * m21 M /\ m01 M = m12 M * m20 M - m10 M * m22 M /\ m02 M = m10 M * m21 M - m11 M * m20 M /\
  m10 M = m02 M * m21 M - m01 M * m22 M /\ m11 M = m00 M * m22 M - m02 M * m20 M /\ m12 M = m01 M * m20 M - m00 M * m21 M /\
  m20 M = m01 M * m12 M - m02 M * m11 M /\ m21 M = m02 M * m10 M - m00 M * m12 M /\ m22 M = m00 M * m11 M - m01 M * m10 M.
Proof.
  destruct M as [a b c d e f g h i]; unfold is_rotation; vunf.
  intros [H D]. injection H; clear H; intros.
  assert (A0 : a = e * i - f * h) by nsatz.
  assert (A1 : b = f * g - d * i) by nsatz.
  assert (A2 : c = d * h - e * g) by nsatz.
  assert (A3 : d = c * h - b * i) by nsatz.
  assert (A4 : e = a * i - c * g) by nsatz.
  assert (A5 : f = b * g - a * h) by nsatz.
  assert (A6 : g = b * f - c * e) by nsatz.
  assert (A7 : h = c * d - a * f) by nsatz.
  assert (A8 : i = a * e - b * d) by nsatz.
  repeat split; auto. f_equal; nsatz.
Qed.

(** the matrix 4 q q^T (outer product of the quaternion with itself) written in entries of M *)
Lemma rotation_outer M : is_rotation M ->
  let s2 := 1 + m00 M + m11 M + m22 M in
  let x2 := 1 + m00 M - m11 M - m22 M in
  let y2 := 1 - m00 M + m11 M - m22 M in
  let z2 := 1 - m00 M - m11 M + m22 M in
  let sx := m21 M - m12 M in let sy := m02 M - m20 M in let sz := m10 M - m01 M in
  let xy := m01 M + m10 M in let xz := m02 M + m20 M in let yz := m12 M + m21 M in
  (s2 * x2 = sx * sx /\ s2 * y2 = sy * sy /\ s2 * z2 = sz * sz /\
   x2 * y2 = xy * xy /\ x2 * z2 = xz * xz /\ y2 * z2 = yz * yz) /\
  (sx * sy = s2 * xy /\ sx * sz = s2 * xz /\ sy * sz = s2 * yz /\
   sx * xy = x2 * sy /\ sx * xz = x2 * sz /\ xy * xz = x2 * yz /\
   sy * xy = y2 * sx /\ sy * yz = y2 * sz /\ xy * yz = y2 * xz /\
   sz * xz = z2 * sx /\ sz * yz = z2 * sy /\ xz * yz = z2 * xy).
Proof.
  intros HR. pose proof HR as HR0. apply rotation_entries in HR. destruct HR0 as [HO HD].
  destruct M as [a b c d e f g h i]; vunf.
  destruct HR as (HT & A0 & A1 & A2 & A3 & A4 & A5 & A6 & A7 & A8).
  injection HO; clear HO; intros. injection HT; clear HT; intros. clear HD.
  repeat split; nsatz.
Qed.
