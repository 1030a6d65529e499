(** Property theorems C01-C13, C65-C67: quaternions, frames, rotations.
    Vocabulary: Base (vectors, matrices, [is_rotation], [is_unit]) and RotSpec
    ([rodrigues], [rotvec], [direction]); everything else named [q_*], [x_*],
    [m3_*], [v3_*], [em_*] is the model of the API function of that name. *)
From Verif Require Import Base QuatModel QuatProofs QuatMatProofs VecModel VecProofs
  RotModel RotSpec RotProofs ExpProofs ExpDeriv.
From Coquelicot Require Import Coquelicot.
Open Scope R_scope.

(** concrete witnesses *)
Definition q_ex : quat := mkQ (1/2) (1/2) (-1/2) (1/2).
Example q_ex_unit : is_unit q_ex.
Proof. unfold is_unit, q_ex, qdot; cbn; lra. Qed.
Definition rot_ex : mat3 := mkM 0 0 1 1 0 0 0 1 0.            (* trace 0: last branch *)
Definition rot_x : mat3 := mkM 1 0 0 0 (-1) 0 0 0 (-1).      (* trace -1, i = 0 *)
Definition rot_y : mat3 := mkM (-1) 0 0 0 1 0 0 0 (-1).      (* trace -1, i = 1 *)
Definition rot_z : mat3 := mkM (-1) 0 0 0 (-1) 0 0 0 1.      (* trace -1, i = 2 *)
Example rot_examples : is_rotation rot_ex /\ is_rotation rot_x /\ is_rotation rot_y /\ is_rotation rot_z.
Proof. unfold is_rotation, rot_ex, rot_x, rot_y, rot_z; vunf; repeat split; try (f_equal; lra); lra. Qed.

(** C01 *)
Theorem C01_to_matrix_is_rotation : forall q,
  mmul (q_to_matrix q) (mT (q_to_matrix q)) = mid /\
  mmul (mT (q_to_matrix q)) (q_to_matrix q) = mid /\
  mdet (q_to_matrix q) = 1.
Proof. intros q. destruct (q_to_matrix_rotation q) as [[H1 H2] H3]. exact (conj H1 (conj H3 H2)). Qed.
Print Assumptions C01_to_matrix_is_rotation.
Theorem C01_to_matrix_scale_invariant : forall s q, s <> 0 -> q_to_matrix (qscale s q) = q_to_matrix q.
Proof. exact q_to_matrix_scale. Qed.
Print Assumptions C01_to_matrix_scale_invariant.
Example C01_nonvacuous : (-3 <> 0) /\ q_to_matrix (mkQ 0 0 0 2) = rot_z.
Proof.
  split; [lra|]. change (mkQ 0 0 0 2) with (mkQ 0 0 0 2).
  replace (mkQ 0 0 0 2) with (qscale 2 (mkQ 0 0 0 1)) by (unfold qscale; cbn; f_equal; ring).
  rewrite q_to_matrix_scale by lra. rewrite to_matrix_unit by (unfold is_unit, qdot; cbn; lra).
  unfold umat, rot_z; cbn; f_equal; lra.
Qed.

(** C02 *)
Theorem C02_rotate_is_to_matrix : forall q v, is_unit q -> q_rotate q v = mvec (q_to_matrix q) v.
Proof. intros q v H. rewrite to_matrix_unit by exact H. symmetry; apply umat_rotate; exact H. Qed.
Print Assumptions C02_rotate_is_to_matrix.
Theorem C02_rotate_preserves : forall q u v, is_unit q ->
  vdot (q_rotate q u) (q_rotate q v) = vdot u v /\
  vnorm (q_rotate q v) = vnorm v /\
  vcross (q_rotate q u) (q_rotate q v) = q_rotate q (vcross u v).
Proof.
  intros q u v H. rewrite q_rotate_dot, q_rotate_norm, q_rotate_cross. unfold is_unit in H; rewrite H.
  repeat split; try ring. generalize (q_rotate q (vcross u v)); intros w. vring.
Qed.
Print Assumptions C02_rotate_preserves.
Theorem C02_rotate_nonunit_scales : forall q v, vnorm (q_rotate q v) = (qnorm q * qnorm q) * vnorm v.
Proof. intros q v. rewrite qnorm_sqr. exact (q_rotate_norm q v). Qed.
Print Assumptions C02_rotate_nonunit_scales.
Example C02_nonvacuous : is_unit q_ex. Proof. exact q_ex_unit. Qed.

(** C03 *)
Theorem C03_from_matrix_correct : forall M, is_rotation M ->
  exists q, q_from_matrix M = Some q /\ is_unit q /\ q_to_matrix q = M.
Proof.
  intros M H. destruct (from_matrix_correct M H) as (q & E & Hu & Hm). exists q. repeat split; auto.
  rewrite to_matrix_unit by auto; auto.
Qed.
Print Assumptions C03_from_matrix_correct.
Theorem C03_from_to_matrix : forall q, is_unit q ->
  exists q', q_from_matrix (q_to_matrix q) = Some q' /\ (q' = q \/ q' = qopp q).
Proof. exact from_to_matrix. Qed.
Print Assumptions C03_from_to_matrix.
Example C03_nonvacuous : is_rotation rot_ex /\ is_rotation rot_x /\ is_rotation rot_y /\ is_rotation rot_z.
Proof. exact rot_examples. Qed.

(** C04 *)
Theorem C04_product_algebra : forall a b c v,
  q_prod (q_prod a b) c = q_prod a (q_prod b c) /\
  q_prod q_identity a = a /\ q_prod a q_identity = a /\
  q_conj (q_prod a b) = q_prod (q_conj b) (q_conj a) /\
  qnorm (q_prod a b) = qnorm a * qnorm b /\
  q_prod a (q_conj a) = mkQ (qnorm a * qnorm a) 0 0 0 /\
  q_rotate (q_prod a b) v = q_rotate a (q_rotate b v).
Proof.
  intros a b c v. rewrite qnorm_sqr.
  exact (conj (q_prod_assoc a b c) (conj (q_prod_id_l a) (conj (q_prod_id_r a) (conj (q_conj_prod a b)
        (conj (qnorm_prod a b) (conj (q_prod_conj_r a) (q_rotate_prod a b v))))))).
Qed.
Print Assumptions C04_product_algebra.
(** the product is the usual Hamilton product: i j = k, j k = i, k i = j, i i = -1 *)
Theorem C04_hamilton :
  q_prod (mkQ 0 1 0 0) (mkQ 0 0 1 0) = mkQ 0 0 0 1 /\ q_prod (mkQ 0 0 1 0) (mkQ 0 0 0 1) = mkQ 0 1 0 0 /\
  q_prod (mkQ 0 0 0 1) (mkQ 0 1 0 0) = mkQ 0 0 1 0 /\ q_prod (mkQ 0 1 0 0) (mkQ 0 1 0 0) = mkQ (-1) 0 0 0 /\
  q_prod (mkQ 0 0 1 0) (mkQ 0 0 1 0) = mkQ (-1) 0 0 0 /\ q_prod (mkQ 0 0 0 1) (mkQ 0 0 0 1) = mkQ (-1) 0 0 0.
Proof. unfold q_prod, qvec; vunf. repeat split; f_equal; ring. Qed.
Print Assumptions C04_hamilton.

(** C05 *)
Theorem C05_rotate_array : forall q rs, length (q_rotate_array q rs) = length rs /\
  forall n d, (n < length rs)%nat -> nth n (q_rotate_array q rs) d = q_rotate q (nth n rs d).
Proof.
  intros q rs. rewrite q_rotate_array_map. split; [apply map_length|].
  intros n d Hn. rewrite (nth_indep _ d (q_rotate q d)) by (rewrite map_length; auto). apply map_nth.
Qed.
Print Assumptions C05_rotate_array.
Example C05_nonvacuous : (1 < length [mkV 1 2 3; mkV 4 5 6])%nat. Proof. cbn; lia. Qed.

(** C06 *)
Theorem C06_coordsys : forall A B p, is_unit (xq A) -> is_unit (xq B) ->
  xform_point (x_inverse A) (xform_point A p) = p /\
  xform_point A (xform_point (x_inverse A) p) = p /\
  xform_point (x_concat B A) p = xform_point B (xform_point A p) /\
  xform_point B (xform_point (x_from_to A B) p) = xform_point A p /\
  is_unit (xq (x_inverse A)) /\ is_unit (xq (x_concat B A)) /\ is_unit (xq (x_from_to A B)).
Proof.
  intros A B p HA HB. pose proof (x_units A B HA) as (U1 & _ & U3). pose proof (x_units B A HB) as (_ & U2 & _).
  exact (conj (xform_inverse_l A p HA) (conj (xform_inverse_r A p HA) (conj (xform_concat B A p HB HA)
        (conj (xform_from_to A B p HA HB) (conj U1 (conj U2 U3)))))).
Qed.
Print Assumptions C06_coordsys.
(** a point is rotated, then translated; a vector only rotated *)
Theorem C06_xform_meaning : forall X p, is_unit (xq X) ->
  xform_point X p = vadd (mvec (q_to_matrix (xq X)) p) (xr X) /\
  xform_vector X p = mvec (q_to_matrix (xq X)) p /\
  xform_vector X p = vsub (xform_point X p) (xform_point X vzero).
Proof.
  intros X p H. unfold xform_point, xform_vector. rewrite !C02_rotate_is_to_matrix by exact H.
  repeat split; auto. generalize (q_to_matrix (xq X)) (xr X); intros M r. vring.
Qed.
Print Assumptions C06_xform_meaning.
Example C06_nonvacuous : is_unit (xq (mkX (mkV 1 2 3) q_ex)). Proof. exact q_ex_unit. Qed.

(** C07 *)
Theorem C07_orthonormal_frame : forall n0, n0 <> vzero ->
  exists t b n, make_orthonormal_vectors n0 = Some (t, b, n) /\
    n = vdiv n0 (vnorm n0) /\
    vdot t t = 1 /\ vdot b b = 1 /\ vdot n n = 1 /\
    vdot t b = 0 /\ vdot b n = 0 /\ vdot n t = 0 /\ vcross t b = n.
Proof. exact orthonormal_spec. Qed.
Print Assumptions C07_orthonormal_frame.
Example C07_nonvacuous : mkV 2 2 (-2) <> vzero.
Proof. unfold vzero; intros E; injection E; lra. Qed.

(** C08 *)
Theorem C08_less_lexicographic : forall a b, v3_less a b = true <->
  (vx a < vx b \/ (vx a = vx b /\ (vy a < vy b \/ (vy a = vy b /\ vz a < vz b)))).
Proof. exact v3_less_iff. Qed.
Print Assumptions C08_less_lexicographic.
Theorem C08_strict_total_order : forall a b c,
  v3_less a a = false /\
  (v3_less a b = true -> v3_less b c = true -> v3_less a c = true) /\
  (v3_less a b = true -> v3_less b a = false) /\
  (v3_less a b = false -> v3_less b a = false -> a = b) /\
  v3_greather a b = v3_less b a /\
  v3_less_than_equal a b = negb (v3_less b a) /\
  v3_greather_than_equal a b = negb (v3_less a b).
Proof.
  intros a b c.
  assert (F : forall x y, v3_less x y = false <-> ~ lexlt x y).
  { intros x y. rewrite <- v3_less_iff. destruct (v3_less x y); split; intros; auto; try discriminate; contradiction H; reflexivity. }
  rewrite !F, !v3_less_iff. repeat split.
  - apply lexlt_irrefl.
  - apply lexlt_trans.
  - intros H H'. apply (lexlt_irrefl a), (lexlt_trans a b a); auto.
  - intros H1 H2. destruct (lexlt_total a b) as [|[|]]; tauto.
  - apply v3_greather_less.
  - unfold v3_less_than_equal. rewrite v3_greather_less. reflexivity.
Qed.
Print Assumptions C08_strict_total_order.
Theorem C08_exactly_one : forall a b,
  (v3_less a b = true /\ v3_greather a b = false /\ a <> b) \/
  (v3_less a b = false /\ v3_greather a b = true /\ a <> b) \/
  (v3_less a b = false /\ v3_greather a b = false /\ a = b).
Proof.
  intros a b. rewrite v3_greather_less. 
  destruct (C08_strict_total_order a b a) as (Ha & _ & H2 & H3 & _).
  destruct (v3_less a b) eqn:E1; destruct (v3_less b a) eqn:E2.
  - specialize (H2 eq_refl); discriminate.
  - left; repeat split. intros ->. congruence.
  - right; left; repeat split. intros ->. congruence.
  - right; right; repeat split. auto.
Qed.
Print Assumptions C08_exactly_one.
Theorem C08_max_abs_component : forall a, let i := v3_max_abs_component a in
  (i < 3)%nat /\ forall j, (j < 3)%nat -> Rabs (vnth a j) <= Rabs (vnth a i).
Proof. exact max_abs_component_spec. Qed.
Print Assumptions C08_max_abs_component.

(** C09 *)
Theorem C09_axis_rotation : forall a u, u <> vzero ->
  is_unit (q_Ru a u) /\ q_to_matrix (q_Ru a u) = m3_Ru a u /\ m3_Ru a u = rodrigues a (direction u) /\
  q_rotate (q_Ru a u) u = u.
Proof.
  intros a u Hu. destruct (q_Ru_spec a u Hu) as [H1 H2]. rewrite m3_Ru_spec. repeat split; auto.
  rewrite C02_rotate_is_to_matrix by auto. rewrite H2.
  destruct (vec_polar u Hu) as [E Hn].
  assert (L : forall M l n, mvec M (vscale l n) = vscale l (mvec M n)) by vring.
  transitivity (mvec (rodrigues a (direction u)) (vscale (vnorm u) (direction u))); [f_equal; exact E|].
  rewrite L, rodrigues_fix by auto. symmetry; exact E.
Qed.
Print Assumptions C09_axis_rotation.
Theorem C09_coordinate_axes : forall a,
  (q_Rx a = q_Ru a (mkV 1 0 0) /\ q_Ry a = q_Ru a (mkV 0 1 0) /\ q_Rz a = q_Ru a (mkV 0 0 1)) /\
  (m3_Rx a = m3_Ru a (mkV 1 0 0) /\ m3_Ry a = m3_Ru a (mkV 0 1 0) /\ m3_Rz a = m3_Ru a (mkV 0 0 1)).
Proof. exact R_axes. Qed.
Print Assumptions C09_coordinate_axes.
Theorem C09_angles_add : forall a b u, u <> vzero ->
  q_prod (q_Ru a u) (q_Ru b u) = q_Ru (a + b) u /\ mmul (m3_Ru a u) (m3_Ru b u) = m3_Ru (a + b) u.
Proof.
  intros a b u Hu. split; [apply q_Ru_add; auto|]. rewrite !m3_Ru_spec. apply rodrigues_add, direction_unit; auto.
Qed.
Print Assumptions C09_angles_add.
Example C09_nonvacuous : mkV 1 2 3 <> vzero. Proof. unfold vzero; intros E; injection E; lra. Qed.

(** C10 *)
Theorem C10_euler_from_matrix : forall M, is_rotation M -> let e := euler_from_matrix M in
  mmul (m3_Rz (eg e)) (mmul (m3_Ry (eb e)) (m3_Rx (ea e))) = M.
Proof. exact euler_correct. Qed.
Print Assumptions C10_euler_from_matrix.
Theorem C10_euler_from_quaternion : forall q, let e := euler_from_quaternion q in
  mmul (m3_Rz (eg e)) (mmul (m3_Ry (eb e)) (m3_Rx (ea e))) = q_to_matrix q.
Proof. intros q. apply C10_euler_from_matrix. apply q_to_matrix_rotation. Qed.
Print Assumptions C10_euler_from_quaternion.
Example C10_nonvacuous : is_rotation rot_ex /\ is_rotation (mkM 0 0 (-1) 0 1 0 1 0 0) /\ is_rotation (mkM 0 0 1 0 1 0 (-1) 0 0).
Proof. split; [exact (proj1 rot_examples)|]. unfold is_rotation; vunf; repeat split; try (f_equal; lra); lra. Qed.

(** C11: holds, except that the two ends describing the same rotation (b = -a) give a
    different rotation half way. *)
Theorem C11_slerp : forall a b t, is_unit a -> is_unit b ->
  is_unit (q_slerp a b t) /\
  q_slerp a b 0 = a /\ (q_slerp a b 1 = b \/ q_slerp a b 1 = qopp b) /\
  (t <= 0 -> q_slerp a b t = q_slerp a b 0) /\ (1 <= t -> q_slerp a b t = q_slerp a b 1).
Proof.
  intros a b t Ha Hb. repeat split.
  - apply slerp_unit; auto.
  - apply slerp_0; auto.
  - apply slerp_1; auto.
  - intros Ht. rewrite slerp_clamp. f_equal. unfold clip. rewrite Rmax_right, Rmin_left; lra.
  - intros Ht. rewrite slerp_clamp. f_equal. unfold clip. rewrite Rmax_left, Rmin_right; lra.
Qed.
Print Assumptions C11_slerp.
(** constant angular speed outside the small-angle branch *)
Theorem C11_slerp_angle : forall a b t, is_unit a -> is_unit b -> Rabs (qdot a b) <= 9999999/10000000 -> 0 <= t <= 1 ->
  qdot a (q_slerp a b t) = cos (t * acos (Rabs (qdot a b))).
Proof. exact slerp_angle. Qed.
Print Assumptions C11_slerp_angle.
Example C11_nonvacuous : is_unit q_identity /\ is_unit q_ex /\ Rabs (qdot q_identity q_ex) <= 9999999/10000000.
Proof. repeat split; [apply is_unit_identity|apply q_ex_unit|]. unfold qdot, q_ex, q_identity; cbn.
  rewrite Rabs_pos_eq; lra. Qed.
(** the b = -a part is false: half way between two quaternions of one rotation the result
    is the identity rotation *)
Theorem C11_same_rotation_refuted : exists a b t, is_unit a /\ is_unit b /\
  q_to_matrix a = q_to_matrix b /\ 0 <= t <= 1 /\ q_to_matrix (q_slerp a b t) <> q_to_matrix a.
Proof.
  exists (mkQ 0 0 0 1), (qopp (mkQ 0 0 0 1)), (1/2).
  assert (H : is_unit (mkQ 0 0 0 1)) by (unfold is_unit, qdot; cbn; lra).
  split; [auto|]. split; [apply is_unit_opp; auto|]. split; [|split; [lra|]].
  - rewrite !to_matrix_unit by auto using is_unit_opp. symmetry; apply umat_opp.
  - rewrite slerp_antipodal by auto. rewrite !to_matrix_unit by auto using is_unit_identity.
    unfold umat, q_identity; cbn. intros E. injection E. lra.
Qed.
Print Assumptions C11_same_rotation_refuted.

(** C12 *)
Theorem C12_exp_is_rotation : forall v,
  (/ 1000000 <= vnorm v -> is_unit (em_exp v false) /\ q_to_matrix (em_exp v false) = rotvec v) /\
  (/ 1000000 <= vnorm (em_reparam v) -> is_unit (em_exp v true) /\ q_to_matrix (em_exp v true) = rotvec v).
Proof. intros v. exact (conj (em_exp_rot v) (em_exp_rot_reparam v)). Qed.
Print Assumptions C12_exp_is_rotation.
Theorem C12_reparameterization : forall v, rotvec (em_reparam v) = rotvec v /\ vnorm (em_reparam v) <= PI.
Proof. exact reparam_spec. Qed.
Print Assumptions C12_reparameterization.
(** inside the Taylor region the result is within |v|^5/3840 of the exact quaternion *)
Theorem C12_exp_taylor_error : forall v, vnorm v < / 1000000 -> v <> vzero ->
  let t := vnorm v in let n := direction v in let q := em_exp v false in
  qs q = cos (t/2) /\ vnorm (vsub (mkV (qx q) (qy q) (qz q)) (vscale (sin (t/2)) n)) <= t^5 / 3840.
Proof. intros v H1 H2. exact (em_exp_taylor v H1 H2). Qed.
Print Assumptions C12_exp_taylor_error.
Theorem C12_log_exp : forall v, / 1000000 <= vnorm v -> vnorm v < PI -> em_log (em_exp v true) = Some v.
Proof.
  intros v H1 H2. rewrite em_exp_reparam, em_reparam_small by lra. exact (em_log_exp v H1 H2).
Qed.
Print Assumptions C12_log_exp.
(** log inverts unit quaternions whose scalar part is not zero ... *)
Theorem C12_exp_log_partial : forall q v, is_unit q -> qs q <> 0 -> em_log q = Some v -> / 1000000 <= vnorm v ->
  em_exp v false = q.
Proof. intros q v H1 H2 H3 H4. exact (em_exp_log q v H1 H2 H3 H4). Qed.
Print Assumptions C12_exp_log_partial.
(** ... but every rotation by 180 degrees (scalar part 0) is mapped to the zero vector *)
Theorem C12_log_half_turn_refuted : forall q, is_unit q -> qs q = 0 ->
  em_log q = Some vzero /\ em_exp vzero true <> q /\ em_exp vzero true <> qopp q.
Proof.
  intros q Hq Hs. rewrite em_exp_zero. split; [apply em_log_180; auto|].
  split; intros E; apply (f_equal qs) in E; destruct q; cbn in *; lra.
Qed.
Print Assumptions C12_log_half_turn_refuted.
(** and log(identity) divides by zero *)
Theorem C12_log_identity_refuted : em_log q_identity = None.
Proof.
  unfold em_log, q_identity; cbn. rewrite Rabs_R1. destruct (Rltb_spec 0 1); [|lra].
  destruct (Rltb_spec 1 1); [lra|]. rewrite acos_1, sin_0. destruct (Reqb_spec 0 0); [reflexivity|lra].
Qed.
Print Assumptions C12_log_identity_refuted.
Example C12_nonvacuous : / 1000000 <= vnorm (mkV 0 1 0) /\ vnorm (mkV 0 1 0) < PI /\ is_unit (mkQ 0 0 1 0).
Proof.
  destruct vnorm_basis as (_ & -> & _). pose proof PI2_1. repeat split; try lra. unfold is_unit, qdot; cbn; lra.
Qed.

(** C13 *)
Theorem C13_dQdv : forall v i d, / 1000000 < vnorm v -> em_dQdv v i = Some d ->
  forall j, (j < 4)%nat ->
  derivable_pt_lim (fun t => qget (em_exp (vadd v (vscale t (vbasis i))) false) j) 0 (qget d j).
Proof. intros v i d H E j Hj. apply is_derive_Reals. exact (exp_deriv v i d H E j Hj). Qed.
Print Assumptions C13_dQdv.
Theorem C13_dRdv_partial : forall v i D, / 1000000 < vnorm v -> vnorm v < PI -> em_dRdv v i = Some D ->
  forall r c, derivable_pt_lim (fun t => mget (em_to_matrix (vadd v (vscale t (vbasis i)))) r c) 0 (mget D r c).
Proof. intros v i D H1 H2 E r c. apply is_derive_Reals. exact (dRdv_inner v i D H1 H2 E r c). Qed.
Print Assumptions C13_dRdv_partial.
(** between PI and 2 PI the returned matrix is the negated derivative *)
Theorem C13_dRdv_sign_refuted : forall v i D, PI < vnorm v -> vnorm v < 2 * PI - / 1000000 -> em_dRdv v i = Some D ->
  forall r c, derivable_pt_lim (fun t => mget (em_to_matrix (vadd v (vscale t (vbasis i)))) r c) 0 (- mget D r c).
Proof. intros v i D H1 H2 E r c. apply is_derive_Reals. exact (dRdv_outer v i D H1 H2 E r c). Qed.
Print Assumptions C13_dRdv_sign_refuted.
Theorem C13_dRdv_refuted : exists v i D r c, / 1000000 < vnorm v /\ em_dRdv v i = Some D /\
  ~ derivable_pt_lim (fun t => mget (em_to_matrix (vadd v (vscale t (vbasis i)))) r c) 0 (mget D r c).
Proof.
  pose proof PI2_1 as HP.
  set (v := mkV (3 * (PI/2)) 0 0).
  assert (Hn : vnorm v = 3 * (PI/2)).
  { unfold v, vnorm, vdot; cbn. replace (_ + _ + _) with (3*(PI/2) * (3*(PI/2))) by ring. apply sqrt_square. lra. }
  assert (Hm : vnorm v <> 0) by lra.
  destruct (em_dRdv v 0) as [D|] eqn:E.
  2:{ unfold em_dRdv, em_dQdv in E; cbn in E. destruct (Rltb (vnorm v) em_min_angle); discriminate. }
  exists v, 0%nat, D, 1%nat, 1%nat. split; [lra|]. split; [auto|].
  intros HD. pose proof (C13_dRdv_sign_refuted v 0 D ltac:(lra) ltac:(lra) E 1%nat 1%nat) as HD'.
  pose proof (uniqueness_limite _ _ _ _ HD HD') as U.
  assert (Hz : mget D 1 1 <> 0); [|lra]. clear HD HD' U.
  unfold em_dRdv, em_dQdv in E. cbn [Nat.leb] in E.
  destruct (Rltb_spec (vnorm v) em_min_angle) as [C|C]; [unfold em_min_angle in C; lra|].
  injection E as <-.
  rewrite em_exp_shell; [|lra|lra|unfold em_min_angle; lra].
  rewrite em_dR_opp. rewrite em_exp_expf by (unfold em_min_angle; lra).
  unfold em_dR, expf, mget; cbn [m11 qs qx qy qz Nat.eqb vget]. rewrite Hn. unfold v; cbn [vx vy vz].
  replace (1/2 * (3 * (PI/2))) with (PI/2 + PI/4) by field.
  replace (3 * (PI/2)/2) with (PI/2 + PI/4) by field.
  rewrite sin_plus, cos_plus, sin_PI2, cos_PI2, sin_PI4, cos_PI4.
  assert (H2 : 0 < sqrt 2) by (apply sqrt_lt_R0; lra).
  assert (H22 : sqrt 2 * sqrt 2 = 2) by (apply sqrt_sqrt; lra).
  match goal with |- ?x <> 0 => replace x with (-1) end; [lra|].
  assert (Hi : (1 / sqrt 2) * (1 / sqrt 2) = 1/2).
  { replace (1 / sqrt 2 * (1 / sqrt 2)) with (1 / (sqrt 2 * sqrt 2)) by (field; lra). rewrite H22; reflexivity. }
  set (k := 1 / sqrt 2) in *. clearbody k.
  transitivity (-2 * (k * k)); [rewrite Hi; field|]. field. lra.
Qed.
Print Assumptions C13_dRdv_refuted.
Example C13_nonvacuous : exists d, em_dQdv (mkV 0 1 0) 2 = Some d /\ / 1000000 < vnorm (mkV 0 1 0) < PI.
Proof.
  destruct vnorm_basis as (_ & E & _). pose proof PI2_1. unfold em_dQdv; cbn [Nat.leb].
  destruct (Rltb (vnorm (mkV 0 1 0)) em_min_angle); eexists; (split; [reflexivity|rewrite E; lra]).
Qed.

(** C65 dvdt *)
Theorem C65_dvdt_follows_omega : forall omega v d0 d1 d2, / 1000000 <= vnorm v -> sin (vnorm v / 2) <> 0 ->
  em_dQdv v 0 = Some d0 -> em_dQdv v 1 = Some d1 -> em_dQdv v 2 = Some d2 ->
  let w := em_dvdt omega v in
  qadd (qadd (qscale (vx w) d0) (qscale (vy w) d1)) (qscale (vz w) d2) =
  qscale (1/2) (q_prod (q_from_vector3 omega) (em_exp v false)).
Proof. intros omega v d0 d1 d2 H1 H2 E0 E1 E2. exact (dvdt_spec omega v H1 H2 d0 d1 d2 E0 E1 E2). Qed.
Print Assumptions C65_dvdt_follows_omega.
Example C65_nonvacuous : / 1000000 <= vnorm (mkV 0 1 0) /\ sin (vnorm (mkV 0 1 0) / 2) <> 0.
Proof.
  destruct vnorm_basis as (_ & -> & _). split; [lra|]. pose proof PI2_1.
  assert (0 < sin (1/2)) by (apply sin_gt_0; lra). lra.
Qed.

(** C66 ortonormalize: Gram-Schmidt on the first two rows *)
Theorem C66_ortonormalize : forall A, vcross (mrow0 A) (mrow1 A) <> vzero ->
  let Q := fst (m3_ortonormalize A) in
  is_rotation Q /\
  (exists l, 0 < l /\ mrow0 A = vscale l (mrow0 Q)) /\
  (exists a b, 0 < b /\ mrow1 A = vadd (vscale a (mrow0 Q)) (vscale b (mrow1 Q))).
Proof. exact ortonormalize_spec. Qed.
Print Assumptions C66_ortonormalize.
(** the argument is overwritten: its first two rows become those of the result *)
Theorem C66_argument_overwritten : forall A, let '(Q, A') := m3_ortonormalize A in
  mrow0 A' = mrow0 Q /\ mrow1 A' = mrow1 Q /\ mrow2 A' = mrow2 A.
Proof. intros A. repeat split; destruct A; reflexivity. Qed.
Print Assumptions C66_argument_overwritten.
Example C66_nonvacuous : vcross (mrow0 (mkM 1 1 0 0 2 1 0 0 0)) (mrow1 (mkM 1 1 0 0 2 1 0 0 0)) <> vzero.
Proof. vunf. intros E; injection E; lra. Qed.

(** C67 angle extraction *)
Theorem C67_to_angle_axis : forall q, is_unit q ->
  let theta := fst (q_to_angle_axis q) in let n := snd (q_to_angle_axis q) in
  (qx q <> 0 \/ qy q <> 0 \/ qz q <> 0 ->
     0 < theta < 2 * PI /\ vdot n n = 1 /\ q_Ru theta n = q) /\
  (qx q = 0 /\ qy q = 0 /\ qz q = 0 -> n = vzero /\ (theta = 0 \/ theta = 2 * PI)).
Proof.
  intros q Hq. split.
  - intros Hnz.
    assert (Hn : vnorm (qvec q) <> 0).
    { intros Z. apply vnorm_zero_iff in Z. unfold qvec, vzero in Z. injection Z; lra. }
    pose proof (to_angle_axis_spec q Hq Hn) as H. destruct (q_to_angle_axis q) as [theta n]; cbn [fst snd].
    destruct H as (H1 & H2 & H3). repeat split; try lra.
    unfold q_Ru. rewrite (vnorm_unit n H2). rewrite H3 at 1. destruct n; cbn. f_equal; field.
  - intros (Hx & Hy & Hz).
    assert (Hn : vnorm (qvec q) = 0). { apply vnorm_zero_iff. unfold qvec. rewrite Hx, Hy, Hz; reflexivity. }
    destruct (to_angle_axis_zero q Hq Hn) as [[_ E]|[_ E]]; rewrite E; cbn; auto.
Qed.
Print Assumptions C67_to_angle_axis.
Theorem C67_to_angle : forall theta u, u <> vzero ->
  let a := q_to_angle (q_Ru theta u) u in - PI < a <= PI /\ cos a = cos theta /\ sin a = sin theta.
Proof. exact to_angle_Ru. Qed.
Print Assumptions C67_to_angle.
