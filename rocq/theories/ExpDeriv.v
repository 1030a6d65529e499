(** Derivatives of the exponential map (Coquelicot is used for the calculus; statements are
    in the standard library's [derivable_pt_lim]). *)
From Coq Require Import Reals Lra.
From Coquelicot Require Import Coquelicot.
From Verif Require Import Base QuatModel QuatProofs VecModel VecProofs RotModel RotSpec RotProofs ExpProofs.
Open Scope R_scope.

Definition line (v : vec3) (i : nat) (t : R) : vec3 := vadd v (vscale t (vbasis i)).
Lemma line_0 v i : line v i 0 = v.
Proof. unfold line, vadd, vscale. destruct v; cbn. f_equal; ring. Qed.
Lemma line_dot v i t : (i < 3)%nat -> vdot (line v i t) (line v i t) = vdot v v + 2 * t * vget v i + t * t.
Proof. intros H. unfold line, vbasis, vget. destruct i as [|[|[|i]]]; try lia; destruct v; vunf; ring. Qed.
Lemma line_get v i j t : (i < 3)%nat -> (j < 3)%nat -> vget (line v i t) j = vget v j + (if Nat.eqb i j then t else 0).
Proof.
  intros Hi Hj. unfold line, vbasis, vget. destruct i as [|[|[|i]]]; try lia; destruct j as [|[|[|j]]]; try lia;
  destruct v; cbn; ring.
Qed.

Lemma line_norm_derive v i : (i < 3)%nat -> v <> vzero ->
  is_derive (fun t => vnorm (line v i t)) 0 (vget v i / vnorm v).
Proof.
  intros Hi Hv. pose proof (vdot_self_pos v Hv) as Hp. pose proof (vnorm_pos v Hv) as Hn.
  apply is_derive_ext with (fun t => sqrt (vdot v v + 2 * t * vget v i + t * t)).
  { intros t. unfold vnorm. rewrite line_dot by auto. reflexivity. }
  unfold vnorm in *. auto_derive.
  - rewrite !Rmult_0_r, !Rmult_0_l, !Rplus_0_r. auto.
  - rewrite !Rmult_0_r, !Rmult_0_l, !Rplus_0_r. field. lra.
Qed.
Lemma line_norm_continuous v i : (i < 3)%nat -> v <> vzero -> continuous (fun t => vnorm (line v i t)) 0.
Proof. intros Hi Hv. apply (ex_derive_continuous (K:=R_AbsRing) (V:=R_NormedModule)). eexists; apply line_norm_derive; auto. Qed.
Lemma line_norm_loc_gt v i m : (i < 3)%nat -> v <> vzero -> m < vnorm v -> locally 0 (fun t => m < vnorm (line v i t)).
Proof.
  intros Hi Hv Hm. apply (line_norm_continuous v i Hi Hv (fun x => m < x)).
  apply open_gt. rewrite line_0. auto.
Qed.
Lemma line_norm_loc_lt v i m : (i < 3)%nat -> v <> vzero -> vnorm v < m -> locally 0 (fun t => vnorm (line v i t) < m).
Proof.
  intros Hi Hv Hm. apply (line_norm_continuous v i Hi Hv (fun x => x < m)).
  apply open_lt. rewrite line_0. auto.
Qed.

Definition expf (v : vec3) : quat :=
  let t := vnorm v in mkQ (cos (t/2)) (vx v * sin (t/2) / t) (vy v * sin (t/2) / t) (vz v * sin (t/2) / t).
Lemma em_exp_expf v : em_min_angle <= vnorm v -> em_exp v false = expf v.
Proof.
  intros H. unfold em_exp, expf. destruct (Rltb_spec (vnorm v) em_min_angle); [lra|].
  apply quat_eq; cbn; auto; unfold Rdiv; ring.
Qed.

Lemma exp_deriv v i d : em_min_angle < vnorm v -> em_dQdv v i = Some d ->
  forall j, (j < 4)%nat -> is_derive (fun t => qget (em_exp (line v i t) false) j) 0 (qget d j).
Proof.
  intros Hm E j Hj. pose proof min_angle_pos as Hmp.
  assert (Hi : (i < 3)%nat). { unfold em_dQdv in E. destruct (Nat.leb_spec 3 i); [discriminate|lia]. }
  assert (Hv : v <> vzero) by (apply norm_pos_nz; lra).
  apply is_derive_ext_loc with (fun t => qget (expf (line v i t)) j).
  { eapply filter_imp; [|apply (line_norm_loc_gt v i em_min_angle); auto].
    intros t Ht. cbn in Ht. rewrite em_exp_expf by lra. reflexivity. }
  pose proof (line_norm_derive v i Hi Hv) as HD.
  assert (HN : vnorm (line v i 0) = vnorm v) by (rewrite line_0; reflexivity).
  unfold em_dQdv in E. destruct (Nat.leb_spec 3 i); [discriminate|].
  destruct (Rltb_spec (vnorm v) em_min_angle); [lra|]. injection E as <-.
  replace (1/2 * vnorm v) with (vnorm v / 2) by field.
  set (N := fun t => vnorm (line v i t)) in *.
  assert (Hc : is_derive (fun t => cos (N t / 2)) 0 (- (1/2) * vget v i * (sin (vnorm v / 2) * (1 / vnorm v)))).
  { evar_last. { apply (is_derive_comp (fun x => cos (x/2)) N 0 (- (1/2) * sin (N 0 / 2))).
      - auto_derive; auto. unfold Rdiv; ring.
      - apply HD. }
    unfold scal; cbn. unfold mult; cbn. unfold N. rewrite line_0. field. lra. }
  assert (Hs : is_derive (fun t => sin (N t / 2) / N t) 0 (vget v i * (1/vnorm v)^2 * (1/2 * cos (vnorm v / 2) - sin (vnorm v / 2) * (1/vnorm v)))).
  { evar_last. { apply (is_derive_comp (fun x => sin (x/2) / x) N 0 ((1/2 * cos (N 0/2) * N 0 - sin (N 0 / 2)) / (N 0 * N 0))).
      - unfold N. rewrite line_0. auto_derive; [lra|]. change (vnorm v * / 2) with (vnorm v / 2). field. lra.
      - apply HD. }
    unfold scal; cbn. unfold mult; cbn. unfold N. rewrite line_0. field. lra. }
  assert (Hw : forall k, (k < 3)%nat -> is_derive (fun t => vget (line v i t) k * sin (N t / 2) / N t) 0
     (if Nat.eqb i k then vget v k * (vget v i * (1/vnorm v)^2 * (1/2 * cos (vnorm v / 2) - sin (vnorm v / 2) * (1/vnorm v))) + sin (vnorm v / 2) * (1 / vnorm v)
      else vget v k * (vget v i * (1/vnorm v)^2 * (1/2 * cos (vnorm v / 2) - sin (vnorm v / 2) * (1/vnorm v))))).
  { intros k Hk.
    apply is_derive_ext with (fun t => vget (line v i t) k * (sin (N t / 2) / N t)).
    { intros t. match goal with |- ?a = ?b => change (@eq R a b) end. unfold Rdiv; ring. }
    assert (HL : is_derive (fun t => vget (line v i t) k) 0 (if Nat.eqb i k then 1 else 0)).
    { apply is_derive_ext with (fun t => vget v k + (if Nat.eqb i k then t else 0)).
      { intros t. rewrite line_get; auto. }
      destruct (Nat.eqb i k); auto_derive; auto; ring. }
    evar_last. { apply (is_derive_mult _ _ 0 _ _ HL Hs). intros; apply Rmult_comm. }
    unfold plus, mult; cbn. unfold N. rewrite line_0. destruct (Nat.eqb i k); field; lra. }
  destruct j as [|[|[|[|j]]]]; try lia.
  - exact Hc.
  - exact (Hw 0%nat ltac:(lia)).
  - exact (Hw 1%nat ltac:(lia)).
  - exact (Hw 2%nat ltac:(lia)).
Qed.

(** chain rule through the matrix of a unit quaternion *)
Lemma umat_deriv_aux (a b c e : R -> R) (d : quat) x :
  is_derive a x (qs d) -> is_derive b x (qx d) -> is_derive c x (qy d) -> is_derive e x (qz d) ->
  forall k l, is_derive (fun t => mget (umat (mkQ (a t) (b t) (c t) (e t))) k l) x
     (mget (em_dR (mkQ (a x) (b x) (c x) (e x)) d) k l).
Proof.
  intros H0 H1 H2 H3 k l.
  assert (E0 : ex_derive a x) by (eexists; apply H0).
  assert (E1 : ex_derive b x) by (eexists; apply H1).
  assert (E2 : ex_derive c x) by (eexists; apply H2).
  assert (E3 : ex_derive e x) by (eexists; apply H3).
  pose proof (is_derive_unique _ _ _ H0) as D0. pose proof (is_derive_unique _ _ _ H1) as D1.
  pose proof (is_derive_unique _ _ _ H2) as D2. pose proof (is_derive_unique _ _ _ H3) as D3.
  unfold umat, em_dR, mget; destruct k as [|[|k]]; destruct l as [|[|l]]; cbn [m00 m01 m02 m10 m11 m12 m20 m21 m22 qs qx qy qz];
  (auto_derive; [repeat split; auto|]);
  change (fun x0 => a x0) with a; change (fun x0 => b x0) with b; change (fun x0 => c x0) with c; change (fun x0 => e x0) with e;
  rewrite ?D0, ?D1, ?D2, ?D3; ring.
Qed.
Lemma umat_deriv (q : R -> quat) d x : (forall j, (j < 4)%nat -> is_derive (fun t => qget (q t) j) x (qget d j)) ->
  forall r c, is_derive (fun t => mget (umat (q t)) r c) x (mget (em_dR (q x) d) r c).
Proof.
  intros H r c.
  pose proof (umat_deriv_aux _ _ _ _ d x (H 0%nat ltac:(lia)) (H 1%nat ltac:(lia)) (H 2%nat ltac:(lia)) (H 3%nat ltac:(lia)) r c) as HH.
  cbn [qget] in HH.
  replace (mget (em_dR (q x) d) r c) with (mget (em_dR (mkQ (qs (q x)) (qx (q x)) (qy (q x)) (qz (q x))) d) r c) by (destruct (q x); reflexivity).
  eapply is_derive_ext; [|exact HH]. intros t. cbn. destruct (q t); reflexivity.
Qed.

Lemma em_reparam_small v : vnorm v <= PI -> em_reparam v = v.
Proof.
  intros H. pose proof PI_RGT_0. unfold em_reparam, em_cutoff_angle.
  destruct (Rltb_spec (2*PI) (vnorm v)); [lra|]. destruct (Rltb_spec PI (vnorm v)); [lra|reflexivity].
Qed.
Lemma em_exp_shell v : PI < vnorm v -> vnorm v < 2 * PI -> em_min_angle <= 2 * PI - vnorm v ->
  em_exp v true = qopp (em_exp v false).
Proof.
  intros H1 H2 H3. pose proof PI_RGT_0 as HP. pose proof min_angle_pos as Hmp. pose proof PI2_1 as HP1.
  assert (Hv : v <> vzero) by (apply norm_pos_nz; lra).
  rewrite em_exp_reparam.
  assert (Er : em_reparam v = vscale (1 - 2 * PI / vnorm v) v).
  { unfold em_reparam, em_cutoff_angle.
    destruct (Rltb_spec (2*PI) (vnorm v)); [lra|]. destruct (Rltb_spec PI (vnorm v)); [reflexivity|lra]. }
  rewrite Er. clear Er.
  assert (Hn : vnorm (vscale (1 - 2*PI/vnorm v) v) = 2 * PI - vnorm v).
  { rewrite vnorm_scale_abs. replace (1 - 2*PI/vnorm v) with (- ((2*PI - vnorm v)/vnorm v)) by (field; lra).
    rewrite Rabs_Ropp, Rabs_pos_eq; [field; lra|].
    apply Rmult_le_pos; [lra|left; apply Rinv_0_lt_compat; lra]. }
  rewrite !em_exp_expf; [|unfold em_min_angle in *; lra|rewrite Hn; auto].
  unfold expf. rewrite Hn. set (t := vnorm v) in *. clearbody t.
  replace ((2*PI - t)/2) with (PI - t/2) by field.
  assert (C : cos (PI - t/2) = - cos (t/2)) by (rewrite cos_minus, cos_PI, sin_PI; ring).
  assert (S : sin (PI - t/2) = sin (t/2)) by (rewrite sin_minus, cos_PI, sin_PI; ring).
  rewrite C, S. unfold qopp; cbn. f_equal; field; lra.
Qed.

Lemma umat_of_exp v : em_min_angle <= vnorm v -> q_to_matrix (em_exp v false) = umat (em_exp v false).
Proof. intros H. apply to_matrix_unit, em_exp_rot, H. Qed.

Lemma dRdv_inner v i D : em_min_angle < vnorm v -> vnorm v < PI -> em_dRdv v i = Some D ->
  forall r c, is_derive (fun t => mget (em_to_matrix (line v i t)) r c) 0 (mget D r c).
Proof.
  intros H1 H2 E r c. pose proof min_angle_pos as Hmp.
  assert (Hv : v <> vzero) by (apply norm_pos_nz; lra).
  unfold em_dRdv in E. destruct (em_dQdv v i) as [d|] eqn:Ed; [|discriminate]. injection E as <-.
  assert (Hi : (i < 3)%nat). { unfold em_dQdv in Ed. destruct (Nat.leb_spec 3 i); [discriminate|lia]. }
  apply is_derive_ext_loc with (fun t => mget (umat (em_exp (line v i t) false)) r c).
  { eapply filter_imp; [|apply filter_and; [apply (line_norm_loc_gt v i em_min_angle); auto|apply (line_norm_loc_lt v i PI); auto]].
    intros t [Ht1 Ht2]. cbn in Ht1, Ht2. unfold em_to_matrix.
    rewrite em_exp_reparam, em_reparam_small by lra. rewrite umat_of_exp by lra. reflexivity. }
  rewrite em_exp_reparam, em_reparam_small by lra.
  pose proof (umat_deriv (fun t => em_exp (line v i t) false) d 0 (exp_deriv v i d H1 Ed) r c) as HH.
  cbv beta in HH. rewrite line_0 in HH. exact HH.
Qed.

Lemma em_dR_opp q d r c : mget (em_dR (qopp q) d) r c = - mget (em_dR q d) r c.
Proof. destruct q, d, r as [|[|r]], c as [|[|c]]; unfold em_dR, qopp; cbn; ring. Qed.

(** beyond PI the returned matrix has the wrong sign *)
Lemma dRdv_outer v i D : PI < vnorm v -> vnorm v < 2 * PI - em_min_angle -> em_dRdv v i = Some D ->
  forall r c, is_derive (fun t => mget (em_to_matrix (line v i t)) r c) 0 (- mget D r c).
Proof.
  intros H1 H2 E r c. pose proof min_angle_pos as Hmp. pose proof PI_RGT_0 as HP. pose proof PI2_1 as HP1.
  assert (Hm : em_min_angle < PI) by (unfold em_min_angle; lra).
  assert (Hv : v <> vzero) by (apply norm_pos_nz; lra).
  unfold em_dRdv in E. destruct (em_dQdv v i) as [d|] eqn:Ed; [|discriminate]. injection E as <-.
  assert (Hi : (i < 3)%nat). { unfold em_dQdv in Ed. destruct (Nat.leb_spec 3 i); [discriminate|lia]. }
  apply is_derive_ext_loc with (fun t => mget (umat (em_exp (line v i t) false)) r c).
  { eapply filter_imp; [|apply filter_and; [apply (line_norm_loc_gt v i PI); auto|apply (line_norm_loc_lt v i (2*PI - em_min_angle)); auto]].
    intros t [Ht1 Ht2]. cbn in Ht1, Ht2. unfold em_to_matrix.
    rewrite em_exp_shell by lra.
    rewrite to_matrix_unit by (apply is_unit_opp, em_exp_rot; lra). rewrite umat_opp. reflexivity. }
  rewrite em_exp_shell by lra. rewrite em_dR_opp, Ropp_involutive.
  pose proof (umat_deriv (fun t => em_exp (line v i t) false) d 0 (exp_deriv v i d ltac:(lra) Ed) r c) as HH.
  cbv beta in HH. rewrite line_0 in HH. exact HH.
Qed.
