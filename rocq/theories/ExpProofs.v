(** Proofs: exponential map and slerp *)
From Verif Require Import Base QuatModel QuatProofs VecModel VecProofs RotModel RotSpec RotProofs.
From Coq Require Import Nsatz.
Open Scope R_scope.

Lemma rodrigues_0 n : rodrigues 0 n = mid.
Proof. unfold rodrigues. rewrite cos_0, sin_0. destruct n; vunf; f_equal; ring. Qed.
Lemma rodrigues_neg a n : rodrigues (- a) (vopp n) = rodrigues a n.
Proof. unfold rodrigues. rewrite cos_neg, sin_neg. destruct n; vunf; f_equal; ring. Qed.
Lemma rodrigues_cs a b n : cos a = cos b -> sin a = sin b -> rodrigues a n = rodrigues b n.
Proof. intros E F; unfold rodrigues; rewrite E, F; reflexivity. Qed.
Lemma vscale_zero_iff a n : vdot n n = 1 -> vscale a n = vzero -> a = 0.
Proof.
  intros Hn E. assert (vdot (vscale a n) (vscale a n) = a * a * vdot n n) as H by vring.
  rewrite E, Hn in H. vunf. nra.
Qed.
Lemma rotvec_angle a n : vdot n n = 1 -> rotvec (vscale a n) = rodrigues a n.
Proof.
  intros Hn. unfold rotvec. destruct (vec3_eq_dec (vscale a n) vzero) as [E|E].
  - apply vscale_zero_iff in E; auto. subst. symmetry; apply rodrigues_0.
  - assert (Ha : a <> 0). { intros ->. apply E. destruct n; vunf; f_equal; ring. }
    unfold direction. rewrite vnorm_scale_abs, (vnorm_unit _ Hn), Rmult_1_r.
    destruct (Rle_dec 0 a).
    + rewrite Rabs_pos_eq by auto. f_equal. destruct n; vunf; f_equal; field; auto.
    + rewrite Rabs_left by lra. rewrite <- (rodrigues_neg a n). f_equal.
      destruct n; vunf; f_equal; field; auto.
Qed.
Lemma vec_polar v : v <> vzero -> v = vscale (vnorm v) (direction v) /\ vdot (direction v) (direction v) = 1.
Proof.
  intros Hv. split; [|apply direction_unit; auto]. pose proof (vnorm_pos v Hv).
  unfold direction. apply vec3_eq; cbn; field; lra.
Qed.
Lemma vnorm_vzero : vnorm vzero = 0.
Proof. apply vnorm_zero_iff; reflexivity. Qed.

Lemma fmod_spec x y : 0 <= x -> 0 < y -> 0 <= fmod x y < y /\ exists k : nat, x = fmod x y + INR k * y.
Proof.
  intros Hx Hy. unfold fmod. destruct (base_Int_part (x / y)) as [H1 H2].
  assert (Hd : 0 <= x / y) by (apply Rmult_le_pos; [auto|left; apply Rinv_0_lt_compat; auto]).
  set (z := Int_part (x/y)) in *.
  assert (Hz : (0 <= z)%Z).
  { assert (-1 < z)%Z; [|lia]. apply lt_IZR. lra. }
  assert (Ex : x = x / y * y) by (field; lra).
  split.
  - split; rewrite Ex at 1; nra.
  - exists (Z.to_nat z). rewrite INR_IZR_INZ, Z2Nat.id by auto. ring.
Qed.

Lemma reparam_spec v : rotvec (em_reparam v) = rotvec v /\ vnorm (em_reparam v) <= PI.
Proof.
  pose proof PI_RGT_0 as HP.
  unfold em_reparam, em_cutoff_angle. cbv zeta.
  set (v1 := if Rltb (2*PI) (vnorm v) then vscale (fmod (vnorm v) (2*PI) / vnorm v) v else v).
  assert (A : rotvec v1 = rotvec v /\ vnorm v1 <= 2 * PI).
  { unfold v1. destruct (Rltb_spec (2*PI) (vnorm v)) as [H|H]; [|split; [auto|lra]].
    assert (Hv : v <> vzero) by (intros ->; rewrite vnorm_vzero in H; lra).
    destruct (vec_polar v Hv) as [Ev Hn]. set (l := vnorm v) in *. set (n := direction v) in *.
    destruct (fmod_spec l (2*PI)) as [Hf [k Hk]]; [lra|lra|]. set (f := fmod l (2*PI)) in *.
    assert (E : vscale (f / l) v = vscale f n).
    { rewrite Ev. clear - H HP. destruct n; vunf; f_equal; field; lra. }
    rewrite E. split.
    - rewrite Ev, !rotvec_angle by auto. apply rodrigues_cs.
      + rewrite Hk. replace (f + INR k * (2*PI)) with (f + 2 * INR k * PI) by ring. symmetry; apply cos_period.
      + rewrite Hk. replace (f + INR k * (2*PI)) with (f + 2 * INR k * PI) by ring. symmetry; apply sin_period.
    - rewrite vnorm_scale_abs, (vnorm_unit n Hn), Rabs_pos_eq; lra. }
  clearbody v1. destruct A as [A1 A2]. rewrite <- A1.
  destruct (Rltb_spec PI (vnorm v1)) as [H|H]; [|split; [auto|lra]].
  assert (Hv : v1 <> vzero) by (intros ->; rewrite vnorm_vzero in H; lra).
  destruct (vec_polar v1 Hv) as [Ev Hn]. set (l := vnorm v1) in *. set (n := direction v1) in *.
  assert (E : vscale (1 - 2*PI/l) v1 = vscale (l - 2*PI) n).
  { rewrite Ev. clear - H HP. destruct n; vunf; f_equal; field; lra. }
  rewrite E. split.
  - rewrite Ev, !rotvec_angle by auto. apply rodrigues_cs.
    + replace (l - 2*PI) with (l - 2*PI) by ring. rewrite cos_minus, cos_2PI, sin_2PI; ring.
    + rewrite sin_minus, cos_2PI, sin_2PI; ring.
  - rewrite vnorm_scale_abs, (vnorm_unit n Hn), Rabs_left1; lra.
Qed.

Lemma min_angle_pos : 0 < em_min_angle.
Proof. unfold em_min_angle. lra. Qed.
Lemma norm_pos_nz v : 0 < vnorm v -> v <> vzero.
Proof. intros H ->; rewrite vnorm_vzero in H; lra. Qed.

Lemma em_exp_polar v : em_min_angle <= vnorm v ->
  em_exp v false = (let n := direction v in let t := vnorm v in
     mkQ (cos (t/2)) (sin (t/2) * vx n) (sin (t/2) * vy n) (sin (t/2) * vz n)).
Proof.
  intros H. pose proof min_angle_pos. unfold em_exp. destruct (Rltb_spec (vnorm v) em_min_angle) as [C|_]; [lra|].
  unfold direction. apply quat_eq; cbn; auto; field; lra.
Qed.
Lemma em_exp_reparam v : em_exp v true = em_exp (em_reparam v) false.
Proof. reflexivity. Qed.
Lemma em_exp_rot v : em_min_angle <= vnorm v ->
  is_unit (em_exp v false) /\ q_to_matrix (em_exp v false) = rotvec v.
Proof.
  intros H. pose proof min_angle_pos. assert (Hv : v <> vzero) by (apply norm_pos_nz; lra).
  rewrite em_exp_polar by auto. cbv zeta.
  destruct (umat_half (vnorm v) (direction v) (direction_unit v Hv)) as [H1 H2]. cbv zeta in *.
  split; auto. rewrite to_matrix_unit by auto. rewrite H2. unfold rotvec.
  destruct (vec3_eq_dec v vzero); [contradiction|reflexivity].
Qed.
Lemma em_exp_rot_reparam v : em_min_angle <= vnorm (em_reparam v) ->
  is_unit (em_exp v true) /\ q_to_matrix (em_exp v true) = rotvec v.
Proof.
  intros H. rewrite em_exp_reparam. destruct (em_exp_rot _ H) as [H1 H2]. split; auto.
  rewrite H2. apply reparam_spec.
Qed.

Lemma em_log_exp v : em_min_angle <= vnorm v -> vnorm v < PI -> em_log (em_exp v false) = Some v.
Proof.
  intros H1 H2. pose proof min_angle_pos. rewrite em_exp_polar by auto. cbv zeta.
  assert (Hv : v <> vzero) by (apply norm_pos_nz; lra).
  destruct (vec_polar v Hv) as [Ev Hn]. set (t := vnorm v) in *. set (n := direction v) in *.
  assert (Hc : 0 < cos (t/2)) by (apply cos_gt_0; lra).
  assert (Hs : 0 < sin (t/2)) by (apply sin_gt_0; lra).
  pose proof (COS_bound (t/2)).
  unfold em_log; cbn [qs qx qy qz].
  rewrite Rabs_pos_eq by lra. destruct (Rltb_spec 0 (cos (t/2))); [|lra].
  destruct (Rltb_spec 1 (cos (t/2))); [lra|].
  rewrite acos_cos by lra. destruct (Reqb_spec (sin (t/2)) 0); [lra|].
  f_equal. transitivity (vscale t n); [|symmetry; exact Ev]. clearbody t n. apply vec3_eq; cbn; field; lra.
Qed.

Lemma em_exp_log q v : is_unit q -> qs q <> 0 -> em_log q = Some v -> em_min_angle <= vnorm v ->
  em_exp v false = q.
Proof.
  intros Hq Hs E Hm. pose proof min_angle_pos as Hmp. unfold em_log in E.
  destruct (Rltb_spec 0 (Rabs (qs q))) as [_|C]; [|exfalso; apply C, Rabs_pos_lt; auto].
  destruct (Rltb_spec 1 (Rabs (qs q))) as [|C1]; [discriminate|].
  destruct (Reqb_spec (sin (acos (qs q))) 0) as [|C2]; [discriminate|].
  injection E as E.
  assert (Hb : -1 <= qs q <= 1). { revert C1; unfold Rabs; destruct (Rcase_abs (qs q)); lra. }
  destruct (acos_bound (qs q)) as [Ha0 Ha1].
  assert (Hsin : 0 < sin (acos (qs q))).
  { assert (0 <= sin (acos (qs q))) by (apply sin_ge_0; auto). lra. }
  set (t := acos (qs q)) in *.
  assert (Hct : cos t = qs q) by (apply cos_acos; auto).
  assert (Ht : 0 < t). { destruct Ha0 as [|Z]; auto. rewrite <- Z, sin_0 in C2. lra. }
  assert (Hw : vnorm (qvec q) = sin t).
  { apply Rsqr_inj; [apply vnorm_nonneg|lra|]. unfold Rsqr. rewrite vnorm_sqr.
    pose proof (sc1 t). unfold is_unit, qdot in Hq. unfold vdot, qvec; cbn. rewrite Hct in *. lra. }
  assert (Ev : v = vscale (2 * t / sin t) (qvec q)) by (rewrite <- E; reflexivity).
  assert (Hnv : vnorm v = 2 * t).
  { rewrite Ev, vnorm_scale_abs, Hw, Rabs_pos_eq; [field; lra|].
    apply Rmult_le_pos; [lra|left; apply Rinv_0_lt_compat; auto]. }
  rewrite em_exp_polar by auto. cbv zeta. unfold direction. rewrite Hnv.
  replace (2 * t / 2) with t by field. rewrite Hct, Ev. destruct q as [w x y z]; cbn. f_equal; field; lra.
Qed.

Lemma em_log_180 q : qs q = 0 -> em_log q = Some vzero.
Proof.
  intros H. unfold em_log. rewrite H, Rabs_R0. destruct (Rltb_spec 0 0); [lra|reflexivity].
Qed.
Lemma em_exp_zero r : em_exp vzero r = q_identity.
Proof.
  pose proof PI_RGT_0 as HP. pose proof min_angle_pos as HM.
  assert (E : em_reparam vzero = vzero).
  { unfold em_reparam. rewrite vnorm_vzero. destruct (Rltb_spec (2*PI) 0); [lra|].
    rewrite vnorm_vzero. unfold em_cutoff_angle. destruct (Rltb_spec PI 0); [lra|reflexivity]. }
  unfold em_exp. rewrite E.
  replace (if r then vzero else vzero) with vzero by (destruct r; reflexivity).
  rewrite vnorm_vzero. destruct (Rltb_spec 0 em_min_angle); [|lra].
  replace (0/2) with 0 by field. rewrite cos_0. unfold q_identity; cbn; f_equal; ring.
Qed.

(** Taylor region *)
Lemma sin_taylor x : 0 <= x <= PI -> x - x^3/6 <= sin x <= x - x^3/6 + x^5/120.
Proof.
  intros [H0 H1]. destruct (sin_bound x 0 H0 H1) as [L U].
  unfold sin_approx, sin_term in L, U. cbn -[Nat.mul pow Rdiv] in L, U.
  cbn in L, U. lra.
Qed.
Lemma em_exp_taylor v : vnorm v < em_min_angle -> v <> vzero ->
  let q := em_exp v false in let n := direction v in let t := vnorm v in
  qs q = cos (t/2) /\
  vnorm (vsub (qvec q) (vscale (sin (t/2)) n)) <= t^5 / 3840.
Proof.
  intros H Hv q n t. pose proof PI2_1 as HPI. pose proof (vnorm_pos v Hv) as Hp. fold t in Hp.
  unfold q, em_exp. fold t. destruct (Rltb_spec t em_min_angle); [|contradiction]. cbn [qs]. split; auto.
  destruct (vec_polar v Hv) as [Ev Hn]. fold t n in Ev, Hn.
  unfold em_min_angle in H. fold t in H.
  destruct (sin_taylor (t/2)) as [L U]; [split; lra|].
  replace (vsub (qvec _) (vscale (sin (t/2)) n)) with (vscale (t/2 - t^3/48 - sin (t/2)) n).
  2:{ clear q. clearbody t n. rewrite Ev. destruct n; unfold qvec; vunf. f_equal; field. }
  rewrite vnorm_scale_abs, (vnorm_unit n Hn), Rmult_1_r.
  apply Rabs_le. 
  replace (t / 2 - (t/2)^3/6) with (t/2 - t^3/48) in * by field.
  replace ((t/2)^5/120) with (t^5/3840) in * by field.
  assert (0 <= t^5) by (apply pow_le; lra). lra.
Qed.

(** ** dvdt: the rotation vector follows the angular velocity *)
Lemma dvdt_spec omega v : em_min_angle <= vnorm v -> sin (vnorm v / 2) <> 0 ->
  forall d0 d1 d2, em_dQdv v 0 = Some d0 -> em_dQdv v 1 = Some d1 -> em_dQdv v 2 = Some d2 ->
  let w := em_dvdt omega v in
  qadd (qadd (qscale (vx w) d0) (qscale (vy w) d1)) (qscale (vz w) d2) =
  qscale (1/2) (q_prod (mkQ 0 (vx omega) (vy omega) (vz omega)) (em_exp v false)).
Proof.
  intros Hm Hs d0 d1 d2 E0 E1 E2. pose proof min_angle_pos as Hmp.
  pose proof (vnorm_sqr v) as Hsq.
  unfold em_dQdv in E0, E1, E2. cbn [Nat.leb Nat.eqb] in E0, E1, E2.
  unfold em_dvdt, em_exp. set (t := vnorm v) in *.
  destruct (Rltb_spec t em_min_angle) as [C|_]; [lra|].
  injection E0 as <-. injection E1 as <-. injection E2 as <-.
  replace (1/2*t) with (t/2) by field.
  set (c := cos (t/2)). set (s := sin (t/2)) in *. clearbody c s t.
  assert (Ht : t <> 0) by lra. clear Hm.
  destruct omega as [o0 o1 o2], v as [a b g]. unfold vdot in Hsq; cbn in Hsq.
  unfold vget; cbn [vx vy vz]. qunf.
  assert (G : g * g = t * t - a * a - b * b) by lra.
  f_equal.
  - transitivity (- (1/2) * (s/t) * ((1/2) * (t * (c/s) * (a*o0+b*o1+g*o2) - (a*o0+b*o1+g*o2)/t*(c/s - 2/t) * (a*a+b*b+g*g)))).
    + field; auto.
    + rewrite <- Hsq. field; auto.
  - transitivity (s/t * (1/2 * (t*(c/s)*o0 + (o1*g-o2*b) - (a*o0+b*o1+g*o2)/t*(c/s-2/t)*a)) +
       a * (1/(t*t)) * (1/2*c - s/t) * (1/2 * (t*(c/s)*(a*o0+b*o1+g*o2) - (a*o0+b*o1+g*o2)/t*(c/s-2/t)*(a*a+b*b+g*g)))).
    + field; auto.
    + rewrite <- Hsq. field; auto.
  - transitivity (s/t * (1/2 * (t*(c/s)*o1 + (o2*a-o0*g) - (a*o0+b*o1+g*o2)/t*(c/s-2/t)*b)) +
       b * (1/(t*t)) * (1/2*c - s/t) * (1/2 * (t*(c/s)*(a*o0+b*o1+g*o2) - (a*o0+b*o1+g*o2)/t*(c/s-2/t)*(a*a+b*b+g*g)))).
    + field; auto.
    + rewrite <- Hsq. field; auto.
  - transitivity (s/t * (1/2 * (t*(c/s)*o2 + (o0*b-o1*a) - (a*o0+b*o1+g*o2)/t*(c/s-2/t)*g)) +
       g * (1/(t*t)) * (1/2*c - s/t) * (1/2 * (t*(c/s)*(a*o0+b*o1+g*o2) - (a*o0+b*o1+g*o2)/t*(c/s-2/t)*(a*a+b*b+g*g)))).
    + field; auto.
    + rewrite <- Hsq. field; auto.
Qed.

(** ** slerp *)
Lemma clip01 t : 0 <= clip t 0 1 <= 1.
Proof. unfold clip. split; [apply Rmin_glb; [apply Rmax_r|lra]|apply Rmin_r]. Qed.
Lemma clip_id t : 0 <= t <= 1 -> clip t 0 1 = t.
Proof. intros. unfold clip. rewrite Rmax_left, Rmin_left; lra. Qed.
Lemma clip_clip t : clip (clip t 0 1) 0 1 = clip t 0 1.
Proof. apply clip_id, clip01. Qed.
Lemma qdot_unit_bound a b : is_unit a -> is_unit b -> -1 <= qdot a b <= 1.
Proof.
  intros Ha Hb. unfold is_unit in *.
  assert (0 <= qdot (qadd a b) (qadd a b)) by apply qdot_self_nonneg.
  assert (0 <= qdot (qsub a b) (qsub a b)) by apply qdot_self_nonneg.
  replace (qdot (qadd a b) (qadd a b)) with (qdot a a + qdot b b + 2 * qdot a b) in * by vring.
  replace (qdot (qsub a b) (qsub a b)) with (qdot a a + qdot b b - 2 * qdot a b) in * by vring. lra.
Qed.
Lemma clip_dot d : -1 <= d <= 1 -> clip d (-1) 1 = d.
Proof. intros. unfold clip. rewrite Rmax_left, Rmin_left; lra. Qed.

Lemma slerp_main_branch a b t : is_unit a -> is_unit b -> Rabs (qdot a b) <= 9999999/10000000 ->
  let om := acos (Rabs (qdot a b)) in
  let b' := if Rltb (qdot a b) 0 then qopp b else b in
  0 < sin om /\ qdot a b' = cos om /\
  q_slerp a b t = qadd (qscale (sin (om - clip t 0 1 * om) / sin om) a) (qscale (sin (clip t 0 1 * om) / sin om) b').
Proof.
  intros Ha Hb Hd. pose proof (qdot_unit_bound a b Ha Hb) as Hdb. cbv zeta.
  assert (Hab : 0 <= Rabs (qdot a b)) by apply Rabs_pos.
  assert (Hsin : 0 < sin (acos (Rabs (qdot a b)))).
  { rewrite sin_acos by lra. apply sqrt_lt_R0. unfold Rsqr. nra. }
  split; auto. unfold q_slerp. rewrite clip_dot by auto. rewrite cos_acos by lra.
  destruct (Rltb_spec (qdot a b) 0) as [H|H].
  - split; [rewrite Rabs_left by auto; vring|].
    rewrite Rabs_left in * by auto.
    destruct (Rltb_spec (9999999/10000000) (- qdot a b)); [lra|].
    f_equal. set (z := sin (clip t 0 1 * acos (- qdot a b)) / sin (acos (- qdot a b))). clearbody z.
    destruct b; vunf; f_equal; ring.
  - split; [rewrite Rabs_pos_eq by lra; vring|].
    rewrite Rabs_pos_eq in * by lra.
    destruct (Rltb_spec (9999999/10000000) (qdot a b)); [lra|]. reflexivity.
Qed.
Lemma slerp_combo_unit a b A B om : A + B = om -> is_unit a -> is_unit b -> sin om <> 0 -> qdot a b = cos om ->
  is_unit (qadd (qscale (sin A / sin om) a) (qscale (sin B / sin om) b)) /\
  qdot a (qadd (qscale (sin A / sin om) a) (qscale (sin B / sin om) b)) = cos B.
Proof.
  intros <- Ha Hb Hs Hd. unfold is_unit in *.
  set (S := sin (A+B)) in *.
  split.
  - replace (qdot _ _) with ((sin A * sin A * qdot a a + sin B * sin B * qdot b b + 2 * sin A * sin B * qdot a b) / (S*S)).
    2:{ generalize (sin A) (sin B). clearbody S. intros x y. destruct a, b; vunf; field; auto. }
    rewrite Ha, Hb, Hd. 
    assert (E : sin A * sin A * 1 + sin B * sin B * 1 + 2 * sin A * sin B * cos (A+B) = S * S).
    { unfold S. rewrite cos_plus, sin_plus. pose proof (sc1 A) as H1. pose proof (sc1 B) as H2.
      generalize dependent (sin A). generalize dependent (sin B). generalize (cos A) (cos B). intros ca cb sb. intros. nsatz. }
    rewrite E. field; auto.
  - replace (qdot a _) with ((sin A * qdot a a + sin B * qdot a b) / S).
    2:{ generalize (sin A) (sin B). clearbody S. intros x y. destruct a, b; vunf; field; auto. }
    rewrite Ha, Hd.
    assert (E : sin A * 1 + sin B * cos (A+B) = cos B * S).
    { unfold S. rewrite cos_plus, sin_plus. pose proof (sc1 A) as H1. pose proof (sc1 B) as H2.
      generalize dependent (sin A). generalize dependent (sin B). generalize (cos A) (cos B). intros ca cb sb. intros. nsatz. }
    rewrite E. field; auto.
Qed.
Lemma is_unit_opp b : is_unit b -> is_unit (qopp b).
Proof. unfold is_unit; intros <-; vring. Qed.
Lemma slerp_small_branch a b t : is_unit a -> is_unit b -> 9999999/10000000 < Rabs (qdot a b) ->
  q_slerp a b t = q_unit (q_lerp a b (clip t 0 1)).
Proof.
  intros Ha Hb Hd. pose proof (qdot_unit_bound a b Ha Hb) as Hdb. unfold q_slerp. rewrite clip_dot by auto.
  destruct (Rltb_spec (qdot a b) 0).
  - rewrite Rabs_left in Hd by auto. destruct (Rltb_spec (9999999/10000000) (- qdot a b)); [|lra]. reflexivity.
  - rewrite Rabs_pos_eq in Hd by lra. destruct (Rltb_spec (9999999/10000000) (qdot a b)); [|lra]. reflexivity.
Qed.
Lemma slerp_unit a b t : is_unit a -> is_unit b -> is_unit (q_slerp a b t).
Proof.
  intros Ha Hb. destruct (Rle_dec (Rabs (qdot a b)) (9999999/10000000)) as [H|H].
  - destruct (slerp_main_branch a b t Ha Hb H) as (Hs & Hd & ->).
    set (om := acos (Rabs (qdot a b))) in *. set (u := clip t 0 1).
    set (b' := if Rltb (qdot a b) 0 then qopp b else b) in *.
    assert (Hb' : is_unit b') by (unfold b'; destruct (Rltb (qdot a b) 0); auto using is_unit_opp).
    assert (Eo : (om - u*om) + u * om = om) by ring.
    apply (slerp_combo_unit a b' _ _ om Eo); auto. lra.
  - rewrite slerp_small_branch by (auto; lra). apply q_unit_is_unit.
Qed.
Lemma slerp_0 a b : is_unit a -> is_unit b -> q_slerp a b 0 = a.
Proof.
  intros Ha Hb. assert (C0 : clip 0 0 1 = 0) by (apply clip_id; lra).
  destruct (Rle_dec (Rabs (qdot a b)) (9999999/10000000)) as [H|H].
  - destruct (slerp_main_branch a b 0 Ha Hb H) as (Hs & Hd & ->). rewrite C0.
    set (om := acos (Rabs (qdot a b))) in *.
    rewrite Rmult_0_l, Rminus_0_r, sin_0.
    set (b' := if Rltb (qdot a b) 0 then qopp b else b). clearbody b'. destruct a, b'; vunf; f_equal; field; lra.
  - rewrite slerp_small_branch by (auto; lra). unfold q_lerp. rewrite !C0.
    replace (qadd a _) with a by (destruct a, b; vunf; f_equal; ring). apply q_unit_of_unit; auto.
Qed.
Lemma slerp_1 a b : is_unit a -> is_unit b -> q_slerp a b 1 = b \/ q_slerp a b 1 = qopp b.
Proof.
  intros Ha Hb. assert (C0 : clip 1 0 1 = 1) by (apply clip_id; lra).
  destruct (Rle_dec (Rabs (qdot a b)) (9999999/10000000)) as [H|H].
  - destruct (slerp_main_branch a b 1 Ha Hb H) as (Hs & Hd & ->). rewrite C0.
    set (om := acos (Rabs (qdot a b))) in *.
    rewrite Rmult_1_l, Rminus_diag_eq, sin_0 by auto.
    destruct (Rltb (qdot a b) 0); [right|left]; destruct a, b; vunf; f_equal; field; lra.
  - left. rewrite slerp_small_branch by (auto; lra). unfold q_lerp. rewrite !C0.
    replace (qadd a _) with b by (destruct a, b; vunf; f_equal; ring). apply q_unit_of_unit; auto.
Qed.
Lemma slerp_clamp a b t : q_slerp a b t = q_slerp a b (clip t 0 1).
Proof. unfold q_slerp. rewrite clip_clip. reflexivity. Qed.
Lemma slerp_angle a b t : is_unit a -> is_unit b -> Rabs (qdot a b) <= 9999999/10000000 -> 0 <= t <= 1 ->
  qdot a (q_slerp a b t) = cos (t * acos (Rabs (qdot a b))).
Proof.
  intros Ha Hb H Ht. destruct (slerp_main_branch a b t Ha Hb H) as (Hs & Hd & ->).
  rewrite clip_id by auto.
  set (om := acos (Rabs (qdot a b))) in *.
  set (b' := if Rltb (qdot a b) 0 then qopp b else b) in *.
  assert (Hb' : is_unit b') by (unfold b'; destruct (Rltb (qdot a b) 0); auto using is_unit_opp).
  assert (Eo : (om - t*om) + t * om = om) by ring.
  apply (slerp_combo_unit a b' _ _ om Eo); auto. lra.
Qed.
Lemma slerp_antipodal a : is_unit a -> q_slerp a (qopp a) (1/2) = q_identity.
Proof.
  intros Ha. rewrite slerp_small_branch; auto using is_unit_opp.
  - unfold q_lerp. rewrite !clip_id by (rewrite ?clip_id; lra).
    replace (qadd a _) with qzero by (destruct a; vunf; f_equal; field).
    apply q_unit_zero. unfold qnorm. replace (qdot qzero qzero) with 0 by vring. apply sqrt_0.
  - replace (qdot a (qopp a)) with (- qdot a a) by vring. unfold is_unit in Ha. rewrite Ha, Rabs_Ropp, Rabs_R1. lra.
Qed.
