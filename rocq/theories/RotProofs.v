(** Proofs: axis rotations, atan2, Euler angles, exponential map *)
From Verif Require Import Base QuatModel QuatProofs VecModel VecProofs RotModel RotSpec.
From Coq Require Import Nsatz.
Open Scope R_scope.

(** ** half angles *)
Lemma sc1 x : sin x * sin x + cos x * cos x = 1.
Proof. pose proof (sin2_cos2 x) as H; unfold Rsqr in H; exact H. Qed.
Lemma half_cos a : cos a = cos (a/2) * cos (a/2) - sin (a/2) * sin (a/2).
Proof. replace a with (a/2 + a/2) at 1 by field. apply cos_plus. Qed.
Lemma half_sin a : sin a = 2 * sin (a/2) * cos (a/2).
Proof. replace a with (a/2 + a/2) at 1 by field. rewrite sin_plus. ring. Qed.

Lemma umat_half a n : vdot n n = 1 ->
  let q := mkQ (cos (a/2)) (sin (a/2) * vx n) (sin (a/2) * vy n) (sin (a/2) * vz n) in
  is_unit q /\ umat q = rodrigues a n.
Proof.
  intros Hn q. pose proof (sc1 (a/2)) as H1. pose proof (half_cos a) as Hc. pose proof (half_sin a) as Hs.
  unfold rodrigues. rewrite Hc, Hs.
  subst q. set (c := cos (a/2)) in *. set (s := sin (a/2)) in *. clearbody c s. clear Hc Hs.
  destruct n as [x y z]. unfold is_unit, umat. vunf. split.
  - nsatz.
  - f_equal; nsatz.
Qed.

Lemma direction_unit u : u <> vzero -> vdot (direction u) (direction u) = 1.
Proof. apply vdiv_norm_unit. Qed.

Lemma q_Ru_spec a u : u <> vzero -> is_unit (q_Ru a u) /\ q_to_matrix (q_Ru a u) = rodrigues a (direction u).
Proof.
  intros Hu. pose proof (umat_half a (direction u) (direction_unit u Hu)) as [H1 H2].
  unfold q_Ru. cbv zeta. fold (direction u). split; [exact H1|].
  rewrite to_matrix_unit by exact H1. exact H2.
Qed.
Lemma m3_Ru_spec a u : m3_Ru a u = rodrigues a (direction u).
Proof.
  unfold m3_Ru, rodrigues. fold (direction u). destruct (direction u) as [x y z]; cbn. f_equal; ring.
Qed.
Lemma vnorm_basis : vnorm (mkV 1 0 0) = 1 /\ vnorm (mkV 0 1 0) = 1 /\ vnorm (mkV 0 0 1) = 1.
Proof. unfold vnorm, vdot; cbn; repeat split; replace (_ + _ + _) with 1 by ring; apply sqrt_1. Qed.
Lemma R_axes a :
  (q_Rx a = q_Ru a (mkV 1 0 0) /\ q_Ry a = q_Ru a (mkV 0 1 0) /\ q_Rz a = q_Ru a (mkV 0 0 1)) /\
  (m3_Rx a = m3_Ru a (mkV 1 0 0) /\ m3_Ry a = m3_Ru a (mkV 0 1 0) /\ m3_Rz a = m3_Ru a (mkV 0 0 1)).
Proof.
  destruct vnorm_basis as (E1 & E2 & E3).
  unfold q_Rx, q_Ry, q_Rz, q_Ru, m3_Rx, m3_Ry, m3_Rz, m3_Ru. rewrite E1, E2, E3.
  cbn; repeat split; f_equal; field.
Qed.
Lemma rodrigues_fix a n : vdot n n = 1 -> mvec (rodrigues a n) n = n.
Proof.
  intros Hn. rewrite rodrigues_formula, Hn. destruct n as [x y z]; vunf. f_equal; ring.
Qed.
Lemma rodrigues_add a b n : vdot n n = 1 -> mmul (rodrigues a n) (rodrigues b n) = rodrigues (a + b) n.
Proof.
  intros Hn. unfold rodrigues. rewrite cos_plus, sin_plus.
  set (ca := cos a); set (sa := sin a); set (cb := cos b); set (sb := sin b). clearbody ca sa cb sb.
  destruct n as [x y z]; vunf. f_equal; nsatz.
Qed.
Lemma q_Ru_add a b u : u <> vzero -> q_prod (q_Ru a u) (q_Ru b u) = q_Ru (a + b) u.
Proof.
  intros Hu. pose proof (direction_unit u Hu) as Hn. unfold q_Ru. fold (direction u). cbv zeta.
  replace ((a+b)/2) with (a/2 + b/2) by field. rewrite cos_plus, sin_plus.
  set (ca := cos (a/2)); set (sa := sin (a/2)); set (cb := cos (b/2)); set (sb := sin (b/2)). clearbody ca sa cb sb.
  destruct (direction u) as [x y z]; qunf. f_equal; nsatz.
Qed.

(** ** atan2 *)
Lemma cos_atan_pos t : 0 < cos (atan t).
Proof. destruct (atan_bound t). apply cos_gt_0; lra. Qed.
Lemma atan_sc t : sin (atan t) = t * cos (atan t).
Proof.
  pose proof (cos_atan_pos t). pose proof (tan_atan t) as E. unfold tan in E.
  rewrite <- E at 2. field; lra.
Qed.
Lemma atan2_range y x : - PI < atan2 y x <= PI.
Proof.
  pose proof PI_RGT_0 as HP.
  unfold atan2. destruct (Rltb_spec 0 x).
  - destruct (atan_bound (y / x)); lra.
  - destruct (Rltb_spec x 0).
    + destruct (atan_bound (y/x)). destruct (Rleb_spec 0 y).
      * assert (H3 : y / x <= 0). { unfold Rdiv. assert (/ x < 0) by (apply Rinv_lt_0_compat; auto). nra. }
        assert (atan (y/x) <= 0). { destruct H3 as [H3|H3]; [rewrite <- atan_0; left; apply atan_increasing; auto|rewrite H3, atan_0; lra]. }
        lra.
      * assert (0 < y / x). { unfold Rdiv. assert (/ x < 0) by (apply Rinv_lt_0_compat; auto). nra. }
        assert (0 < atan (y/x)) by (rewrite <- atan_0; apply atan_increasing; auto).
        lra.
    + destruct (Rltb_spec 0 y); [lra|]. destruct (Rltb_spec y 0); lra.
Qed.
Lemma atan2_sc y x r : 0 < r -> x * x + y * y = r * r ->
  r * cos (atan2 y x) = x /\ r * sin (atan2 y x) = y.
Proof.
  intros Hr E. unfold atan2.
  assert (K : x <> 0 -> r * cos (atan (y/x)) = Rabs x /\ r * sin (atan (y/x)) = y * (Rabs x / x)).
  { intros Hx. pose proof (cos_atan_pos (y/x)) as Hc. pose proof (sc1 (atan (y/x))) as H1.
    rewrite atan_sc in *. set (c := cos (atan (y/x))) in *.
    assert (Hax : 0 < Rabs x) by (apply Rabs_pos_lt; auto).
    assert (E2 : (r * c) * (r * c) = Rabs x * Rabs x).
    { pose proof (Rsqr_abs x) as A; unfold Rsqr in A. rewrite <- A.
      assert (y / x * c * (y / x * c) + c * c = (y*y + x*x) / (x*x) * (c*c)) as B by (field; auto).
      rewrite B in H1. replace (y*y+x*x) with (r*r) in H1 by lra.
      assert (r * r * (c * c) = x * x).
      { transitivity (r * r / (x*x) * (c*c) * (x*x)); [field; auto| rewrite H1; ring]. }
      lra. }
    assert (0 < r * c) by (apply Rmult_lt_0_compat; auto).
    assert (E3 : r * c = Rabs x) by nra.
    split; auto. transitivity (y / x * (r * c)); [ring|rewrite E3; field; auto]. }
  destruct (Rltb_spec 0 x) as [Hx|Hx].
  - destruct K as [K1 K2]; [lra|]. rewrite Rabs_pos_eq in * by lra. split; auto. rewrite K2; field; lra.
  - destruct (Rltb_spec x 0) as [Hx'|Hx'].
    + destruct K as [K1 K2]; [lra|]. rewrite Rabs_left in * by lra.
      assert (E1 : y * (- x / x) = - y) by (field; lra). rewrite E1 in K2.
      destruct (Rleb_spec 0 y).
      * rewrite neg_cos, neg_sin. lra.
      * replace (atan (y/x) - PI) with (-(- atan (y/x) + PI)) by ring.
        rewrite cos_neg, sin_neg, neg_cos, neg_sin, cos_neg, sin_neg. lra.
    + assert (x = 0) by lra. subst x. destruct (Rltb_spec 0 y).
      * rewrite cos_PI2, sin_PI2. assert (r = y) by nra. lra.
      * destruct (Rltb_spec y 0).
        -- rewrite cos_neg, sin_neg, cos_PI2, sin_PI2. assert (r = - y) by nra. lra.
        -- assert (y = 0) by lra. subst. nra.
Qed.
Lemma atan2_unit s c : s * s + c * c = 1 -> cos (atan2 s c) = c /\ sin (atan2 s c) = s.
Proof. intros H. destruct (atan2_sc s c 1) as [A B]; lra. Qed.

Lemma sq2_0 x y : x * x + y * y = 0 -> x = 0 /\ y = 0.
Proof.
  intros H. pose proof (Rle_0_sqr x); pose proof (Rle_0_sqr y); unfold Rsqr in *.
  split; apply Rsqr_eq_0; unfold Rsqr; lra.
Qed.
(** ** Euler angles *)
Definition zyx (e : euler) : mat3 := mmul (m3_Rz (eg e)) (mmul (m3_Ry (eb e)) (m3_Rx (ea e))).
Lemma euler_correct M : is_rotation M -> zyx (euler_from_matrix M) = M.
Proof.
  intros HR. pose proof HR as [HO HD]. destruct (rotation_entries M HR) as (HT & A0 & A1 & A2 & A3 & A4 & A5 & A6 & A7 & A8).
  destruct M as [a b c d e f g h i]; unfold euler_from_matrix; vunf.
  injection HO; clear HO; intros O0 O1 O2 O3 O4 O5 O6 O7 O8.
  injection HT; clear HT; intros T0 T1 T2 T3 T4 T5 T6 T7 T8.
  assert (Hg : -1 <= g <= 1).
  { pose proof (Rle_0_sqr h); pose proof (Rle_0_sqr i); unfold Rsqr in *. assert (g * g <= 1) by lra. split; nra. }
  destruct (Rleb_spec 1 g) as [G1|G1]; [|destruct (Rleb_spec g (-1)) as [G2|G2]].
  - clear A6; assert (g = 1) by lra; subst g.
    destruct (sq2_0 h i) as [-> ->]; [lra|]. destruct (sq2_0 a d) as [-> ->]; [lra|].
    destruct (atan2_unit (-b) (-c)) as [C S]; [lra|].
    unfold zyx; cbn [ea eb eg]. unfold m3_Rx, m3_Ry, m3_Rz; vunf.
    replace (- PI / 2) with (- (PI/2)) by field.
    rewrite C, S, cos_0, sin_0, cos_neg, sin_neg, cos_PI2, sin_PI2. f_equal; lra.
  - clear A6; assert (g = -1) by lra; subst g.
    destruct (sq2_0 h i) as [-> ->]; [lra|]. destruct (sq2_0 a d) as [-> ->]; [lra|].
    destruct (atan2_unit (-b) (c)) as [C S]; [lra|].
    unfold zyx; cbn [ea eb eg]. unfold m3_Rx, m3_Ry, m3_Rz; vunf.
    rewrite C, S, cos_0, sin_0, cos_PI2, sin_PI2. f_equal; lra.
  - set (r := sqrt (1 - g * g)).
    assert (Hr : 0 < r) by (apply sqrt_lt_R0; nra).
    assert (Er : r * r = 1 - g * g) by (apply sqrt_sqrt; nra).
    destruct (atan2_sc d a r Hr) as [Cz Sz]; [lra|].
    destruct (atan2_sc h i r Hr) as [Cx Sx]; [lra|].
    unfold zyx; cbn [ea eb eg]. unfold m3_Rx, m3_Ry, m3_Rz; vunf.
    rewrite sin_asin by lra.
    assert (Ey : cos (asin (- g)) = r).
    { rewrite cos_asin by lra. unfold r. f_equal. unfold Rsqr; ring. }
    rewrite Ey.
    set (cz := cos (atan2 d a)) in *. set (sz := sin (atan2 d a)) in *.
    set (cx := cos (atan2 h i)) in *. set (sx := sin (atan2 h i)) in *. clearbody cz sz cx sx r.
    assert (D : forall u v, r * r * u = r * r * v -> u = v).
    { intros u v E. apply Rmult_eq_reg_l with (r*r); auto. nra. }
    assert (P1 : b * g = f * g * g - d * i * g) by (rewrite A1 at 1; ring).
    assert (P2 : c * g = d * h * g - e * g * g) by (rewrite A2 at 1; ring).
    assert (P3 : e * g = a * i * g - c * g * g) by (rewrite A4 at 1; ring).
    assert (P4 : f * g = b * g * g - a * h * g) by (rewrite A5 at 1; ring).
    f_equal.
    + lra.
    + apply D. transitivity (- (r * sz) * (r * cx) - (r * cz) * g * (r * sx)); [ring|].
      rewrite Cz, Sz, Cx, Sx, Er. lra.
    + apply D. transitivity ( (r * sz) * (r * sx) - (r * cz) * g * (r * cx)); [ring|].
      rewrite Cz, Sz, Cx, Sx, Er. lra.
    + lra.
    + apply D. transitivity ((r * cz) * (r * cx) - (r * sz) * g * (r * sx)); [ring|].
      rewrite Cz, Sz, Cx, Sx, Er. lra.
    + apply D. transitivity (- (r * cz) * (r * sx) - (r * sz) * g * (r * cx)); [ring|].
      rewrite Cz, Sz, Cx, Sx, Er. lra.
    + ring.
    + lra.
    + lra.
Qed.

(** ** to_angle_axis / to_angle *)
Lemma to_angle_axis_spec q : is_unit q -> vnorm (qvec q) <> 0 ->
  let '(theta, n) := q_to_angle_axis q in
  0 < theta < 2 * PI /\ vdot n n = 1 /\ q = mkQ (cos (theta/2)) (sin (theta/2) * vx n) (sin (theta/2) * vy n) (sin (theta/2) * vz n).
Proof.
  intros Hq Hn. unfold q_to_angle_axis.
  assert (Hnz : qvec q <> vzero) by (intros Z; apply Hn, vnorm_zero_iff, Z).
  pose proof (vnorm_pos _ Hnz) as Hp. pose proof (vnorm_sqr (qvec q)) as Hs.
  pose proof (vdiv_norm_unit _ Hnz) as Hu. destruct (Rltb_spec 0 (vnorm (qvec q))); [|contradiction].
  set (s := vnorm (qvec q)) in *.
  assert (E1 : s * s + qs q * qs q = 1).
  { rewrite Hs. unfold is_unit, qdot in Hq. unfold vdot, qvec; cbn. lra. }
  destruct (atan2_unit s (qs q) E1) as [C S].
  pose proof (atan2_range s (qs q)) as [L U].
  assert (P : 0 < atan2 s (qs q)).
  { destruct (Rlt_dec 0 (atan2 s (qs q))); auto. exfalso.
    assert (sin (atan2 s (qs q)) <= 0).
    { replace (atan2 s (qs q)) with (- - atan2 s (qs q)) by ring. rewrite sin_neg.
      assert (0 <= sin (- atan2 s (qs q))) by (apply sin_ge_0; lra). lra. }
    lra. }
  assert (U' : atan2 s (qs q) <> PI).
  { intros E. rewrite E, sin_PI in S. lra. }
  split; [lra|]. split; auto.
  replace (2 * atan2 s (qs q) / 2) with (atan2 s (qs q)) by field. rewrite C, S.
  destruct q as [w x y z]; cbn in *. f_equal; field; lra.
Qed.
Lemma to_angle_axis_zero q : is_unit q -> vnorm (qvec q) = 0 ->
  q = q_identity /\ q_to_angle_axis q = (0, vzero) \/ q = qopp q_identity /\ q_to_angle_axis q = (2 * PI, vzero).
Proof.
  intros Hq Hn. unfold q_to_angle_axis. rewrite Hn. destruct (Rltb_spec 0 0); [lra|].
  apply vnorm_zero_iff in Hn. destruct q as [w x y z]; unfold qvec, vzero in Hn; cbn in *. injection Hn; intros; subst.
  unfold is_unit, qdot in Hq; cbn in Hq.
  assert (w = 1 \/ w = -1) as [->| ->]. { assert ((w-1)*(w+1)=0) as E by lra. apply Rmult_integral in E; lra. }
  - left. split; auto. f_equal. unfold atan2. destruct (Rltb_spec 0 1); [|lra].
    replace (0/1) with 0 by field. rewrite atan_0. ring.
  - right. split.
    + unfold qopp, q_identity; cbn; f_equal; ring.
    + f_equal. unfold atan2. destruct (Rltb_spec 0 (-1)); [lra|]. destruct (Rltb_spec (-1) 0); [|lra].
      destruct (Rleb_spec 0 0); [|lra]. replace (0 / -1) with 0 by field. rewrite atan_0. ring.
Qed.
Lemma vnorm_scale_abs s v : vnorm (vscale s v) = Rabs s * vnorm v.
Proof.
  unfold vnorm. replace (vdot (vscale s v) (vscale s v)) with (Rsqr s * vdot v v) by (unfold Rsqr; vring).
  rewrite sqrt_mult; [|apply Rle_0_sqr|apply vdot_self_nonneg]. rewrite sqrt_Rsqr_abs. reflexivity.
Qed.
Lemma vnorm_unit n : vdot n n = 1 -> vnorm n = 1.
Proof. intros H; unfold vnorm; rewrite H; apply sqrt_1. Qed.

Lemma to_angle_Ru theta u : u <> vzero ->
  let a := q_to_angle (q_Ru theta u) u in - PI < a <= PI /\ cos a = cos theta /\ sin a = sin theta.
Proof.
  intros Hu. pose proof (direction_unit u Hu) as Hn. pose proof (vnorm_pos u Hu) as Hp.
  assert (Hqv : qvec (q_Ru theta u) = vscale (sin (theta/2)) (direction u)) by reflexivity.
  assert (Hqs : qs (q_Ru theta u) = cos (theta/2)) by reflexivity.
  unfold q_to_angle. rewrite Hqv, Hqs, vnorm_scale_abs, (vnorm_unit _ Hn), Rmult_1_r.
  assert (Hd : vdot (vscale (sin (theta/2)) (direction u)) u = sin (theta/2) * vnorm u).
  { transitivity (sin (theta/2) * (vdot u u / vnorm u)).
    - unfold direction. set (l := vnorm u) in *. destruct u; vunf. field; lra.
    - rewrite <- vnorm_sqr. field; lra. }
  rewrite Hd. clear Hqv Hqs Hd.
  set (s := sin (theta/2)). set (c := cos (theta/2)).
  assert (H1 : s*s + c*c = 1) by apply sc1.
  assert (Ec : cos theta = c*c - s*s) by apply half_cos.
  assert (Es : sin theta = 2*s*c) by apply half_sin.
  assert (Hss : Rabs s * Rabs s = s * s) by (pose proof (Rsqr_abs s) as A; unfold Rsqr in A; lra).
  assert (W : forall b, 0 <= b <= 2*PI -> cos b = cos theta -> sin b = sin theta ->
     let a := if Rltb PI b then b - 2 * PI else b in -PI < a <= PI /\ cos a = cos theta /\ sin a = sin theta).
  { intros b Hb C S. cbv zeta. pose proof PI_RGT_0. destruct (Rltb_spec PI b).
    - split; [lra|]. rewrite cos_minus, sin_minus, cos_2PI, sin_2PI. lra.
    - split; [lra|]. auto. }
  assert (P : forall y x, 0 <= y -> y*y + x*x = 1 -> 0 <= 2 * atan2 y x <= 2 * PI).
  { intros y x Hy E. destruct (atan2_unit y x E) as [C S]. pose proof (atan2_range y x) as [L U].
    split; [|lra]. destruct (Rle_dec 0 (atan2 y x)); [lra|]. exfalso.
    assert (0 < sin (- atan2 y x)) by (apply sin_gt_0; lra). rewrite sin_neg in H. lra. }
  pose proof (Rabs_pos s) as Hsp.
  destruct (Rleb_spec 0 (s * vnorm u)) as [Hs|Hs].
  - assert (0 <= s) by nra. rewrite Rabs_pos_eq in * by auto.
    destruct (atan2_unit s c H1) as [C S].
    apply W; [apply P; auto| |].
    + rewrite half_cos. replace (2 * atan2 s c / 2) with (atan2 s c) by field. rewrite C, S; lra.
    + rewrite half_sin. replace (2 * atan2 s c / 2) with (atan2 s c) by field. rewrite C, S; lra.
  - assert (s < 0) by nra. rewrite Rabs_left in * by auto.
    assert (H1' : (-s)*(-s) + (-c)*(-c) = 1) by lra.
    destruct (atan2_unit (-s) (-c) H1') as [C S].
    apply W; [apply P; auto| |].
    + rewrite half_cos. replace (2 * atan2 (-s) (-c) / 2) with (atan2 (-s) (-c)) by field. rewrite C, S; lra.
    + rewrite half_sin. replace (2 * atan2 (-s) (-c) / 2) with (atan2 (-s) (-c)) by field. rewrite C, S; lra.
Qed.
