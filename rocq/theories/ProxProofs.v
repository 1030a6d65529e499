From Verif Require Import Base ProxModel ProxSpec.
From Coq Require Import Ranalysis5.
Open Scope R_scope.

Lemma dist_sq p q : dist p q * dist p q = vdot (vsub p q) (vsub p q).
Proof. apply vnorm_sqr. Qed.
Lemma dist_nonneg p q : 0 <= dist p q. Proof. apply vnorm_nonneg. Qed.
Lemma sq_le x y : 0 <= y -> x * x <= y * y -> x <= y.
Proof. intros H1 H2. destruct (Rle_or_lt x y); auto. nra. Qed.
Lemma sq_lt x y : 0 <= y -> x * x < y * y -> x < y.
Proof. intros H1 H2. destruct (Rlt_or_le x y); auto. nra. Qed.

(** obtuse angle criterion *)
Lemma closest_of_angle (S : vec3 -> Prop) z p :
  S p -> (forall q, S q -> vdot (vsub z p) (vsub q p) <= 0) -> is_closest S z p.
Proof.
  intros Hp H. split; auto. intros q Hq Hne.
  specialize (H q Hq).
  apply sq_lt; [apply dist_nonneg|]. rewrite !dist_sq.
  assert (0 < vdot (vsub q p) (vsub q p)).
  { apply vdot_self_pos. intro E. apply Hne. apply vec3_eq.
    - apply (f_equal vx) in E. cbn in E. lra.
    - apply (f_equal vy) in E. cbn in E. lra.
    - apply (f_equal vz) in E. cbn in E. lra. }
  unfold vdot, vsub in *; cbn in *. nra.
Qed.

Lemma closest_unique (S : vec3 -> Prop) z p q : is_closest S z p -> is_closest S z q -> p = q.
Proof.
  intros [Hp H1] [Hq H2]. destruct (vec3_eq_dec p q) as [|N]; auto.
  specialize (H1 q Hq (not_eq_sym N)). specialize (H2 p Hp N). lra.
Qed.

(** angle criterion for two points gives non-expansiveness *)
Lemma nonexp_of_angle z z' p p' :
  vdot (vsub z p) (vsub p' p) <= 0 -> vdot (vsub z' p') (vsub p p') <= 0 ->
  dist p p' <= dist z z'.
Proof.
  intros H1 H2. apply sq_le; [apply dist_nonneg|]. rewrite !dist_sq.
  set (d := vsub p p'). set (e := vsub z z').
  assert (A : vdot d d <= vdot e d).
  { unfold d, e, vdot, vsub in *; cbn in *. lra. }
  assert (B : vdot e d * vdot e d <= vdot e e * vdot d d).
  { destruct d as [d1 d2 d3], e as [e1 e2 e3]. unfold vdot; cbn.
    pose proof (Rle_0_sqr (e1*d2-e2*d1)). pose proof (Rle_0_sqr (e1*d3-e3*d1)).
    pose proof (Rle_0_sqr (e2*d3-e3*d2)). unfold Rsqr in *. nra. }
  pose proof (vdot_self_nonneg d) as D. pose proof (vdot_self_nonneg e) as E0.
  destruct (Req_dec (vdot d d) 0) as [Z|NZ]; [lra|].
  assert (0 < vdot d d) by lra.
  apply Rmult_le_reg_r with (vdot d d); auto. nra.
Qed.

Lemma vnorm_le_sq p r : 0 <= r -> (vnorm p <= r <-> vdot p p <= r * r).
Proof.
  intro Hr. rewrite <- vnorm_sqr. pose proof (vnorm_nonneg p). split; intros; [nra|].
  apply sq_le; auto.
Qed.

Lemma cauchy a b : vdot a b <= vnorm a * vnorm b.
Proof.
  pose proof (vnorm_nonneg a). pose proof (vnorm_nonneg b).
  apply sq_le; [nra|].
  replace (vnorm a * vnorm b * (vnorm a * vnorm b)) with (vnorm a * vnorm a * (vnorm b * vnorm b)) by ring.
  rewrite !vnorm_sqr. destruct a as [d1 d2 d3], b as [e1 e2 e3]. unfold vdot; cbn.
  pose proof (Rle_0_sqr (e1*d2-e2*d1)). pose proof (Rle_0_sqr (e1*d3-e3*d1)).
  pose proof (Rle_0_sqr (e2*d3-e3*d2)). unfold Rsqr in *. nra.
Qed.

Lemma prox_sphere_cases z mu x_n : 0 <= mu ->
  let r := mu * Rmax x_n 0 in
  0 <= r /\
  ((vdot z z <= r * r /\ prox_sphere z mu x_n = z) \/
   (r * r < vdot z z /\ prox_sphere z mu x_n = vscale (r / vnorm z) z)).
Proof.
  intros Hmu r. assert (Hr : 0 <= r) by (unfold r; pose proof (Rmax_r x_n 0); nra). split; auto.
  unfold prox_sphere. destruct (Rleb_spec x_n 0) as [L|L].
  - unfold r. rewrite Rmax_right by lra. rewrite Rmult_0_r.
    destruct (vec3_eq_dec z vzero) as [->|N].
    + left. split; auto. unfold vdot; cbn; lra.
    + right. split; [pose proof (vdot_self_pos z N); lra|].
      unfold Rdiv. rewrite Rmult_0_l. apply vec3_eq; cbn; ring.
  - unfold r. rewrite Rmax_left by lra. fold (vdot z z).
    destruct (Rleb_spec (vdot z z) (mu * x_n * (mu * x_n))) as [I|I]; [left; auto|right].
    split; [lra|]. unfold vnorm. apply vec3_eq; cbn; ring.
Qed.

Lemma prox_sphere_in_ball z mu x_n : 0 <= mu -> ball (mu * Rmax x_n 0) (prox_sphere z mu x_n).
Proof.
  intro Hmu. destruct (prox_sphere_cases z mu x_n Hmu) as [Hr C]. cbn zeta in *.
  set (r := mu * Rmax x_n 0) in *. unfold ball. apply vnorm_le_sq; auto.
  destruct C as [[I ->]|[O ->]]; auto.
  assert (0 < vnorm z). { apply sqrt_lt_R0. nra. }
  replace (vdot (vscale (r / vnorm z) z) (vscale (r / vnorm z) z))
    with (r * r / (vnorm z * vnorm z) * vdot z z).
  - rewrite vnorm_sqr. rewrite <- vnorm_sqr. right. field. lra.
  - unfold vdot at 2; unfold vscale; cbn. unfold vdot; cbn. field. lra.
Qed.

Lemma prox_sphere_angle z mu x_n q : 0 <= mu -> ball (mu * Rmax x_n 0) q ->
  vdot (vsub z (prox_sphere z mu x_n)) (vsub q (prox_sphere z mu x_n)) <= 0.
Proof.
  intros Hmu Hq. destruct (prox_sphere_cases z mu x_n Hmu) as [Hr C]. cbn zeta in *.
  set (r := mu * Rmax x_n 0) in *. destruct C as [[I ->]|[O ->]].
  - unfold vdot, vsub; cbn. lra.
  - assert (N : 0 < vnorm z). { apply sqrt_lt_R0. nra. }
    assert (RN : r < vnorm z). { apply sq_lt; [lra|]. rewrite vnorm_sqr. lra. }
    pose proof (cauchy z q) as CS. unfold ball in Hq.
    assert (D : vdot z q <= vnorm z * r) by nra.
    set (k := r / vnorm z). assert (K : k * vnorm z = r) by (unfold k; field; lra).
    assert (K0 : 0 <= k) by (unfold k; apply Rmult_le_pos; [lra|left; apply Rinv_0_lt_compat; lra]).
    assert (K1 : k < 1) by nra.
    replace (vdot (vsub z (vscale k z)) (vsub q (vscale k z)))
      with ((1 - k) * (vdot z q - k * vdot z z)).
    2: { unfold vdot, vsub, vscale; cbn; ring. }
    rewrite <- (vnorm_sqr z). nra.
Qed.

(** ** ellipsoid *)
Section Ell.
Variables a b c : R.
Hypotheses (Ha : 0 < a) (Hb : 0 < b) (Hc : 0 < c).
Variable z : vec3.
Definition ell_pt (t : R) : vec3 :=
  mkV ((a * a * vx z) / (a * a + t)) ((b * b * vy z) / (b * b + t)) ((c * c * vz z) / (c * c + t)).
Definition G (t : R) : R := ell_g (a*a) (b*b) (c*c) (vx z * vx z) (vy z * vy z) (vz z * vz z) t.

Lemma G_ell t : 0 <= t -> G t = ell_fun a b c (ell_pt t).
Proof. intros. unfold G, ell_g, ell_fun, ell_pt; cbn. field. repeat split; nra. Qed.

Lemma G_term_decr u t t' : 0 < u -> 0 <= t < t' -> forall k, 0 <= k -> k / (u + t') ^ 2 <= k / (u + t) ^ 2.
Proof.
  intros Hu Ht k Hk. apply Rmult_le_compat_l; auto. apply Rinv_le_contravar; [|]; nra.
Qed.
Lemma G_term_sdecr u t t' : 0 < u -> 0 <= t < t' -> forall k, 0 < k -> k / (u + t') ^ 2 < k / (u + t) ^ 2.
Proof.
  intros Hu Ht k Hk. apply Rmult_lt_compat_l; auto. apply Rinv_lt_contravar; [|nra].
  apply Rmult_lt_0_compat; nra.
Qed.
Lemma G_decr t t' : 0 <= t <= t' -> G t' <= G t.
Proof.
  intros [H1 H2]. destruct H2 as [H2| ->]; [|lra]. unfold G, ell_g.
  pose proof (G_term_decr (a*a) t t' ltac:(nra) ltac:(lra) (a*a*(vx z*vx z)) ltac:(pose proof (Rle_0_sqr (a*vx z)); unfold Rsqr in *; nra)).
  pose proof (G_term_decr (b*b) t t' ltac:(nra) ltac:(lra) (b*b*(vy z*vy z)) ltac:(pose proof (Rle_0_sqr (b*vy z)); unfold Rsqr in *; nra)).
  pose proof (G_term_decr (c*c) t t' ltac:(nra) ltac:(lra) (c*c*(vz z*vz z)) ltac:(pose proof (Rle_0_sqr (c*vz z)); unfold Rsqr in *; nra)).
  lra.
Qed.
Lemma G_sdecr t t' : z <> vzero -> 0 <= t < t' -> G t' < G t.
Proof.
  intros N H. unfold G, ell_g.
  pose proof (G_term_decr (a*a) t t' ltac:(nra) ltac:(lra) (a*a*(vx z*vx z)) ltac:(pose proof (Rle_0_sqr (a*vx z)); unfold Rsqr in *; nra)).
  pose proof (G_term_decr (b*b) t t' ltac:(nra) ltac:(lra) (b*b*(vy z*vy z)) ltac:(pose proof (Rle_0_sqr (b*vy z)); unfold Rsqr in *; nra)).
  pose proof (G_term_decr (c*c) t t' ltac:(nra) ltac:(lra) (c*c*(vz z*vz z)) ltac:(pose proof (Rle_0_sqr (c*vz z)); unfold Rsqr in *; nra)).
  destruct (Req_dec (vx z) 0) as [X|X]; [destruct (Req_dec (vy z) 0) as [Y|Y]; [destruct (Req_dec (vz z) 0) as [Z|Z]|]|].
  - exfalso; apply N; apply vec3_eq; cbn; auto.
  - pose proof (G_term_sdecr (c*c) t t' ltac:(nra) H (c*c*(vz z*vz z)) ltac:(apply Rmult_lt_0_compat; nra)). lra.
  - pose proof (G_term_sdecr (b*b) t t' ltac:(nra) H (b*b*(vy z*vy z)) ltac:(apply Rmult_lt_0_compat; nra)). lra.
  - pose proof (G_term_sdecr (a*a) t t' ltac:(nra) H (a*a*(vx z*vx z)) ltac:(apply Rmult_lt_0_compat; nra)). lra.
Qed.

Lemma G_zero_vec t : z = vzero -> G t = -1.
Proof. intros E. unfold G, ell_g; rewrite E; cbn [vzero vx vy vz]. unfold Rdiv. rewrite !Rmult_0_r, !Rmult_0_l. lra. Qed.

(** the starting upper bracket: G <= 0 *)
Lemma G_upper m : a <= m -> b <= m -> c <= m -> 0 < vnorm z -> G (m * vnorm z) <= 0.
Proof.
  intros A B C N. set (t := m * vnorm z). assert (Ht : 0 < t) by (unfold t; nra).
  assert (T : forall u x, 0 < u <= m -> (u*u*(x*x)) / (u*u + t)^2 <= (m*m*(x*x)) / (t*t)).
  { intros u x Hu. pose proof (Rle_0_sqr x) as X. unfold Rsqr in X.
    apply Rle_trans with (m*m*(x*x) / (u*u+t)^2).
    - apply Rmult_le_compat_r; [left; apply Rinv_0_lt_compat; nra|]. apply Rmult_le_compat_r; nra.
    - apply Rmult_le_compat_l; [nra|]. apply Rinv_le_contravar; nra. }
  unfold G, ell_g. fold t.
  pose proof (T a (vx z) ltac:(lra)). pose proof (T b (vy z) ltac:(lra)). pose proof (T c (vz z) ltac:(lra)).
  assert (E : (m*m*(vx z*vx z))/(t*t) + (m*m*(vy z*vy z))/(t*t) + (m*m*(vz z*vz z))/(t*t) = 1).
  { replace ((m*m*(vx z*vx z))/(t*t) + (m*m*(vy z*vy z))/(t*t) + (m*m*(vz z*vz z))/(t*t))
      with (m*m*(vdot z z) / (t*t)) by (unfold vdot; field; lra).
    rewrite <- vnorm_sqr. unfold t. field. split; lra. }
  lra.
Qed.

Lemma G_cont t : 0 <= t -> continuity_pt G t.
Proof. intro H. unfold G, ell_g. reg; apply pow_nonzero; nra. Qed.

Lemma G_root t0 t1 : 0 <= t0 < t1 -> 0 < G t0 -> G t1 <= 0 -> exists t, t0 < t <= t1 /\ G t = 0.
Proof.
  intros H H0 H1. destruct H1 as [H1|H1].
  - destruct (IVT_interv (fun t => - G t) t0 t1) as [t [I E]].
    + intros s Hs. apply (continuity_pt_opp G). apply G_cont. lra.
    + lra. + lra. + lra.
    + exists t. split; [|lra]. destruct (Req_dec t t0); [subst; lra|]. lra.
  - exists t1. split; [lra|auto].
Qed.

Lemma ell_closest t : 0 <= t -> G t = 0 -> is_closest (ellipsoid a b c) z (ell_pt t).
Proof.
  intros Ht Hg. pose proof (G_ell t Ht) as E. rewrite Hg in E. symmetry in E. unfold ell_fun in E.
  apply closest_of_angle; [unfold ellipsoid; lra|]. intros q Hq. unfold ellipsoid in Hq.
  set (p := ell_pt t) in *.
  assert (Ex : vx z - vx p = t * (vx p / a / a)) by (unfold p, ell_pt; cbn; field; split; nra).
  assert (Ey : vy z - vy p = t * (vy p / b / b)) by (unfold p, ell_pt; cbn; field; split; nra).
  assert (Ez : vz z - vz p = t * (vz p / c / c)) by (unfold p, ell_pt; cbn; field; split; nra).
  unfold vdot; cbn [vsub vx vy vz]. rewrite Ex, Ey, Ez.
  replace (t * (vx p / a / a) * (vx q - vx p) + t * (vy p / b / b) * (vy q - vy p) + t * (vz p / c / c) * (vz q - vz p))
    with (t * ((vx p / a) * (vx q / a) + (vy p / b) * (vy q / b) + (vz p / c) * (vz q / c)
               - ((vx p / a)^2 + (vy p / b)^2 + (vz p / c)^2))) by (field; repeat split; lra).
  set (px := vx p / a) in *. set (py := vy p / b) in *. set (pz := vz p / c) in *.
  set (qx := vx q / a) in *. set (qy := vy q / b) in *. set (qz := vz q / c) in *.
  assert (px * qx + py * qy + pz * qz - (px^2 + py^2 + pz^2) <= 0).
  { pose proof (Rle_0_sqr (px-qx)). pose proof (Rle_0_sqr (py-qy)). pose proof (Rle_0_sqr (pz-qz)).
    unfold Rsqr in *. nra. }
  nra.
Qed.
End Ell.

Lemma bisect_ok (g : R -> R) (tol : R) (root : R) :
  (forall t t', 0 <= t <= t' -> g t' <= g t) ->
  g root = 0 ->
  forall n t0 t1, 0 <= t0 < t1 -> 0 < g t0 -> g t1 <= 0 -> t0 <= root <= t1 ->
  (forall t, 0 <= t -> g t = 0 -> t = root) ->
  let tk := ell_bisect g tol n t0 t1 ((t0 + t1) * (1/2)) in
  0 < tk /\ (Rabs (g tk) < tol \/ Rabs (tk - root) <= tol / 2 \/ Rabs (tk - root) <= (t1 - t0) / 2 ^ (S n)).
Proof.
  intros Mono Hr. induction n as [|n IH]; intros t0 t1 H H0 H1 Hroot U; cbn [ell_bisect].
  - cbn zeta. split; [lra|]. right; right. cbn [pow]. apply Rabs_le. lra.
  - destruct (Rltb_spec (Rabs (t1 - t0)) tol) as [S|S]; cbn zeta.
    { split; [lra|]. right; left. rewrite Rabs_right in S by lra. apply Rabs_le. lra. }
    set (tk := (t0 + t1) * (1/2)).
    destruct (Rltb_spec (Rabs (g tk)) tol) as [A|A].
    { split; [unfold tk; lra|]. left; auto. }
    destruct (Rltb_spec 0 (g tk)) as [P|P].
    + assert (tk <= root).
      { destruct (Rle_or_lt tk root); auto. pose proof (Mono root tk ltac:(unfold tk in *; lra)). lra. }
      destruct (IH tk t1) as [Q1 Q2]; auto; try (unfold tk in *; lra).
      split; auto. destruct Q2 as [Q|[Q|Q]]; auto. right; right.
      eapply Rle_trans; [exact Q|]. right. unfold tk. cbn [pow]. field. apply pow_nonzero; lra.
    + assert (root <= tk).
      { destruct (Rle_or_lt root tk); auto. pose proof (Mono tk root ltac:(unfold tk in *; lra)).
        assert (Z : g tk = 0) by lra. assert (0 <= tk) by (unfold tk; lra). pose proof (U tk H4 Z). lra. }
      destruct (IH t0 tk) as [Q1 Q2]; auto; try (unfold tk in *; lra).
      split; auto. destruct Q2 as [Q|[Q|Q]]; auto. right; right.
      eapply Rle_trans; [exact Q|]. right. unfold tk. cbn [pow]. field. apply pow_nonzero; lra.
Qed.

Lemma expand_none g e fuel t1 : g t1 <= 0 -> ell_expand g e fuel t1 = Some t1.
Proof. intro H. destruct fuel; cbn; destruct (Rltb_spec 0 (g t1)); auto; lra. Qed.
