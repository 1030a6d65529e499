(** C40, C41: the proximal operators. *)
From Verif Require Import Base ProxModel ProxSpec ProxProofs.
Open Scope R_scope.

(** C40 *)
Theorem C40_closest z mu x_n : 0 <= mu ->
  is_closest (ball (mu * Rmax x_n 0)) z (prox_sphere z mu x_n).
Proof.
  intro H. apply closest_of_angle; [apply prox_sphere_in_ball; auto|].
  intros q Hq. apply prox_sphere_angle; auto.
Qed.
Theorem C40_idempotent z mu x_n : 0 <= mu ->
  prox_sphere (prox_sphere z mu x_n) mu x_n = prox_sphere z mu x_n.
Proof.
  intro H. pose proof (prox_sphere_in_ball z mu x_n H) as B. set (p := prox_sphere z mu x_n) in *.
  destruct (prox_sphere_cases p mu x_n H) as [Hr [[_ E]|[O E]]]; auto.
  exfalso. unfold ball in B. apply vnorm_le_sq in B; auto. cbn zeta in *. lra.
Qed.
Theorem C40_nonexpansive z z' mu x_n : 0 <= mu ->
  dist (prox_sphere z mu x_n) (prox_sphere z' mu x_n) <= dist z z'.
Proof.
  intro H. apply nonexp_of_angle; apply prox_sphere_angle; auto; apply prox_sphere_in_ball; auto.
Qed.
(** the input is changed exactly when it lies outside the disc *)
Theorem C40_unchanged_iff z mu x_n : 0 <= mu ->
  (prox_sphere z mu x_n = z <-> vnorm z <= mu * Rmax x_n 0).
Proof.
  intro H. split.
  - intro E. rewrite <- E at 1. apply (prox_sphere_in_ball z mu x_n H).
  - intro B. apply closest_unique with (S := ball (mu * Rmax x_n 0)) (z := z); [apply C40_closest; auto|].
    split; auto. intros q Hq N. replace (dist z z) with 0.
    + destruct (Rle_lt_or_eq_dec 0 (dist z q) (dist_nonneg _ _)) as [|E]; auto.
      exfalso. apply N. symmetry in E. apply vnorm_zero_iff in E.
      apply vec3_eq; [apply (f_equal vx) in E|apply (f_equal vy) in E|apply (f_equal vz) in E]; cbn in E; lra.
    + unfold dist. symmetry. apply vnorm_zero_iff. apply vec3_eq; cbn; lra.
Qed.
(** a point outside and its projection *)
Example C40_nonvacuous :
  prox_sphere (mkV 3 4 0) (1/2) 2 = mkV (3/5) (4/5) 0 /\ ~ ball (1/2 * 2) (mkV 3 4 0).
Proof.
  assert (E : sqrt (3 * 3 + 4 * 4 + 0 * 0) = 5).
  { replace (3 * 3 + 4 * 4 + 0 * 0) with (5 * 5) by lra. apply sqrt_square; lra. }
  split.
  - unfold prox_sphere; cbn [vx vy vz]. rewrite E. destruct (Rleb_spec 2 0); [lra|].
    destruct (Rleb_spec (3 * 3 + 4 * 4 + 0 * 0) (1 / 2 * 2 * (1 / 2 * 2))); [lra|].
    apply vec3_eq; cbn; lra.
  - unfold ball, vnorm, vdot; cbn [vx vy vz]. rewrite E. lra.
Qed.

(** C41: separating contact and frictionless surface give the origin; the isotropic case is
    [prox_sphere]; these hold whatever the parameters. *)
Theorem C41_separating fuel P z ms mt mtau x_n : x_n <= 0 -> prox_ellipsoid fuel P z ms mt mtau x_n = Ret vzero.
Proof. intro H. unfold prox_ellipsoid. destruct (Rleb_spec x_n 0); auto; lra. Qed.
Theorem C41_frictionless fuel P z x_n : prox_ellipsoid fuel P z 0 0 0 x_n = Ret vzero.
Proof.
  unfold prox_ellipsoid. destruct (Rleb_spec x_n 0); auto.
  destruct (Reqb_spec 0 0); [reflexivity|lra].
Qed.
Theorem C41_isotropic fuel P z mu x_n : 0 < mu -> 0 < x_n ->
  prox_ellipsoid fuel P z mu mu mu x_n = Ret (prox_sphere z mu x_n).
Proof.
  intros H H'. unfold prox_ellipsoid. destruct (Rleb_spec x_n 0); [lra|].
  destruct (Reqb_spec mu 0); [lra|]. cbn. destruct (Reqb_spec mu mu); [reflexivity|lra].
Qed.
(** a vanishing friction coefficient beside a non-vanishing one makes the call raise *)
Theorem C41_mixed_zero_raises fuel P z ms mt mtau x_n : 0 < x_n ->
  (ms = 0 \/ mt = 0 \/ mtau = 0) -> ~ (ms = mt /\ ms = mtau) ->
  prox_ellipsoid fuel P z ms mt mtau x_n = ZeroDiv.
Proof.
  intros Hx Hz Hne. unfold prox_ellipsoid. destruct (Rleb_spec x_n 0); [lra|].
  destruct (Reqb ms 0 && Reqb mt 0 && Reqb mtau 0) eqn:E.
  { exfalso. apply andb_prop in E as [E E3]. apply andb_prop in E as [E1 E2].
    apply Reqb_true in E1, E2, E3. apply Hne. split; lra. }
  destruct (Reqb ms mt && Reqb ms mtau) eqn:E'.
  { exfalso. apply andb_prop in E' as [E1 E2]. apply Reqb_true in E1, E2. auto. }
  set (scale := 1 / _). cbn zeta.
  match goal with |- (if ?c then _ else _) = _ => assert (C : c = true) end.
  { destruct Hz as [-> |[-> | ->]].
    - replace (scale * (0 * x_n) * (scale * (0 * x_n))) with 0 by ring.
      destruct (Reqb_spec 0 0); [reflexivity|lra].
    - replace (scale * (0 * x_n) * (scale * (0 * x_n))) with 0 by ring.
      destruct (Reqb_spec 0 0); [|lra]. rewrite orb_true_r. reflexivity.
    - replace (scale * (0 * x_n) * (scale * (0 * x_n))) with 0 by ring.
      destruct (Reqb_spec 0 0); [|lra]. apply orb_true_r. }
  rewrite C. reflexivity.
Qed.

(** The scaled quantities of the code in unscaled terms. *)
Lemma ell_g_scale s a b c z t : 0 < s -> 0 < a -> 0 < b -> 0 < c -> 0 <= t ->
  ell_g (s*a*(s*a)) (s*b*(s*b)) (s*c*(s*c)) (s*vx z*(s*vx z)) (s*vy z*(s*vy z)) (s*vz z*(s*vz z)) t
  = G a b c z (t / (s*s)).
Proof.
  intros. unfold G, ell_g.
  assert (K : forall u x, 0 < u -> (s*u*(s*u)*(s*x*(s*x))) / (s*u*(s*u)+t)^2 = (u*u*(x*x)) / (u*u + t/(s*s))^2).
  { intros u x Hu. assert (0 < s*s) by nra. assert (0 < u*u) by nra.
    assert (0 < u*u*(s*s)) by (apply Rmult_lt_0_compat; auto).
    field. repeat split; try lra; intro; nra. }
  rewrite !K by auto. reflexivity.
Qed.

Definition ell_scale (a b c : R) (z : vec3) : R :=
  Rmax (Rmax (Rmax (Rmax (Rmax (Rmax 1 a) b) c) (Rabs (vx z))) (Rabs (vy z))) (Rabs (vz z)).

(** C41, main theorem.  Anisotropic friction (three positive coefficients, not all equal),
    positive normal force.
    - A point whose ellipsoid value is below the tolerance is returned unchanged (so every
      point of the ellipsoid is).
    - Otherwise the expansion loop is never entered (whatever fuel, even 0, the call returns),
      the closest point of the ellipsoid is a^2 z/(a^2+Tstar) for a unique Tstar > 0 , and the
      returned point is a^2 z/(a^2+T) with T > 0 where either the ellipsoid equation at the
      returned point is satisfied to within the tolerance, or T is within the stated
      bisection error of Tstar. *)
Theorem C41_prox_ellipsoid fuel P z ms mt mtau x_n :
  0 < ms -> 0 < mt -> 0 < mtau -> 0 < x_n -> ~ (ms = mt /\ ms = mtau) -> 0 < ell_tol P ->
  let a := ms * x_n in let b := mt * x_n in let c := mtau * x_n in
  let pt := fun T => mkV (a^2 * vx z / (a^2 + T)) (b^2 * vy z / (b^2 + T)) (c^2 * vz z / (c^2 + T)) in
  (ell_fun a b c z < ell_tol P -> prox_ellipsoid fuel P z ms mt mtau x_n = Ret z) /\
  (ell_tol P <= ell_fun a b c z ->
     exists Tstar, 0 < Tstar /\ is_closest (ellipsoid a b c) z (pt Tstar) /\
       ell_fun a b c (pt Tstar) = 0 /\
       (forall T', 0 <= T' -> ell_fun a b c (pt T') = 0 -> T' = Tstar) /\
       exists T, 0 < T /\ prox_ellipsoid fuel P z ms mt mtau x_n = Ret (pt T) /\
         (Rabs (ell_fun a b c (pt T)) < ell_tol P \/
          Rabs (T - Tstar) <= ell_tol P / 2 * (ell_scale a b c z)^2 \/
          Rabs (T - Tstar) <= Rmax (Rmax a b) c * vnorm z / 2 ^ (S (ell_max_iter P)))).
Proof.
  intros Hs Ht Hu Hx Hne Htol a b c pt.
  assert (Ha : 0 < a) by (unfold a; nra). assert (Hb : 0 < b) by (unfold b; nra). assert (Hc : 0 < c) by (unfold c; nra).
  assert (PT : forall T, pt T = ell_pt a b c z T) by (intro T; unfold pt, ell_pt; apply vec3_eq; cbn; f_equal; ring).
  set (M := ell_scale a b c z).
  assert (HM : 1 <= M).
  { unfold M, ell_scale. repeat (eapply Rle_trans; [|apply Rmax_l]). lra. }
  set (s := 1 / M). assert (Hsc : 0 < s) by (unfold s; apply Rdiv_lt_0_compat; lra).
  unfold prox_ellipsoid. fold a b c. change (1 / Rmax _ _) with s.
  destruct (Rleb_spec x_n 0); [lra|]. destruct (Reqb_spec ms 0); [lra|]. cbn [andb].
  destruct (Reqb ms mt && Reqb ms mtau) eqn:E'.
  { exfalso. apply andb_prop in E' as [E1 E2]. apply Reqb_true in E1, E2. auto. }
  destruct (Reqb_spec (s * a * (s * a)) 0) as [Z|_]; [exfalso; assert (0 < s*a) by nra; nra|].
  destruct (Reqb_spec (s * b * (s * b)) 0) as [Z|_]; [exfalso; assert (0 < s*b) by nra; nra|].
  destruct (Reqb_spec (s * c * (s * c)) 0) as [Z|_]; [exfalso; assert (0 < s*c) by nra; nra|].
  cbn [orb].
  assert (F0 : s * vx z * (s * vx z) / (s * a * (s * a)) + s * vy z * (s * vy z) / (s * b * (s * b)) +
    s * vz z * (s * vz z) / (s * c * (s * c)) - 1 = ell_fun a b c z).
  { unfold ell_fun. field. repeat split; lra. }
  rewrite F0.
  assert (G0 : G a b c z 0 = ell_fun a b c z).
  { rewrite (G_ell a b c Ha Hb Hc z 0) by lra. f_equal. apply vec3_eq; cbn; field; lra. }
  split.
  - intro Hin. destruct (Rltb_spec (ell_fun a b c z) (ell_tol P)); [auto|lra].
  - intro Hout. destruct (Rltb_spec (ell_fun a b c z) (ell_tol P)) as [|_]; [lra|].
    assert (Nz : z <> vzero).
    { intro E. pose proof (G_zero_vec a b c z 0 E). lra. }
    pose proof (vnorm_pos z Nz) as Nn.
    set (m := Rmax (Rmax a b) c).
    assert (Ma : a <= m) by (unfold m; eapply Rle_trans; [apply (Rmax_l a b)|apply Rmax_l]).
    assert (Mb : b <= m) by (unfold m; eapply Rle_trans; [apply (Rmax_r a b)|apply Rmax_l]).
    assert (Mc : c <= m) by (unfold m; apply Rmax_r).
    pose proof (G_upper a b c Ha Hb Hc z m Ma Mb Mc Nn) as GU.
    destruct (G_root a b c Ha Hb Hc z 0 (m * vnorm z) ltac:(nra) ltac:(lra) GU) as [Ts [HTs GTs]].
    assert (Uniq : forall T', 0 <= T' -> G a b c z T' = 0 -> T' = Ts).
    { intros T' H' G'. destruct (Rtotal_order T' Ts) as [L|[L|L]]; auto.
      - pose proof (G_sdecr a b c Ha Hb Hc z T' Ts Nz ltac:(lra)). lra.
      - pose proof (G_sdecr a b c Ha Hb Hc z Ts T' Nz ltac:(lra)). lra. }
    exists Ts. split; [lra|]. rewrite PT. split; [apply ell_closest; auto; lra|].
    split; [rewrite <- G_ell; auto; lra|]. split.
    { intros T' H' E'2. rewrite PT, <- G_ell in E'2; auto. }
    set (g := ell_g _ _ _ _ _ _).
    assert (Gs : forall t, 0 <= t -> g t = G a b c z (t / (s*s))).
    { intros t H. apply ell_g_scale; auto. }
    assert (SS : 0 < s * s) by nra.
    assert (DivR : forall t, 0 <= t -> 0 <= t / (s*s)).
    { intros t H. apply Rmult_le_pos; auto. left. apply Rinv_0_lt_compat; auto. }
    set (t1 := Rmax (Rmax (s*a) (s*b)) (s*c) * sqrt (s * vx z * (s * vx z) + s * vy z * (s * vy z) + s * vz z * (s * vz z))).
    assert (T1 : t1 = s * s * (m * vnorm z)).
    { unfold t1, m. rewrite !RmaxRmult by lra.
      replace (s * vx z * (s * vx z) + s * vy z * (s * vy z) + s * vz z * (s * vz z)) with (s * s * vdot z z) by (unfold vdot; ring).
      rewrite sqrt_mult; [|lra|apply vdot_self_nonneg]. rewrite sqrt_square by lra. unfold vnorm. ring. }
    assert (T1p : 0 < t1) by (rewrite T1; assert (0 < m * vnorm z) by nra; nra).
    assert (T1d : t1 / (s*s) = m * vnorm z) by (rewrite T1; field; lra).
    assert (gT1 : g t1 <= 0) by (rewrite Gs by lra; rewrite T1d; auto).
    rewrite expand_none by auto.
    pose proof (bisect_ok g (ell_tol P) (s*s*Ts)) as B.
    assert (Sroot : (s*s*Ts) / (s*s) = Ts) by (field; lra).
    specialize (B ltac:(intros t t' H; rewrite !Gs by lra; apply G_decr; auto; split; [apply DivR; lra|apply Rmult_le_compat_r; [left; apply Rinv_0_lt_compat; auto|lra]])).
    specialize (B ltac:(rewrite Gs by nra; rewrite Sroot; auto)).
    specialize (B (ell_max_iter P) 0 t1 ltac:(lra)).
    specialize (B ltac:(rewrite Gs by lra; unfold Rdiv; rewrite Rmult_0_l; lra) gT1).
    specialize (B ltac:(rewrite T1; split; [nra|apply Rmult_le_compat_l; lra])).
    specialize (B ltac:(intros t H E; rewrite Gs in E by auto; apply Uniq in E; [|apply DivR; auto]; rewrite <- E; field; lra)).
    cbn zeta in B. set (tk := ell_bisect g (ell_tol P) (ell_max_iter P) 0 t1 ((0 + t1) * (1 / 2))) in *.
    destruct B as [Bp B].
    exists (tk / (s*s)). split; [apply Rdiv_lt_0_compat; auto|].
    split; [f_equal; rewrite PT; reflexivity|].
    assert (AB : Rabs (tk / (s*s) - Ts) = Rabs (tk - s*s*Ts) / (s*s)).
    { replace (tk / (s*s) - Ts) with ((tk - s*s*Ts) * / (s*s)) by (field; lra).
      rewrite Rabs_mult. rewrite (Rabs_right (/ (s*s))); [reflexivity|]. left. apply Rinv_0_lt_compat; auto. }
    assert (SM : / (s*s) = M^2) by (unfold s; field; lra).
    destruct B as [B|[B|B]].
    + left. rewrite PT, <- G_ell by (auto; apply DivR; lra). rewrite <- Gs by lra. auto.
    + right; left. rewrite AB. unfold Rdiv at 1. rewrite SM. apply Rmult_le_compat_r; [nra|auto].
    + right; right. rewrite AB. unfold Rdiv at 1.
      replace (m * vnorm z / 2 ^ (S (ell_max_iter P))) with ((t1 - 0) / 2 ^ (S (ell_max_iter P)) * / (s*s)).
      * apply Rmult_le_compat_r; [left; apply Rinv_0_lt_compat; auto|auto].
      * rewrite <- T1d. field. split; [lra|]. apply pow_nonzero; lra.
Qed.

(** distance of the returned point from the exact projection, per component *)
Theorem C41_point_error a z_i T Tstar : 0 < a -> 0 <= T -> 0 <= Tstar ->
  Rabs (a^2 * z_i / (a^2 + T) - a^2 * z_i / (a^2 + Tstar)) <= Rabs z_i / a^2 * Rabs (T - Tstar).
Proof.
  intros Ha H1 H2. assert (A : 0 < a^2) by nra.
  replace (a^2 * z_i / (a^2 + T) - a^2 * z_i / (a^2 + Tstar))
    with (z_i * (Tstar - T) * (a^2 / ((a^2 + T) * (a^2 + Tstar)))) by (field; lra).
  rewrite !Rabs_mult, (Rabs_minus_sym Tstar T).
  rewrite (Rabs_right (a^2 / _)).
  2: { left. apply Rdiv_lt_0_compat; auto. nra. }
  replace (Rabs z_i / a^2 * Rabs (T - Tstar)) with (Rabs z_i * Rabs (T - Tstar) * (1 / a^2)) by (field; lra).
  apply Rmult_le_compat_l; [apply Rmult_le_pos; apply Rabs_pos|].
  apply Rmult_le_reg_r with (a^2 * ((a^2 + T) * (a^2 + Tstar))); [apply Rmult_lt_0_compat; nra|].
  replace (a ^ 2 / ((a ^ 2 + T) * (a ^ 2 + Tstar)) * (a ^ 2 * ((a ^ 2 + T) * (a ^ 2 + Tstar)))) with (a^2 * a^2) by (field; lra).
  replace (1 / a ^ 2 * (a ^ 2 * ((a ^ 2 + T) * (a ^ 2 + Tstar)))) with ((a^2+T)*(a^2+Tstar)) by (field; lra).
  nra.
Qed.
(** hypotheses of the main theorem are met by a point outside an ellipsoid *)
Example C41_nonvacuous : 0 < 1 /\ 0 < 2 /\ 0 < 3 /\ ~ (1 = 2 /\ 1 = 3) /\
  1/100 <= ell_fun (1*1) (2*1) (3*1) (mkV 5 0 0).
Proof. unfold ell_fun; cbn. repeat split; lra. Qed.
Print Assumptions C40_closest.
Print Assumptions C40_idempotent.
Print Assumptions C40_nonexpansive.
Print Assumptions C40_unchanged_iff.
Print Assumptions C41_separating.
Print Assumptions C41_frictionless.
Print Assumptions C41_isotropic.
Print Assumptions C41_mixed_zero_raises.
Print Assumptions C41_prox_ellipsoid.
Print Assumptions C41_point_error.
