(** Property theorems C136: the curvature field (rainbow/geometry/mean_curvature.py create_from_sdf). *)
From Verif Require Import Base BvhModel BvhProofs GridModel GridProofs Prop_Grid CurvModel CurvProofs.
From Coq Require Import Classical_Prop.
From Coquelicot Require Import Coquelicot.
Open Scope R_scope.

(** ** Specification vocabulary *)
(** (i,j,k) is a node that has a neighbour on both sides along every axis *)
Definition interior_node (I J K i j k : Z) : Prop := (0 < i < I - 1 /\ 0 < j < J - 1 /\ 0 < k < K - 1)%Z.
(** the smallest spacing h of the grid on the box [lo,hi] with I x J x K nodes *)
Definition smallest_spacing (lo hi : vec3) (I J K : Z) (h : R) : Prop :=
  let sx := (vx hi - vx lo) / IZR (I - 1) in let sy := (vy hi - vy lo) / IZR (J - 1) in let sz := (vz hi - vz lo) / IZR (K - 1) in
  h <= sx /\ h <= sy /\ h <= sz /\ (h = sx \/ h = sy \/ h = sz).
(** y is x cut off to the interval [-m,m] *)
Definition cut_off (m x y : R) : Prop := (x < - m /\ y = - m) \/ (- m <= x <= m /\ y = x) \/ (m < x /\ y = m).
(** a quadratic field with gradient and (constant) second derivatives *)
Record quadratic := mkQ { q_c : R; q_b : vec3; q_xx : R; q_yy : R; q_zz : R; q_xy : R; q_xz : R; q_yz : R }.
Definition q_value (q : quadratic) (p : vec3) : R :=
  q_c q + vx (q_b q) * vx p + vy (q_b q) * vy p + vz (q_b q) * vz p
  + (q_xx q * vx p * vx p + q_yy q * vy p * vy p + q_zz q * vz p * vz p) / 2
  + q_xy q * vx p * vy p + q_xz q * vx p * vz p + q_yz q * vy p * vz p.
(** its gradient (see [q_grad_is_gradient]) *)
Definition q_grad (q : quadratic) (p : vec3) : vec3 :=
  mkV (vx (q_b q) + q_xx q * vx p + q_xy q * vy p + q_xz q * vz p)
      (vy (q_b q) + q_xy q * vx p + q_yy q * vy p + q_yz q * vz p)
      (vz (q_b q) + q_xz q * vx p + q_yz q * vy p + q_zz q * vz p).
Definition ex : vec3 := mkV 1 0 0.
Definition ey : vec3 := mkV 0 1 0.
Definition ez : vec3 := mkV 0 0 1.
(** g is the gradient of the scalar field f at p *)
Definition is_gradient (f : vec3 -> R) (p g : vec3) : Prop :=
  is_derive (fun t => f (vadd p (vscale t ex))) 0 (vx g) /\
  is_derive (fun t => f (vadd p (vscale t ey))) 0 (vy g) /\
  is_derive (fun t => f (vadd p (vscale t ez))) 0 (vz g).
(** d is the divergence of the vector field n at p *)
Definition is_divergence (n : vec3 -> vec3) (p : vec3) (d : R) : Prop :=
  exists dx dy dz, is_derive (fun t => vx (n (vadd p (vscale t ex)))) 0 dx /\
    is_derive (fun t => vy (n (vadd p (vscale t ey)))) 0 dy /\
    is_derive (fun t => vz (n (vadd p (vscale t ez)))) 0 dz /\ d = dx + dy + dz.
(** unit normal of the level sets *)
Definition level_normal (q : quadratic) (p : vec3) : vec3 := vscale (/ vnorm (q_grad q p)) (q_grad q p).

Lemma q_grad_is_gradient q p : is_gradient (q_value q) p (q_grad q p).
Proof.
  unfold is_gradient, q_value, q_grad, ex, ey, ez, vadd, vscale; cbn [vx vy vz].
  split; [|split]; (auto_derive; [auto|match goal with |- ?x = ?y => change (@eq R x y) end; field]).
Qed.
Lemma normal_divergence q p : q_grad q p <> vzero ->
  let G := q_grad q p in let l := vnorm G in
  is_divergence (level_normal q) p
    ((q_xx q * (vy G ^ 2 + vz G ^ 2) + q_yy q * (vx G ^ 2 + vz G ^ 2) + q_zz q * (vx G ^ 2 + vy G ^ 2)
      - 2 * (q_xy q * vx G * vy G + q_xz q * vx G * vz G + q_yz q * vy G * vz G)) / l ^ 3).
Proof.
  intros HG G l. pose proof (vnorm_pos _ HG) as Hl. fold G in Hl. fold l in Hl. pose proof (vnorm_sqr G) as Hs. fold l in Hs.
  assert (El : l = sqrt (vx G * vx G + vy G * vy G + vz G * vz G)) by reflexivity.
  assert (E2 : l * l = vx G * vx G + vy G * vy G + vz G * vz G) by exact Hs.
  assert (P2 : 0 < vx G * vx G + vy G * vy G + vz G * vz G) by nra.
  clear Hs.
  assert (HD : forall a b c a' b' c' : R, 
     a = vx G -> b = vy G -> c = vz G ->
     is_derive (fun t => / sqrt ((a + t * a') * (a + t * a') + (b + t * b') * (b + t * b') + (c + t * c') * (c + t * c'))) 0
       (- (a * a' + b * b' + c * c') / l ^ 3)).
  { intros a b c a' b' c' Ea Eb Ec. auto_derive.
    - rewrite !Rmult_0_l, !Rplus_0_r. rewrite Ea, Eb, Ec. split; auto. split; auto. rewrite <- El. lra.
    - match goal with |- ?x = ?y => change (@eq R x y) end. rewrite !Rmult_0_l, !Rplus_0_r. rewrite Ea, Eb, Ec.
      rewrite <- El. field. lra. }
  assert (HC : forall a b c a' b' c' s s', a = vx G -> b = vy G -> c = vz G -> 
     is_derive (fun t => / sqrt ((a + t * a') * (a + t * a') + (b + t * b') * (b + t * b') + (c + t * c') * (c + t * c')) * (s + t * s')) 0
       (- (a * a' + b * b' + c * c') / l ^ 3 * s + / l * s')).
  { intros a b c a' b' c' s s' Ea Eb Ec.
    pose proof (HD a b c a' b' c' Ea Eb Ec) as D1.
    assert (D2 : is_derive (fun t => s + t * s') 0 s') by (auto_derive; auto; match goal with |- ?x = ?y => change (@eq R x y) end; ring).
    pose proof (is_derive_mult _ _ _ _ _ D1 D2 Rmult_comm) as D. unfold plus, mult in D; cbn in D.
    rewrite !Rmult_0_l, !Rplus_0_r in D.
    replace (sqrt (a * a + b * b + c * c)) with l in D by (rewrite Ea, Eb, Ec; auto).
    exact D. }
  assert (HE : forall a b c a' b' c' s s' u, a = vx G -> b = vy G -> c = vz G -> u = - (a * a' + b * b' + c * c') / l ^ 3 * s + / l * s' ->
     is_derive (fun t => / sqrt ((a + t * a') * (a + t * a') + (b + t * b') * (b + t * b') + (c + t * c') * (c + t * c')) * (s + t * s')) 0 u)
    by (intros; subst u; apply HC; auto). clear HD HC.
  exists (- (vx G * q_xx q + vy G * q_xy q + vz G * q_xz q) / l ^ 3 * vx G + / l * q_xx q).
  exists (- (vx G * q_xy q + vy G * q_yy q + vz G * q_yz q) / l ^ 3 * vy G + / l * q_yy q).
  exists (- (vx G * q_xz q + vy G * q_yz q + vz G * q_zz q) / l ^ 3 * vz G + / l * q_zz q).
  split; [|split; [|split]].
  - eapply is_derive_ext; [|apply (HE (vx G) (vy G) (vz G) (q_xx q) (q_xy q) (q_xz q) (vx G) (q_xx q)); auto].
    intros t. unfold level_normal, vnorm, vdot, q_grad, vadd, vscale, ex; cbn [vx vy vz]. f_equal; [do 2 f_equal|]; unfold G, q_grad; cbn [vx vy vz]; match goal with |- ?x = ?y => change (@eq R x y) end; ring.
  - eapply is_derive_ext; [|apply (HE (vx G) (vy G) (vz G) (q_xy q) (q_yy q) (q_yz q) (vy G) (q_yy q)); auto].
    intros t. unfold level_normal, vnorm, vdot, q_grad, vadd, vscale, ey; cbn [vx vy vz]. f_equal; [do 2 f_equal|]; unfold G, q_grad; cbn [vx vy vz]; match goal with |- ?x = ?y => change (@eq R x y) end; ring.
  - eapply is_derive_ext; [|apply (HE (vx G) (vy G) (vz G) (q_xz q) (q_yz q) (q_zz q) (vz G) (q_zz q)); auto].
    intros t. unfold level_normal, vnorm, vdot, q_grad, vadd, vscale, ez; cbn [vx vy vz]. f_equal; [do 2 f_equal|]; unfold G, q_grad; cbn [vx vy vz]; match goal with |- ?x = ?y => change (@eq R x y) end; ring.
  - clear HE El HG. clearbody l. generalize dependent (vx G). intros gx; generalize (vy G), (vz G). intros gy gz E2 P2.
    replace (/ l) with (l * l / l ^ 3) by (field; lra). rewrite E2. field. lra.
Qed.

(** ** Facts about the model *)
Lemma sdf_values g v I J K lo hi : grid_of lo hi I J K g -> node_values g v ->
  exists vs', create_from_sdf g = Some (mkG (g_min g) (g_max g) (g_I g) (g_J g) (g_K g) (g_spacing g) (Some vs')) /\
    (forall i j k, interior_node I J K i j k -> py_get vs' (get_linear_index g i j k) = Some (stencil g v i j k)) /\
    (forall i j k, is_node I J K i j k -> ~ interior_node I J K i j k -> py_get vs' (get_linear_index g i j k) = Some 0).
Proof.
  intros G HV. destruct (grid_of_ok _ _ _ _ _ _ G) as (E1 & E2 & E3 & E4 & E5 & O & Es).
  destruct (create_from_sdf_spec g v O) as (vs' & C & In & Bd).
  - destruct G as (_ & _ & _ & g0 & Eg & vs & ->). cbn. apply grid_make_inv in Eg as Eg'. destruct Eg' as (<- & <- & <- & <- & <- & V & _). rewrite Eg. rewrite <- V. destruct g0; reflexivity.
  - destruct O as (HI & HJ & HK & _). assert (N : is_node (g_I g) (g_J g) (g_K g) (g_I g - 1) (g_J g - 1) (g_K g - 1)) by (unfold is_node; lia).
    pose proof (HV _ _ _ N) as V. unfold get_node_value in V. destruct (g_values g) as [vs|]; [|discriminate]. exists vs. split; auto.
    destruct (Z_le_gt_dec (g_I g * g_J g * g_K g) (Z.of_nat (length vs))) as [|Gt]; auto. exfalso.
    assert (EL : get_linear_index g (g_I g - 1) (g_J g - 1) (g_K g - 1) = (g_I g * g_J g * g_K g - 1)%Z) by (unfold get_linear_index; ring).
    rewrite EL in V. assert (0 < g_I g * g_J g * g_K g)%Z by nia. rewrite py_get_pos in V by lia.
    assert (nth_error vs (Z.to_nat (g_I g * g_J g * g_K g - 1)) = None) by (apply nth_error_None; lia). congruence.
  - intros. apply HV. unfold is_node. auto.
  - exists vs'. subst I J K. split; auto. split.
    + intros i j k (Hi & Hj & Hk). apply In; auto.
    + intros i j k (Hi & Hj & Hk) N. apply Bd; auto.
Qed.
Lemma kmax_spec lo hi I J K g h : grid_of lo hi I J K g -> smallest_spacing lo hi I J K h -> kappa_max g = 1 / h /\ 0 < h.
Proof.
  intros G (H1 & H2 & H3 & H4). destruct (grid_of_ok _ _ _ _ _ _ G) as (E1 & E2 & E3 & E4 & E5 & O & Es).
  destruct O as (_ & _ & _ & Sx & Sy & Sz & _). unfold kappa_max. rewrite Es in *. cbn [vx vy vz] in *.
  assert (E : Rmin (Rmin ((vx hi - vx lo) / IZR (I - 1)) ((vy hi - vy lo) / IZR (J - 1))) ((vz hi - vz lo) / IZR (K - 1)) = h).
  { apply Rle_antisym.
    - destruct H4 as [->|[->|E]].
      + eapply Rle_trans; [apply Rmin_l|apply Rmin_l].
      + eapply Rle_trans; [apply Rmin_l|apply Rmin_r].
      + rewrite E. apply Rmin_r.
    - repeat apply Rmin_glb; auto. }
  rewrite E. split; auto. destruct H4 as [->|[->|E']]; auto; lra.
Qed.
Lemma rclip_cut x m : 0 < m -> cut_off m x (rclip x (- m) m).
Proof.
  intros Hm. unfold cut_off, rclip. destruct (Rlt_le_dec x (- m)).
  - left. rewrite (Rmax_right x (-m)) by lra. rewrite Rmin_left by lra. auto.
  - right. rewrite (Rmax_left x (-m)) by lra. destruct (Rlt_le_dec m x).
    + right. rewrite Rmin_right by lra. auto.
    + left. rewrite Rmin_left by lra. lra.
Qed.
Lemma rclip_bound x m : 0 < m -> Rabs (rclip x (- m) m) <= m.
Proof. intros Hm. destruct (rclip_cut x m Hm) as [(A & ->)|[(A & ->)|(A & ->)]]; apply Rabs_le; lra. Qed.

(** ** C136 *)
(** Every field on a box with positive extent is accepted; the result lives on the same grid, is 0 at the boundary nodes
    and never larger than one over the smallest spacing. *)
Theorem C136_range : forall lo hi I J K phi v h, grid_of lo hi I J K phi -> node_values phi v -> smallest_spacing lo hi I J K h ->
  exists kappa, create_from_sdf phi = Some kappa /\ grid_of lo hi I J K kappa /\
    forall i j k, is_node I J K i j k -> exists y, get_node_value kappa i j k = Some y /\ Rabs y <= 1 / h /\
      (~ interior_node I J K i j k -> y = 0).
Proof.
  intros lo hi I J K phi v h G HV SP. destruct (sdf_values _ _ _ _ _ _ _ G HV) as (vs' & C & In & Bd).
  destruct (kmax_spec _ _ _ _ _ _ _ G SP) as (KM & Hh). assert (Hk : 0 < 1 / h) by (apply Rdiv_lt_0_compat; lra).
  eexists. split; [exact C|]. split.
  - destruct G as (Hx & Hy & Hz & g0 & Eg & vs & ->). cbn. split; auto. split; auto. split; auto. exists g0. split; auto. eexists; reflexivity.
  - intros i j k N. destruct (classic (interior_node I J K i j k)) as [Hi|Hi].
    + exists (stencil phi v i j k). split; [exact (In _ _ _ Hi)|]. split; [|contradiction].
      unfold stencil, curvature_of. rewrite KM. apply rclip_bound; auto.
    + exists 0. split; [exact (Bd _ _ _ N Hi)|]. rewrite Rabs_R0. split; [lra|auto].
Qed.
Print Assumptions C136_range.

Lemma stencil_quadratic lo hi I J K phi q i j k : grid_of lo hi I J K phi ->
  let p := get_node_coord phi i j k in let G := q_grad q p in
  stencil phi (fun i j k => q_value q (get_node_coord phi i j k)) i j k =
  curvature_of (vx G) (vy G) (vz G) (q_xx q) (q_yy q) (q_zz q) (q_xy q) (q_xz q) (q_yz q) (kappa_max phi).
Proof.
  intros GO p G. destruct (grid_of_ok _ _ _ _ _ _ GO) as (E1 & E2 & E3 & E4 & E5 & (_ & _ & _ & Sx & Sy & Sz & _) & Es).
  unfold stencil. cbv zeta. unfold G, p, q_grad, q_value, get_node_coord, vadd. cbn [vx vy vz].
  rewrite !plus_IZR, !minus_IZR.
  generalize dependent (vx (g_spacing phi)). generalize dependent (vy (g_spacing phi)). generalize dependent (vz (g_spacing phi)).
  intros dz Sz dy Sy dx Sx. f_equal; field; lra.
Qed.
Lemma vnorm_half_nonzero v : 1 / 2 <= vnorm v -> v <> vzero.
Proof. intros H E. apply vnorm_zero_iff in E. lra. Qed.
(** On a field that is a quadratic polynomial the stored value is the divergence of the unit normal of the level set
    through the node (the sum of its principal curvatures), cut off at one over the smallest spacing. *)
Theorem C136_quadratic : forall lo hi I J K phi q h kappa i j k, grid_of lo hi I J K phi ->
  node_values phi (fun i j k => q_value q (get_node_coord phi i j k)) -> smallest_spacing lo hi I J K h ->
  create_from_sdf phi = Some kappa -> interior_node I J K i j k ->
  let p := get_node_coord phi i j k in
  1 / 2 <= vnorm (q_grad q p) ->
  exists d y, is_divergence (level_normal q) p d /\ get_node_value kappa i j k = Some y /\ cut_off (1 / h) d y.
Proof.
  intros lo hi I J K phi q h kappa i j k G HV SP C IN p HG.
  destruct (sdf_values _ _ _ _ _ _ _ G HV) as (vs' & C' & In & Bd). rewrite C in C'. injection C' as ->.
  destruct (kmax_spec _ _ _ _ _ _ _ G SP) as (KM & Hh). assert (Hk : 0 < 1 / h) by (apply Rdiv_lt_0_compat; lra).
  eexists _, _. split; [apply normal_divergence; apply vnorm_half_nonzero; exact HG|]. split; [exact (In _ _ _ IN)|].
  rewrite (stencil_quadratic _ _ _ _ _ _ _ _ _ _ G). fold p. unfold curvature_of. rewrite KM. cbv zeta.
  change (mkV (vx (q_grad q p)) (vy (q_grad q p)) (vz (q_grad q p))) with (q_grad q p).
  destruct (Rltb_spec (vnorm (q_grad q p)) (1 / 2)) as [B|_]; [lra|]. apply rclip_cut; auto.
Qed.
Print Assumptions C136_quadratic.
(** Where the gradient is shorter than 1/2 the value is not divided by its length: it is the curvature times the cube of
    the length of the gradient. *)
Theorem C136_small_gradient : forall lo hi I J K phi q h kappa i j k, grid_of lo hi I J K phi ->
  node_values phi (fun i j k => q_value q (get_node_coord phi i j k)) -> smallest_spacing lo hi I J K h ->
  create_from_sdf phi = Some kappa -> interior_node I J K i j k ->
  let p := get_node_coord phi i j k in
  vnorm (q_grad q p) < 1 / 2 ->
  (q_grad q p = vzero -> get_node_value kappa i j k = Some 0) /\
  (q_grad q p <> vzero -> exists d y, is_divergence (level_normal q) p d /\ get_node_value kappa i j k = Some y /\ cut_off (1 / h) (vnorm (q_grad q p) ^ 3 * d) y).
Proof.
  intros lo hi I J K phi q h kappa i j k G HV SP C IN p HG.
  destruct (sdf_values _ _ _ _ _ _ _ G HV) as (vs' & C' & In & Bd). rewrite C in C'. injection C' as ->.
  destruct (kmax_spec _ _ _ _ _ _ _ G SP) as (KM & Hh). assert (Hk : 0 < 1 / h) by (apply Rdiv_lt_0_compat; lra).
  pose proof (In _ _ _ IN) as V. rewrite (stencil_quadratic _ _ _ _ _ _ _ _ _ _ G) in V. fold p in V. unfold curvature_of in V. rewrite KM in V. cbv zeta in V.
  change (mkV (vx (q_grad q p)) (vy (q_grad q p)) (vz (q_grad q p))) with (q_grad q p) in V.
  destruct (Rltb_spec (vnorm (q_grad q p)) (1 / 2)) as [_|B]; [|lra]. split.
  - intros Z. unfold get_node_value; cbn [g_values]. etransitivity; [exact V|]. apply f_equal. rewrite Z; unfold vzero; cbn [vx vy vz].
    match goal with |- rclip ?x _ _ = _ => replace x with 0 by field end. unfold rclip. rewrite Rmax_left, Rmin_left; lra.
  - intros NZ. eexists _, _. split; [apply normal_divergence; exact NZ|]. split; [exact V|].
    pose proof (vnorm_pos _ NZ) as L. match goal with |- cut_off _ ?a (rclip ?b _ _) => replace a with b end; [apply rclip_cut; auto|].
    field. lra.
Qed.
Print Assumptions C136_small_gradient.
(** spheres: the field (|p-c|^2 - r^2)/(2r), which has unit gradient on the sphere of radius r: at a node at distance s
    from the centre (not closer than r/2) the value is 2/s, cut off *)
Theorem C136_sphere : forall lo hi I J K phi c r h kappa i j k, 0 < r -> grid_of lo hi I J K phi ->
  node_values phi (fun i j k => let d := vsub (get_node_coord phi i j k) c in (vdot d d - r * r) / (2 * r)) ->
  smallest_spacing lo hi I J K h -> create_from_sdf phi = Some kappa -> interior_node I J K i j k ->
  let s := vnorm (vsub (get_node_coord phi i j k) c) in
  r / 2 <= s -> exists y, get_node_value kappa i j k = Some y /\ cut_off (1 / h) (2 / s) y.
Proof.
  intros lo hi I J K phi c r h kappa i j k Hr G HV SP C IN s Hs.
  set (q := mkQ ((vdot c c - r * r) / (2 * r)) (vscale (- / r) c) (/ r) (/ r) (/ r) 0 0 0).
  assert (HV' : node_values phi (fun i j k => q_value q (get_node_coord phi i j k))).
  { intros a b e N. rewrite (HV a b e N). f_equal. cbv zeta. unfold q_value, q, vdot, vsub, vscale; cbn. field. lra. }
  set (p := get_node_coord phi i j k) in *.
  assert (Eg : q_grad q p = vscale (/ r) (vsub p c)) by (unfold q_grad, q, vscale, vsub; cbn; f_equal; field; lra).
  assert (En : vnorm (q_grad q p) = s / r).
  { rewrite Eg. unfold vnorm. replace (vdot (vscale (/ r) (vsub p c)) (vscale (/ r) (vsub p c))) with (Rsqr (/ r) * vdot (vsub p c) (vsub p c)) by (unfold Rsqr, vdot, vscale; cbn; ring).
    rewrite sqrt_mult_alt by apply Rle_0_sqr. rewrite sqrt_Rsqr by (left; apply Rinv_0_lt_compat; auto). unfold s, vnorm, Rdiv. ring. }
  assert (Hs0 : 0 < s) by lra.
  destruct (sdf_values _ _ _ _ _ _ _ G HV') as (vs' & C' & In & Bd). rewrite C in C'. injection C' as ->.
  destruct (kmax_spec _ _ _ _ _ _ _ G SP) as (KM & Hh). assert (Hk : 0 < 1 / h) by (apply Rdiv_lt_0_compat; lra).
  eexists. split; [exact (In _ _ _ IN)|]. rewrite (stencil_quadratic _ _ _ _ _ _ _ _ _ _ G). fold p. unfold curvature_of. rewrite KM. cbv zeta.
  change (mkV (vx (q_grad q p)) (vy (q_grad q p)) (vz (q_grad q p))) with (q_grad q p). rewrite En.
  destruct (Rltb_spec (s / r) (1 / 2)) as [B|_].
  { exfalso. apply Rlt_not_le in B. apply B. apply Rmult_le_reg_r with r; auto. field_simplify; lra. }
  match goal with |- cut_off _ ?a (rclip ?b _ _) => replace a with b end; [apply rclip_cut; auto|].
  rewrite Eg. unfold q; cbn [q_xx q_yy q_zz q_xy q_xz q_yz]. assert (Q : s * s = vdot (vsub p c) (vsub p c)) by apply vnorm_sqr.
  clearbody s. clear - Hr Hs0 Q. unfold vdot, vsub, vscale in *; cbn [vx vy vz] in *.
  generalize dependent (vx p - vx c). generalize (vy p - vy c), (vz p - vz c). intros y z x Q.
  replace (_ / (s / r) ^ 3) with (2 * (x * x + y * y + z * z) / s ^ 3) by (field; lra). rewrite <- Q. field. lra.
Qed.
Print Assumptions C136_sphere.
(** ** arbitrary fields: only the neighbouring values matter, up to a constant; the sign flips with the field *)
Lemma stencil_ext phi v v' i j k :
  (forall a b c, (i - 1 <= a <= i + 1)%Z -> (j - 1 <= b <= j + 1)%Z -> (k - 1 <= c <= k + 1)%Z -> v a b c = v' a b c) ->
  stencil phi v i j k = stencil phi v' i j k.
Proof. intros H. unfold stencil. cbv zeta. repeat match goal with |- context [v ?a ?b ?c] => rewrite (H a b c) by lia end. reflexivity. Qed.
Lemma stencil_shift phi v c0 i j k : grid_ok phi -> stencil phi (fun a b c => v a b c + c0) i j k = stencil phi v i j k.
Proof. intros (_ & _ & _ & Sx & Sy & Sz & _). unfold stencil. cbv zeta. f_equal; field; lra. Qed.
Lemma rclip_opp x m : 0 < m -> rclip (- x) (- m) m = - rclip x (- m) m.
Proof. intros H. pose proof (rclip_cut x m H) as A. pose proof (rclip_cut (- x) m H) as B. unfold cut_off in *. lra. Qed.
Lemma vnorm_opp3 x y z : vnorm (mkV (- x) (- y) (- z)) = vnorm (mkV x y z).
Proof. unfold vnorm, vdot; cbn. f_equal. ring. Qed.
Lemma curvature_opp a b c d e f g h i m : 0 < m -> curvature_of (- a) (- b) (- c) (- d) (- e) (- f) (- g) (- h) (- i) m = - curvature_of a b c d e f g h i m.
Proof.
  intros Hm. unfold curvature_of. cbv zeta. rewrite vnorm_opp3. rewrite <- rclip_opp by auto. f_equal.
  unfold Rdiv. rewrite <- Ropp_mult_distr_l_reverse. f_equal. ring.
Qed.
Lemma stencil_opp phi v i j k : grid_ok phi -> 0 < kappa_max phi -> stencil phi (fun a b c => - v a b c) i j k = - stencil phi v i j k.
Proof.
  intros (_ & _ & _ & Sx & Sy & Sz & _) Hm. unfold stencil. cbv zeta. rewrite <- curvature_opp by auto. f_equal; field; lra.
Qed.
Lemma spacing_exists lo hi I J K : exists h, smallest_spacing lo hi I J K h.
Proof.
  set (x := (vx hi - vx lo) / IZR (I - 1)). set (y := (vy hi - vy lo) / IZR (J - 1)). set (z := (vz hi - vz lo) / IZR (K - 1)).
  exists (Rmin (Rmin x y) z). unfold smallest_spacing. fold x y z. cbv zeta.
  split; [eapply Rle_trans; [apply Rmin_l|apply Rmin_l]|]. split; [eapply Rle_trans; [apply Rmin_l|apply Rmin_r]|]. split; [apply Rmin_r|].
  unfold Rmin. destruct (Rle_dec x y); destruct (Rle_dec _ z); auto.
Qed.
Lemma kmax_pos lo hi I J K g : grid_of lo hi I J K g -> 0 < kappa_max g.
Proof. intros G. destruct (spacing_exists lo hi I J K) as (h & SP). destruct (kmax_spec _ _ _ _ _ _ _ G SP) as (-> & Hh). apply Rdiv_lt_0_compat; lra. Qed.
Lemma stencil_grid phi phi' v i j k lo hi I J K : grid_of lo hi I J K phi -> grid_of lo hi I J K phi' -> stencil phi v i j k = stencil phi' v i j k.
Proof.
  intros G G'. destruct (grid_of_ok _ _ _ _ _ _ G) as (_ & _ & _ & _ & _ & _ & E). destruct (grid_of_ok _ _ _ _ _ _ G') as (_ & _ & _ & _ & _ & _ & E').
  unfold stencil, kappa_max. rewrite E, E'. reflexivity.
Qed.
Theorem C136_local : forall lo hi I J K phi phi' v v' kappa kappa' c0 i j k, grid_of lo hi I J K phi -> grid_of lo hi I J K phi' ->
  node_values phi v -> node_values phi' v' -> create_from_sdf phi = Some kappa -> create_from_sdf phi' = Some kappa' ->
  interior_node I J K i j k ->
  (forall a b c, (i - 1 <= a <= i + 1)%Z -> (j - 1 <= b <= j + 1)%Z -> (k - 1 <= c <= k + 1)%Z -> v' a b c = v a b c + c0) ->
  exists y, get_node_value kappa i j k = Some y /\ get_node_value kappa' i j k = Some y.
Proof.
  intros lo hi I J K phi phi' v v' kappa kappa' c0 i j k G G' V V' C C' IN H.
  destruct (sdf_values _ _ _ _ _ _ _ G V) as (vs & C1 & In1 & _). rewrite C in C1. injection C1 as ->.
  destruct (sdf_values _ _ _ _ _ _ _ G' V') as (vs' & C1' & In1' & _). rewrite C' in C1'. injection C1' as ->.
  exists (stencil phi v i j k). split; [exact (In1 _ _ _ IN)|]. etransitivity; [exact (In1' _ _ _ IN)|]. f_equal.
  rewrite (stencil_ext phi' v' (fun a b c => v a b c + c0)) by auto. rewrite stencil_shift by apply (grid_of_ok _ _ _ _ _ _ G').
  eapply stencil_grid; eauto.
Qed.
Print Assumptions C136_local.
Theorem C136_negated : forall lo hi I J K phi phi' v kappa kappa' i j k, grid_of lo hi I J K phi -> grid_of lo hi I J K phi' ->
  node_values phi v -> node_values phi' (fun a b c => - v a b c) -> create_from_sdf phi = Some kappa -> create_from_sdf phi' = Some kappa' ->
  is_node I J K i j k ->
  exists y, get_node_value kappa i j k = Some y /\ get_node_value kappa' i j k = Some (- y).
Proof.
  intros lo hi I J K phi phi' v kappa kappa' i j k G G' V V' C C' N.
  destruct (sdf_values _ _ _ _ _ _ _ G V) as (vs & C1 & In1 & Bd1). rewrite C in C1. injection C1 as ->.
  destruct (sdf_values _ _ _ _ _ _ _ G' V') as (vs' & C1' & In1' & Bd1'). rewrite C' in C1'. injection C1' as ->.
  destruct (classic (interior_node I J K i j k)) as [IN|IN].
  - exists (stencil phi v i j k). split; [exact (In1 _ _ _ IN)|]. etransitivity; [exact (In1' _ _ _ IN)|]. f_equal.
    rewrite stencil_opp; [|apply (grid_of_ok _ _ _ _ _ _ G')|eapply kmax_pos; eauto]. f_equal. eapply stencil_grid; eauto.
  - exists 0. split; [exact (Bd1 _ _ _ N IN)|]. etransitivity; [exact (Bd1' _ _ _ N IN)|]. f_equal. ring.
Qed.
Print Assumptions C136_negated.
(** no values, no answer; a constructor-made grid has none *)
Theorem C136_no_values : forall lo hi I J K phi, grid_make lo hi I J K = Some phi -> create_from_sdf phi = None.
Proof. intros. apply grid_make_inv in H. destruct H as (_ & _ & _ & _ & _ & V & _). unfold create_from_sdf. rewrite V. destruct (grid_make _ _ _ _ _); auto. Qed.
Print Assumptions C136_no_values.

(** ** A concrete case: the unit-sphere field on the box [-2,2]^3 with 5x5x5 nodes: at the node (1,0,0) the value is cut
    off to 1, at (1,1,1) it is 1 (cut off from 2/sqrt 3), at the corner 0 *)
Example C136_nonvacuous : exists phi kappa, grid_of (mkV (-2) (-2) (-2)) (mkV 2 2 2) 5 5 5 phi /\
  node_values phi (fun i j k => let d := vsub (get_node_coord phi i j k) vzero in (vdot d d - 1 * 1) / (2 * 1)) /\
  create_from_sdf phi = Some kappa /\ get_node_value kappa 3 2 2 = Some 1 /\ get_node_value kappa 0 0 0 = Some 0.
Proof.
  set (lo := mkV (-2) (-2) (-2)). set (hi := mkV 2 2 2).
  destruct (grid_make_some lo hi 5 5 5) as (g & E & _); cbn; try lra; try lia.
  assert (G0 : grid_of lo hi 5 5 5 g). { unfold grid_of; cbn. repeat (split; [lra|]). exists g. split; auto. exists (g_values g). destruct g; reflexivity. }
  destruct (C23_eval_on_grid lo hi 5 5 5 g (fun p => let d := vsub p vzero in (vdot d d - 1 * 1) / (2 * 1)) G0) as (phi & Ep & G & V).
  exists phi. assert (HV : node_values phi (fun i j k => let d := vsub (get_node_coord phi i j k) vzero in (vdot d d - 1 * 1) / (2 * 1))).
  { intros i j k N. destruct (grid_of_ok _ _ _ _ _ _ G) as (_ & _ & E3 & E4 & E5 & _). rewrite E3, E4, E5 in N. rewrite (V i j k N). reflexivity. }
  assert (SP : smallest_spacing lo hi 5 5 5 1) by (unfold smallest_spacing, lo, hi; cbn; split; [lra|split; [lra|split; [lra|left; lra]]]).
  destruct (C136_range _ _ _ _ _ _ _ _ G HV SP) as (kappa & C & _ & Bd).
  exists kappa. split; auto. split; auto. split; auto.
  assert (N0 : get_node_coord phi 3 2 2 = mkV 1 0 0). { destruct (C23_node_coords lo hi 5 5 5 phi 3 2 2 G) as (-> & _). unfold axis_coord, lo, hi; cbn. f_equal; lra. }
  assert (S1 : vnorm (vsub (mkV 1 0 0) vzero) = 1). { unfold vnorm, vdot, vsub, vzero; cbn. replace (_ + _ + _) with 1 by ring. apply sqrt_1. }
  split.
  - destruct (C136_sphere lo hi 5 5 5 phi vzero 1 1 kappa 3 2 2 ltac:(lra) G HV SP C ltac:(unfold interior_node; lia)) as (y & Ey & Cy).
    { rewrite N0, S1. lra. }
    rewrite N0, S1 in Cy. rewrite Ey. f_equal. unfold cut_off in Cy. lra.
  - destruct (Bd 0%Z 0%Z 0%Z) as (y & Ey & _ & Z); [unfold is_node; lia|]. rewrite Ey. f_equal. apply Z. unfold interior_node; lia.
Qed.
