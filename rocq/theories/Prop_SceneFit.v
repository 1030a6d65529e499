(** C158: meshes from files are fitted to the size that is asked for. *)
From Verif Require Import Base QuatModel QuatProofs VecModel VecProofs BvhModel BvhSpec GridModel VolModel RotModel RotProofs SurfModel SurfSpec SurfProofs Prop_Surface Prop_Scene FitModel.
Open Scope R_scope.

(** the sides of the axis aligned bounding box of V (see C71) are w, h and d *)
Definition has_size (V : list vec3) (w h d : R) : Prop := exists l u, bounding_box V l u /\ vx u - vx l = w /\ vy u - vy l = h /\ vz u - vz l = d.

Lemma box_scaled V l u a b c : 0 < a -> 0 < b -> 0 < c -> bounding_box V l u -> bounding_box (mesh_scale V a b c) (vmul3 l (mkV a b c)) (vmul3 u (mkV a b c)).
Proof.
  intros Ha Hb Hc (B & (p1 & I1 & E1) & (p2 & I2 & E2) & (p3 & I3 & E3) & (p4 & I4 & E4) & (p5 & I5 & E5) & (p6 & I6 & E6)).
  assert (G : forall p, In p V -> In (vmul3 p (mkV a b c)) (mesh_scale V a b c)) by (intros p Hp; unfold mesh_scale; apply (in_map (fun p => vmul3 p (mkV a b c))); exact Hp).
  split.
  - intros p Hp. unfold mesh_scale in Hp. apply in_map_iff in Hp as (q & <- & Hq). destruct (B q Hq) as [(L1 & L2 & L3) (U1 & U2 & U3)]. unfold v_le, vmul3. cbn [vx vy vz].
    repeat split; apply Rmult_le_compat_r; lra.
  - split; [exists (vmul3 p1 (mkV a b c)); split; [auto|unfold vmul3; cbn [vx vy vz]; rewrite E1; reflexivity]|].
    split; [exists (vmul3 p2 (mkV a b c)); split; [auto|unfold vmul3; cbn [vx vy vz]; rewrite E2; reflexivity]|].
    split; [exists (vmul3 p3 (mkV a b c)); split; [auto|unfold vmul3; cbn [vx vy vz]; rewrite E3; reflexivity]|].
    split; [exists (vmul3 p4 (mkV a b c)); split; [auto|unfold vmul3; cbn [vx vy vz]; rewrite E4; reflexivity]|].
    split; [exists (vmul3 p5 (mkV a b c)); split; [auto|unfold vmul3; cbn [vx vy vz]; rewrite E5; reflexivity]|].
    exists (vmul3 p6 (mkV a b c)); split; [auto|unfold vmul3; cbn [vx vy vz]; rewrite E6; reflexivity].
Qed.
Lemma box_sides V l u : bounding_box V l u -> 0 <= vx u - vx l /\ 0 <= vy u - vy l /\ 0 <= vz u - vz l.
Proof. intros (B & (p & I & _) & _). destruct (B p I) as [(L1 & L2 & L3) (U1 & U2 & U3)]. lra. Qed.
Lemma box_unique V l u l' u' : bounding_box V l u -> bounding_box V l' u' -> l' = l /\ u' = u.
Proof.
  intros (B & (p1 & I1 & F1) & (p2 & I2 & F2) & (p3 & I3 & F3) & (p4 & I4 & F4) & (p5 & I5 & F5) & (p6 & I6 & F6)).
  intros (B0 & (q1 & J1 & G1) & (q2 & J2 & G2) & (q3 & J3 & G3) & (q4 & J4 & G4) & (q5 & J5 & G5) & (q6 & J6 & G6)). unfold v_le in *. split.
  - pose proof (B q1 J1). pose proof (B q2 J2). pose proof (B q3 J3). pose proof (B0 p1 I1). pose proof (B0 p2 I2). pose proof (B0 p3 I3). destruct l', l. cbn in *. f_equal; lra.
  - pose proof (B q4 J4). pose proof (B q5 J5). pose proof (B q6 J6). pose proof (B0 p4 I4). pose proof (B0 p5 I5). pose proof (B0 p6 I6). destruct u', u. cbn in *. f_equal; lra.
Qed.

(** ** objects for the cells of a lattice *)
Theorem C158_fit_cell V w h d I J K factor V' : 0 < w -> 0 < h -> 0 < d -> 0 < factor -> (exists l u, bounding_box V l u) -> fit_cell V w h d I J K factor = Some V' ->
  (exists k c, 0 < k /\ V' = map (fun p => vadd c (vscale k p)) V) /\
  exists a b c, has_size V' a b c /\ a <= factor * (w / INR I) /\ b <= factor * (h / INR J) /\ c <= factor * (d / INR K) /\
    Rmax (Rmax a b) c = factor * Rmin (Rmin (w / INR I) (h / INR J)) (d / INR K).
Proof.
  intros Hw Hh Hd Hf (l & u & HB) E. unfold fit_cell in E. destruct (Nat.eqb I 0 || Nat.eqb J 0 || Nat.eqb K 0) eqn:Z; [discriminate|].
  apply orb_false_iff in Z as [Z Z3]. apply orb_false_iff in Z as [Z1 Z2]. apply Nat.eqb_neq in Z1, Z2, Z3.
  assert (P1 : 0 < w / INR I) by (apply Rdiv_lt_0_compat; auto; apply lt_0_INR; lia). assert (P2 : 0 < h / INR J) by (apply Rdiv_lt_0_compat; auto; apply lt_0_INR; lia).
  assert (P3 : 0 < d / INR K) by (apply Rdiv_lt_0_compat; auto; apply lt_0_INR; lia).
  destruct (scale_to_unit V) as [V1|] eqn:E1; [|discriminate]. cbv zeta in E. assert (SI : forall x y : list vec3, Some x = Some y -> x = y) by congruence. apply SI in E. clear SI. subst V'.
  destruct (C71_scale_to_unit V V1 E1 l u HB) as (s & l1 & u1 & Hs & EV & HB1 & _ & HM). cbv zeta in EV.
  set (m := Rmin (Rmin (w / INR I) (h / INR J)) (d / INR K)) in *.
  assert (M1 : m <= w / INR I) by (unfold m; eapply Rle_trans; [apply Rmin_l|apply Rmin_l]). assert (M2 : m <= h / INR J) by (unfold m; eapply Rle_trans; [apply Rmin_l|apply Rmin_r]). assert (M3 : m <= d / INR K) by apply Rmin_r.
  assert (MP : 0 < m) by (unfold m; repeat apply Rmin_glb_lt; assumption). set (t := m * factor). assert (TP : 0 < t) by (unfold t; nra).
  split.
  - set (c := vscale (1 / 2) (vadd l u)) in *. exists (t * s), (vscale t (vsub c (vscale s c))). split; [nra|]. rewrite EV. unfold mesh_scale. rewrite map_map. apply map_ext. intros p. unfold vmul3, vadd, vscale, vsub. cbn [vx vy vz]. apply (f_equal3 mkV); ring.
  - pose proof (box_scaled V1 l1 u1 t t t TP TP TP HB1) as HB2. pose proof (box_sides V1 l1 u1 HB1) as (S1 & S2 & S3). unfold vmaxcomp, vsub in HM. cbn [vx vy vz] in HM.
    exists (t * (vx u1 - vx l1)), (t * (vy u1 - vy l1)), (t * (vz u1 - vz l1)).
    split. { eexists _, _. split; [exact HB2|]. unfold vmul3. cbn [vx vy vz]. repeat split; ring. }
    pose proof (Rmax_l (Rmax (vx u1 - vx l1) (vy u1 - vy l1)) (vz u1 - vz l1)) as X1. pose proof (Rmax_r (Rmax (vx u1 - vx l1) (vy u1 - vy l1)) (vz u1 - vz l1)) as X2.
    pose proof (Rmax_l (vx u1 - vx l1) (vy u1 - vy l1)) as X3. pose proof (Rmax_r (vx u1 - vx l1) (vy u1 - vy l1)) as X4. rewrite HM in X1, X2.
    assert (G : forall x y, 0 <= x <= 1 -> m <= y -> t * x <= factor * y). { intros x y Hx Hy. unfold t. assert (m * x <= y) by nra. nra. }
    split; [apply G; auto; lra|]. split; [apply G; auto; lra|]. split; [apply G; auto; lra|].
    rewrite !RmaxRmult by lra. rewrite HM. unfold t. fold m. ring.
Qed.
(** it fails exactly for a mesh without points, of extent zero or for no cells *)
Theorem C158_fit_cell_total V w h d I J K factor l u : bounding_box V l u -> 0 < vmaxcomp (vsub u l) -> (0 < I)%nat -> (0 < J)%nat -> (0 < K)%nat -> fit_cell V w h d I J K factor <> None.
Proof.
  intros HB HP HI HJ HK. unfold fit_cell. destruct (Nat.eqb_spec I 0); [lia|]. destruct (Nat.eqb_spec J 0); [lia|]. destruct (Nat.eqb_spec K 0); [lia|]. cbn [orb].
  pose proof (C71_scale_to_unit_total V l u HB HP) as N. destruct (scale_to_unit V); congruence.
Qed.

(** ** a mesh of given diameter and height *)
Theorem C158_fit_size V radius height V' : 0 < radius -> 0 < height -> (exists l u, bounding_box V l u) -> fit_size V radius height = Some V' ->
  has_size V' (2 * radius) height (2 * radius) /\
  exists kx ky kz c, 0 < kx /\ 0 < ky /\ 0 < kz /\ V' = map (fun p => vadd c (mkV (kx * vx p) (ky * vy p) (kz * vz p))) V.
Proof.
  intros Hr Hh (l & u & HB) E. unfold fit_size in E. destruct (scale_to_unit V) as [V1|] eqn:E1; [|discriminate].
  destruct (C71_scale_to_unit V V1 E1 l u HB) as (s & l1 & u1 & Hs & EV & HB1 & _ & _). cbv zeta in EV.
  destruct (np_min0 V1) as [l2|] eqn:EL; [|discriminate]. destruct (np_max0 V1) as [u2|] eqn:EU; [|discriminate].
  destruct (box_unique V1 l1 u1 l2 u2 HB1 (np_box V1 l2 u2 EL EU)) as [-> ->]. cbv zeta in E. unfold vsub in E. cbn [vx vy vz] in E.
  destruct (Reqb_spec (vx u1 - vx l1) 0) as [|N1]; [discriminate|]. destruct (Reqb_spec (vy u1 - vy l1) 0) as [|N2]; [discriminate|]. destruct (Reqb_spec (vz u1 - vz l1) 0) as [|N3]; [discriminate|]. cbn [orb] in E.
  assert (SI : forall x y : list vec3, Some x = Some y -> x = y) by congruence. apply SI in E. clear SI. subst V'.
  pose proof (box_sides V1 l1 u1 HB1) as (S1 & S2 & S3).
  set (a := radius * 2 / (vx u1 - vx l1)). set (b := height / (vy u1 - vy l1)). set (c := radius * 2 / (vz u1 - vz l1)).
  assert (Pa : 0 < a) by (apply Rdiv_lt_0_compat; lra). assert (Pb : 0 < b) by (apply Rdiv_lt_0_compat; lra). assert (Pc : 0 < c) by (apply Rdiv_lt_0_compat; lra).
  split.
  - eexists _, _. split; [exact (box_scaled V1 l1 u1 a b c Pa Pb Pc HB1)|]. unfold vmul3, a, b, c. cbn [vx vy vz]. repeat split; field; lra.
  - set (m := vscale (1 / 2) (vadd l u)) in *. exists (a * s), (b * s), (c * s), (vmul3 (vsub m (vscale s m)) (mkV a b c)). split; [nra|]. split; [nra|]. split; [nra|].
    rewrite EV. unfold mesh_scale. rewrite map_map. apply map_ext. intros p. unfold vmul3, vadd, vscale, vsub. cbn [vx vy vz]. apply (f_equal3 mkV); ring.
Qed.
Lemma scaled_side V V1 l u l1 u1 : scale_to_unit V = Some V1 -> bounding_box V l u -> bounding_box V1 l1 u1 -> exists s, 0 < s /\ vsub u1 l1 = vscale s (vsub u l).
Proof.
  intros E1 HB HB1. destruct (C71_scale_to_unit V V1 E1 l u HB) as (s & _ & _ & Hs & EV & _). cbv zeta in EV. exists s. split; [exact Hs|].
  set (c := vscale (1 / 2) (vadd l u)) in *. pose proof (box_scaled V l u s s s Hs Hs Hs HB) as HB2.
  assert (G : forall W a b r, bounding_box W a b -> bounding_box (map (fun p => vadd r p) W) (vadd r a) (vadd r b)).
  { intros W a b r (B & (p1 & I1 & F1) & (p2 & I2 & F2) & (p3 & I3 & F3) & (p4 & I4 & F4) & (p5 & I5 & F5) & (p6 & I6 & F6)). split.
    - intros p Hp. apply in_map_iff in Hp as (q & <- & Hq). destruct (B q Hq) as [(A1 & A2 & A3) (C1 & C2 & C3)]. unfold v_le, vadd. cbn [vx vy vz]. repeat split; lra.
    - assert (H : forall p, In p W -> In (vadd r p) (map (fun p => vadd r p) W)) by (intros p Hp; apply (in_map (fun p => vadd r p)); exact Hp).
      split; [exists (vadd r p1); split; [auto|cbn; lra]|]. split; [exists (vadd r p2); split; [auto|cbn; lra]|]. split; [exists (vadd r p3); split; [auto|cbn; lra]|].
      split; [exists (vadd r p4); split; [auto|cbn; lra]|]. split; [exists (vadd r p5); split; [auto|cbn; lra]|]. exists (vadd r p6); split; [auto|cbn; lra]. }
  assert (EW : V1 = map (fun p => vadd (vsub c (vscale s c)) p) (mesh_scale V s s s)).
  { rewrite EV. unfold mesh_scale. rewrite map_map. apply map_ext. intros p. unfold vmul3, vadd, vscale, vsub. cbn [vx vy vz]. apply (f_equal3 mkV); ring. }
  pose proof (G _ _ _ (vsub c (vscale s c)) HB2) as HB3. rewrite <- EW in HB3. destruct (box_unique _ _ _ _ _ HB3 HB1) as [-> ->].
  unfold vmul3, vadd, vscale, vsub. cbn [vx vy vz]. apply (f_equal3 mkV); ring.
Qed.
(** it fails only for a mesh that is flat in the direction of an axis *)
Theorem C158_fit_size_total V radius height l u : bounding_box V l u -> vx l < vx u -> vy l < vy u -> vz l < vz u -> fit_size V radius height <> None.
Proof.
  intros HB H1 H2 H3. unfold fit_size. assert (HP : 0 < vmaxcomp (vsub u l)).
  { unfold vmaxcomp, vsub. cbn [vx vy vz]. pose proof (Rmax_r (Rmax (vx u - vx l) (vy u - vy l)) (vz u - vz l)). lra. }
  pose proof (C71_scale_to_unit_total V l u HB HP) as N. destruct (scale_to_unit V) as [V1|] eqn:E1; [|congruence].
  destruct (C71_scale_to_unit V V1 E1 l u HB) as (s0 & l1 & u1 & _ & _ & HB1 & _).
  destruct (np_min0 V1) as [l2|] eqn:EL, (np_max0 V1) as [u2|] eqn:EU; try (destruct V1; [destruct HB1 as (_ & (p & [] & _) & _)|discriminate]).
  destruct (box_unique V1 l1 u1 l2 u2 HB1 (np_box V1 l2 u2 EL EU)) as [-> ->]. destruct (scaled_side V V1 l u l1 u1 E1 HB HB1) as (s & Hs & ES). rewrite ES. cbv zeta. unfold vscale, vsub. cbn [vx vy vz].
  destruct (Reqb_spec (s * (vx u - vx l)) 0) as [Z|_]; [exfalso; nra|]. destruct (Reqb_spec (s * (vy u - vy l)) 0) as [Z|_]; [exfalso; nra|]. destruct (Reqb_spec (s * (vz u - vz l)) 0) as [Z|_]; [exfalso; nra|]. cbn [orb]. discriminate.
Qed.

(** ** a rotated object does not fit its cell in general: a cube that is turned by 45 degrees *)
Definition unit_cube : list vec3 := [mkV 0 0 0; mkV 1 0 0; mkV 0 1 0; mkV 1 1 0; mkV 0 0 1; mkV 1 0 1; mkV 0 1 1; mkV 1 1 1].
Lemma cube_box : bounding_box unit_cube (mkV 0 0 0) (mkV 1 1 1).
Proof.
  split. { intros p Hp. unfold unit_cube in Hp. cbn [In] in Hp. unfold v_le. cbn [vx vy vz]. repeat (destruct Hp as [<-|Hp]; [cbn; lra|]). destruct Hp. }
  split; [exists (mkV 0 0 0); cbn; auto|]. split; [exists (mkV 0 0 0); cbn; auto|]. split; [exists (mkV 0 0 0); cbn; auto|].
  split; [exists (mkV 1 1 1); cbn; auto 10|]. split; exists (mkV 1 1 1); cbn; auto 10.
Qed.
Theorem C158_turned_refuted : exists V' p r q, fit_cell unit_cube 1 1 1 1 1 1 (9 / 10) = Some V' /\ In p V' /\ In r V' /\ is_unit q /\ vx (q_rotate q (vsub p r)) > 1.
Proof.
  assert (HM : vmaxcomp (vsub (mkV 1 1 1) (mkV 0 0 0)) = 1) by (unfold vmaxcomp, vsub; cbn [vx vy vz]; rewrite !Rminus_0_r, !Rmax_left by (rewrite ?Rmax_left; lra); reflexivity).
  assert (N : fit_cell unit_cube 1 1 1 1 1 1 (9 / 10) <> None) by (apply (C158_fit_cell_total _ _ _ _ _ _ _ _ _ _ cube_box); [rewrite HM; lra|lia|lia|lia]).
  destruct (fit_cell unit_cube 1 1 1 1 1 1 (9 / 10)) as [V'|] eqn:E; [|congruence].
  destruct (C158_fit_cell unit_cube 1 1 1 1 1 1 (9 / 10) V' ltac:(lra) ltac:(lra) ltac:(lra) ltac:(lra) (ex_intro _ _ (ex_intro _ _ cube_box)) E) as ((k & c & Hk & EV) & a & b & d & (l & u & HB & S1 & S2 & S3) & _ & _ & _ & MX).
  assert (K : k = 9 / 10).
  { assert (M1 : Rmin (Rmin (1 / INR 1) (1 / INR 1)) (1 / INR 1) = 1) by (cbn [INR]; rewrite !Rmin_left by (rewrite ?Rmin_left; lra); field). rewrite M1 in MX.
    assert (HS : bounding_box V' c (vadd c (mkV k k k))).
    { rewrite EV. pose proof (box_scaled _ _ _ k k k Hk Hk Hk cube_box) as (B & _). split.
      - intros p Hp. apply in_map_iff in Hp as (p' & <- & Hp). destruct cube_box as (C & _). destruct (C p' Hp) as [(A1 & A2 & A3) (D1 & D2 & D3)]. cbn [vx vy vz] in *. unfold v_le, vadd, vscale. cbn [vx vy vz]. repeat split; nra.
      - unfold unit_cube. assert (G0 : vadd c (vscale k (mkV 0 0 0)) = c) by (destruct c as [c1 c2 c3]; unfold vadd, vscale; cbn [vx vy vz]; apply (f_equal3 mkV); ring). assert (G1 : vadd c (vscale k (mkV 1 1 1)) = vadd c (mkV k k k)) by (unfold vadd, vscale; cbn [vx vy vz]; apply (f_equal3 mkV); ring).
        cbn [map]. rewrite G0, G1. split; [exists c; cbn; auto|]. split; [exists c; cbn; auto|]. split; [exists c; cbn; auto|]. split; [exists (vadd c (mkV k k k)); split; [cbn; auto 10|reflexivity]|]. split; (exists (vadd c (mkV k k k)); split; [cbn; auto 10|reflexivity]). }
    destruct (box_unique _ _ _ _ _ HS HB) as [-> ->]. unfold vadd in *. cbn [vx vy vz] in *. assert (A1 : a = k) by lra. assert (A2 : b = k) by lra. assert (A3 : d = k) by lra. rewrite A1, A2, A3, !Rmax_left in MX by (rewrite ?Rmax_left; lra). lra. }
  exists V', (vadd c (vscale k (mkV 1 0 1))), (vadd c (vscale k (mkV 0 0 0))), (q_Ry (PI / 4)). split; [reflexivity|].
  split. { rewrite EV. apply (in_map (fun p => vadd c (vscale k p))). unfold unit_cube. cbn; auto 10. }
  split. { rewrite EV. apply (in_map (fun p => vadd c (vscale k p))). unfold unit_cube. cbn; auto 10. }
  split; [apply Ry_unit|]. rewrite Ry_rotate. unfold vsub, vadd, vscale. cbn [vx vy vz]. rewrite cos_PI4, sin_PI4, K.
  assert (S : 0 < sqrt 2) by (apply sqrt_lt_R0; lra). assert (Q : sqrt 2 * sqrt 2 = 2) by (apply sqrt_sqrt; lra).
  assert (I2 : 1 / sqrt 2 = sqrt 2 / 2). { apply (Rmult_eq_reg_r (sqrt 2)); [|lra]. replace (1 / sqrt 2 * sqrt 2) with 1 by (field; lra). lra. }
  rewrite I2. assert (L : 14 / 10 < sqrt 2) by nra. lra.
Qed.
Print Assumptions C158_fit_cell.
Print Assumptions C158_fit_size.
Print Assumptions C158_turned_refuted.
Example C158_nonvacuous : (exists l u, bounding_box unit_cube l u) /\ (exists V', fit_size unit_cube 2 6 = Some V' /\ has_size V' 4 6 4) /\ (exists V', fit_cell unit_cube 4 6 4 2 2 2 (9 / 10) = Some V').
Proof.
  split; [eexists _, _; exact cube_box|]. split.
  - pose proof (C158_fit_size_total unit_cube 2 6 _ _ cube_box ltac:(cbn; lra) ltac:(cbn; lra) ltac:(cbn; lra)) as N. destruct (fit_size unit_cube 2 6) as [V'|] eqn:E; [|congruence]. exists V'. split; [reflexivity|].
    destruct (C158_fit_size unit_cube 2 6 V' ltac:(lra) ltac:(lra) (ex_intro _ _ (ex_intro _ _ cube_box)) E) as (S & _). replace 4 with (2 * 2) by lra. exact S.
  - assert (HP : 0 < vmaxcomp (vsub (mkV 1 1 1) (mkV 0 0 0))). { unfold vmaxcomp, vsub. cbn [vx vy vz]. pose proof (Rmax_r (Rmax (1 - 0) (1 - 0)) (1 - 0)). lra. }
    pose proof (C158_fit_cell_total unit_cube 4 6 4 2 2 2 (9 / 10) _ _ cube_box HP ltac:(lia) ltac:(lia) ltac:(lia)) as N. destruct (fit_cell unit_cube 4 6 4 2 2 2 (9 / 10)) as [V'|]; [eauto|congruence].
Qed.
